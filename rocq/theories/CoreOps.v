(** Preservation of the invariant by creation, referencing, re-assignment, submission and execution. *)
From Verif Require Import Base CoreModel CoreInv CoreStep CorePlace CoreDec.
Ltac Zify.zify_post_hook ::= idtac.
Arguments N.modulo : simpl never.
Arguments N.add : simpl never.
Arguments N.sub : simpl never.
Arguments Nat.eqb : simpl never.

Definition bump (own : nat -> nat) (x : nat) : nat -> nat := fupd own x (S (own x)).
Definition fresh (k : kind) : Prop :=
  match k with
  | KPhys r => pfvaq r = None /\ pvacs r = [] /\ ptasks r = 0%Z
  | KVirt w => vphys w = None /\ vq w = []
  | KProc _ => True
  | KData d => dacc d = None
  | KTask t => tio t = [] /\ tsub t = false
  end.
Lemma fresh_edges k : fresh k -> kedges k = [].
Proof. destruct k; cbn; auto; intros H; [destruct H as [-> _]|rewrite H|destruct H as [-> ->]]; reflexivity. Qed.

(** the frame of calls that touch no virtual accelerator's placement or queue *)
Record lf (s s' : st) : Prop := {
  lf_vv : forall v w, vv s' v = Some w -> vv s v = Some w;
  lf_pp : forall p r', pp s' p = Some r' -> exists r, pp s p = Some r /\ pfvaq r' = pfvaq r;
  lf_o1 : forall v, In v (orph s') -> In v (orph s);
  lf_o2 : forall v, In v (orph s) -> v < next s -> heap s' v <> None -> In v (orph s');
  lf_tt : forall t tr, tt_ s t = Some tr -> tsub tr = true -> t < next s -> heap s' t <> None -> tt_ s' t = Some tr;
  lf_ts : forall t tr', tt_ s' t = Some tr' -> tsub tr' = false -> exists tr, tt_ s t = Some tr /\ tsub tr = false;
  lf_lv : forall x, x < next s -> heap s' x <> None -> heap s x <> None;
  lf_kt : forall x ty, kt s x = Some ty -> x < next s -> heap s' x <> None -> kt s' x = Some ty;
  lf_nx : next s <= next s'
}.
Lemma lf_refl s : lf s s.
Proof. constructor; auto; eauto. Qed.
Lemma lf_trans a b c : lf a b -> lf b c -> lf a c.
Proof.
  intros [A1 A2 A3 A4 A5 A6 A7 AK A8] [B1 B2 B3 B4 B5 B6 B7 BK B8]. constructor; auto.
  - intros p r' H. destruct (B2 p r' H) as (r & R & E). destruct (A2 p r R) as (r0 & R0 & E0). exists r0. split; auto. congruence.
  - intros v Hv L Hc. apply B4; auto; [|lia]. apply A4; auto. apply B7; auto. lia.
  - intros t tr H T L Hc. apply B5; auto; [|lia]. apply A5; auto. apply B7; auto. lia.
  - intros t tr' H T. destruct (B6 t tr' H T) as (tr & H1 & T1). eauto.
  - intros x L Hc. apply A7; auto. apply B7; auto. lia.
  - intros x ty H L Hc. apply BK; auto; [|lia]. apply AK; auto. apply B7; auto. lia.
  - lia.
Qed.
Lemma fr_lf s s' : fr s s' -> lf s s'.
Proof.
  intros F. pose proof F as (A & [B1 B2] & _ & C). constructor; auto.
  - intros v w. apply fr_vv. auto.
  - intros p r' H. destruct (fr_pp s s' p r' F H) as (r & R & K). exists r. split; auto. apply K.
  - intros t tr H T L Hc. destruct (kt_tt s' t) as (tr' & E').
    { apply (fr_kt s s' t TTask F Hc). eapply tt_kt; eauto. }
    pose proof (fr_tt s s' t tr' F E'). congruence.
  - intros t tr' H T. exists tr'. split; auto. eapply fr_tt; eauto.
  - intros x _ H. destruct (heap s' x) as [o'|] eqn:E; [|congruence]. destruct (C x o' E) as (o & Eo & _). congruence.
  - intros x ty H _ Hc. eapply fr_kt; eauto.
  - lia.
Qed.
(** heaps that differ in no virtual or physical accelerator and keep all objects *)
Lemma same_lf s s' : (forall v, vv s' v = vv s v) -> (forall p, pp s' p = pp s p) -> orph s' = orph s -> next s' = next s ->
  (forall x, kt s' x = kt s x) ->
  (forall t tr, tt_ s t = Some tr -> tsub tr = true -> tt_ s' t = Some tr) ->
  (forall t tr', tt_ s' t = Some tr' -> tsub tr' = false -> exists tr, tt_ s t = Some tr /\ tsub tr = false) -> lf s s'.
Proof.
  intros V P O N L T1 T2. constructor; auto; try (rewrite ?O; auto); try (rewrite ?N; auto).
  - intros v w. now rewrite V.
  - intros p r'. rewrite P. eauto.
  - intros x _ H. specialize (L x). unfold kt in L. destruct (heap s x), (heap s' x); congruence.
  - intros x ty. now rewrite L.
Qed.

Section Ops.
Context {init : N} {perm drift : nat -> nat}.
Notation INV own s := (Inv init own perm drift s).

Lemma own_next own s : INV own s -> forall x, next s <= x -> own x = 0 /\ refs s x = 0.
Proof. intros HI x L. pose proof (i_ref _ _ _ _ _ HI x) as R. unfold rcof in R. rewrite (i_bound _ _ _ _ _ HI x L) in R. lia. Qed.

Lemma register_ok own s k name size : INV own s -> fresh k ->
  let s' := fst (register s k name size) in let x := next s in
  register s k name size = (s', x) /\ INV (bump own x) s' /\ next s' = S x /\ orph s' = orph s /\
  heap s' x = Some (mkobj 1 size name false k) /\ (forall y, y <> x -> heap s' y = heap s y) /\
  (forall t, reg s' t = if otype_eqb t (otype_of k) then x :: reg s t else reg s t).
Proof.
  intros HI FK s' x. assert (EQ : register s k name size = (s', x)) by reflexivity.
  assert (E' : heap s' x = Some (mkobj 1 size name false k)) by (unfold s', register; cbn; apply fupd_eq).
  assert (EN : forall y, y <> x -> heap s' y = heap s y) by (intros y Hy; unfold s', register; cbn; apply fupd_ne; auto).
  assert (NX : next s' = S x) by reflexivity. assert (OR : orph s' = orph s) by reflexivity.
  assert (RG : forall t, reg s' t = if otype_eqb t (otype_of k) then x :: reg s t else reg s t).
  { intros t. unfold s', register. cbn. destruct (otype_eqb_spec t (otype_of k)) as [->|]; reflexivity. }
  split; [exact EQ|]. split; [|auto 10].
  pose proof HI as [A B C D F G J P]. pose proof (A x (le_n _)) as HN. destruct (own_next own s HI x (le_n _)) as [OX RX].
  assert (HE : forall y, y < x -> hedges s' y = hedges s y) by (intros y Hy; unfold hedges; rewrite EN; auto; lia).
  assert (RF : forall y, refs s' y = refs s y).
  { intros y. unfold refs. rewrite NX. cbn [sumn]. unfold hedges at 2. rewrite E'. unfold edges. cbn. rewrite (fresh_edges k FK). change (cnt y []) with 0.
    rewrite (sumn_ext x _ (fun z => cnt y (hedges s z))) by (intros z Hz; now rewrite HE). apply Nat.add_0_r. }
  assert (LT : forall ty y, kt s y = Some ty -> y <> x) by (intros ty y H ->; unfold kt in H; rewrite HN in H; discriminate).
  assert (KT : forall y ty, kt s y = Some ty -> kt s' y = Some ty) by (intros y ty H; unfold kt; rewrite EN; eauto).
  assert (VVN : forall y, y <> x -> vv s' y = vv s y) by (intros; unfold vv; now rewrite EN).
  assert (PPN : forall y, y <> x -> pp s' y = pp s y) by (intros; unfold pp; now rewrite EN).
  assert (TTN : forall y, y <> x -> tt_ s' y = tt_ s y) by (intros; unfold tt_; now rewrite EN).
  assert (V0 : vv s x = None) by (unfold vv; now rewrite HN).
  assert (P0 : pp s x = None) by (unfold pp; now rewrite HN).
  assert (T0 : tt_ s x = None) by (unfold tt_; now rewrite HN).
  constructor.
  - intros y Hy. rewrite NX in Hy. rewrite EN by lia. apply A. unfold x in *. lia.
  - intros y. rewrite RF. unfold rcof, bump. destruct (Nat.eq_dec y x) as [->|N].
    + rewrite E', fupd_eq. cbn. lia.
    + rewrite EN, fupd_ne by auto. exact (B y).
  - intros y o Hy. destruct (Nat.eq_dec y x) as [->|N].
    + rewrite E' in Hy. inversion Hy; subst. cbn. lia.
    + rewrite EN in Hy by auto. exact (C y o Hy).
  - intros y o Hy Dy. destruct (Nat.eq_dec y x) as [->|N].
    + rewrite E' in Hy. inversion Hy; subst. cbn [knd]. destruct k; cbn in FK |- *; auto.
      * destruct FK as [-> _]. discriminate.
      * rewrite FK. discriminate.
      * destruct FK as [-> ->]. split; [intros d []|discriminate].
    + rewrite EN in Hy by auto. pose proof (D y o Hy Dy) as K. destruct (knd o); cbn in *; auto.
      destruct K as [K1 K2]. split; auto.
  - intros ty. rewrite RG. destruct (F ty) as [F1 F2].
    assert (LV : forall y, y <> x -> lives s' y ty <-> lives s y ty) by (intros y N; unfold lives; rewrite EN by auto; tauto).
    assert (NL : ~ In x (reg s ty)) by (rewrite F2; intros (o & Eo & _); rewrite HN in Eo; discriminate).
    destruct (otype_eqb_spec ty (otype_of k)) as [->|NT].
    + split; [constructor; auto|]. intros y. cbn [In]. destruct (Nat.eq_dec y x) as [->|N].
      * split; auto. intros _. exists (mkobj 1 size name false k). auto.
      * rewrite LV by auto. rewrite <- F2. split; [intros [Q|Q]; auto; congruence|auto].
    + split; auto. intros y. destruct (Nat.eq_dec y x) as [->|N].
      * split; [tauto|]. intros (o & Eo & Do & To). rewrite E' in Eo. inversion Eo; subst o. cbn in To. congruence.
      * rewrite LV by auto. apply F2.
  - destruct G as [G1 G2]. assert (HM : M64 <> 0%N) by discriminate.
    assert (TS : total s' = (total s + size)%N).
    { unfold total. rewrite NX. cbn [sumNn]. rewrite (sumNn_ext x _ (osize s)) by (intros z Hz; unfold osize; rewrite EN; auto; lia).
      unfold osize at 2. rewrite E'. reflexivity. }
    assert (AV : avail s' = ((avail s + M64 - size mod M64) mod M64)%N) by reflexivity.
    rewrite AV, TS. split; [|apply N.mod_lt; exact HM].
    rewrite N.add_mod_idemp_l by exact HM. rewrite <- G1.
    pose proof (N.div_mod size M64 HM) as DM. pose proof (N.mod_lt size M64 HM) as ML.
    remember (size mod M64)%N as m. remember (size / M64)%N as q.
    replace (avail s + M64 - m + (total s + size))%N with (avail s + total s + (1 + q) * M64)%N by (clear - DM ML; nia).
    apply N.mod_add. exact HM.
  - intros y Hy. rewrite NX in Hy. apply J. unfold x in *. lia.
  - destruct P as [P1 P2 P3 P4 P5 P6].
    assert (VX : forall w, vv s' x = Some w -> vphys w = None /\ vq w = []).
    { intros w. unfold vv. rewrite E'. cbn. destruct k; try discriminate. intros Q. inversion Q; subst. exact FK. }
    assert (PX : forall r, pp s' x = Some r -> pvacs r = [] /\ ptasks r = 0%Z).
    { intros w. unfold pp. rewrite E'. cbn. destruct k; try discriminate. intros Q. inversion Q; subst. apply FK. }
    assert (VIN : forall l, (forall y, In y l -> exists w, vv s y = Some w) -> sumq s' l = sumq s l).
    { intros l Hl. unfold sumq. f_equal. apply map_ext_in. intros y Hy. unfold qlen. rewrite VVN; auto. intros ->. destruct (Hl x Hy). congruence. }
    constructor.
    + intros v w p V W. destruct (Nat.eq_dec v x) as [->|N]; [destruct (VX w V); congruence|]. rewrite VVN in V by auto.
      destruct (P1 v w p V W) as (r & R & IN). exists r. split; auto. rewrite PPN; auto. intros ->. congruence.
    + intros p r R. destruct (Nat.eq_dec p x) as [->|N].
      * destruct (PX r R) as [-> _]. split; [constructor|]. intros v [].
      * rewrite PPN in R by auto. destruct (P2 p r R) as [Q1 Q2]. split; auto. intros v Hv. destruct (Q2 v Hv) as (w & V & W). exists w. split; auto. rewrite VVN; auto. intros ->. congruence.
    + rewrite OR. destruct P3 as [Q1 Q2]. split; auto. intros v Hv. destruct (Q2 v Hv) as (w & V & W). exists w. split; auto. rewrite VVN; auto. intros ->. congruence.
    + intros v w t V T. destruct (Nat.eq_dec v x) as [->|N]; [destruct (VX w V) as [_ Q]; rewrite Q in T; destruct T|]. rewrite VVN in V by auto.
      destruct (P4 v w t V T) as (Ot & tr & Ht & Q). assert (t <> x) by (intros ->; congruence). split.
      * unfold bump. rewrite fupd_ne; auto.
      * exists tr. rewrite TTN by auto. auto.
    + intros v w V. destruct (Nat.eq_dec v x) as [->|N]; [destruct (VX w V) as [_ ->]; constructor|]. rewrite VVN in V by auto. eauto.
    + intros p r R. destruct (Nat.eq_dec p x) as [->|N].
      * destruct (PX r R) as [-> ->]. destruct (J x (le_n _)) as [-> ->]. cbn. lia.
      * rewrite PPN in R by auto. rewrite VIN; auto. intros y Hy. destruct (P2 p r R) as [_ Q]. destruct (Q y Hy) as (w & V & _). eauto.
Qed.

Lemma ref_inc_ok own s x o : INV own s -> heap s x = Some o -> dying o = false ->
  exists s', ref_inc s x = Ok s' /\ s' = seto s x (with_rc o (S (rc o))) /\ INV (bump own x) s' /\
    (forall y, vv s' y = vv s y) /\ (forall y, pp s' y = pp s y) /\ (forall y, tt_ s' y = tt_ s y) /\ (forall y, dd s' y = dd s y) /\ (forall y, kt s' y = kt s y) /\ lf s s'.
Proof.
  intros HI E D. exists (seto s x (with_rc o (S (rc o)))). unfold ref_inc, get. rewrite E. cbn [bind]. split; auto. split; auto.
  set (s' := seto s x _). assert (E' : heap s' x = Some (with_rc o (S (rc o)))) by (unfold s', seto; cbn; apply fupd_eq).
  assert (EN : forall i, i <> x -> heap s' i = heap s i) by (intros i Hi; unfold s', seto; cbn; apply fupd_ne; auto).
  destruct (views_same s s' x o (with_rc o (S (rc o))) E E' eq_refl EN) as (V1 & V2 & V3 & V4 & V5). split.
  - apply (setrc_inv init own); auto; try lia.
    + unfold bump. rewrite fupd_eq. lia.
    + intros y N. unfold bump. now rewrite fupd_ne.
    + intros. unfold bump. rewrite fupd_eq. lia.
  - do 5 (split; [assumption|]). apply same_lf; auto.
    + intros t tr. now rewrite V3.
    + intros t tr. rewrite V3. eauto.
Qed.

(** the references an object holds change; the client's tokens compensate *)
Lemma rekind_inv own own' s x o k : INV own s -> heap s x = Some o -> dying o = false -> otype_of k = otype_of (knd o) ->
  (forall y, own' y + cnt y (kedges k) = own y + cnt y (kedges (knd o))) -> kind_ok s k ->
  place own' perm drift (seto s x (with_knd o k)) -> INV own' (seto s x (with_knd o k)).
Proof.
  intros HI E D TY OW KO HP. pose proof (live_lt HI x o E) as L. set (s' := seto s x (with_knd o k)) in *.
  assert (E' : heap s' x = Some (with_knd o k)) by (unfold s', seto; cbn; apply fupd_eq).
  assert (EN : forall i, i <> x -> heap s' i = heap s i) by (intros i Hi; unfold s', seto; cbn; apply fupd_ne; auto).
  assert (KT : forall y, kt s' y = kt s y).
  { intros y. unfold kt. destruct (Nat.eq_dec y x) as [->|N]; [rewrite E, E'; cbn; congruence|now rewrite EN]. }
  pose proof HI as [A B C F G I J P].
  constructor; auto.
  - intros y Hy. rewrite EN; auto. intros ->. unfold s' in Hy. cbn in Hy. lia.
  - intros y. pose proof (refs_change s s' x y L eq_refl EN) as R. unfold hedges in R. rewrite E, E' in R. unfold edges in R. cbn [with_knd dying knd] in R. rewrite D in R.
    pose proof (B y) as By. specialize (OW y). unfold rcof in *. destruct (Nat.eq_dec y x) as [->|N].
    + rewrite E'. rewrite E in By. cbn [with_knd rc]. lia.
    + rewrite EN by auto. lia.
  - intros y o1 H1. destruct (Nat.eq_dec y x) as [->|N].
    + rewrite E' in H1. inversion H1; subst. exact (C x o E).
    + rewrite EN in H1 by auto. exact (C y o1 H1).
  - intros y o1 H1 D1. apply (kind_ok_kt s s' _ KT). destruct (Nat.eq_dec y x) as [->|N].
    + rewrite E' in H1. inversion H1; subst. exact KO.
    + rewrite EN in H1 by auto. eauto.
  - intros ty. destruct (G ty) as [G1 G2]. split; [exact G1|]. intros y. change (reg s' ty) with (reg s ty). rewrite G2. unfold lives.
    destruct (Nat.eq_dec y x) as [->|N].
    + rewrite E, E'. split; intros (o1 & E1 & D1 & T1); inversion E1; subst o1.
      * exists (with_knd o k). cbn. split; [reflexivity|]. split; [exact D1|]. cbn. congruence.
      * exists o. cbn in *. repeat split; auto. congruence.
    + rewrite EN by auto. tauto.
  - destruct I as [I1 I2]. split; [|exact I2]. pose proof (total_change s s' x L eq_refl EN) as T.
    assert (osize s' x = osize s x) by (unfold osize; rewrite E, E'; reflexivity).
    replace (total s') with (total s) by lia. exact I1.
Qed.

(** queued tasks are never the target of a reference *)
Lemma queued_noedge own s t x o : INV own s -> queued s t -> heap s x = Some o -> dying o = false -> cnt t (kedges (knd o)) = 0.
Proof.
  intros HI (v & w & V & I) E D. destruct (Nat.eq_dec (cnt t (kedges (knd o))) 0) as [|N]; auto. exfalso.
  assert (Hin : In t (kedges (knd o))) by (apply cnt_in; lia).
  destruct (i_q _ _ _ _ (i_place _ _ _ _ _ HI) v w t V I) as (_ & tr & T & _). apply tt_kt in T.
  pose proof (i_kind _ _ _ _ _ HI x o E D) as K. destruct (knd o) as [p| | |d|tk]; cbn in *; try tauto.
  - destruct (pfvaq p) as [y|]; [destruct Hin as [<-|[]]|destruct Hin]. specialize (K _ eq_refl). congruence.
  - destruct (dacc d) as [y|]; [destruct Hin as [<-|[]]|destruct Hin]. specialize (K _ eq_refl). congruence.
  - destruct K as [K1 K2]. apply in_app_iff in Hin. destruct Hin as [H|H]; [specialize (K1 _ H); congruence|].
    destruct (tsub tk); [destruct H as [<-|[]]|destruct H]. specialize (K2 eq_refl). congruence.
Qed.

Lemma redata_inv own own' s x o d d' : INV own s -> heap s x = Some o -> dying o = false -> knd o = KData d ->
  (forall y, own' y + cnt y (kedges (KData d')) = own y + cnt y (kedges (KData d))) -> kind_ok s (KData d') ->
  INV own' (seto s x (with_knd o (KData d'))) /\ lf s (seto s x (with_knd o (KData d'))).
Proof.
  intros HI E D K OW KO. set (s' := seto s x _).
  assert (E' : heap s' x = Some (with_knd o (KData d'))) by (unfold s', seto; cbn; apply fupd_eq).
  assert (EN : forall i, i <> x -> heap s' i = heap s i) by (intros i Hi; unfold s', seto; cbn; apply fupd_ne; auto).
  assert (V1 : forall y, vv s' y = vv s y) by (intros y; unfold vv; destruct (Nat.eq_dec y x) as [->|N]; [rewrite E, E', K; reflexivity|now rewrite EN]).
  assert (V2 : forall y, pp s' y = pp s y) by (intros y; unfold pp; destruct (Nat.eq_dec y x) as [->|N]; [rewrite E, E', K; reflexivity|now rewrite EN]).
  assert (V3 : forall y, tt_ s' y = tt_ s y) by (intros y; unfold tt_; destruct (Nat.eq_dec y x) as [->|N]; [rewrite E, E', K; reflexivity|now rewrite EN]).
  split.
  - apply (rekind_inv own); auto; try (rewrite K; auto).
    apply (place_views own own' perm drift s); auto; [|exact (i_place _ _ _ _ _ HI)]. intros v w t V T O. specialize (OW t).
    assert (Q : queued s t) by (exists v, w; auto). pose proof (queued_noedge own s t x o HI Q E D) as Z. rewrite K in Z.
    assert (Z' : cnt t (kedges (KData d')) = 0).
    { destruct (Nat.eq_dec (cnt t (kedges (KData d'))) 0) as [|N]; auto. exfalso. assert (Hin : In t (kedges (KData d'))) by (apply cnt_in; lia).
      destruct (i_q _ _ _ _ (i_place _ _ _ _ _ HI) v w t V T) as (_ & tr & Tt & _). apply tt_kt in Tt. cbn in Hin, KO.
      destruct (dacc d') as [y|]; [destruct Hin as [<-|[]]|destruct Hin]. specialize (KO _ eq_refl). congruence. }
    lia.
  - apply same_lf; auto.
    + intros y. unfold kt. destruct (Nat.eq_dec y x) as [->|N]; [rewrite E, E', K; reflexivity|now rewrite EN].
    + intros t tr. now rewrite V3.
    + intros t tr. rewrite V3. eauto.
Qed.

Lemma retask_kind_inv own own' s x o t t' : INV own s -> heap s x = Some o -> dying o = false -> knd o = KTask t -> tsub t = false ->
  (forall y, own' y + cnt y (kedges (KTask t')) = own y + cnt y (kedges (KTask t))) -> kind_ok s (KTask t') ->
  INV own' (seto s x (with_knd o (KTask t'))) /\ (tsub t' = false -> lf s (seto s x (with_knd o (KTask t')))).
Proof.
  intros HI E D K TS OW KO. set (s' := seto s x _).
  assert (E' : heap s' x = Some (with_knd o (KTask t'))) by (unfold s', seto; cbn; apply fupd_eq).
  assert (EN : forall i, i <> x -> heap s' i = heap s i) by (intros i Hi; unfold s', seto; cbn; apply fupd_ne; auto).
  assert (V1 : forall y, vv s' y = vv s y) by (intros y; unfold vv; destruct (Nat.eq_dec y x) as [->|N]; [rewrite E, E', K; reflexivity|now rewrite EN]).
  assert (V2 : forall y, pp s' y = pp s y) by (intros y; unfold pp; destruct (Nat.eq_dec y x) as [->|N]; [rewrite E, E', K; reflexivity|now rewrite EN]).
  assert (V3 : forall y, y <> x -> tt_ s' y = tt_ s y) by (intros y N; unfold tt_; now rewrite EN).
  assert (TX : tt_ s x = Some t) by (unfold tt_; now rewrite E, K).
  pose proof (i_place _ _ _ _ _ HI) as [P1 P2 P3 P4 P5 P6].
  split.
  - apply (rekind_inv own); auto; try (rewrite K; auto). fold s'.
    assert (SQ : forall l, sumq s' l = sumq s l) by (intros l; unfold sumq; f_equal; apply map_ext; intros y; unfold qlen; now rewrite V1).
    constructor.
    + intros v w p. rewrite V1, V2. eauto.
    + intros p r. rewrite V2. intros R. destruct (P2 p r R) as [Q1 Q2]. split; auto. intros v. rewrite V1. auto.
    + destruct P3 as [Q1 Q2]. split; auto. intros v. rewrite V1. apply Q2.
    + intros v w y. rewrite V1. intros V I. destruct (P4 v w y V I) as (O & tr & T & SB & AC).
      assert (y <> x) by (intros ->; congruence). rewrite V3 by auto. split; eauto.
      assert (Q : queued s y) by (exists v, w; auto). pose proof (queued_noedge own s y x o HI Q E D) as Z. rewrite K in Z.
      specialize (OW y).
      assert (Z' : cnt y (kedges (KTask t')) = 0).
      { destruct (Nat.eq_dec (cnt y (kedges (KTask t'))) 0) as [|N]; auto. exfalso. assert (Hin : In y (kedges (KTask t'))) by (apply cnt_in; lia).
        apply tt_kt in T. cbn in Hin, KO. destruct KO as [K1 K2]. apply in_app_iff in Hin. destruct Hin as [H1|H1]; [specialize (K1 _ H1); congruence|].
        destruct (tsub t'); [destruct H1 as [<-|[]]|destruct H1]. specialize (K2 eq_refl). congruence. }
      lia.
    + intros v w. rewrite V1. eauto.
    + intros p r. rewrite V2, SQ. eauto.
  - intros TS'. apply same_lf; auto.
    + intros y. unfold kt. destruct (Nat.eq_dec y x) as [->|N]; [rewrite E, E', K; reflexivity|now rewrite EN].
    + intros y tr H T. destruct (Nat.eq_dec y x) as [->|N]; [congruence|now rewrite V3].
    + intros y tr H T. destruct (Nat.eq_dec y x) as [->|N]; [eauto|]. rewrite V3 in H by auto. eauto.
Qed.

Lemma refvaq_inv own s x o r v : INV own s -> heap s x = Some o -> dying o = false -> knd o = KPhys r -> pfvaq r = None ->
  kt s v = Some TVirt -> 1 <= own v ->
  INV (drop own v) (seto s x (with_knd o (KPhys (mkphys (ptype r) (ptasks r) (pvacs r) (Some v) (prev r))))).
Proof.
  intros HI E D K FN KV O. set (r' := mkphys _ _ _ _ _). set (s' := seto s x _).
  assert (E' : heap s' x = Some (with_knd o (KPhys r'))) by (unfold s', seto; cbn; apply fupd_eq).
  assert (EN : forall i, i <> x -> heap s' i = heap s i) by (intros i Hi; unfold s', seto; cbn; apply fupd_ne; auto).
  assert (V1 : forall y, vv s' y = vv s y) by (intros y; unfold vv; destruct (Nat.eq_dec y x) as [->|N]; [rewrite E, E', K; reflexivity|now rewrite EN]).
  assert (V2 : forall y, pp s' y = if y =? x then Some r' else pp s y) by (intros y; unfold pp; destruct (Nat.eqb_spec y x) as [->|N]; [rewrite E'; reflexivity|now rewrite EN]).
  assert (V3 : forall y, tt_ s' y = tt_ s y) by (intros y; unfold tt_; destruct (Nat.eq_dec y x) as [->|N]; [rewrite E, E', K; reflexivity|now rewrite EN]).
  assert (PX : pp s x = Some r) by (unfold pp; now rewrite E, K).
  pose proof (i_place _ _ _ _ _ HI) as [P1 P2 P3 P4 P5 P6].
  apply (rekind_inv own); auto.
  - rewrite K. reflexivity.
  - intros y. rewrite K. cbn [kedges]. rewrite FN. cbn [pfvaq r']. rewrite cnt_cons. change (cnt y []) with 0. unfold drop, fupd.
    destruct (Nat.eq_dec v y) as [->|N]; [rewrite Nat.eqb_refl; lia|]. destruct (Nat.eqb_spec y v); [congruence|lia].
  - cbn. intros u Hu. congruence.
  - fold s'. assert (SQ : forall l, sumq s' l = sumq s l) by (intros l; unfold sumq; f_equal; apply map_ext; intros y; unfold qlen; now rewrite V1).
    assert (PB : forall p r1, pp s' p = Some r1 -> exists r0, pp s p = Some r0 /\ pvacs r1 = pvacs r0 /\ ptasks r1 = ptasks r0).
    { intros p r1. rewrite V2. destruct (Nat.eqb_spec p x) as [->|N]; eauto. intros H. inversion H; subst. eauto. }
    constructor.
    + intros y w p. rewrite V1, V2. intros V W. destruct (P1 y w p V W) as (r0 & R0 & IN). destruct (Nat.eqb_spec p x) as [->|N]; eauto.
      exists r'. split; auto. cbn. congruence.
    + intros p r1 R1. destruct (PB p r1 R1) as (r0 & R0 & Q1 & _). rewrite Q1. destruct (P2 p r0 R0) as [U1 U2]. split; auto. intros y. rewrite V1. auto.
    + destruct P3 as [Q1 Q2]. split; auto. intros y. rewrite V1. apply Q2.
    + intros y w t. rewrite V1, V3. intros V I. destruct (P4 y w t V I) as (Ot & tr & T & Q). split; eauto. unfold drop. rewrite fupd_ne; auto.
      intros ->. apply tt_kt in T. congruence.
    + intros y w. rewrite V1. eauto.
    + intros p r1 R1. destruct (PB p r1 R1) as (r0 & R0 & Q1 & Q2). rewrite Q1, Q2, SQ. eauto.
Qed.

(** ** Assigning *)
Lemma add_vaccel_ok own s v w p r : INV own s -> vv s v = Some w -> pp s p = Some r ->
  match vphys w with
  | Some p' => add_vaccel s p v = if p' =? p then Ok s else Abort
  | None => let s' := setv (setp (setorph s (remove Nat.eq_dec v (orph s))) p (mkphys (ptype r) (ptasks r + Z.of_nat (length (vq w))) (v :: pvacs r) (pfvaq r) (S (prev r)))) v (mkvirt (vtype w) (Some p) (vq w)) in
            add_vaccel s p v = Ok s' /\ INV own s'
  end.
Proof.
  intros HI V R. destruct (get_virt_ok s v w V) as (ov & GV & EV & KV). unfold add_vaccel. rewrite GV. cbn [bind].
  destruct (vphys w) as [p'|] eqn:W; auto.
  destruct (remove_orphan_ok HI v w V W) as (s1 & A & B & C & D). rewrite A. cbn [bind].
  assert (R1 : pp s1 p = Some r) by (subst s1; exact R). assert (V1 : vv s1 v = Some w) by (subst s1; exact V).
  destruct (get_phys_ok s1 p r R1) as (op & GP & EP & KP). rewrite GP. cbn [bind].
  pose proof (linked_iff C v w V1) as LK. destruct (linked s1 v).
  { exfalso. destruct (proj1 LK eq_refl) as [H|(q & H)]; [auto|congruence]. }
  cbv zeta. pose proof (attach_inv C v w p r V1 W D R1) as AI. cbv zeta in AI. subst s1. split; [|exact AI].
  f_equal. eapply setpv; eauto.
Qed.
End Ops.
