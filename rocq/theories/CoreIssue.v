(** Preservation of the invariant by buffer migration, task creation, submission and execution. *)
From Verif Require Import Base CoreModel CoreInv CoreStep CorePlace CoreDec CoreOps.
Ltac Zify.zify_post_hook ::= idtac.
Arguments N.modulo : simpl never.
Arguments N.add : simpl never.
Arguments N.sub : simpl never.
Arguments Nat.eqb : simpl never.

(** states that differ only in the payload of one buffer *)
Record sim (d : nat) (s t : st) : Prop := {
  sm_next : next t = next s; sm_avail : avail t = avail s; sm_orph : orph t = orph s;
  sm_reg : forall ty, reg t ty = reg s ty;
  sm_heap : forall y, y <> d -> heap t y = heap s y;
  sm_d : exists o o' k k', heap s d = Some o /\ heap t d = Some o' /\ knd o = KData k /\ knd o' = KData k' }.

Lemma sim_linked d s t v : sim d s t -> linked t v = linked s v.
Proof.
  intros [A B C D E (o & o' & k & k' & F1 & F2 & F3 & F4)]. unfold linked. rewrite C, A. f_equal.
  induction (seq 0 (next s)) as [|p l IH]; cbn; auto. rewrite IH. f_equal.
  destruct (Nat.eq_dec p d) as [->|N]; [now rewrite F1, F2, F3, F4|now rewrite E].
Qed.
Lemma sim_seto d s t y o : sim d s t -> y <> d -> sim d (seto s y o) (seto t y o).
Proof.
  intros [A B C D E F] N. constructor; cbn; auto.
  - intros z Hz. unfold fupd. destruct (z =? y); auto.
  - rewrite !fupd_ne by auto. exact F.
Qed.
Lemma sim_regset d s t ty f : sim d s t -> sim d (regset s ty (f (reg s ty))) (regset t ty (f (reg t ty))).
Proof. intros [A B C D E F]. constructor; cbn; auto. intros ty'. rewrite !D. destruct (otype_eqb ty' ty); auto. Qed.
Lemma sim_die d s t x o : sim d s t -> x <> d -> sim d (die s x o) (die t x o).
Proof. intros H N. unfold die, unregister. apply (sim_regset d _ _ (otype_of (knd o)) (remove Nat.eq_dec x)). apply sim_seto; auto. Qed.
Lemma sim_release d s t x z : sim d s t -> x <> d -> sim d (release_mem s x z) (release_mem t x z).
Proof.
  intros [A B C D E (o & o' & k & k' & F1 & F2 & F3 & F4)] N. constructor; cbn; auto.
  - now rewrite B.
  - intros y Hy. destruct (y =? x); auto.
  - apply not_eq_sym, Nat.eqb_neq in N. rewrite N. exists o, o', k, k'. auto.
Qed.
Lemma sim_virt d s t x : sim d s t -> get_virt t x = get_virt s x.
Proof.
  intros [A B C D E (o & o' & k & k' & F1 & F2 & F3 & F4)]. unfold get_virt, get. destruct (Nat.eq_dec x d) as [->|N].
  - rewrite F1, F2. cbn. now rewrite F3, F4.
  - now rewrite E.
Qed.
Lemma sim_phys d s t x : sim d s t -> get_phys t x = get_phys s x.
Proof.
  intros [A B C D E (o & o' & k & k' & F1 & F2 & F3 & F4)]. unfold get_phys, get. destruct (Nat.eq_dec x d) as [->|N].
  - rewrite F1, F2. cbn. now rewrite F3, F4.
  - now rewrite E.
Qed.
Lemma sim_phys_ne d s t x o r : sim d s t -> get_phys s x = Ok (o, r) -> x <> d.
Proof. intros [A B C D E (o0 & o' & k & k' & F1 & F2 & F3 & F4)] H ->. unfold get_phys, get in H. rewrite F1 in H. cbn in H. rewrite F3 in H. discriminate. Qed.
Lemma sim_virt_ne d s t x o r : sim d s t -> get_virt s x = Ok (o, r) -> x <> d.
Proof. intros [A B C D E (o0 & o' & k & k' & F1 & F2 & F3 & F4)] H ->. unfold get_virt, get in H. rewrite F1 in H. cbn in H. rewrite F3 in H. discriminate. Qed.

Lemma sim_del d s t p v s' : sim d s t -> del_vaccel s p v = Ok s' -> exists t', del_vaccel t p v = Ok t' /\ sim d s' t' /\ heap s' d = heap s d /\ heap t' d = heap t d.
Proof.
  intros S. unfold del_vaccel. rewrite (sim_virt d s t v S). destruct (get_virt s v) as [[ov w]| |] eqn:GV; try discriminate. cbn [bind].
  destruct (assert_ _) as [[]| |]; try discriminate. cbn [bind]. rewrite (sim_phys d s t p S). destruct (get_phys s p) as [[op r]| |] eqn:GP; try discriminate. cbn [bind].
  destruct (mem v (pvacs r)); try discriminate. intros H. inversion H; subst s'. clear H. eexists. split; [reflexivity|].
  pose proof (sim_phys_ne d s t p _ _ S GP) as NP. pose proof (sim_virt_ne d s t v _ _ S GV) as NV. split.
  - apply sim_seto; auto. apply sim_seto; auto.
  - unfold set_virt, set_phys, seto. cbn. rewrite !fupd_ne by auto. auto.
Qed.
Lemma sim_rorph d s t v s' : sim d s t -> remove_orphan s v = Ok s' -> exists t', remove_orphan t v = Ok t' /\ sim d s' t' /\ heap s' d = heap s d /\ heap t' d = heap t d.
Proof.
  intros S. unfold remove_orphan. rewrite (sim_virt d s t v S). destruct (get_virt s v) as [[ov w]| |] eqn:GV; try discriminate. cbn [bind].
  rewrite (sim_linked d s t v S), (sm_orph _ _ _ S). destruct (linked s v).
  - destruct (mem v (orph s)); try discriminate. intros H. inversion H; subst s'. eexists. split; [reflexivity|]. split; auto.
    destruct S as [A B C D E F]. constructor; cbn; auto.
  - intros H. inversion H; subst s'. eauto.
Qed.
Lemma sim_dec d s t b w f s' n : sim d s t -> vv s b = Some w -> ref_dec (S f) s b = Ok (s', n) ->
  exists t', ref_dec (S f) t b = Ok (t', n) /\ sim d s' t' /\ heap s' d = heap s d /\ heap t' d = heap t d.
Proof.
  intros S V H. destruct (vv_heap s b w V) as (o & E & K).
  assert (N : b <> d) by (intros ->; destruct (sm_d _ _ _ S) as (o1 & o' & k & k' & F1 & F2 & F3 & F4); congruence).
  assert (E' : heap t b = Some o) by (rewrite (sm_heap _ _ _ S); auto).
  destruct (Nat.eq_dec (rc o) 1) as [R|R].
  - rewrite (dec_unfold f s b o E R), K in H. rewrite (dec_unfold f t b o E' R), K.
    pose proof (sim_die d s t b o S N) as SD. destruct (vphys w) as [p|].
    + destruct (del_vaccel (die s b o) p b) as [s2| |] eqn:DV; try discriminate. cbn in H. inversion H; subst.
      destruct (sim_del d _ _ p b s2 SD DV) as (t2 & D2 & S2 & Q1 & Q2). rewrite D2. cbn [bind]. eexists. split; [reflexivity|]. split; [apply sim_release; auto|].
      cbn. apply not_eq_sym, Nat.eqb_neq in N. rewrite N, Q1, Q2. cbn. unfold fupd. now rewrite N.
    + destruct (remove_orphan (die s b o) b) as [s2| |] eqn:DV; try discriminate. cbn in H. inversion H; subst.
      destruct (sim_rorph d _ _ b s2 SD DV) as (t2 & D2 & S2 & Q1 & Q2). rewrite D2. cbn [bind]. eexists. split; [reflexivity|]. split; [apply sim_release; auto|].
      cbn. apply not_eq_sym, Nat.eqb_neq in N. rewrite N, Q1, Q2. cbn. unfold fupd. now rewrite N.
  - cbn [ref_dec] in *. unfold get in *. rewrite E in H. rewrite E'. cbn [bind] in *. destruct (assert_ (0 <? rc o)) as [[]| |]; try discriminate. cbn [bind] in *.
    apply Nat.eqb_neq in R. rewrite R in *. inversion H; subst. eexists. split; [reflexivity|]. split; [apply sim_seto; auto|].
    unfold seto. cbn. rewrite !fupd_ne by auto. auto.
Qed.

Lemma NoDup_app_snoc (l : list nat) x : NoDup l -> ~ In x l -> NoDup (l ++ [x]).
Proof.
  induction l as [|y l IH]; cbn; intros N H; [constructor; auto; constructor|]. inversion N; subst. constructor; [|apply IH; auto].
  rewrite in_app_iff. cbn. intros [Q|[Q|[]]]; [auto|subst; tauto].
Qed.
Lemma bump_cnt own b y : bump own b y = own y + cnt y [b].
Proof. unfold bump, fupd. rewrite cnt_cons. change (cnt y []) with 0. destruct (Nat.eqb_spec y b) as [H|H], (Nat.eq_dec b y) as [H'|H']; subst; try congruence; lia. Qed.
(** states with the same contents *)
Lemma Inv_st_ext init own perm drift s t : Inv init own perm drift s -> next t = next s -> avail t = avail s -> orph t = orph s ->
  (forall ty, reg t ty = reg s ty) -> (forall y, heap t y = heap s y) -> Inv init own perm drift t /\ lf s t.
Proof.
  intros HI A B C D E.
  assert (V1 : forall y, vv t y = vv s y) by (intros; unfold vv; now rewrite E).
  assert (V2 : forall y, pp t y = pp s y) by (intros; unfold pp; now rewrite E).
  assert (V3 : forall y, tt_ t y = tt_ s y) by (intros; unfold tt_; now rewrite E).
  assert (V4 : forall y, kt t y = kt s y) by (intros; unfold kt; now rewrite E).
  split.
  - apply (frame_inv init own perm drift perm drift s); auto.
    + intros x. rewrite E. apply osame_refl.
    + exact (i_ghost _ _ _ _ _ HI).
    + apply (place_views own own perm drift s); auto. exact (i_place _ _ _ _ _ HI).
  - apply same_lf; auto; intros y tr; rewrite V3; eauto.
Qed.

(** a buffer may be moved to accelerator [a] *)
Definition compat (s : st) (d a : nat) : Prop :=
  forall dr b, dd s d = Some dr -> dacc dr = Some b -> b <> a -> forall wb wa, vv s b = Some wb -> vv s a = Some wa -> vphys wb = vphys wa.

Section Iss.
Context {init : N} {perm drift : nat -> nat}.
Notation INV own s := (Inv init own perm drift s).

Lemma phys_eqb_refl (x y : option nat) : x = y -> match x, y with None, None => true | Some p, Some q => p =? q | _, _ => false end = true.
Proof. intros <-. destruct x; auto. apply Nat.eqb_refl. Qed.

Lemma own_kt own s x ty : INV own s -> 1 <= own x -> kt s x = Some ty -> exists o, heap s x = Some o /\ dying o = false /\ otype_of (knd o) = ty.
Proof. intros HI O K. destruct (own_live HI x O) as (o & E & D & _). exists o. repeat split; auto. unfold kt in K. rewrite E in K. congruence. Qed.

Lemma migrate_ok own s d a dr : INV own s -> 1 <= own d -> 1 <= own a -> dd s d = Some dr -> kt s a = Some TVirt -> compat s d a ->
  exists s', migrate s d a = Ok s' /\ INV own s' /\ lf s s' /\ next s' = next s /\ dd s' d = Some (mkdata (Some a) (dsize dr)) /\
    (forall y dy, y <> d -> dd s' y = Some dy -> dd s y = Some dy) /\ (forall t tr, tt_ s t = Some tr -> heap s' t <> None -> tt_ s' t = Some tr).
Proof.
  intros HI Od Oa Dd Ka CP. destruct (get_data_ok s d dr Dd) as (o & GD & E & K). unfold migrate. rewrite GD. cbn [bind].
  destruct (own_live HI d Od) as (o0 & E0 & D & _). rewrite E in E0. inversion E0; subst o0. clear E0.
  destruct (kt_vv s a Ka) as (wa & Va). destruct (own_kt own s a TVirt HI Oa Ka) as (oa & Ea & Da & _).
  assert (Nad : a <> d) by (intros ->; apply dd_kt in Dd; congruence).
  destruct (dacc dr) as [b|] eqn:AC.
  - destruct (Nat.eqb_spec b a) as [->|NB].
    { exists s. split; auto. split; auto. split; [apply lf_refl|]. split; auto. split; [destruct dr; cbn in *; now rewrite AC in Dd|]. auto. }
    pose proof (i_kind _ _ _ _ _ HI d o E D) as KO. rewrite K in KO. cbn in KO. pose proof (KO b AC) as Kb. destruct (kt_vv s b Kb) as (wb & Vb).
    destruct (vv_heap s b wb Vb) as (ob & Eb & KVb). destruct (vv_heap s a wa Va) as (oa' & Ea' & KVa). rewrite Ea in Ea'. inversion Ea'; subst oa'. clear Ea'.
    unfold get at 1. rewrite Eb. cbn [bind]. unfold get at 1. rewrite Ea. cbn [bind]. rewrite KVb, KVa.
    rewrite (phys_eqb_refl _ _ (CP dr b Dd AC NB wb wa Vb Va)).
    assert (Nbd : b <> d) by (intros ->; apply dd_kt in Dd; congruence).
    (* the buffer's reference on b becomes a token *)
    destruct (redata_inv own (bump own b) s d o dr (mkdata None (dsize dr)) HI E D K) as [I0 L0].
    { intros y. cbn [kedges dacc]. rewrite AC, bump_cnt. change (cnt y []) with 0. lia. }
    { cbn. discriminate. }
    set (s0 := seto s d _) in *.
    assert (Vb0 : vv s0 b = Some wb) by (unfold vv, s0, seto; cbn; rewrite fupd_ne by auto; rewrite Eb, KVb; auto).
    destruct (virt_dec init perm drift 2 (bump own b) s0 b wb I0 ltac:(unfold bump; rewrite fupd_eq; lia) Vb0) as (s1 & A1 & I1 & F1 & _).
    assert (I1' : INV own s1) by (eapply Inv_own_ext; [|exact I1]; intros y; unfold drop, bump, fupd; destruct (Nat.eqb_spec y b) as [->|]; [rewrite Nat.eqb_refl; lia|auto]).
    assert (S0 : sim d s0 s).
    { constructor; auto.
      - intros y Hy. unfold s0, seto. cbn. now rewrite fupd_ne.
      - exists (with_knd o (KData (mkdata None (dsize dr)))), o. eexists. eexists. unfold s0, seto. cbn. rewrite fupd_eq. repeat split; eauto. }
    destruct (sim_dec d s0 s b wb 2 s1 _ S0 Vb0 A1) as (t1 & T1 & S1 & Q1 & Q2). unfold FUEL. rewrite T1. cbn [bind].
    destruct (own_live I1' a Oa) as (oa1 & Ea1 & Da1 & _). destruct (ref_inc_ok own s1 a oa1 I1' Ea1 Da1) as (s2 & A2 & E2 & I2 & V21 & V22 & V23 & V24 & V25 & L2).
    assert (Ea1t : heap t1 a = Some oa1) by (rewrite (sm_heap _ _ _ S1); auto).
    unfold ref_inc at 1. unfold get at 1. rewrite Ea1t. cbn [bind]. set (t2 := seto t1 a _).
    assert (Ed2 : heap t2 d = Some o) by (unfold t2, seto; cbn; rewrite fupd_ne by auto; rewrite Q2; auto).
    unfold get_data at 1. unfold get at 1. rewrite Ed2. cbn [bind]. rewrite K.
    set (od := with_knd o (KData (mkdata None (dsize dr)))) in *.
    assert (Ed2s : heap s2 d = Some od) by (rewrite E2; unfold seto; cbn; rewrite fupd_ne by auto; rewrite Q1; unfold s0, seto; cbn; apply fupd_eq).
    destruct (redata_inv (bump own a) own s2 d od (mkdata None (dsize dr)) (mkdata (Some a) (dsize dr)) I2 Ed2s D eq_refl) as [I3 L3].
    { intros y. cbn [kedges dacc]. rewrite bump_cnt. change (cnt y []) with 0. lia. }
    { cbn. intros u Hu. inversion Hu; subst u. rewrite V25. destruct (vv s1 a) as [w1|] eqn:W1; [eapply vv_kt; eauto|].
      exfalso. assert (kt s1 a = Some TVirt) as Q by (apply (fr_kt s0 s1 a TVirt F1); [congruence|unfold kt, s0, seto; cbn; rewrite fupd_ne by auto; rewrite Ea, KVa; auto]).
      apply kt_vv in Q. destruct Q. congruence. }
    set (s3 := seto s2 d _) in *. cbn [bind dsize]. set (F := seto t2 d (with_knd o (KData (mkdata (Some a) (dsize dr))))).
    assert (HF : forall y, heap F y = heap s3 y).
    { intros y. unfold F, s3, seto. cbn. unfold fupd at 1 3. destruct (Nat.eqb_spec y d) as [->|Ny]; [reflexivity|]. unfold t2. rewrite E2. unfold seto. cbn.
      unfold fupd. destruct (y =? a); auto. apply (sm_heap _ _ _ S1); auto. }
    assert (SN : next F = next s3) by (unfold F, t2, s3; rewrite E2; cbn; apply (sm_next _ _ _ S1)).
    destruct (Inv_st_ext init own perm drift s3 F I3) as [IF LF]; auto.
    { unfold F, t2, s3; rewrite E2; cbn; apply (sm_avail _ _ _ S1). }
    { unfold F, t2, s3; rewrite E2; cbn; apply (sm_orph _ _ _ S1). }
    { intros ty. unfold F, t2, s3; rewrite E2; cbn; apply (sm_reg _ _ _ S1). }
    exists F. split; [reflexivity|]. split; [exact IF|].
    assert (LL : lf s F) by (eapply lf_trans; [exact L0|]; eapply lf_trans; [apply fr_lf; exact F1|]; eapply lf_trans; [exact L2|]; eapply lf_trans; [exact L3|exact LF]).
    split; [exact LL|]. split; [rewrite SN; unfold s3; rewrite E2; cbn; apply F1|]. split; [|split].
    + unfold dd. rewrite HF. unfold s3, seto. cbn. rewrite fupd_eq. reflexivity.
    + intros y dy Ny H. unfold dd in H. rewrite HF in H. unfold s3, seto in H. cbn in H. rewrite fupd_ne in H by auto. fold (dd s2 y) in H. rewrite V24 in H.
      apply (fr_dd s0 s1 y dy F1) in H. unfold dd, s0, seto in H. cbn in H. rewrite fupd_ne in H by auto. exact H.
    + intros t tr H HL. assert (Nt : t <> d) by (intros ->; apply dd_kt in Dd; apply tt_kt in H; congruence).
      assert (Q : tt_ F t = tt_ s1 t) by (unfold tt_; rewrite HF; unfold s3, seto; cbn; rewrite fupd_ne by auto; fold (tt_ s2 t) (tt_ s1 t); apply V23). rewrite Q.
      assert (H0 : tt_ s0 t = Some tr) by (unfold tt_, s0, seto; cbn; rewrite fupd_ne by auto; exact H).
      destruct (kt_tt s1 t) as (tr1 & T').
      { apply (fr_kt s0 s1 t TTask F1); [|eapply tt_kt; eauto]. intros Z. apply HL. rewrite HF. unfold s3, seto. cbn. rewrite fupd_ne by auto. rewrite E2. unfold seto. cbn.
        unfold fupd. destruct (Nat.eqb_spec t a) as [->|]; auto. apply tt_kt in H. congruence. }
      pose proof (fr_tt s0 s1 t tr1 F1 T'). congruence.
  - destruct (ref_inc_ok own s a oa HI Ea Da) as (s1 & A1 & E1 & I1 & V1 & V2 & V3 & V4 & V5 & L1). rewrite A1. cbn [bind].
    assert (Dd1 : dd s1 d = Some dr) by now rewrite V4. destruct (get_data_ok s1 d dr Dd1) as (o1 & GD1 & Eo1 & K1). rewrite GD1. cbn [bind].
    assert (D1 : dying o1 = false). { rewrite E1 in Eo1. unfold seto in Eo1. cbn in Eo1. rewrite fupd_ne in Eo1 by auto. congruence. }
    destruct (redata_inv (bump own a) own s1 d o1 dr (mkdata (Some a) (dsize dr)) I1 Eo1 D1 K1) as [I2 L2].
    { intros y. cbn [kedges dacc]. rewrite AC, bump_cnt. change (cnt y []) with 0. lia. }
    { cbn. intros u Hu. inversion Hu; subst u. rewrite V5. auto. }
    eexists. split; [reflexivity|]. split; [exact I2|]. split; [eapply lf_trans; eauto|]. split; [rewrite E1; reflexivity|]. split; [|split].
    + unfold dd, seto. cbn. rewrite fupd_eq. reflexivity.
    + intros y dy Ny H. unfold dd, seto in H. cbn in H. rewrite fupd_ne in H by auto. rewrite <- V4. exact H.
    + intros t tr H _. assert (Nt : t <> d) by (intros ->; apply dd_kt in Dd; apply tt_kt in H; congruence).
      unfold tt_, seto. cbn. rewrite fupd_ne by auto. fold (tt_ s1 t). now rewrite V3.
Qed.

(** moving across devices is refused *)
Lemma migrate_refused s d a dr b wb wa : dd s d = Some dr -> dacc dr = Some b -> b <> a -> vv s b = Some wb -> vv s a = Some wa -> vphys wb <> vphys wa ->
  migrate s d a = Abort.
Proof.
  intros Dd AC NB Vb Va NP. destruct (get_data_ok s d dr Dd) as (o & GD & E & K). unfold migrate. rewrite GD. cbn [bind]. rewrite AC.
  apply Nat.eqb_neq in NB. rewrite NB. destruct (vv_heap s b wb Vb) as (ob & Eb & KVb). destruct (vv_heap s a wa Va) as (oa & Ea & KVa).
  unfold get at 1. rewrite Eb. cbn [bind]. unfold get. rewrite Ea. cbn [bind]. rewrite KVb, KVa.
  destruct (vphys wb) as [p|], (vphys wa) as [q|]; auto; try congruence. destruct (Nat.eqb_spec p q); [congruence|auto].
Qed.

Lemma arg_init_ok own s t d a p io : INV own s -> 1 <= own t -> 1 <= own d -> 1 <= own a -> tt_ s t = Some (mktask a p io false) ->
  kt s d = Some TData -> kt s a = Some TVirt -> compat s d a ->
  exists s', arg_init s t d a = Ok s' /\ INV own s' /\ lf s s' /\ next s' = next s /\ tt_ s' t = Some (mktask a p (io ++ [d]) false) /\
    (exists dr, dd s' d = Some dr /\ dacc dr = Some a) /\ (forall y dy, y <> d -> dd s' y = Some dy -> dd s y = Some dy).
Proof.
  intros HI Ot Od Oa Tt Kd Ka CP. unfold arg_init. destruct (get_task_ok s t _ Tt) as (o & GT & E & K). rewrite GT. cbn [bind tacc tproc tio tsub].
  destruct (own_live HI t Ot) as (o0 & E0 & D & _). rewrite E in E0. inversion E0; subst o0. clear E0.
  assert (Ntd : t <> d) by (intros ->; apply tt_kt in Tt; congruence). assert (Nta : t <> a) by (intros ->; apply tt_kt in Tt; congruence).
  destruct (retask_kind_inv own (drop own d) s t o _ (mktask a p (io ++ [d]) false) HI E D K eq_refl) as [I1 L1].
  { intros y. cbn [kedges tio tsub]. rewrite !app_nil_r, cnt_app, cnt_cons. change (cnt y []) with 0. unfold drop, fupd.
    destruct (Nat.eqb_spec y d) as [->|N]; [destruct (Nat.eq_dec d d); [lia|congruence]|destruct (Nat.eq_dec d y); [congruence|lia]]. }
  { pose proof (i_kind _ _ _ _ _ HI t o E D) as KO. rewrite K in KO. cbn in KO |- *. destruct KO as [KO _]. split; [|discriminate]. intros y Hy. apply in_app_iff in Hy.
    destruct Hy as [Hy|[<-|[]]]; auto. }
  specialize (L1 eq_refl). set (s1 := seto s t _) in *.
  destruct (own_live HI d Od) as (od & Ed & Dd & _). assert (Ed1 : heap s1 d = Some od) by (unfold s1, seto; cbn; rewrite fupd_ne; auto).
  destruct (ref_inc_ok (drop own d) s1 d od I1 Ed1 Dd) as (s2 & A2 & E2 & I2 & V1 & V2 & V3 & V4 & V5 & L2). rewrite A2. cbn [bind].
  assert (I2' : INV own s2) by (eapply Inv_own_ext; [|exact I2]; intros y; unfold drop, bump, fupd; destruct (Nat.eqb_spec y d) as [->|]; [rewrite Nat.eqb_refl; lia|auto]).
  assert (DD1 : forall y, dd s1 y = dd s y) by (intros y; unfold dd, s1, seto; cbn; unfold fupd; destruct (Nat.eqb_spec y t) as [->|]; [rewrite E, K; reflexivity|auto]).
  assert (VV1 : forall y, vv s1 y = vv s y) by (intros y; unfold vv, s1, seto; cbn; unfold fupd; destruct (Nat.eqb_spec y t) as [->|]; [rewrite E, K; reflexivity|auto]).
  destruct (kt_dd s d Kd) as (dr & Dr). assert (Dr2 : dd s2 d = Some dr) by now rewrite V4, DD1.
  assert (Ka2 : kt s2 a = Some TVirt). { rewrite V5. unfold kt, s1, seto. cbn. rewrite fupd_ne by auto. exact Ka. }
  destruct (migrate_ok own s2 d a dr I2' Od Oa Dr2 Ka2) as (s3 & A3 & I3 & L3 & N3 & D3 & DO3 & T3).
  { intros dr' b H1 H2 H3 wb wa H4 H5. rewrite V4, DD1 in H1. rewrite V1, VV1 in H4, H5. eapply CP; eauto. }
  exists s3. split; [exact A3|]. split; [exact I3|]. split; [eapply lf_trans; [exact L1|]; eapply lf_trans; eauto|]. split; [rewrite N3, E2; reflexivity|]. split; [|split].
  - apply T3.
    + rewrite V3. unfold tt_, s1, seto. cbn. rewrite fupd_eq. reflexivity.
    + destruct (own_live I3 t Ot) as (ot & Eo & _). congruence.
  - eexists. split; [exact D3|reflexivity].
  - intros y dy N H. apply DO3 in H; auto. now rewrite V4, DD1 in H.
Qed.

Lemma args_init_ok own t a p : forall l s io, INV own s -> 1 <= own t -> 1 <= own a -> tt_ s t = Some (mktask a p io false) -> kt s a = Some TVirt ->
  (forall d, In d l -> 1 <= own d /\ kt s d = Some TData /\ compat s d a) ->
  exists s', args_init s t a l = Ok s' /\ INV own s' /\ lf s s' /\ next s' = next s /\ tt_ s' t = Some (mktask a p (io ++ l) false) /\
    (forall d, In d l -> exists dr, dd s' d = Some dr /\ dacc dr = Some a) /\ (forall y dy, ~ In y l -> dd s' y = Some dy -> dd s y = Some dy).
Proof.
  induction l as [|d l IH]; intros s io HI Ot Oa Tt Ka HL.
  - exists s. cbn. rewrite app_nil_r. split; auto. split; auto. split; [apply lf_refl|]. split; auto. split; auto. split; [tauto|auto].
  - destruct (HL d (or_introl eq_refl)) as (Od & Kd & Cd).
    destruct (arg_init_ok own s t d a p io HI Ot Od Oa Tt Kd Ka Cd) as (s1 & A & I1 & L1 & N1 & T1 & (dr1 & D1 & DA1) & DO1).
    assert (LIVE : forall y, 1 <= own y -> heap s1 y <> None) by (intros y Oy; destruct (own_live I1 y Oy) as (oy & Ey & _); congruence).
    assert (LTN : forall y, 1 <= own y -> y < next s) by (intros y Oy; destruct (own_live HI y Oy) as (oy & Ey & _); eapply (live_lt HI); eauto).
    assert (KT1 : forall y ty, 1 <= own y -> kt s y = Some ty -> kt s1 y = Some ty) by (intros y ty Oy Ky; apply (lf_kt _ _ L1); auto).
    destruct (IH s1 (io ++ [d]) I1 Ot Oa T1) as (s2 & A2 & I2 & L2 & N2 & T2 & D2 & DO2).
    { apply KT1; auto. }
    { intros y Hy. destruct (HL y (or_intror Hy)) as (Oy & Ky & Cy). split; auto. split; [apply KT1; auto|].
      intros dr b H1 H2 H3 wb wa H4 H5. apply (lf_vv _ _ L1) in H4. apply (lf_vv _ _ L1) in H5. destruct (Nat.eq_dec y d) as [->|N]; [congruence|].
      apply DO1 in H1; auto. eapply Cy; eauto. }
    exists s2. cbn [args_init]. rewrite A. cbn [bind]. split; auto. split; auto. split; [eapply lf_trans; eauto|]. split; [congruence|]. split; [rewrite T2, <- app_assoc; reflexivity|]. split.
    + intros y [<-|Hy]; [|auto]. destruct (in_dec Nat.eq_dec d l) as [Hin|Hn]; [auto|].
      assert (Ks2 : kt s2 d = Some TData). { apply (lf_kt _ _ L2); [eapply dd_kt; eauto| |].
        - rewrite N1. apply LTN; auto.
        - destruct (own_live I2 d Od) as (oy & Ey & _); congruence. }
      destruct (kt_dd s2 d Ks2) as (dr2 & Dr2). exists dr2. split; auto. apply DO2 in Dr2; auto. congruence.
    + intros y dy Hn H. cbn in Hn. apply DO2 in H; [|tauto]. apply DO1 in H; auto.
Qed.

(** ** Submission *)
Definition pushq (t : nat) (w : virtr) : virtr := mkvirt (vtype w) (vphys w) (vq w ++ [t]).
Lemma submit_ok own s t a p io wa : INV own s -> 1 <= own t -> 1 <= own a -> tt_ s t = Some (mktask a p io false) -> vv s a = Some wa ->
  exists s', task_submit s t = Ok s' /\ INV own s' /\ (forall v, vv s' v = if v =? a then Some (pushq t wa) else vv s v) /\
    (forall q r', pp s' q = Some r' -> exists r, pp s q = Some r /\ pfvaq r' = pfvaq r) /\ orph s' = orph s /\ next s' = next s /\
    (forall x, tt_ s' x = if x =? t then Some (mktask a p io true) else tt_ s x) /\ (forall x, kt s' x = kt s x) /\ (forall x, dd s' x = dd s x).
Proof.
  intros HI Ot Oa Tt Va. unfold task_submit. destruct (get_task_ok s t _ Tt) as (o & GT & E & K). rewrite GT. cbn [bind tacc].
  destruct (own_live HI t Ot) as (o0 & E0 & D & _). rewrite E in E0. inversion E0; subst o0. clear E0.
  destruct (own_live HI a Oa) as (oa & Ea & Da & _).
  assert (Nta : t <> a) by (intros ->; apply tt_kt in Tt; apply vv_kt in Va; congruence).
  destruct (ref_inc_ok own s a oa HI Ea Da) as (s1 & A1 & E1 & I1 & V1 & V2 & V3 & V4 & V5 & L1). rewrite A1. cbn [bind].
  assert (Tt1 : tt_ s1 t = Some (mktask a p io false)) by now rewrite V3. destruct (get_task_ok s1 t _ Tt1) as (o1 & GT1 & Eo1 & K1). rewrite GT1. cbn [bind tacc tproc tio].
  assert (D1 : dying o1 = false). { rewrite E1 in Eo1. unfold seto in Eo1. cbn in Eo1. rewrite fupd_ne in Eo1 by auto. congruence. }
  destruct (retask_kind_inv (bump own a) own s1 t o1 _ (mktask a p io true) I1 Eo1 D1 K1 eq_refl) as [I2 _].
  { intros y. cbn [kedges tio tsub tacc]. rewrite app_nil_r, cnt_app, cnt_cons. change (cnt y []) with 0. unfold bump, fupd.
    destruct (Nat.eqb_spec y a) as [->|N]; [destruct (Nat.eq_dec a a); [lia|congruence]|destruct (Nat.eq_dec a y); [congruence|lia]]. }
  { pose proof (i_kind _ _ _ _ _ I1 t o1 Eo1 D1) as KO. rewrite K1 in KO. cbn in KO |- *. destruct KO as [KO _]. split; auto. intros _. rewrite V5. eapply vv_kt; eauto. }
  set (s2 := seto s1 t _) in *.
  assert (VV2 : forall y, vv s2 y = vv s y).
  { intros y. rewrite <- V1. unfold vv, s2, seto; cbn. unfold fupd. destruct (Nat.eqb_spec y t) as [->|]; [rewrite Eo1, K1; reflexivity|auto]. }
  assert (PP2 : forall y, pp s2 y = pp s y).
  { intros y. rewrite <- V2. unfold pp, s2, seto; cbn. unfold fupd. destruct (Nat.eqb_spec y t) as [->|]; [rewrite Eo1, K1; reflexivity|auto]. }
  assert (TT2 : forall y, tt_ s2 y = if y =? t then Some (mktask a p io true) else tt_ s y).
  { intros y. rewrite <- V3. unfold tt_, s2, seto; cbn. unfold fupd. destruct (Nat.eqb_spec y t) as [->|]; auto. }
  assert (KT2 : forall y, kt s2 y = kt s y).
  { intros y. rewrite <- V5. unfold kt, s2, seto; cbn. unfold fupd. destruct (Nat.eqb_spec y t) as [->|]; [rewrite Eo1, K1; reflexivity|auto]. }
  assert (DD2 : forall y, dd s2 y = dd s y).
  { intros y. rewrite <- V4. unfold dd, s2, seto; cbn. unfold fupd. destruct (Nat.eqb_spec y t) as [->|]; [rewrite Eo1, K1; reflexivity|auto]. }
  assert (O2 : orph s2 = orph s) by (unfold s2; rewrite E1; reflexivity). assert (N2 : next s2 = next s) by (unfold s2; rewrite E1; reflexivity).
  assert (Va2 : vv s2 a = Some wa) by now rewrite VV2.
  (* the queue *)
  assert (NQ : ~ In t (vq wa)). { intros Hin. destruct (i_q _ _ _ _ (i_place _ _ _ _ _ HI) a wa t Va Hin) as (_ & tr & T & SB & _). rewrite Tt in T. inversion T; subst tr. discriminate. }
  assert (ND : NoDup (vq wa ++ [t])).
  { pose proof (i_qn _ _ _ _ (i_place _ _ _ _ _ HI) a wa Va) as Q. apply NoDup_app_snoc; auto. }
  assert (HQ : forall y, In y (vq wa ++ [t]) -> 1 <= own y /\ exists tr, tt_ s2 y = Some tr /\ tsub tr = true /\ tacc tr = a).
  { intros y Hy. apply in_app_iff in Hy. destruct Hy as [Hy|[<-|[]]].
    - destruct (i_q _ _ _ _ (i_place _ _ _ _ _ I2) a wa y Va2 Hy) as (Q1 & tr & Q2). eauto.
    - split; auto. exists (mktask a p io true). rewrite TT2, Nat.eqb_refl. auto. }
  unfold add_task. destruct (get_virt_ok s2 a wa Va2) as (ov & GV & EV & KV). rewrite GV. cbn [bind].
  assert (SV : set_virt s2 a ov (mkvirt (vtype wa) (vphys wa) (vq wa ++ [t])) = setv s2 a (pushq t wa)) by (unfold setv; rewrite EV; reflexivity).
  destruct (setv_views s2 a wa (pushq t wa) Va2) as (B1 & B2 & B3 & B4 & B5 & B6 & B7 & B8 & B9).
  assert (KT3 : forall y, kt (setv s2 a (pushq t wa)) y = kt s y).
  { intros y. rewrite <- KT2. specialize (B5 y). unfold kt. destruct (heap s2 y), (heap (setv s2 a (pushq t wa)) y); cbn in B5; try tauto. destruct B5 as (_ & _ & _ & _ & Q). now rewrite (ksame_type _ _ Q). }
  destruct (vphys wa) as [ph|] eqn:W.
  - destruct (i_vp _ _ _ _ (i_place _ _ _ _ _ I2) a wa ph Va2 W) as (r & R & IN).
    rewrite SV. set (s3 := setv s2 a (pushq t wa)) in *. assert (R3 : pp s3 ph = Some r) by now rewrite B2.
    destruct (get_phys_ok s3 ph r R3) as (op & GP & EP & KP). rewrite GP. cbn [bind].
    set (r1 := mkphys (ptype r) (ptasks r + 1) (pvacs r) (pfvaq r) (prev r)).
    assert (SP : set_phys s3 ph op r1 = setp s3 ph r1) by (unfold setp; rewrite EP; reflexivity). rewrite SP.
    destruct (setp_views s3 ph r r1 R3 eq_refl) as (C1 & C2 & C3 & C4 & C5 & C6 & C7 & C8 & C9).
    eexists. split; [reflexivity|]. split.
    + unfold s3, pushq. rewrite W. rewrite <- W at 1. unfold r1. eapply (requeue_phys_inv I2 a wa (vq wa ++ [t]) ph r (ptasks r + 1)%Z perm drift); auto.
      * destruct (i_cnt _ _ _ _ (i_place _ _ _ _ _ I2) ph r R). lia.
      * destruct (i_cnt _ _ _ _ (i_place _ _ _ _ _ I2) ph r R). rewrite app_length. cbn [length]. lia.
    + split; [intros v; rewrite C2, B1; destruct (v =? a); auto|]. split.
      { intros q r' H. rewrite C1, B2 in H. destruct (Nat.eqb_spec q ph) as [->|NQ']; [|rewrite PP2 in H; eauto]. inversion H; subst r'. exists r. rewrite PP2 in R. auto. }
      split; [congruence|]. split; [congruence|]. split; [intros x; rewrite C3, B3; apply TT2|]. split.
      { intros y. rewrite <- (KT3 y). specialize (C5 y). unfold kt. fold s3. destruct (heap s3 y), (heap (setp s3 ph r1) y); cbn in C5; try tauto. destruct C5 as (_ & _ & _ & _ & Q). now rewrite (ksame_type _ _ Q). }
      { intros y. rewrite C4, B4. apply DD2. }
  - rewrite SV. eexists. split; [reflexivity|]. split.
    + unfold pushq. rewrite W. rewrite <- W at 1. eapply (requeue_inv I2 a wa (vq wa ++ [t]) perm); auto.
    + split; [intros v; rewrite B1; destruct (v =? a); auto|]. split.
      { intros q r' H. rewrite B2, PP2 in H. eauto. }
      split; [congruence|]. split; [congruence|]. split; [intros x; rewrite B3; apply TT2|]. split; auto.
      intros y. rewrite B4. apply DD2.
Qed.
End Iss.
