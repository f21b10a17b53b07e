(** Preservation of the invariant of the object layer by placement changes and queue operations. *)
From Verif Require Import Base CoreModel CoreInv CoreStep.
Ltac Zify.zify_post_hook ::= idtac.
Arguments N.modulo : simpl never.
Arguments N.add : simpl never.
Arguments N.sub : simpl never.
Arguments Nat.eqb : simpl never.

Definition ksame (k k' : kind) : Prop :=
  match k, k' with
  | KPhys p, KPhys p' => pfvaq p' = pfvaq p
  | KVirt _, KVirt _ => True
  | _, _ => k' = k
  end.
Definition osame (a b : option obj) : Prop :=
  match a, b with
  | Some o, Some o' => rc o' = rc o /\ osz o' = osz o /\ onm o' = onm o /\ dying o' = dying o /\ ksame (knd o) (knd o')
  | None, None => True
  | _, _ => False
  end.
Lemma ksame_refl k : ksame k k.
Proof. destruct k; cbn; auto. Qed.
Lemma osame_refl a : osame a a.
Proof. destruct a; cbn; auto. repeat split; auto using ksame_refl. Qed.
Lemma ksame_type k k' : ksame k k' -> otype_of k' = otype_of k.
Proof. destruct k, k'; cbn; intros; try discriminate; auto. Qed.
Lemma ksame_edges k k' : ksame k k' -> kedges k' = kedges k.
Proof. destruct k, k'; cbn; intros H; try discriminate; auto; try (now inversion H). Qed.
Lemma ksame_trans a b c : ksame a b -> ksame b c -> ksame a c.
Proof. destruct a, b, c; cbn; intros; try discriminate; auto; congruence. Qed.
Lemma osame_trans a b c : osame a b -> osame b c -> osame a c.
Proof.
  destruct a, b, c; cbn; try tauto. intros (A1 & A2 & A3 & A4 & A5) (B1 & B2 & B3 & B4 & B5).
  repeat split; try congruence. eapply ksame_trans; eauto.
Qed.

Lemma frame_inv init own perm drift perm' drift' s s' :
  next s' = next s -> (forall ty, reg s' ty = reg s ty) -> avail s' = avail s ->
  (forall x, osame (heap s x) (heap s' x)) ->
  (forall x, next s <= x -> perm' x = 0 /\ drift' x = 0) ->
  place own perm' drift' s' -> Inv init own perm drift s -> Inv init own perm' drift' s'.
Proof.
  intros EN ER EA EO EG HP [A B C D F G J P].
  assert (HH : forall x o', heap s' x = Some o' -> exists o, heap s x = Some o /\ rc o' = rc o /\ osz o' = osz o /\ dying o' = dying o /\ ksame (knd o) (knd o')).
  { intros x o' H. specialize (EO x). rewrite H in EO. destruct (heap s x) as [o|]; [|destruct EO]. exists o. cbn in EO. tauto. }
  assert (HE : forall x, hedges s' x = hedges s x).
  { intros x. specialize (EO x). unfold hedges. destruct (heap s x), (heap s' x); cbn in EO; try tauto. destruct EO as (_ & _ & _ & D1 & K).
    unfold edges. rewrite D1, (ksame_edges _ _ K). reflexivity. }
  assert (KT : forall x, kt s' x = kt s x).
  { intros x. specialize (EO x). unfold kt. destruct (heap s x), (heap s' x); cbn in EO; try tauto. destruct EO as (_ & _ & _ & D1 & K).
    now rewrite (ksame_type _ _ K). }
  constructor.
  - intros x Hx. rewrite EN in Hx. specialize (EO x). rewrite (A x Hx) in EO. cbn in EO; destruct (heap s' x); [destruct EO|reflexivity].
  - intros x. unfold refs. rewrite EN. rewrite (sumn_ext _ _ (fun y => cnt x (hedges s y))) by (intros; now rewrite HE).
    specialize (EO x). specialize (B x). unfold rcof, refs in *. destruct (heap s x), (heap s' x); cbn in EO; try tauto. destruct EO as (-> & _). exact B.
  - intros x o' H. destruct (HH x o' H) as (o & E & R & _ & D1 & _). rewrite D1, R. exact (C x o E).
  - intros x o' H D1. destruct (HH x o' H) as (o & E & R & _ & D2 & K). rewrite D1 in D2. symmetry in D2. pose proof (D x o E D2) as Q.
    apply (kind_ok_kt s s' _ KT). destruct (knd o), (knd o'); cbn in K; try discriminate; try (inversion K; subst; exact Q); cbn; auto.
    cbn in Q. now rewrite K.
  - intros ty. rewrite ER. destruct (F ty) as [F1 F2]. split; auto. intros x. rewrite F2. unfold lives. specialize (EO x). split; intros (o & E & D1 & T).
    + rewrite E in EO. destruct (heap s' x) as [o'|]; [|destruct EO]. cbn in EO. exists o'. destruct EO as (_ & _ & _ & D2 & K). split; auto. split; [congruence|]. rewrite (ksame_type _ _ K). auto.
    + rewrite E in EO. destruct (heap s x) as [o'|]; [|destruct EO]. cbn in EO. exists o'. destruct EO as (_ & _ & _ & D2 & K). split; auto. split; [congruence|]. rewrite <- (ksame_type _ _ K). auto.
  - rewrite EA. replace (total s') with (total s); auto. unfold total. rewrite EN. apply sumNn_ext. intros x _. specialize (EO x). unfold osize.
    destruct (heap s x), (heap s' x); cbn in EO; try tauto. destruct EO as (_ & -> & _). reflexivity.
  - intros x Hx. rewrite EN in Hx. auto.
  - exact HP.
Qed.

(** ** Sums of queue lengths when one queue changes *)
Lemma sumq_cons s y l : sumq s (y :: l) = qlen s y + sumq s l.
Proof. reflexivity. Qed.
Lemma sumq_out s s' v l : (forall x, x <> v -> vv s' x = vv s x) -> ~ In v l -> sumq s' l = sumq s l.
Proof. intros H N. unfold sumq. f_equal. apply map_ext_in. intros x Hx. unfold qlen. rewrite H; auto. intros ->; auto. Qed.
Lemma sumq_in s s' v l : (forall x, x <> v -> vv s' x = vv s x) -> NoDup l -> In v l -> sumq s' l + qlen s v = sumq s l + qlen s' v.
Proof.
  intros H. induction l as [|y l IH]; intros N I; [destruct I|]. cbn in I. inversion N; subst. destruct (Nat.eq_dec y v) as [->|NE].
  - pose proof (sumq_out s s' v l H H2) as Q. rewrite !sumq_cons. lia.
  - destruct I as [->|I]; [tauto|]. specialize (IH H3 I). rewrite !sumq_cons. assert (qlen s' y = qlen s y) by (unfold qlen; rewrite H; auto). lia.
Qed.
Lemma sumq_remove s v l : NoDup l -> In v l -> sumq s (remove Nat.eq_dec v l) + qlen s v = sumq s l.
Proof.
  induction l as [|y l IH]; intros N I; [destruct I|]. cbn in I. cbn [remove]. inversion N; subst. destruct (Nat.eq_dec v y) as [->|NE].
  - rewrite notin_remove by auto. rewrite !sumq_cons. lia.
  - destruct I as [->|I]; [tauto|]. specialize (IH H2 I). rewrite !sumq_cons. lia.
Qed.
Lemma sumq_ge s v l : In v l -> qlen s v <= sumq s l.
Proof. induction l as [|y l IH]; intros I; [destruct I|]. cbn in I. destruct I as [->|I]; rewrite sumq_cons; [lia|]. specialize (IH I). lia. Qed.

(** ** State with one virtual accelerator and one physical accelerator rewritten *)
Definition setv (s : st) (v : nat) (w : virtr) : st :=
  match heap s v with Some o => set_virt s v o w | None => s end.
Definition setp (s : st) (p : nat) (r : physr) : st :=
  match heap s p with Some o => set_phys s p o r | None => s end.
Lemma setv_views s v w0 w : vv s v = Some w0 ->
  (forall x, vv (setv s v w) x = if x =? v then Some w else vv s x) /\ (forall x, pp (setv s v w) x = pp s x) /\
  (forall x, tt_ (setv s v w) x = tt_ s x) /\ (forall x, dd (setv s v w) x = dd s x) /\ (forall x, osame (heap s x) (heap (setv s v w) x)) /\
  next (setv s v w) = next s /\ (forall ty, reg (setv s v w) ty = reg s ty) /\ avail (setv s v w) = avail s /\ orph (setv s v w) = orph s.
Proof.
  intros V. apply vv_heap in V. destruct V as (o & E & K). unfold setv. rewrite E. unfold set_virt, seto. cbn. unfold vv, pp, tt_, dd. cbn.
  repeat split; intros x; destruct (Nat.eqb_spec x v) as [->|N]; try rewrite fupd_eq; try (rewrite fupd_ne by auto); try rewrite E; cbn; try rewrite K; try reflexivity.
  - repeat split; auto.
  - apply osame_refl.
Qed.
Lemma setp_views s p r0 r : pp s p = Some r0 -> pfvaq r = pfvaq r0 ->
  (forall x, pp (setp s p r) x = if x =? p then Some r else pp s x) /\ (forall x, vv (setp s p r) x = vv s x) /\
  (forall x, tt_ (setp s p r) x = tt_ s x) /\ (forall x, dd (setp s p r) x = dd s x) /\ (forall x, osame (heap s x) (heap (setp s p r) x)) /\
  next (setp s p r) = next s /\ (forall ty, reg (setp s p r) ty = reg s ty) /\ avail (setp s p r) = avail s /\ orph (setp s p r) = orph s.
Proof.
  intros V F. apply pp_heap in V. destruct V as (o & E & K). unfold setp. rewrite E. unfold set_phys, seto. cbn. unfold vv, pp, tt_, dd. cbn.
  repeat split; intros x; destruct (Nat.eqb_spec x p) as [->|N]; try rewrite fupd_eq; try (rewrite fupd_ne by auto); try rewrite E; cbn; try rewrite K; try reflexivity.
  - repeat split; auto.
  - apply osame_refl.
Qed.

Lemma vp_ne s v p w r : vv s v = Some w -> pp s p = Some r -> v <> p.
Proof. intros A B ->. apply vv_kt in A. apply pp_kt in B. congruence. Qed.

(** the code's order of writes: physical first, then virtual *)
Lemma setpv s p v op ov w0 r0 w r : heap s p = Some op -> knd op = KPhys r0 -> heap s v = Some ov -> knd ov = KVirt w0 ->
  set_virt (set_phys s p op r) v ov w = setv (setp s p r) v w.
Proof.
  intros EP KP EV KV. assert (v <> p) by (intros ->; congruence). unfold setv, setp. rewrite EP. unfold set_phys at 2. unfold seto at 1. cbn [heap].
  rewrite fupd_ne, EV by auto. reflexivity.
Qed.
Lemma setvp s p v op ov w0 r0 w r : heap s p = Some op -> knd op = KPhys r0 -> heap s v = Some ov -> knd ov = KVirt w0 ->
  set_phys (set_virt s v ov w) p op r = setp (setv s v w) p r.
Proof.
  intros EP KP EV KV. assert (v <> p) by (intros ->; congruence). unfold setv, setp. rewrite EV. unfold set_virt at 2. unfold seto at 1. cbn [heap].
  rewrite fupd_ne, EP by auto. reflexivity.
Qed.

Section Pl.
Context {init : N} {own perm drift : nat -> nat} {s : st} (HI : Inv init own perm drift s).
Let HP := i_place _ _ _ _ _ HI.

(** orphan list shrinks *)
Lemma setorph_inv l : NoDup l -> (forall v, In v l -> In v (orph s)) -> Inv init own perm drift (setorph s l).
Proof.
  intros N H. apply (frame_inv init own perm drift perm drift s); auto; try (intros; apply osame_refl); try exact (i_ghost _ _ _ _ _ HI).
  destruct HP as [P1 P2 P3 P4 P5 P6]. constructor; auto. split; auto. intros v Hv. apply P3. auto.
Qed.
Lemma linked_iff v w : vv s v = Some w -> linked s v = true <-> (In v (orph s) \/ exists p, vphys w = Some p).
Proof.
  intros V. destruct HP as [P1 P2 P3 P4 P5 P6]. unfold linked. rewrite Bool.orb_true_iff, mem_spec, existsb_exists. split; intros [A|A]; auto; right.
  - destruct A as (p & _ & H). destruct (heap s p) as [o|] eqn:E; [|discriminate]. destruct (knd o) eqn:K; try discriminate.
    apply mem_spec in H. assert (Q : pp s p = Some p0) by (unfold pp; now rewrite E, K). destruct (P2 p p0 Q) as [_ R]. destruct (R v H) as (w' & V' & W').
    rewrite V in V'. inversion V'; subst. eauto.
  - destruct A as (p & H). destruct (P1 v w p V H) as (r & Hr & Hin). exists p. pose proof (pp_heap _ _ _ Hr) as (o & E & K). split.
    + apply in_seq. pose proof (live_lt HI p o E). lia.
    + rewrite E, K. apply mem_spec. exact Hin.
Qed.
Lemma remove_orphan_ok v w : vv s v = Some w -> vphys w = None ->
  exists s', remove_orphan s v = Ok s' /\ s' = setorph s (remove Nat.eq_dec v (orph s)) /\ Inv init own perm drift s' /\ ~ In v (orph s').
Proof.
  intros V W. destruct (get_virt_ok s v w V) as (o & EG & _). unfold remove_orphan. rewrite EG. cbn.
  assert (Q : Inv init own perm drift (setorph s (remove Nat.eq_dec v (orph s)))).
  { apply setorph_inv; [apply nodup_remove; apply (i_or _ _ _ _ HP)|]. intros y. rewrite in_remove_iff. tauto. }
  assert (NI : ~ In v (orph (setorph s (remove Nat.eq_dec v (orph s))))) by (cbn; rewrite in_remove_iff; tauto).
  pose proof (linked_iff v w V) as LK. destruct (linked s v) eqn:L.
  - destruct (proj1 LK eq_refl) as [H|(p & H)]; [|congruence]. apply mem_spec in H. rewrite H. eauto.
  - exists s. assert (N : ~ In v (orph s)) by (intros H; assert (false = true) by (apply LK; auto); discriminate).
    assert (EQ : s = setorph s (remove Nat.eq_dec v (orph s))). { unfold setorph. rewrite notin_remove by auto. destruct s; reflexivity. }
    rewrite <- EQ in *. split; auto.
Qed.

(** a virtual accelerator leaves its physical accelerator *)
Lemma del_vaccel_ok v w p r : vv s v = Some w -> vphys w = Some p -> pp s p = Some r -> (vq w = [] \/ perm p <= 1) ->
  let n := length (vq w) in
  let t := if n =? 0 then ptasks r else (ptasks r - (Z.of_nat n - 1))%Z in
  let s' := setv (setp s p (mkphys (ptype r) t (remove Nat.eq_dec v (pvacs r)) (pfvaq r) (S (prev r)))) v (mkvirt (vtype w) None (vq w)) in
  del_vaccel s p v = Ok s' /\ Inv init own perm (if n =? 0 then drift else fupd drift p (S (drift p))) s'.
Proof.
  intros V W R HN. cbv zeta. set (n := length (vq w)). set (t := if n =? 0 then _ else _).
  pose proof HP as [P1 P2 P3 P4 P5 P6]. destruct (P1 v w p V W) as (r' & R' & IN). rewrite R in R'. inversion R'; subst r'. clear R'.
  destruct (get_virt_ok s v w V) as (ov & GV & EV & KV). destruct (get_phys_ok s p r R) as (op & GP & EP & KP).
  destruct (P2 p r R) as [ND PV].
  set (r1 := mkphys (ptype r) t (remove Nat.eq_dec v (pvacs r)) (pfvaq r) (S (prev r))). set (w1 := mkvirt (vtype w) None (vq w)).
  split.
  { unfold del_vaccel. rewrite GV. cbn. rewrite W. cbn. rewrite Nat.eqb_refl. cbn. rewrite GP. cbn. replace (mem v (pvacs r)) with true by (symmetry; apply mem_spec; auto).
    erewrite setpv; eauto. }
  destruct (setp_views s p r r1 R eq_refl) as (A1 & A2 & A3 & A4 & A5 & A6 & A7 & A8 & A9). set (s1 := setp s p r1) in *.
  assert (V1 : vv s1 v = Some w) by now rewrite A2.
  destruct (setv_views s1 v w w1 V1) as (B1 & B2 & B3 & B4 & B5 & B6 & B7 & B8 & B9). set (s2 := setv s1 v w1) in *.
  assert (VV : forall x, vv s2 x = if x =? v then Some w1 else vv s x) by (intros x; rewrite B1, A2; auto).
  assert (PPX : forall x, pp s2 x = if x =? p then Some r1 else pp s x) by (intros x; rewrite B2, A1; auto).
  assert (TT : forall x, tt_ s2 x = tt_ s x) by (intros x; rewrite B3, A3; auto).
  assert (QL : forall l, sumq s2 l = sumq s l).
  { intros l. unfold sumq. f_equal. apply map_ext. intros x. unfold qlen. rewrite VV. destruct (Nat.eqb_spec x v) as [->|]; auto. now rewrite V. }
  set (dr := if n =? 0 then drift else fupd drift p (S (drift p))).
  assert (LP : p < next s) by (eapply (live_lt HI); eauto).
  apply (frame_inv init own perm drift perm dr s); try congruence; auto.
  - intros x. eapply osame_trans; eauto.
  - intros x Hx. destruct (i_ghost _ _ _ _ _ HI x Hx) as [G1 G2]. split; auto. unfold dr. destruct (n =? 0); auto. rewrite fupd_ne; auto. lia.
  - constructor.
    + intros y wy py. rewrite VV. destruct (Nat.eqb_spec y v) as [->|NE]; [intros H; inversion H; subst; discriminate|]. intros HV HW. rewrite PPX.
      destruct (P1 y wy py HV HW) as (ry & Ry & INy). destruct (Nat.eqb_spec py p) as [->|NP]; [|eauto]. rewrite R in Ry. inversion Ry; subst ry.
      exists r1. split; auto. cbn. rewrite in_remove_iff. auto.
    + intros py ry. rewrite PPX. destruct (Nat.eqb_spec py p) as [->|NP].
      * intros H. inversion H; subst ry. cbn. split; [apply nodup_remove; auto|]. intros y. rewrite in_remove_iff. intros [HY NE]. rewrite VV. apply Nat.eqb_neq in NE. rewrite NE. auto.
      * intros H. destruct (P2 py ry H) as [Q1 Q2]. split; auto. intros y Hy. rewrite VV. destruct (Nat.eqb_spec y v) as [->|NE]; auto.
        destruct (Q2 v Hy) as (w' & V' & W'). rewrite V in V'. inversion V'; subst w'. congruence.
    + rewrite B9, A9. destruct P3 as [Q1 Q2]. split; auto. intros y Hy. rewrite VV. destruct (Nat.eqb_spec y v) as [->|NE]; auto. exists w1. auto.
    + intros y wy ty. rewrite VV, TT. destruct (Nat.eqb_spec y v) as [->|NE]; [|eauto]. intros H. inversion H; subst wy. cbn. eauto.
    + intros y wy. rewrite VV. destruct (Nat.eqb_spec y v) as [->|NE]; [|eauto]. intros H. inversion H; subst wy. cbn. eauto.
    + intros py ry. rewrite PPX, QL. destruct (Nat.eqb_spec py p) as [->|NP].
      * intros H. inversion H; subst ry. cbn [ptasks pvacs r1]. destruct (P6 p r R) as [C1 C2]. pose proof (sumq_remove s v (pvacs r) ND IN) as SR.
        pose proof (sumq_ge s v (pvacs r) IN) as SG.
        assert (QV : qlen s v = n) by (unfold qlen; rewrite V; reflexivity). rewrite QV in *. unfold t, dr. destruct (Nat.eqb_spec n 0) as [N0|N0]; [lia|]. rewrite fupd_eq.
        destruct HN as [HN|HN]; [unfold n in N0; rewrite HN in N0; cbn in N0; lia|]. lia.
      * intros H. replace (dr py) with (drift py); eauto. unfold dr. destruct (n =? 0); auto. now rewrite fupd_ne.
Qed.

(** a virtual accelerator joins a physical accelerator *)
Lemma attach_inv v w p r : vv s v = Some w -> vphys w = None -> ~ In v (orph s) -> pp s p = Some r ->
  let s' := setv (setp s p (mkphys (ptype r) (ptasks r + Z.of_nat (length (vq w))) (v :: pvacs r) (pfvaq r) (S (prev r)))) v (mkvirt (vtype w) (Some p) (vq w)) in
  Inv init own perm drift s'.
Proof.
  intros V W NO R. cbv zeta. pose proof HP as [P1 P2 P3 P4 P5 P6].
  destruct (get_virt_ok s v w V) as (ov & GV & EV & KV). destruct (get_phys_ok s p r R) as (op & GP & EP & KP).
  set (r1 := mkphys _ _ _ _ _). set (w1 := mkvirt _ _ _).
  destruct (setp_views s p r r1 R eq_refl) as (A1 & A2 & A3 & A4 & A5 & A6 & A7 & A8 & A9). set (s1 := setp s p r1) in *.
  assert (V1 : vv s1 v = Some w) by now rewrite A2.
  destruct (setv_views s1 v w w1 V1) as (B1 & B2 & B3 & B4 & B5 & B6 & B7 & B8 & B9). set (s2 := setv s1 v w1) in *.
  assert (VV : forall x, vv s2 x = if x =? v then Some w1 else vv s x) by (intros x; rewrite B1, A2; auto).
  assert (PPX : forall x, pp s2 x = if x =? p then Some r1 else pp s x) by (intros x; rewrite B2, A1; auto).
  assert (TT : forall x, tt_ s2 x = tt_ s x) by (intros x; rewrite B3, A3; auto).
  assert (QL : forall l, sumq s2 l = sumq s l).
  { intros l. unfold sumq. f_equal. apply map_ext. intros x. unfold qlen. rewrite VV. destruct (Nat.eqb_spec x v) as [->|]; auto. now rewrite V. }
  assert (NP : forall py ry, pp s py = Some ry -> ~ In v (pvacs ry)).
  { intros py ry H Hin. destruct (P2 py ry H) as [_ Q]. destruct (Q v Hin) as (w' & V' & W'). rewrite V in V'. inversion V'; subst w'. congruence. }
  apply (frame_inv init own perm drift perm drift s); try congruence; auto.
  - intros x. eapply osame_trans; eauto.
  - exact (i_ghost _ _ _ _ _ HI).
  - constructor.
    + intros y wy py. rewrite VV. destruct (Nat.eqb_spec y v) as [->|NE].
      * intros H. inversion H; subst wy. cbn. intros H1. inversion H1; subst py. rewrite PPX, Nat.eqb_refl. exists r1. split; auto. now left.
      * intros HV HW. rewrite PPX. destruct (P1 y wy py HV HW) as (ry & Ry & INy). destruct (Nat.eqb_spec py p) as [->|NP']; [|eauto]. rewrite R in Ry. inversion Ry; subst ry.
        exists r1. split; auto. now right.
    + intros py ry. rewrite PPX. destruct (Nat.eqb_spec py p) as [->|NP'].
      * intros H. inversion H; subst ry. cbn. destruct (P2 p r R) as [Q1 Q2]. split; [constructor; eauto|]. intros y [<-|HY]; rewrite VV.
        { rewrite Nat.eqb_refl. exists w1. auto. }
        { destruct (Nat.eqb_spec y v) as [->|NE]; auto. exists w1. auto. }
      * intros H. destruct (P2 py ry H) as [Q1 Q2]. split; auto. intros y Hy. rewrite VV. destruct (Nat.eqb_spec y v) as [->|NE]; auto.
        exfalso. eapply NP; eauto.
    + rewrite B9, A9. destruct P3 as [Q1 Q2]. split; auto. intros y Hy. rewrite VV. destruct (Nat.eqb_spec y v) as [->|NE]; auto. tauto.
    + intros y wy ty. rewrite VV, TT. destruct (Nat.eqb_spec y v) as [->|NE]; [|eauto]. intros H. inversion H; subst wy. cbn. eauto.
    + intros y wy. rewrite VV. destruct (Nat.eqb_spec y v) as [->|NE]; [|eauto]. intros H. inversion H; subst wy. cbn. eauto.
    + intros py ry. rewrite PPX, QL. destruct (Nat.eqb_spec py p) as [->|NP'].
      * intros H. inversion H; subst ry. cbn [ptasks pvacs r1]. destruct (P6 p r R) as [C1 C2].
        assert (QV : qlen s v = length (vq w)) by (unfold qlen; rewrite V; reflexivity). rewrite sumq_cons, QV. lia.
      * intros H. eauto.
Qed.

(** a virtual accelerator becomes an orphan *)
Lemma add_orphan_ok v w : vv s v = Some w -> vphys w = None -> ~ In v (orph s) ->
  add_orphan s v = Ok (setorph s (v :: orph s)) /\ Inv init own perm drift (setorph s (v :: orph s)).
Proof.
  intros V W N. split.
  - unfold add_orphan. destruct (get_virt_ok s v w V) as (o & EG & _). rewrite EG. cbn. rewrite W. cbn.
    pose proof (linked_iff v w V) as LK. destruct (linked s v); auto. destruct (proj1 LK eq_refl) as [H|(p & H)]; [tauto|congruence].
  - apply (frame_inv init own perm drift perm drift s); auto; try (intros; apply osame_refl); try exact (i_ghost _ _ _ _ _ HI).
    destruct HP as [P1 P2 [P31 P32] P4 P5 P6]. constructor; [exact P1|exact P2| |exact P4|exact P5|exact P6]. cbn. split; [constructor; auto|]. intros y [<-|Hy]; [exists w; auto|exact (P32 y Hy)].
Qed.

(** the queue of a virtual accelerator and the pending counter of its physical accelerator change *)
Lemma requeue_inv v w q perm' :
  vv s v = Some w -> NoDup q -> (forall t, In t q -> 1 <= own t /\ exists tr, tt_ s t = Some tr /\ tsub tr = true /\ tacc tr = v) ->
  vphys w = None -> (forall x, perm' x = perm x) ->
  Inv init own perm' drift (setv s v (mkvirt (vtype w) (vphys w) q)).
Proof.
  intros V ND HQ W EP. pose proof HP as [P1 P2 P3 P4 P5 P6]. set (w1 := mkvirt _ _ _).
  destruct (setv_views s v w w1 V) as (B1 & B2 & B3 & B4 & B5 & B6 & B7 & B8 & B9). set (s2 := setv s v w1) in *.
  apply (frame_inv init own perm drift perm' drift s); try congruence; auto.
  - intros x Hx. rewrite EP. exact (i_ghost _ _ _ _ _ HI x Hx).
  - constructor.
    + intros y wy py. rewrite B1, B2. destruct (Nat.eqb_spec y v) as [->|NE]; [|eauto]. intros H. inversion H; subst wy. cbn. congruence.
    + intros py ry. rewrite B2. intros H. destruct (P2 py ry H) as [Q1 Q2]. split; auto. intros y Hy. rewrite B1. destruct (Nat.eqb_spec y v) as [->|NE]; auto.
      destruct (Q2 v Hy) as (w' & V' & W'). congruence.
    + rewrite B9. destruct P3 as [Q1 Q2]. split; auto. intros y Hy. rewrite B1. destruct (Nat.eqb_spec y v) as [->|NE]; auto. exists w1. auto.
    + intros y wy ty. rewrite B1, B3. destruct (Nat.eqb_spec y v) as [->|NE]; [|eauto]. intros H. inversion H; subst wy. cbn. eauto.
    + intros y wy. rewrite B1. destruct (Nat.eqb_spec y v) as [->|NE]; [|eauto]. intros H. inversion H; subst wy. cbn. eauto.
    + intros py ry. rewrite B2, EP. intros H. rewrite (sumq_out s s2 v (pvacs ry)); auto.
      * intros x Hx. rewrite B1. apply Nat.eqb_neq in Hx. now rewrite Hx.
      * intros Hin. destruct (P2 py ry H) as [_ Q]. destruct (Q v Hin) as (w' & V' & W'). congruence.
Qed.

Lemma requeue_phys_inv v w q p r tk perm' drift' :
  vv s v = Some w -> NoDup q -> (forall t, In t q -> 1 <= own t /\ exists tr, tt_ s t = Some tr /\ tsub tr = true /\ tacc tr = v) ->
  vphys w = Some p -> pp s p = Some r -> (forall x, x <> p -> perm' x = perm x /\ drift' x = drift x) ->
  (0 <= tk)%Z -> (tk + Z.of_nat (perm' p) + Z.of_nat (length (vq w)) = Z.of_nat (sumq s (pvacs r) + drift' p + length q))%Z ->
  Inv init own perm' drift' (setp (setv s v (mkvirt (vtype w) (vphys w) q)) p (mkphys (ptype r) tk (pvacs r) (pfvaq r) (prev r))).
Proof.
  intros V ND HQ W R EP T0 TE. pose proof HP as [P1 P2 P3 P4 P5 P6]. set (w1 := mkvirt _ _ _). set (r1 := mkphys _ _ _ _ _).
  destruct (setv_views s v w w1 V) as (A1 & A2 & A3 & A4 & A5 & A6 & A7 & A8 & A9). set (s1 := setv s v w1) in *.
  assert (R1 : pp s1 p = Some r) by now rewrite A2.
  destruct (setp_views s1 p r r1 R1 eq_refl) as (B1 & B2 & B3 & B4 & B5 & B6 & B7 & B8 & B9). set (s2 := setp s1 p r1) in *.
  assert (VV : forall x, vv s2 x = if x =? v then Some w1 else vv s x) by (intros x; rewrite B2, A1; auto).
  assert (PPX : forall x, pp s2 x = if x =? p then Some r1 else pp s x) by (intros x; rewrite B1, A2; auto).
  assert (TT : forall x, tt_ s2 x = tt_ s x) by (intros x; rewrite B3, A3; auto).
  assert (VN : forall x, x <> v -> vv s2 x = vv s x) by (intros x Hx; rewrite VV; apply Nat.eqb_neq in Hx; now rewrite Hx).
  destruct (P1 v w p V W) as (r' & R' & IN). rewrite R in R'. inversion R'; subst r'. clear R'. destruct (P2 p r R) as [NDP QP].
  assert (LP : p < next s) by (apply pp_heap in R; destruct R as (o & E & _); eapply (live_lt HI); eauto).
  apply (frame_inv init own perm drift perm' drift' s); try congruence; auto.
  - intros x. eapply osame_trans; eauto.
  - intros x Hx. destruct (EP x ltac:(lia)) as [-> ->]. exact (i_ghost _ _ _ _ _ HI x Hx).
  - constructor.
    + intros y wy py. rewrite VV. intros HV HW.
      assert (exists ry, pp s py = Some ry /\ In y (pvacs ry)) as (ry & Ry & INy).
      { destruct (Nat.eqb_spec y v) as [->|NE]; eauto. inversion HV; subst wy. cbn in HW. eauto. }
      rewrite PPX. destruct (Nat.eqb_spec py p) as [->|NP]; [|eauto]. rewrite R in Ry. inversion Ry; subst ry. exists r1. split; auto.
    + intros py ry. rewrite PPX. intros H.
      assert (exists r0, pp s py = Some r0 /\ pvacs r0 = pvacs ry) as (r0 & R0 & PE).
      { destruct (Nat.eqb_spec py p) as [->|NP]; eauto. inversion H; subst ry. eauto. }
      rewrite <- PE. destruct (P2 py r0 R0) as [Q1 Q2]. split; auto. intros y Hy. destruct (Q2 y Hy) as (w' & V' & W').
      rewrite VV. destruct (Nat.eqb_spec y v) as [->|NE]; eauto. exists w1. split; auto. cbn. congruence.
    + rewrite B9, A9. destruct P3 as [Q1 Q2]. split; auto. intros y Hy. rewrite VV. destruct (Nat.eqb_spec y v) as [->|NE]; auto.
      destruct (Q2 v Hy) as (w' & V' & W'). congruence.
    + intros y wy ty. rewrite VV, TT. destruct (Nat.eqb_spec y v) as [->|NE]; [|eauto]. intros H. inversion H; subst wy. cbn. eauto.
    + intros y wy. rewrite VV. destruct (Nat.eqb_spec y v) as [->|NE]; [|eauto]. intros H. inversion H; subst wy. cbn. eauto.
    + intros py ry. rewrite PPX. destruct (Nat.eqb_spec py p) as [->|NP].
      * intros H. inversion H; subst ry. cbn [ptasks pvacs r1]. pose proof (sumq_in s s2 v (pvacs r) VN NDP IN) as SI.
        assert (QV : qlen s v = length (vq w)) by (unfold qlen; rewrite V; reflexivity).
        assert (QV2 : qlen s2 v = length q) by (unfold qlen; rewrite VV, Nat.eqb_refl; reflexivity). lia.
      * intros H. destruct (EP py NP) as [-> ->]. rewrite (sumq_out s s2 v (pvacs ry)); auto.
        intros Hin. destruct (P2 py ry H) as [_ Q]. destruct (Q v Hin) as (w' & V' & W'). congruence.
Qed.

(** only the pending counter of a physical accelerator changes *)
Lemma retask_inv p r tk perm' drift' :
  pp s p = Some r -> (forall x, x <> p -> perm' x = perm x /\ drift' x = drift x) ->
  (0 <= tk)%Z -> (tk + Z.of_nat (perm' p) = Z.of_nat (sumq s (pvacs r) + drift' p))%Z ->
  Inv init own perm' drift' (setp s p (mkphys (ptype r) tk (pvacs r) (pfvaq r) (prev r))).
Proof.
  intros R EP T0 TE. pose proof HP as [P1 P2 P3 P4 P5 P6]. set (r1 := mkphys _ _ _ _ _).
  destruct (setp_views s p r r1 R eq_refl) as (B1 & B2 & B3 & B4 & B5 & B6 & B7 & B8 & B9). set (s2 := setp s p r1) in *.
  assert (SQ : forall l, sumq s2 l = sumq s l) by (intros l; unfold sumq; f_equal; apply map_ext; intros x; unfold qlen; now rewrite B2).
  assert (LP : p < next s) by (apply pp_heap in R; destruct R as (o & E & _); eapply (live_lt HI); eauto).
  apply (frame_inv init own perm drift perm' drift' s); try congruence; auto.
  - intros x Hx. destruct (EP x ltac:(lia)) as [-> ->]. exact (i_ghost _ _ _ _ _ HI x Hx).
  - constructor.
    + intros y wy py. rewrite B2, B1. intros HV HW. destruct (P1 y wy py HV HW) as (ry & Ry & INy). destruct (Nat.eqb_spec py p) as [->|NP]; [|eauto].
      rewrite R in Ry. inversion Ry; subst ry. exists r1. auto.
    + intros py ry. rewrite B1. intros H.
      assert (exists r0, pp s py = Some r0 /\ pvacs r0 = pvacs ry) as (r0 & R0 & PE).
      { destruct (Nat.eqb_spec py p) as [->|NP]; eauto. inversion H; subst ry. eauto. }
      rewrite <- PE. destruct (P2 py r0 R0) as [Q1 Q2]. split; auto. intros y Hy. rewrite B2. auto.
    + rewrite B9. destruct P3 as [Q1 Q2]. split; auto. intros y Hy. rewrite B2. auto.
    + intros y wy ty. rewrite B2, B3. eauto.
    + intros y wy. rewrite B2. eauto.
    + intros py ry. rewrite B1, SQ. destruct (Nat.eqb_spec py p) as [->|NP].
      * intros H. inversion H; subst ry. cbn [ptasks pvacs r1]. auto.
      * intros H. destruct (EP py NP) as [-> ->]. eauto.
Qed.
End Pl.
