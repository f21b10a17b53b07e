(** Dropping a reference: never undefined, never aborts, destroys exactly the unreferenced objects. *)
From Verif Require Import Base CoreModel CoreInv CoreStep CorePlace.
Ltac Zify.zify_post_hook ::= idtac.
Arguments N.modulo : simpl never.
Arguments N.add : simpl never.
Arguments N.sub : simpl never.
Arguments Nat.eqb : simpl never.

(** what a destruction leaves unchanged *)
Definition krel (k k' : kind) : Prop :=
  match k, k' with
  | KPhys r, KPhys r' => ptype r' = ptype r /\ ptasks r' = ptasks r /\ pfvaq r' = pfvaq r /\ (forall v, In v (pvacs r') -> In v (pvacs r)) /\ prev r <= prev r'
  | _, _ => k' = k
  end.
Lemma krel_refl k : krel k k.
Proof. destruct k; cbn; auto 6. Qed.
Lemma krel_trans a b c : krel a b -> krel b c -> krel a c.
Proof.
  destruct a, b, c; cbn; intros; try discriminate; try congruence; auto.
  destruct H as (A1 & A2 & A3 & A4 & A5), H0 as (B1 & B2 & B3 & B4 & B5). repeat split; try congruence; auto. lia.
Qed.
Lemma krel_type k k' : krel k k' -> otype_of k' = otype_of k.
Proof. destruct k, k'; cbn; intros; try discriminate; auto. Qed.
Definition fr (s s' : st) : Prop :=
  next s' = next s /\ ((forall v, In v (orph s') -> In v (orph s)) /\ forall v, In v (orph s) -> heap s' v <> None -> In v (orph s')) /\ (forall y o, heap s y = Some o -> dying o = true -> heap s' y <> None) /\
  forall x o', heap s' x = Some o' -> exists o, heap s x = Some o /\ osz o' = osz o /\ onm o' = onm o /\ rc o' <= rc o /\ (dying o' = dying o) /\ krel (knd o) (knd o').
Lemma fr_refl s : fr s s.
Proof. repeat split; auto; [congruence|]. intros x o' H. exists o'. auto 8 using krel_refl. Qed.
Lemma fr_trans a b c : fr a b -> fr b c -> fr a c.
Proof.
  intros (A1 & A2 & A0 & A3) (B1 & B2 & B0 & B3). split; [congruence|]. destruct A2 as [A2 A2'], B2 as [B2 B2']. split.
  { split; auto. intros v Hv Hc. apply B2'; auto. apply A2'; auto. destruct (heap c v) as [oc|] eqn:Ec; [|congruence]. destruct (B3 v oc Ec) as (ob & Eb & _). congruence. }
  split.
  { intros y o E D. destruct (heap b y) as [o1|] eqn:E1; [|exfalso; eapply A0; eauto]. destruct (A3 y o1 E1) as (o2 & E2 & _ & _ & _ & Q4 & _).
    rewrite E in E2. inversion E2; subst o2. apply (B0 y o1 E1). congruence. }
  intros x o' H. destruct (B3 x o' H) as (o & E & Q1 & Q2 & Q3 & Q4 & Q5).
  destruct (A3 x o E) as (o1 & E1 & R1 & R2 & R3 & R4 & R5). exists o1. repeat split; try congruence; try lia. eapply krel_trans; eauto.
Qed.
Lemma fr_kt s s' x ty : fr s s' -> heap s' x <> None -> kt s x = Some ty -> kt s' x = Some ty.
Proof.
  intros (_ & _ & _ & H) N K. unfold kt in *. destruct (heap s' x) as [o'|] eqn:E; [|congruence]. destruct (H x o' E) as (o & E1 & _ & _ & _ & _ & KR).
  rewrite E1 in K. now rewrite (krel_type _ _ KR).
Qed.
Lemma fr_vv s s' x w : fr s s' -> vv s' x = Some w -> vv s x = Some w.
Proof.
  intros (_ & _ & _ & H) V. apply vv_heap in V. destruct V as (o' & E & K). destruct (H x o' E) as (o & E1 & _ & _ & _ & _ & KR). unfold vv. rewrite E1.
  rewrite K in KR. destruct (knd o); cbn in KR; congruence.
Qed.
Lemma fr_tt s s' x w : fr s s' -> tt_ s' x = Some w -> tt_ s x = Some w.
Proof.
  intros (_ & _ & _ & H) V. apply tt_heap in V. destruct V as (o' & E & K). destruct (H x o' E) as (o & E1 & _ & _ & _ & _ & KR). unfold tt_. rewrite E1.
  rewrite K in KR. destruct (knd o); cbn in KR; congruence.
Qed.
Lemma fr_dd s s' x w : fr s s' -> dd s' x = Some w -> dd s x = Some w.
Proof.
  intros (_ & _ & _ & H) V. apply dd_heap in V. destruct V as (o' & E & K). destruct (H x o' E) as (o & E1 & _ & _ & _ & _ & KR). unfold dd. rewrite E1.
  rewrite K in KR. destruct (knd o); cbn in KR; congruence.
Qed.
Lemma fr_pp s s' x r' : fr s s' -> pp s' x = Some r' -> exists r, pp s x = Some r /\ krel (KPhys r) (KPhys r').
Proof.
  intros (_ & _ & _ & H) V. apply pp_heap in V. destruct V as (o' & E & K). destruct (H x o' E) as (o & E1 & _ & _ & _ & _ & KR). unfold pp. rewrite E1.
  rewrite K in KR. destruct (knd o) as [r| | | |] eqn:K1; try discriminate. exists r. auto.
Qed.
Lemma fr_rcof s s' x : fr s s' -> rcof s' x <= rcof s x.
Proof.
  intros (_ & _ & _ & H). unfold rcof. destruct (heap s' x) as [o'|] eqn:E; [|lia]. destruct (H x o' E) as (o & E1 & _ & _ & L & _). rewrite E1. exact L.
Qed.

(** the same for every object but [x] *)
Definition frx (x : nat) (s s' : st) : Prop :=
  next s' = next s /\ ((forall v, In v (orph s') -> In v (orph s)) /\ forall v, In v (orph s) -> v <> x -> heap s' v <> None -> In v (orph s')) /\ (forall y o, heap s y = Some o -> dying o = true -> heap s' y <> None) /\
  forall y o', y <> x -> heap s' y = Some o' -> exists o, heap s y = Some o /\ osz o' = osz o /\ onm o' = onm o /\ rc o' <= rc o /\ (dying o' = dying o) /\ krel (knd o) (knd o').
Lemma fr_frx x s s' : fr s s' -> frx x s s'.
Proof. intros (A & [B B'] & Z & C). repeat split; auto. Qed.

(** destroying [x] around a body that satisfies the frame *)
Lemma fr_around s x o s2 : heap s x = Some o -> dying o = false -> frx x (die s x o) s2 -> fr s (release_mem s2 x (osz o)).
Proof.
  intros E D (A & [B B'] & Z & C). split; [exact A|]. split; [split; [exact B|]|split].
  { intros v Hv Hl. unfold release_mem in Hl. cbn in Hl. destruct (Nat.eqb_spec v x) as [->|N]; [congruence|]. apply B'; auto. }
  { intros y oy Ey Dy. unfold release_mem. cbn. destruct (Nat.eqb_spec y x) as [->|N]; [congruence|]. eapply (Z y oy); auto.
    unfold die, unregister, seto. cbn. now rewrite fupd_ne. }
  intros y o' H. unfold release_mem in H. cbn in H.
  destruct (Nat.eqb_spec y x) as [->|N]; [discriminate|]. destruct (C y o' N H) as (o1 & E1 & Q). exists o1. split; auto.
  unfold die, unregister, seto in E1. cbn in E1. rewrite fupd_ne in E1 by auto. exact E1.
Qed.
Lemma frame_dying s s' x o : fr s s' -> heap s x = Some o -> dying o = true ->
  exists o', heap s' x = Some o' /\ dying o' = true /\ osz o' = osz o /\ krel (knd o) (knd o').
Proof.
  intros (_ & _ & Z & C) E D. destruct (heap s' x) as [o'|] eqn:E'; [|exfalso; eapply Z; eauto]. exists o'. destruct (C x o' E') as (o1 & E1 & Q1 & Q2 & Q3 & Q4 & Q5).
  rewrite E in E1. inversion E1; subst o1. repeat split; auto. congruence.
Qed.
Lemma die_views s x o : heap s x = Some o ->
  (forall y, vv (die s x o) y = vv s y) /\ (forall y, pp (die s x o) y = pp s y) /\ (forall y, tt_ (die s x o) y = tt_ s y) /\
  (forall y, dd (die s x o) y = dd s y) /\ (forall y, kt (die s x o) y = kt s y) /\ heap (die s x o) x = Some (mkobj 0 (osz o) (onm o) true (knd o)) /\
  (forall y, y <> x -> heap (die s x o) y = heap s y) /\ orph (die s x o) = orph s /\ next (die s x o) = next s.
Proof.
  intros E. assert (E' : heap (die s x o) x = Some (mkobj 0 (osz o) (onm o) true (knd o))) by (unfold die, unregister, seto; cbn; apply fupd_eq).
  assert (EN : forall i, i <> x -> heap (die s x o) i = heap s i) by (intros i Hi; unfold die, unregister, seto; cbn; apply fupd_ne; auto).
  destruct (views_same s _ x o _ E E' eq_refl EN) as (V1 & V2 & V3 & V4 & V5). auto 10.
Qed.

Definition queued (s : st) (x : nat) : Prop := exists v w, vv s v = Some w /\ In x (vq w).

Section Dec.
Context (init : N) (perm drift : nat -> nat).
Notation INV own s := (Inv init own perm drift s).

Lemma dec_many f own s x : INV own s -> 1 <= own x -> rcof s x <> 1 -> (queued s x -> 2 <= own x) ->
  exists s', ref_dec (S f) s x = Ok (s', rcof s x - 1) /\ INV (drop own x) s' /\ fr s s' /\ heap s' x <> None.
Proof.
  intros HI O R Q. destruct (own_live HI x O) as (o & E & D & RC). unfold rcof in *. rewrite E in *.
  exists (seto s x (with_rc o (rc o - 1))). cbn [ref_dec]. unfold get. rewrite E.
  pose proof (i_dy _ _ _ _ _ HI x o E) as P. rewrite D in P. assert (L0 : (0 <? rc o) = true) by (apply Nat.ltb_lt; auto). cbn [bind]. rewrite L0. cbn [assert_ bind].
  apply Nat.eqb_neq in R. rewrite R. apply Nat.eqb_neq in R. split; auto. split; [|split].
  - apply (setrc_inv init own); auto; try lia.
    + unfold drop. rewrite fupd_eq. lia.
    + intros y N. unfold drop. now rewrite fupd_ne.
    + intros v w V I. unfold drop. rewrite fupd_eq. assert (2 <= own x) by (apply Q; exists v, w; auto). lia.
  - split; [reflexivity|]. split; [auto|]. split.
    { intros y oy Ey Dy. unfold seto. cbn. unfold fupd. destruct (y =? x); congruence. }
    intros y o' H. unfold seto in H. cbn in H. destruct (Nat.eq_dec y x) as [->|N].
    + rewrite fupd_eq in H. inversion H; subst o'. exists o. cbn. repeat split; auto; try lia. apply krel_refl.
    + rewrite fupd_ne in H by auto. exists o'. auto 8 using krel_refl.
  - unfold seto. cbn. rewrite fupd_eq. discriminate.
Qed.

Lemma not_queued own s x ty : INV own s -> kt s x = Some ty -> ty <> TTask -> ~ queued s x.
Proof.
  intros HI K N (v & w & V & I). destruct (i_q _ _ _ _ (i_place _ _ _ _ _ HI) v w x V I) as (_ & tr & T & _). apply tt_kt in T. congruence.
Qed.

(** one destruction, given the behaviour of the destructor's body *)
Lemma dec_last own s x o : INV own s -> heap s x = Some o -> 1 <= own x -> rc o = 1 -> (queued s x -> 2 <= own x) ->
  INV (add (drop own x) (kedges (knd o))) (die s x o) /\ own x = 1 /\ refs s x = 0 /\ dying o = false.
Proof.
  intros HI E O R Q. destruct (own_live HI x O) as (o1 & E1 & D & RC). rewrite E in E1. inversion E1; subst o1.
  split; [|split; [lia|split; [lia|auto]]].
  replace (kedges (knd o)) with (edges o) by (unfold edges; now rewrite D). apply die_inv; auto. intros v w V I. apply Q. exists v, w. auto.
Qed.

Lemma drop_ext own own' x : (forall y, own' y = own y) -> forall y, drop own' x y = drop own x y.
Proof. intros H y. unfold drop, fupd. destruct (y =? x); now rewrite ?H. Qed.

Lemma dec_unfold f s x o : heap s x = Some o -> rc o = 1 ->
  ref_dec (S f) s x =
    (do s2 <- match knd o with
               | KTask t => do s2 <- iter_dec (ref_dec f) (die s x o) (tio t); do (s3, _) <- ref_dec f s2 (tacc t); Ok s3
               | KData d => match dacc d with
                            | Some a => do ao <- get (die s x o) a; do _ <- assert_ (otype_eqb (otype_of (knd ao)) TVirt);
                                        do (s2, _) <- ref_dec f (die s x o) a; Ok s2
                            | None => Ok (die s x o)
                            end
               | KVirt w => match vphys w with Some p => del_vaccel (die s x o) p x | None => remove_orphan (die s x o) x end
               | KPhys p => match pfvaq p with
                            | Some v => do (s2, _) <- ref_dec f (die s x o) v; Ok s2
                            | None => UB
                            end
               | KProc _ => Ok (die s x o)
               end;
      Ok (release_mem s2 x (osz o), 0)).
Proof. intros E R. cbn [ref_dec]. unfold get at 1. rewrite E. cbn [bind]. rewrite R. reflexivity. Qed.

Lemma virt_dec f own s x w : INV own s -> 1 <= own x -> vv s x = Some w ->
  exists s', ref_dec (S f) s x = Ok (s', rcof s x - 1) /\ INV (drop own x) s' /\ fr s s' /\ (rcof s x = 1 <-> heap s' x = None).
Proof.
  intros HI O V. assert (NQ : queued s x -> 2 <= own x) by (intros H; exfalso; revert H; eapply not_queued; eauto using vv_kt; discriminate).
  destruct (Nat.eq_dec (rcof s x) 1) as [R|R].
  2:{ destruct (dec_many f own s x HI O R NQ) as (s' & A & B & C & D). exists s'. split; auto. split; auto. split; auto. split; intros; congruence. }
  destruct (vv_heap s x w V) as (o & E & K). unfold rcof in *. rewrite E in *.
  destruct (dec_last own s x o HI E O R NQ) as (I1 & O1 & RF & D). rewrite K in I1. cbn in I1.
  pose proof (die_views s x o E) as (V1 & V2 & V3 & V4 & V5 & EX & EN & OR & NX).
  assert (I2 : INV (drop own x) (die s x o)) by (eapply Inv_own_ext; [|exact I1]; intros y; unfold add; cbn; lia).
  clear I1. assert (VD : vv (die s x o) x = Some w) by now rewrite V1.
  pose proof (noref_queue HI x w V RF) as QE.
  assert (HB : exists s2, match vphys w with Some p => del_vaccel (die s x o) p x | None => remove_orphan (die s x o) x end = Ok s2 /\ INV (drop own x) s2 /\ frx x (die s x o) s2 /\
    (exists o2, heap s2 x = Some o2 /\ dying o2 = true /\ osz o2 = osz o) /\ (forall w2, vv s2 x = Some w2 -> vphys w2 = None /\ ~ In x (orph s2)) /\ pp s2 x = None).
  { destruct (vphys w) as [p|] eqn:W.
    - destruct (i_vp _ _ _ _ (i_place _ _ _ _ _ I2) x w p VD W) as (r & Rp & IN).
      destruct (del_vaccel_ok I2 x w p r VD W Rp (or_introl QE)) as [A B]. cbv zeta in *. rewrite QE in A, B. cbn [length] in A, B. rewrite Nat.eqb_refl in A, B.
      set (r1 := mkphys _ _ _ _ _) in *. set (w1 := mkvirt _ _ _) in *. set (sd := die s x o) in *.
      destruct (setp_views sd p r r1 Rp eq_refl) as (A1 & A2 & A3 & A4 & A5 & A6 & A7 & A8 & A9). set (s1 := setp sd p r1) in *.
      assert (Vx1 : vv s1 x = Some w) by now rewrite A2.
      destruct (setv_views s1 x w w1 Vx1) as (B1 & B2 & B3 & B4 & B5 & B6 & B7 & B8 & B9). set (s2 := setv s1 x w1) in *.
      assert (NE : x <> p) by (exact (vp_ne _ _ _ _ _ VD Rp)).
      exists s2. split; [exact A|]. split; [exact B|]. split; [|split; [|split]].
      + split; [congruence|]. split; [split; [intros v Hv; rewrite B9, A9 in Hv; exact Hv|intros v Hv _ _; rewrite B9, A9; exact Hv]|]. split.
        { intros y oy Ey _. pose proof (osame_trans _ _ _ (A5 y) (B5 y)) as SM. rewrite Ey in SM. destruct (heap s2 y); [discriminate|destruct SM]. }
        intros y o' Ny H.
        pose proof (osame_trans _ _ _ (A5 y) (B5 y)) as SM. rewrite H in SM. destruct (heap sd y) as [oy|] eqn:EY; [|destruct SM]. exists oy. split; auto.
        destruct SM as (S1 & S2 & S3 & S4 & S5). repeat split; auto; try lia.
        destruct (knd oy) eqn:KY, (knd o') eqn:KO; cbn in S5; try discriminate; auto; cbn.
        * assert (P2 : pp s2 y = Some p1) by (unfold pp; now rewrite H, KO). rewrite B2, A1 in P2.
          assert (PD : pp sd y = Some p0) by (unfold pp; now rewrite EY, KY). destruct (Nat.eqb_spec y p) as [->|NP].
          { rewrite Rp in PD. inversion PD; subst p0. inversion P2; subst p1. cbn. repeat split; auto. intros v Hv. apply in_remove_iff in Hv. tauto. }
          { rewrite PD in P2. inversion P2; subst. auto 8. }
        * assert (P2 : vv s2 y = Some v0) by (unfold vv; now rewrite H, KO). rewrite B1, A2 in P2. apply Nat.eqb_neq in Ny. rewrite Ny in P2.
          assert (vv sd y = Some v) by (unfold vv; now rewrite EY, KY). congruence.
      + specialize (B5 x). specialize (A5 x). pose proof (osame_trans _ _ _ A5 B5) as SM. rewrite EX in SM. destruct (heap s2 x) as [o2|]; [|destruct SM].
        exists o2. destruct SM as (S1 & S2 & S3 & S4 & S5). auto.
      + intros w2 Hw. rewrite B1, Nat.eqb_refl in Hw. inversion Hw; subst w2. split; auto. rewrite B9, A9, OR. intros Hin.
        destruct (i_or _ _ _ _ (i_place _ _ _ _ _ HI)) as [_ Q]. destruct (Q x Hin) as (w' & V' & W'). congruence.
      + rewrite B2, A1. apply Nat.eqb_neq in NE. rewrite NE. unfold pp. now rewrite EX, K.
    - destruct (remove_orphan_ok I2 x w VD W) as (s2 & A & B & C & DD). exists s2. split; auto. split; auto. split; [|split; [|split]].
      + subst s2. split; [reflexivity|]. split; [split; intros v; cbn; rewrite in_remove_iff; tauto|]. split; [cbn; congruence|]. intros y o' _ H. exists o'. auto 8 using krel_refl.
      + subst s2. cbn. exists (mkobj 0 (osz o) (onm o) true (knd o)). auto.
      + intros w2 Hw. subst s2. change (vv (die s x o) x = Some w2) in Hw. rewrite VD in Hw. inversion Hw; subst. auto.
      + subst s2. change (pp (die s x o) x = None). unfold pp. now rewrite EX, K. }
  destruct HB as (s2 & A & B & C & (o2 & E2 & D2 & S2) & G & H2).
  exists (release_mem s2 x (osz o)). rewrite (dec_unfold f s x o E R), K, A. cbn. rewrite R. split; auto. split; [|split].
  - rewrite <- S2. apply release_inv; auto. intros r. congruence.
  - apply fr_around; auto.
  - rewrite Nat.eqb_refl. tauto.
Qed.

Lemma proc_dec f own s x : INV own s -> 1 <= own x -> kt s x = Some TProc ->
  exists s', ref_dec (S f) s x = Ok (s', rcof s x - 1) /\ INV (drop own x) s' /\ fr s s' /\ (rcof s x = 1 <-> heap s' x = None).
Proof.
  intros HI O V. assert (NQ : queued s x -> 2 <= own x) by (intros H; exfalso; revert H; eapply not_queued; eauto; discriminate).
  destruct (Nat.eq_dec (rcof s x) 1) as [R|R].
  2:{ destruct (dec_many f own s x HI O R NQ) as (s' & A & B & C & D). exists s'. split; auto. split; auto. split; auto. split; intros; congruence. }
  unfold kt in V. destruct (heap s x) as [o|] eqn:E; [|discriminate]. destruct (knd o) eqn:K; try discriminate. clear V. unfold rcof in *. rewrite E in *.
  destruct (dec_last own s x o HI E O R NQ) as (I1 & O1 & RF & D). rewrite K in I1. cbn in I1.
  pose proof (die_views s x o E) as (V1 & V2 & V3 & V4 & V5 & EX & EN & OR & NX).
  assert (I2 : INV (drop own x) (die s x o)) by (eapply Inv_own_ext; [|exact I1]; intros y; unfold add; cbn; lia).
  exists (release_mem (die s x o) x (osz o)). rewrite (dec_unfold f s x o E R), K. cbn. rewrite R. split; auto. split; [|split].
  - pose proof (release_inv init _ perm drift (die s x o) x _ I2 EX eq_refl) as L. cbn [osz] in L. apply L.
    + intros w. unfold vv. rewrite EX, K. discriminate.
    + intros w. unfold pp. rewrite EX, K. discriminate.
  - apply fr_around; auto. apply fr_frx, fr_refl.
  - rewrite Nat.eqb_refl. tauto.
Qed.

Lemma add1 own x y z : y <> x -> drop (add (drop own x) [y]) y z = drop own x z.
Proof.
  intros N. unfold drop at 1. unfold fupd at 1. destruct (Nat.eqb_spec z y) as [->|NE]; unfold add; rewrite cnt_cons.
  - destruct (Nat.eq_dec y y); [|congruence]. change (cnt y []) with 0. lia.
  - destruct (Nat.eq_dec y z); [congruence|]. change (cnt z []) with 0. lia.
Qed.

Lemma data_dec f own s x d : INV own s -> 1 <= own x -> dd s x = Some d ->
  exists s', ref_dec (S (S f)) s x = Ok (s', rcof s x - 1) /\ INV (drop own x) s' /\ fr s s' /\ (rcof s x = 1 <-> heap s' x = None).
Proof.
  intros HI O V. assert (NQ : queued s x -> 2 <= own x) by (intros H; exfalso; revert H; eapply not_queued; eauto using dd_kt; discriminate).
  destruct (Nat.eq_dec (rcof s x) 1) as [R|R].
  2:{ destruct (dec_many (S f) own s x HI O R NQ) as (s' & A & B & C & D). exists s'. split; auto. split; auto. split; auto. split; intros; congruence. }
  destruct (dd_heap s x d V) as (o & E & K). unfold rcof in *. rewrite E in *.
  destruct (dec_last own s x o HI E O R NQ) as (I1 & O1 & RF & D). rewrite K in I1. cbn [kedges] in I1.
  pose proof (die_views s x o E) as (V1 & V2 & V3 & V4 & V5 & EX & EN & OR & NX).
  assert (HB : exists s2, match dacc d with
                            | Some a => do ao <- get (die s x o) a; do _ <- assert_ (otype_eqb (otype_of (knd ao)) TVirt);
                                        do (s2, _) <- ref_dec (S f) (die s x o) a; Ok s2
                            | None => Ok (die s x o)
                            end = Ok s2 /\ INV (drop own x) s2 /\ fr (die s x o) s2).
  { destruct (dacc d) as [a|] eqn:DA.
    - pose proof (i_kind _ _ _ _ _ HI x o E D) as KO. rewrite K in KO. cbn in KO. specialize (KO a DA). destruct (kt_vv s a KO) as (w & Va).
      assert (Na : a <> x) by (intros ->; apply dd_kt in V; congruence).
      destruct (virt_dec f _ (die s x o) a w I1) as (s2 & A & B & C & _).
      + unfold add. rewrite cnt_cons. destruct (Nat.eq_dec a a); [lia|congruence].
      + now rewrite V1.
      + exists s2. split.
        * unfold get. rewrite EN by auto. destruct (vv_heap s a w Va) as (oa & Ea & Ka). rewrite Ea. cbn [bind]. rewrite Ka. cbn [otype_of otype_eqb assert_ bind]. rewrite A. reflexivity.
        * split; auto. eapply Inv_own_ext; [|exact B]. intros y. symmetry. apply add1. auto.
    - exists (die s x o). split; auto. split; [|apply fr_refl]. eapply Inv_own_ext; [|exact I1]. intros y. unfold add. cbn. lia. }
  destruct HB as (s2 & A & B & C).
  exists (release_mem s2 x (osz o)). rewrite (dec_unfold (S f) s x o E R), K, A. cbn [bind]. rewrite R. split; auto.
  destruct (frame_dying _ _ x _ C EX eq_refl) as (o2 & E2 & D2 & S2 & K2). cbn in S2, K2. rewrite K in K2.
  split; [|split].
  - rewrite <- S2. apply release_inv; auto.
    + intros w. unfold vv. rewrite E2. destruct (knd o2); cbn in K2; congruence.
    + intros w. unfold pp. rewrite E2. destruct (knd o2); cbn in K2; congruence.
  - apply fr_around; auto. now apply fr_frx.
  - cbn. rewrite Nat.eqb_refl. tauto.
Qed.

Lemma phys_dec f own s x r : INV own s -> 1 <= own x -> pp s x = Some r ->
  (rcof s x = 1 -> exists v, pfvaq r = Some v /\ (forall u, In u (pvacs r) -> u = v) /\ rcof s v = 1) ->
  exists s', ref_dec (S (S f)) s x = Ok (s', rcof s x - 1) /\ INV (drop own x) s' /\ fr s s' /\ (rcof s x = 1 <-> heap s' x = None).
Proof.
  intros HI O V HV. assert (NQ : queued s x -> 2 <= own x) by (intros H; exfalso; revert H; eapply not_queued; eauto using pp_kt; discriminate).
  destruct (Nat.eq_dec (rcof s x) 1) as [R|R].
  2:{ destruct (dec_many (S f) own s x HI O R NQ) as (s' & A & B & C & D). exists s'. split; auto. split; auto. split; auto. split; intros; congruence. }
  destruct (HV R) as (v & FQ & PV & RV). clear HV.
  destruct (pp_heap s x r V) as (o & E & K). unfold rcof in R |- *. rewrite E in R. rewrite E.
  destruct (dec_last own s x o HI E O R NQ) as (I1 & O1 & RF & D). rewrite K in I1. cbn [kedges] in I1. rewrite FQ in I1.
  pose proof (die_views s x o E) as (V1 & V2 & V3 & V4 & V5 & EX & EN & OR & NX).
  pose proof (i_kind _ _ _ _ _ HI x o E D) as KO. rewrite K in KO. cbn in KO. specialize (KO v FQ). destruct (kt_vv s v KO) as (w & Va).
  assert (Na : v <> x) by (intros ->; apply pp_kt in V; congruence).
  destruct (virt_dec f _ (die s x o) v w I1) as (s2 & A & B & C & DEAD).
  { unfold add. rewrite cnt_cons. destruct (Nat.eq_dec v v); [lia|congruence]. }
  { now rewrite V1. }
  assert (B' : INV (drop own x) s2) by (eapply Inv_own_ext; [|exact B]; intros y; symmetry; apply add1; auto).
  exists (release_mem s2 x (osz o)). rewrite (dec_unfold (S f) s x o E R), K, FQ, A. cbn [bind]. rewrite R. split; auto.
  destruct (frame_dying _ _ x _ C EX eq_refl) as (o2 & E2 & D2 & S2 & K2). cbn in S2, K2. rewrite K in K2.
  assert (HN : heap s2 v = None). { apply DEAD. unfold rcof. rewrite EN by auto. exact RV. }
  split; [|split].
  - rewrite <- S2. apply release_inv; auto.
    + intros w'. unfold vv. rewrite E2. destruct (knd o2); cbn in K2; congruence.
    + intros r2 H2. destruct (knd o2) as [r2'| | | |] eqn:K3; cbn in K2; try discriminate.
      assert (r2' = r2) by (unfold pp in H2; rewrite E2, K3 in H2; congruence). subst r2'. destruct K2 as (_ & _ & _ & K2 & _).
      destruct (pvacs r2) as [|u l] eqn:PE; auto. exfalso. assert (u = v) by (apply PV, K2; now left). subst u.
      destruct (i_pv _ _ _ _ (i_place _ _ _ _ _ B') x r2 H2) as [_ Q]. destruct (Q v) as (wv & Vv & _); [rewrite PE; now left|].
      unfold vv in Vv. rewrite HN in Vv. discriminate.
  - apply fr_around; auto. now apply fr_frx.
  - cbn. rewrite Nat.eqb_refl. tauto.
Qed.

Lemma list_dec f l : forall own s, INV own s -> (forall y, In y l -> cnt y l <= own y) -> (forall y, In y l -> kt s y = Some TData) ->
  exists s', iter_dec (ref_dec (S (S f))) s l = Ok s' /\ INV (fun y => own y - cnt y l) s' /\ fr s s'.
Proof.
  induction l as [|x l IH]; intros own s HI O K.
  - exists s. cbn. split; auto. split; [|apply fr_refl]. eapply Inv_own_ext; [|exact HI]. intros y. lia.
  - destruct (kt_dd s x (K x (or_introl eq_refl))) as (d & Dx).
    assert (Ox : 1 <= own x) by (specialize (O x (or_introl eq_refl)); rewrite cnt_cons in O; destruct (Nat.eq_dec x x); [lia|congruence]).
    destruct (data_dec f own s x d HI Ox Dx) as (s1 & A & B & C & _). cbn [iter_dec]. rewrite A. cbn [bind].
    assert (O1 : forall y, In y l -> cnt y l <= drop own x y).
    { intros y Hy. specialize (O y (or_intror Hy)). rewrite cnt_cons in O. unfold drop, fupd. destruct (Nat.eqb_spec y x) as [->|N].
      - destruct (Nat.eq_dec x x); [lia|congruence].
      - destruct (Nat.eq_dec x y); [congruence|lia]. }
    destruct (IH (drop own x) s1 B O1) as (s2 & A2 & B2 & C2).
    { intros y Hy. apply (fr_kt s s1 y TData C); [|apply K; now right]. specialize (O1 y Hy). apply cnt_in in Hy.
      destruct (own_live B y ltac:(lia)) as (o & Eo & _). congruence. }
    exists s2. split; auto. split; [|eapply fr_trans; eauto]. eapply Inv_own_ext; [|exact B2]. intros y. cbn beta. rewrite cnt_cons. unfold drop, fupd.
    destruct (Nat.eqb_spec y x) as [->|N]; [destruct (Nat.eq_dec x x); [lia|congruence]|destruct (Nat.eq_dec x y); [congruence|lia]].
Qed.

Lemma task_dec f own s x t : INV own s -> 1 <= own x -> (queued s x -> 2 <= own x) -> tt_ s x = Some t -> tsub t = true ->
  exists s', ref_dec (S (S (S f))) s x = Ok (s', rcof s x - 1) /\ INV (drop own x) s' /\ fr s s' /\ (rcof s x = 1 <-> heap s' x = None).
Proof.
  intros HI O NQ V SB. destruct (Nat.eq_dec (rcof s x) 1) as [R|R].
  2:{ destruct (dec_many (S (S f)) own s x HI O R NQ) as (s' & A & B & C & D). exists s'. split; auto. split; auto. split; auto. split; intros; congruence. }
  destruct (tt_heap s x t V) as (o & E & K). unfold rcof in R |- *. rewrite E in R. rewrite E.
  destruct (dec_last own s x o HI E O R NQ) as (I1 & O1 & RF & D). rewrite K in I1. cbn [kedges] in I1. rewrite SB in I1.
  pose proof (die_views s x o E) as (V1 & V2 & V3 & V4 & V5 & EX & EN & OR & NX).
  pose proof (i_kind _ _ _ _ _ HI x o E D) as KO. rewrite K in KO. cbn in KO. destruct KO as [KD KA]. specialize (KA SB).
  assert (CA : cnt (tacc t) (tio t ++ [tacc t]) = cnt (tacc t) (tio t) + 1).
  { rewrite cnt_app, cnt_cons. destruct (Nat.eq_dec (tacc t) (tacc t)); [reflexivity|congruence]. }
  destruct (list_dec f (tio t) _ (die s x o) I1) as (s2 & A & B & C).
  { intros y Hy. unfold add. rewrite cnt_app. lia. }
  { intros y Hy. rewrite V5. auto. }
  assert (B1 : INV (add (drop own x) [tacc t]) s2).
  { eapply Inv_own_ext; [|exact B]. intros y. cbn beta. unfold add. rewrite cnt_app. lia. }
  assert (Ot : 1 <= add (drop own x) [tacc t] (tacc t)) by (unfold add; rewrite cnt_cons; destruct (Nat.eq_dec (tacc t) (tacc t)); [lia|congruence]).
  assert (KA2 : kt s2 (tacc t) = Some TVirt).
  { apply (fr_kt (die s x o) s2); auto; [|rewrite V5; auto]. destruct (own_live B1 _ Ot) as (oo & Eo & _). congruence. }
  destruct (kt_vv _ _ KA2) as (w & Vw).
  destruct (virt_dec (S f) _ s2 (tacc t) w B1 Ot Vw) as (s3 & A3 & B3 & C3 & _).
  assert (Nx : tacc t <> x) by (intros Q; rewrite Q in KA; apply tt_kt in V; congruence).
  assert (B' : INV (drop own x) s3) by (eapply Inv_own_ext; [|exact B3]; intros y; symmetry; apply add1; auto).
  pose proof (fr_trans _ _ _ C C3) as CC.
  exists (release_mem s3 x (osz o)). rewrite (dec_unfold (S (S f)) s x o E R), K, A. cbn [bind]. rewrite A3. cbn [bind]. rewrite R. split; auto.
  destruct (frame_dying _ _ x _ CC EX eq_refl) as (o2 & E2 & D2 & S2 & K2). cbn in S2, K2. rewrite K in K2.
  split; [|split].
  - rewrite <- S2. apply release_inv; auto.
    + intros w'. unfold vv. rewrite E2. destruct (knd o2); cbn in K2; congruence.
    + intros w'. unfold pp. rewrite E2. destruct (knd o2); cbn in K2; congruence.
  - apply fr_around; auto. now apply fr_frx.
  - cbn. rewrite Nat.eqb_refl. tauto.
Qed.
End Dec.

(** ** One statement for every kind of object *)
Definition tasks_submitted (s : st) : Prop := forall x t, tt_ s x = Some t -> tsub t = true.
Definition can_drop (own : nat -> nat) (s : st) (x : nat) : Prop :=
  1 <= own x /\ (queued s x -> 2 <= own x) /\ (forall t, tt_ s x = Some t -> tsub t = true) /\
  (forall r, pp s x = Some r -> rcof s x = 1 -> exists v, pfvaq r = Some v /\ (forall u, In u (pvacs r) -> u = v) /\ rcof s v = 1).
Lemma ref_dec_ok init own perm drift s x : Inv init own perm drift s -> can_drop own s x ->
  exists s', ref_dec FUEL s x = Ok (s', rcof s x - 1) /\ Inv init (drop own x) perm drift s' /\ fr s s' /\ (rcof s x = 1 <-> heap s' x = None).
Proof.
  intros HI (O & Q & T & P). destruct (own_live HI x O) as (o & E & D & _). unfold FUEL.
  destruct (knd o) as [r|w|pr|d|t] eqn:K.
  - apply (phys_dec init perm drift 1 own s x r); auto; [unfold pp; now rewrite E, K|]. apply P. unfold pp. now rewrite E, K.
  - apply (virt_dec init perm drift 2 own s x w); auto. unfold vv. now rewrite E, K.
  - apply (proc_dec init perm drift 2 own s x); auto. unfold kt. now rewrite E, K.
  - apply (data_dec init perm drift 1 own s x d); auto. unfold dd. now rewrite E, K.
  - apply (task_dec init perm drift 0 own s x t); auto; [|apply T]; unfold tt_; now rewrite E, K.
Qed.
