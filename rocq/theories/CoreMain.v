(** Every call made under the discipline succeeds and keeps the invariant. *)
From Verif Require Import Base CoreModel CoreInv CoreStep CorePlace CoreDec CoreOps CoreIssue CoreWorld.
Ltac Zify.zify_post_hook ::= idtac.
Arguments N.modulo : simpl never.
Arguments N.add : simpl never.
Arguments N.sub : simpl never.
Arguments Nat.eqb : simpl never.

Lemma cnt_self x l : cnt x (x :: l) = S (cnt x l).
Proof. rewrite cnt_cons. destruct (Nat.eq_dec x x); [reflexivity|congruence]. Qed.
Lemma cnt_other x y l : y <> x -> cnt x (y :: l) = cnt x l.
Proof. intros N. rewrite cnt_cons. destruct (Nat.eq_dec y x); [congruence|reflexivity]. Qed.

Lemma list_drop init perm drift l : forall own s, Inv init own perm drift s ->
  (forall x, In x l -> cnt x l <= own x /\ (kt s x = Some TVirt \/ kt s x = Some TPhys /\ cnt x l < own x)) ->
  exists s', iter_dec (ref_dec FUEL) s l = Ok s' /\ Inv init (fun x => own x - cnt x l) perm drift s' /\ fr s s'.
Proof.
  induction l as [|x l IH]; intros own s HI HL.
  - exists s. split; auto. split; [|apply fr_refl]. eapply Inv_own_ext; [|exact HI]. intros y. cbn. lia.
  - destruct (HL x (or_introl eq_refl)) as [O K]. rewrite cnt_self in O, K.
    assert (CD : can_drop own s x).
    { split; [lia|]. split.
      - intros Q. exfalso. destruct K as [K|[K _]]; revert Q; eapply not_queued; eauto; discriminate.
      - split.
        + intros t T. apply tt_kt in T. destruct K as [K|[K _]]; congruence.
        + intros r R R1. exfalso. apply pp_kt in R. destruct K as [K|[_ K]]; [congruence|]. pose proof (i_ref _ _ _ _ _ HI x). lia. }
    destruct (ref_dec_ok init own perm drift s x HI CD) as (s1 & A & I1 & F1 & _). cbn [iter_dec]. rewrite A. cbn [bind].
    assert (OD : forall y, In y l -> cnt y l <= drop own x y /\ (cnt y (x :: l) < own y -> cnt y l < drop own x y)).
    { intros y Hy. destruct (HL y (or_intror Hy)) as [Oy _]. unfold drop, fupd. destruct (Nat.eqb_spec y x) as [->|N].
      - rewrite cnt_self in *. lia.
      - rewrite cnt_other in * by auto. lia. }
    destruct (IH (drop own x) s1 I1) as (s2 & A2 & I2 & F2).
    { intros y Hy. destruct (OD y Hy) as [O1 O2]. split; auto. destruct (HL y (or_intror Hy)) as [_ Ky].
      assert (LV : heap s1 y <> None) by (assert (1 <= drop own x y) by (apply cnt_in in Hy; lia); destruct (own_live I1 y H) as (oy & Ey & _); congruence).
      destruct Ky as [Ky|[Ky Cy]]; [left|right; split; auto]; eapply fr_kt; eauto. }
    exists s2. split; auto. split; [|eapply fr_trans; eauto]. eapply Inv_own_ext; [|exact I2]. intros y. cbn beta. unfold drop, fupd.
    destruct (Nat.eqb_spec y x) as [->|N]; [rewrite cnt_self; lia|rewrite cnt_other by auto; lia].
Qed.

(** ** Creating accelerators *)
Lemma reg_views init own perm drift s k name size : Inv init own perm drift s -> fresh k ->
  let s' := fst (register s k name size) in let x := next s in
  (forall y, vv s' y = if y =? x then match k with KVirt w => Some w | _ => None end else vv s y) /\
  (forall y, pp s' y = if y =? x then match k with KPhys w => Some w | _ => None end else pp s y) /\
  (forall y, tt_ s' y = if y =? x then match k with KTask w => Some w | _ => None end else tt_ s y) /\
  (forall y, dd s' y = if y =? x then match k with KData w => Some w | _ => None end else dd s y) /\
  (forall y, kt s' y = if y =? x then Some (otype_of k) else kt s y).
Proof.
  intros HI FK s' x. destruct (register_ok own s k name size HI FK) as (EQ & I' & NX & OR & E' & EN & _). fold s' in E', EN. fold x in E', EN.
  repeat split; intros y; [unfold vv|unfold pp|unfold tt_|unfold dd|unfold kt]; destruct (Nat.eqb_spec y x) as [->|N]; try (rewrite E'; reflexivity); now rewrite EN.
Qed.

Section Main.
Context (init : N).

Lemma vv_lt w v wv : WInv init w -> vv (ws w) v = Some wv -> v < next (ws w).
Proof. intros HW V. destruct (vv_heap _ _ _ V) as (o & E & _). eapply (live_lt (w_inv _ _ HW)); eauto. Qed.

(** a fresh virtual accelerator, not yet placed *)
Lemma newvirt w ty name size : WInv init w ->
  let x := next (ws w) in let s1 := fst (register (ws w) (KVirt (mkvirt ty None [])) name size) in
  register (ws w) (KVirt (mkvirt ty None [])) name size = (s1, x) /\ Inv init (bump (own w) x) (perm w) (drift w) s1 /\
  (forall y, vv s1 y = if y =? x then Some (mkvirt ty None []) else vv (ws w) y) /\ (forall y, pp s1 y = pp (ws w) y) /\
  (forall y, tt_ s1 y = tt_ (ws w) y) /\ orph s1 = orph (ws w) /\ next s1 = S x /\ ~ In x (orph (ws w)) /\ ~ In x (hand w).
Proof.
  intros HW. cbv zeta. set (k := KVirt (mkvirt ty None [])). assert (FK : fresh k) by (cbn; auto). pose proof (w_inv _ _ HW) as HI.
  destruct (register_ok (own w) (ws w) k name size HI FK) as (EQ & I' & NX & OR & E' & EN & _).
  destruct (reg_views _ _ _ _ _ k name size HI FK) as (V1 & V2 & V3 & V4 & V5).
  pose proof (i_bound _ _ _ _ _ HI (next (ws w)) (le_n _)) as HN.
  split; [exact EQ|]. split; [exact I'|]. split; [exact V1|]. split; [|split; [|split; [exact OR|split; [exact NX|split]]]].
  - intros y. rewrite V2. destruct (Nat.eqb_spec y (next (ws w))) as [->|]; auto. unfold pp. now rewrite HN.
  - intros y. rewrite V3. destruct (Nat.eqb_spec y (next (ws w))) as [->|]; auto. unfold tt_. now rewrite HN.
  - intros H. destruct (proj2 (i_or _ _ _ _ (i_place _ _ _ _ _ HI)) _ H) as (wv & V & _). unfold vv in V. rewrite HN in V. discriminate.
  - intros H. destruct (proj2 (w_hand _ _ HW) _ H) as [(wv & V & _) _]. unfold vv in V. rewrite HN in V. discriminate.
Qed.

Lemma acquire_type_ok c w ty : WInv init w -> exists s1, acquire_type c (ws w) ty = Ok (s1, next (ws w)) /\ WInv init (upd_s w s1 (bump (own w) (next (ws w)))).
Proof.
  intros HW. unfold acquire_type, vaccel_init. destruct (newvirt w ty name_fill (sVirt c) HW) as (EQ & I1 & V1 & V2 & V3 & OR & NX & NO & NH). cbv zeta in *. rewrite EQ.
  set (x := next (ws w)) in *. set (s1 := fst (register _ _ _ _)) in *.
  destruct (add_orphan_ok I1 x (mkvirt ty None [])) as [A I2]; [rewrite V1, Nat.eqb_refl; auto|auto|now rewrite OR|]. rewrite A. cbn [bind].
  exists (setorph s1 (x :: orph s1)). split; auto. pose proof HW as [A1 B C D E F G H]. constructor; cbn [ws own perm drift hand issued started upd_s]; auto.
  - intros p r. change (pp (setorph s1 _) p) with (pp s1 p). rewrite V2. eauto.
  - intros t tr. change (tt_ (setorph s1 _) t) with (tt_ s1 t). rewrite V3. eauto.
  - destruct D as [D1 D2]. split; auto. intros v Hv. assert (Nv : v <> x) by (intros ->; auto). destruct (D2 v Hv) as [(wv & V & W) N]. split.
    + exists wv. change (vv (setorph s1 _) v) with (vv s1 v). rewrite V1. apply Nat.eqb_neq in Nv. rewrite Nv. auto.
    + cbn [orph setorph In]. rewrite OR. intros [Q|Q]; auto.
  - intros v wv. change (vv (setorph s1 _) v) with (vv s1 v). rewrite V1. cbn [orph setorph]. destruct (Nat.eqb_spec v x) as [->|Nv].
    + intros _ _. left. now left.
    + intros V W. destruct (E v wv V W); auto. left. right. now rewrite OR.
  - intros v. unfold qof. change (vv (setorph s1 _) v) with (vv s1 v). rewrite V1. destruct (Nat.eqb_spec v x) as [->|Nv]; [|apply F].
    destruct (G x (le_n _)) as [-> ->]. reflexivity.
  - intros v Hv. cbn [next setorph] in Hv. apply G. rewrite NX in Hv. fold x. lia.
Qed.

(** attaching the fresh accelerator [x] to [p], in the state [s1] right after its registration *)
Lemma attach_new own0 perm0 drift0 s1 x ty p r : Inv init own0 perm0 drift0 s1 -> vv s1 x = Some (mkvirt ty None []) -> ~ In x (orph s1) -> pp s1 p = Some r ->
  exists s2, add_vaccel s1 p x = Ok s2 /\ Inv init own0 perm0 drift0 s2 /\ (forall y, vv s2 y = if y =? x then Some (mkvirt ty (Some p) []) else vv s1 y) /\
    (forall y, pp s2 y = if y =? p then Some (mkphys (ptype r) (ptasks r + 0) (x :: pvacs r) (pfvaq r) (S (prev r))) else pp s1 y) /\
    (forall y, tt_ s2 y = tt_ s1 y) /\ orph s2 = orph s1 /\ next s2 = next s1 /\ (forall y, osame (heap s1 y) (heap s2 y)).
Proof.
  intros HI V NO R. pose proof (add_vaccel_ok own0 s1 x _ p r HI V R) as A. cbn [vphys vq vtype length] in A. change (Z.of_nat 0) with 0%Z in A. destruct A as [A I2].
  set (r1 := mkphys _ _ _ _ _) in *. set (so := setorph s1 _) in *. assert (SO : orph so = orph s1) by (cbn; now rewrite notin_remove).
  destruct (setp_views so p r r1 R eq_refl) as (A1 & A2 & A3 & A4 & A5 & A6 & A7 & A8 & A9). set (sp := setp so p r1) in *.
  assert (Vp : vv sp x = Some (mkvirt ty None [])) by (rewrite A2; exact V).
  destruct (setv_views sp x _ (mkvirt ty (Some p) []) Vp) as (B1 & B2 & B3 & B4 & B5 & B6 & B7 & B8 & B9).
  eexists. split; [exact A|]. split; [exact I2|]. split; [intros y; rewrite B1, A2; reflexivity|]. split; [intros y; rewrite B2, A1; reflexivity|].
  split; [intros y; rewrite B3, A3; reflexivity|]. split; [rewrite B9, A9; exact SO|]. split; [rewrite B6, A6; reflexivity|]. intros y. eapply osame_trans; [exact (A5 y)|exact (B5 y)].
Qed.

Lemma acquire_phys_ok c w p : WInv init w -> 1 <= own w p ->
  exists s1 r, acquire_phys c (ws w) p = Ok (s1, r) /\ WInv init (upd_s w s1 (match r with Some v => bump (own w) v | None => own w end)) /\
    (r <> None <-> kt (ws w) p = Some TPhys).
Proof.
  intros HW O. destruct (own_live (w_inv _ _ HW) p O) as (o & E & D & _). unfold acquire_phys, get. rewrite E. cbn [bind].
  destruct (knd o) as [r| | | |] eqn:K;
    try (exists (ws w), None; split; [reflexivity|]; split; [destruct w; exact HW|]; unfold kt; rewrite E, K; cbn; split; congruence).
  assert (R : pp (ws w) p = Some r) by (unfold pp; now rewrite E, K).
  unfold vaccel_init. destruct (newvirt w (ptype r) name_fill (sVirt c) HW) as (EQ & I1 & V1 & V2 & V3 & OR & NX & NO & NH). cbv zeta in *. rewrite EQ.
  set (x := next (ws w)) in *. set (s1 := fst (register _ _ _ _)) in *.
  destruct (attach_new _ _ _ s1 x (ptype r) p r I1) as (s2 & A & I2 & W1 & W2 & W3 & W4 & W5 & _); [rewrite V1, Nat.eqb_refl; auto|now rewrite OR|now rewrite V2|].
  rewrite A. cbn [bind]. exists s2, (Some x). split; auto. split; [|unfold kt; rewrite E, K; split; [reflexivity|discriminate]].
  assert (VV2 : forall y, vv s2 y = if y =? x then Some (mkvirt (ptype r) (Some p) []) else vv (ws w) y) by (intros y; rewrite W1, V1; destruct (y =? x); auto).
  pose proof HW as [A1 B C DD EE F G H]. constructor; cbn [ws own perm drift hand issued started upd_s]; auto.
  - intros q rq. rewrite W2, V2. destruct (Nat.eqb_spec q p) as [->|]; eauto. intros Q. inversion Q; subst rq. cbn. eauto.
  - intros t tr. rewrite W3, V3. eauto.
  - destruct DD as [D1 D2]. split; auto. intros v Hv. assert (Nv : v <> x) by (intros ->; auto). destruct (D2 v Hv) as [(wv & V & W) N]. split; [|congruence].
    exists wv. rewrite VV2. apply Nat.eqb_neq in Nv. rewrite Nv. auto.
  - intros v wv. rewrite VV2, W4, OR. destruct (Nat.eqb_spec v x) as [->|Nv]; [intros Q; inversion Q; subst; discriminate|]. apply EE.
  - intros v. unfold qof. rewrite VV2. destruct (Nat.eqb_spec v x) as [->|Nv]; [|apply F]. destruct (G x (le_n _)) as [-> ->]. reflexivity.
  - intros v Hv. rewrite W5, NX in Hv. apply G. fold x. lia.
Qed.

Lemma accel_init_ok c w name ty : WInv init w -> exists s1, accel_init c (ws w) name ty = Ok (s1, next (ws w)) /\ WInv init (upd_s w s1 (bump (own w) (next (ws w)))) /\
    kt s1 (next (ws w)) = Some TPhys.
Proof.
  intros HW. unfold accel_init. set (kp := KPhys (mkphys ty 0 [] None 0)). assert (FK : fresh kp) by (cbn; auto). pose proof (w_inv _ _ HW) as HI.
  destruct (register_ok (own w) (ws w) kp name (sPhys c) HI FK) as (EQ & I1 & NX & OR & E' & EN & _).
  destruct (reg_views _ _ _ _ _ kp name (sPhys c) HI FK) as (V1 & V2 & V3 & V4 & V5). cbv zeta in *. rewrite EQ.
  pose proof (i_bound _ _ _ _ _ HI (next (ws w)) (le_n _)) as HN.
  set (p := next (ws w)) in *. set (s1 := fst (register (ws w) _ _ _)) in *. unfold vaccel_init.
  set (kv := KVirt (mkvirt ty None [])). assert (FV : fresh kv) by (cbn; auto).
  destruct (register_ok (bump (own w) p) s1 kv name (sVirt c) I1 FV) as (EQ2 & I2 & NX2 & OR2 & E2' & EN2 & _).
  destruct (reg_views _ _ _ _ _ kv name (sVirt c) I1 FV) as (U1 & U2 & U3 & U4 & U5). cbv zeta in *. rewrite EQ2.
  set (v := next s1) in *. set (s2 := fst (register s1 _ _ _)) in *.
  assert (Nvp : p <> v) by (rewrite NX; unfold p; lia).
  set (rp := mkphys ty 0 [] None 0) in *.
  assert (Rp : pp s2 p = Some rp) by (rewrite U2; apply Nat.eqb_neq in Nvp; rewrite Nvp, V2, Nat.eqb_refl; reflexivity).
  assert (NOv : ~ In v (orph s2)).
  { rewrite OR2, OR. intros Hin. destruct (proj2 (i_or _ _ _ _ (i_place _ _ _ _ _ HI)) _ Hin) as (wv & V & _). pose proof (vv_lt w v wv HW V). fold p in H. lia. }
  destruct (attach_new _ _ _ s2 v ty p rp I2) as (s3 & A & I3 & W1 & W2 & W3 & W4 & W5 & W6); [rewrite U1, Nat.eqb_refl; auto|auto|auto|].
  rewrite A. cbn [bind].
  set (r3 := mkphys _ _ _ _ _) in W2. assert (R3 : pp s3 p = Some r3) by (rewrite W2, Nat.eqb_refl; auto).
  destruct (get_phys_ok s3 p r3 R3) as (op & GP & EP & KP). rewrite GP. cbn [bind].
  assert (Dp : dying op = false).
  { specialize (W6 p). rewrite EP in W6. rewrite EN2, E' in W6 by auto. cbn in W6. apply W6. }
  assert (V3v : vv s3 v = Some (mkvirt ty (Some p) [])) by (rewrite W1, Nat.eqb_refl; auto).
  pose proof (refvaq_inv _ s3 p op r3 v I3 EP Dp KP eq_refl (vv_kt _ _ _ V3v) ltac:(unfold bump; rewrite fupd_eq; lia)) as I4.
  set (r4 := mkphys _ _ _ (Some v) _) in *. unfold set_phys. set (s4 := seto s3 p _) in *.
  assert (Q1 : forall y, vv s4 y = vv s3 y) by (intros y; unfold vv, s4, seto; cbn; unfold fupd; destruct (Nat.eqb_spec y p) as [->|]; [rewrite EP, KP; reflexivity|auto]).
  assert (Q2 : forall y, pp s4 y = if y =? p then Some r4 else pp s3 y) by (intros y; unfold pp, s4, seto; cbn; unfold fupd; destruct (Nat.eqb_spec y p) as [->|]; auto).
  assert (Q3 : forall y, tt_ s4 y = tt_ s3 y) by (intros y; unfold tt_, s4, seto; cbn; unfold fupd; destruct (Nat.eqb_spec y p) as [->|]; [rewrite EP, KP; reflexivity|auto]).
  assert (VV4 : forall y, vv s4 y = if y =? v then Some (mkvirt ty (Some p) []) else vv (ws w) y).
  { intros y. rewrite Q1, W1, U1, V1. destruct (Nat.eqb_spec y v) as [->|]; auto. destruct (Nat.eqb_spec y p) as [->|]; auto. unfold vv. now rewrite HN. }
  assert (LTv : forall y wy, vv (ws w) y = Some wy -> y <> v) by (intros y wy V Q; pose proof (vv_lt w y wy HW V) as LT; fold p in LT; rewrite Q, NX in LT; lia).
  exists s4. split; auto. split.
  - pose proof HW as [A1 B C D E F G H]. constructor; cbn [ws own perm drift hand issued started upd_s]; auto.
    + eapply Inv_own_ext; [|exact I4]. intros y. unfold drop, bump, fupd. destruct (Nat.eqb_spec y v) as [->|Ny]; [rewrite !Nat.eqb_refl|reflexivity].
      apply not_eq_sym, Nat.eqb_neq in Nvp. rewrite Nvp. lia.
    + intros q rq. rewrite Q2, W2, U2, V2. destruct (Nat.eqb_spec q p) as [->|]; [intros Q; inversion Q; subst rq; discriminate|].
      destruct (q =? v); [discriminate|eauto].
    + intros t tr. rewrite Q3, W3, U3, V3. destruct (t =? v); [discriminate|]. destruct (t =? p); [discriminate|eauto].
    + destruct D as [D1 D2]. split; auto. intros u Hu. destruct (D2 u Hu) as [(wv & V & W) N]. split.
      * exists wv. rewrite VV4. pose proof (LTv u wv V) as Nu. apply Nat.eqb_neq in Nu. rewrite Nu. auto.
      * change (orph s4) with (orph s3). congruence.
    + intros u wu. rewrite VV4. change (orph s4) with (orph s3). rewrite W4, OR2, OR. destruct (Nat.eqb_spec u v) as [->|]; [intros Q; inversion Q; subst; discriminate|]. apply E.
    + intros u. unfold qof. rewrite VV4. destruct (Nat.eqb_spec u v) as [->|]; [|apply F]. destruct (G v) as [-> ->]; [unfold v; fold p; lia|reflexivity].
    + intros u Hu. change (next s4) with (next s3) in Hu. apply G. fold p. lia.
  - unfold kt, s4, seto. cbn. rewrite fupd_eq. reflexivity.
Qed.

(** ** Assigning, unassigning, the orphan list *)
Lemma assign_ok w v p wv r : WInv init w -> vv (ws w) v = Some wv -> pp (ws w) p = Some r -> (vphys wv = None \/ vphys wv = Some p) ->
  exists s1, set_physical (ws w) v p = Ok s1 /\
    WInv init (mkw s1 (own w) (perm w) (drift w) (remove Nat.eq_dec v (hand w)) (issued w) (started w)).
Proof.
  intros HW V R HP. pose proof HW as [A1 B C D E F G H]. pose proof (add_vaccel_ok (own w) (ws w) v wv p r A1 V R) as A. unfold set_physical.
  destruct (vphys wv) as [p'|] eqn:W.
  - destruct HP as [?|HP]; [discriminate|]. inversion HP; subst p'. rewrite Nat.eqb_refl in A. exists (ws w). split; auto.
    assert (NH : ~ In v (hand w)) by (intros Hin; destruct (proj2 D v Hin) as [(w' & V' & W') _]; congruence). rewrite notin_remove by auto. destruct w; exact HW.
  - destruct A as [A I2]. set (r1 := mkphys _ _ _ _ _) in *. set (so := setorph (ws w) _) in *. set (w1 := mkvirt _ _ _) in *.
    destruct (setp_views so p r r1 R eq_refl) as (X1 & X2 & X3 & X4 & X5 & X6 & X7 & X8 & X9). set (sp := setp so p r1) in *.
    assert (Vp : vv sp v = Some wv) by (rewrite X2; exact V).
    destruct (setv_views sp v _ w1 Vp) as (B1 & B2 & B3 & B4 & B5 & B6 & B7 & B8 & B9). set (s2 := setv sp v w1) in *.
    assert (VV2 : forall y, vv s2 y = if y =? v then Some w1 else vv (ws w) y) by (intros y; rewrite B1, X2; reflexivity).
    assert (OO : orph s2 = remove Nat.eq_dec v (orph (ws w))) by (rewrite B9, X9; reflexivity).
    exists s2. split; auto. constructor; cbn [ws own perm drift hand issued started]; auto.
    + intros q rq. rewrite B2, X1. destruct (Nat.eqb_spec q p) as [->|]; [intros Q; inversion Q; subst rq; cbn; eauto|]. apply B.
    + intros t tr. rewrite B3, X3. apply C.
    + destruct D as [D1 D2]. split; [apply nodup_remove; auto|]. intros u. rewrite in_remove_iff. intros [Hu Nu]. destruct (D2 u Hu) as [(wu & Vu & Wu) N]. split.
      * exists wu. rewrite VV2. apply Nat.eqb_neq in Nu. rewrite Nu. auto.
      * rewrite OO, in_remove_iff. tauto.
    + intros u wu. rewrite VV2, OO, !in_remove_iff. destruct (Nat.eqb_spec u v) as [->|Nu]; [intros Q; inversion Q; subst; discriminate|].
      intros Vu Wu. destruct (E u wu Vu Wu); auto.
    + intros u. unfold qof. rewrite VV2. destruct (Nat.eqb_spec u v) as [->|Nu]; [|apply F]. rewrite F. unfold qof. rewrite V. reflexivity.
    + intros u Hu. apply G. rewrite B6, X6 in Hu. exact Hu.
Qed.

Lemma unassign_ok w p v wv : WInv init w -> vv (ws w) v = Some wv -> vphys wv = Some p ->
  exists s1, unassign (ws w) p v = Ok s1 /\
    WInv init (mkw s1 (own w) (perm w) (if qlen (ws w) v =? 0 then drift w else fupd (drift w) p (S (drift w p))) (hand w) (issued w) (started w)).
Proof.
  intros HW V W. pose proof HW as [A1 B C D E F G H]. destruct (i_vp _ _ _ _ (i_place _ _ _ _ _ A1) v wv p V W) as (r & R & IN).
  destruct (del_vaccel_ok A1 v wv p r V W R (or_intror (H p))) as [A I2]. cbv zeta in *.
  assert (QL : qlen (ws w) v = length (vq wv)) by (unfold qlen; now rewrite V). rewrite QL.
  set (dr := if length (vq wv) =? 0 then drift w else _) in *. set (r1 := mkphys _ _ _ _ _) in *. set (w1 := mkvirt _ _ _) in *.
  destruct (setp_views (ws w) p r r1 R eq_refl) as (X1 & X2 & X3 & X4 & X5 & X6 & X7 & X8 & X9). set (sp := setp (ws w) p r1) in *.
  assert (Vp : vv sp v = Some wv) by (rewrite X2; exact V).
  destruct (setv_views sp v _ w1 Vp) as (B1 & B2 & B3 & B4 & B5 & B6 & B7 & B8 & B9). set (s2 := setv sp v w1) in *.
  assert (VV2 : forall y, vv s2 y = if y =? v then Some w1 else vv (ws w) y) by (intros y; rewrite B1, X2; reflexivity).
  assert (NO : ~ In v (orph s2)). { rewrite B9, X9. intros Hin. destruct (proj2 (i_or _ _ _ _ (i_place _ _ _ _ _ A1)) v Hin) as (w' & V' & W'). congruence. }
  destruct (add_orphan_ok I2 v w1) as [A3 I3]; [rewrite VV2, Nat.eqb_refl; auto|auto|auto|]. unfold unassign. rewrite A. cbn [bind]. rewrite A3.
  eexists. split; [reflexivity|]. constructor; cbn [ws own perm drift hand issued started]; auto.
  - intros q rq. change (pp (setorph s2 _) q) with (pp s2 q). rewrite B2, X1. destruct (Nat.eqb_spec q p) as [->|]; [intros Q; inversion Q; subst rq; cbn; eauto|]. apply B.
  - intros t tr. change (tt_ (setorph s2 _) t) with (tt_ s2 t). rewrite B3, X3. apply C.
  - destruct D as [D1 D2]. split; auto. intros u Hu. destruct (D2 u Hu) as [(wu & Vu & Wu) N]. assert (Nu : u <> v) by (intros ->; congruence). split.
    + exists wu. change (vv (setorph s2 _) u) with (vv s2 u). rewrite VV2. apply Nat.eqb_neq in Nu. rewrite Nu. auto.
    + cbn. rewrite B9, X9. intros [Q|Q]; auto.
  - intros u wu. change (vv (setorph s2 _) u) with (vv s2 u). rewrite VV2. cbn [orph setorph]. rewrite B9, X9. destruct (Nat.eqb_spec u v) as [->|Nu]; [intros; left; now left|].
    intros Vu Wu. destruct (E u wu Vu Wu); auto. left. now right.
  - intros u. unfold qof. change (vv (setorph s2 _) u) with (vv s2 u). rewrite VV2. destruct (Nat.eqb_spec u v) as [->|Nu]; [|apply F]. rewrite F. unfold qof. rewrite V. reflexivity.
  - intros u Hu. apply G. cbn in Hu. rewrite B6, X6 in Hu. exact Hu.
Qed.

Lemma take_orphan_ok w : WInv init w ->
  exists s1 r, get_orphan (ws w) = Ok (s1, r) /\
    match r with
    | Some v => In v (orph (ws w)) /\ WInv init (mkw s1 (own w) (perm w) (drift w) (v :: hand w) (issued w) (started w))
    | None => orph (ws w) = [] /\ s1 = ws w
    end.
Proof.
  intros HW. pose proof HW as [A1 B C D E F G H]. unfold get_orphan. destruct (orph (ws w)) as [|v l] eqn:OE; [exists (ws w), None; auto|].
  destruct (i_or _ _ _ _ (i_place _ _ _ _ _ A1)) as [ND HO]. try rewrite OE in ND, HO. destruct (HO v (or_introl eq_refl)) as (wv & V & W).
  destruct (get_virt_ok _ v wv V) as (o & GV & _). rewrite GV. cbn [bind]. rewrite W. cbn [assert_ bind].
  eexists. exists (Some v). split; [reflexivity|]. split; [now left|]. apply NoDup_cons_iff in ND. destruct ND as [ND1 ND2].
  assert (I2 : Inv init (own w) (perm w) (drift w) (setorph (ws w) l)) by (apply setorph_inv; auto; intros u Hu; rewrite OE; now right).
  constructor; cbn [ws own perm drift hand issued started]; auto.
  - destruct D as [D1 D2]. split.
    + constructor; auto. intros Hin. destruct (D2 v Hin) as [_ N]. apply N. try rewrite OE. now left.
    + intros u [<-|Hu].
      * split; [exists wv; auto|]. cbn. auto.
      * destruct (D2 u Hu) as [Q N]. split; auto. cbn. try rewrite OE in N. cbn in N. tauto.
  - intros u wu Vu Wu. destruct (E u wu Vu Wu) as [Q|Q]; [|right; now right]. try rewrite OE in Q. destruct Q as [->|Q]; [right; now left|left; exact Q].
Qed.

(** ** The worker *)
Lemma wait_ok w p : WInv init w -> kt (ws w) p = Some TPhys -> perm w p = 0 ->
  exists s1 b, wait_for_task (ws w) p = Ok (s1, b) /\ WInv init (mkw s1 (own w) (if b then bump (perm w) p else perm w) (drift w) (hand w) (issued w) (started w)) /\
   (forall r, pp (ws w) p = Some r -> (b = true <-> (0 < ptasks r)%Z)).
Proof.
  intros HW K P0. pose proof HW as [A1 B C D E F G H]. destruct (kt_pp _ _ K) as (r & R). destruct (get_phys_ok _ p r R) as (o & GP & EP & KP).
  unfold wait_for_task. rewrite GP. cbn [bind]. destruct (i_cnt _ _ _ _ (i_place _ _ _ _ _ A1) p r R) as [T0 TE].
  destruct (Z.eqb_spec (ptasks r) 0) as [Z0|Z0].
  - exists (ws w), false. split; auto. split; [destruct w; exact HW|]. intros r' R'. rewrite R in R'. inversion R'; subst r'. split; [discriminate|lia].
  - set (r1 := mkphys _ _ _ _ _). replace (set_phys (ws w) p o r1) with (setp (ws w) p r1) by (unfold setp; now rewrite EP).
    assert (I2 : Inv init (own w) (bump (perm w) p) (drift w) (setp (ws w) p r1)).
    { unfold r1. apply (retask_inv A1 p r); auto; try lia.
      - intros x Hx. unfold bump. rewrite fupd_ne by auto. auto.
      - unfold bump. rewrite fupd_eq. lia. }
    destruct (setp_views (ws w) p r r1 R eq_refl) as (X1 & X2 & X3 & X4 & X5 & X6 & X7 & X8 & X9). set (s2 := setp (ws w) p r1) in *.
    exists s2, true. split; auto. split; [|intros r' R'; rewrite R in R'; inversion R'; subst r'; split; [lia|auto]].
    constructor; cbn [ws own perm drift hand issued started]; auto.
    + intros q rq. rewrite X1. destruct (Nat.eqb_spec q p) as [->|]; [intros Q; inversion Q; subst rq; cbn; eauto|]. apply B.
    + intros t tr. rewrite X3. apply C.
    + destruct D as [D1 D2]. split; auto. intros u Hu. rewrite X9. destruct (D2 u Hu) as [(wu & Vu & Wu) N]. split; auto. exists wu. rewrite X2. auto.
    + intros u wu. rewrite X2, X9. apply E.
    + intros u. unfold qof. rewrite X2. apply F.
    + intros u Hu. apply G. congruence.
    + intros q. unfold bump, fupd. destruct (Nat.eqb_spec q p) as [->|]; [lia|auto].
Qed.

Lemma pop_ok w v wv p : WInv init w -> vv (ws w) v = Some wv -> vphys wv = Some p -> 1 <= perm w p ->
  exists s1 r, pop_task (ws w) v = Ok (s1, r) /\
    match r with
    | Some t => (exists q, vq wv = t :: q) /\ WInv init (mkw s1 (bump (own w) t) (drop (perm w) p) (drift w) (hand w) (issued w) (fupd (started w) v (started w v ++ [t])))
    | None => vq wv = []
    end.
Proof.
  intros HW V W P1. pose proof HW as [A1 B C D E F G H]. destruct (get_virt_ok _ v wv V) as (o & GV & EV & KV). unfold pop_task. rewrite GV. cbn [bind].
  destruct (vq wv) as [|t q] eqn:VQ; [exists (ws w), None; auto|].
  pose proof (i_place _ _ _ _ _ A1) as PL. destruct (i_vp _ _ _ _ PL v wv p V W) as (r & R & IN).
  assert (HT : In t (vq wv)) by (rewrite VQ; now left). destruct (i_q _ _ _ _ PL v wv t V HT) as (Ot & tr & Tt & SB & AC).
  destruct (own_live A1 t Ot) as (ot & Et & Dt & _).
  assert (Ntv : t <> v) by (intros ->; apply tt_kt in Tt; apply vv_kt in V; congruence).
  set (w1 := mkvirt (vtype wv) (vphys wv) q).
  pose proof (requeue_phys_inv A1 v wv q p r (ptasks r) (drop (perm w) p) (drift w) V) as RQ. destruct (i_cnt _ _ _ _ PL p r R) as [T0 TE].
  assert (I2 : Inv init (own w) (drop (perm w) p) (drift w) (setp (setv (ws w) v w1) p (mkphys (ptype r) (ptasks r) (pvacs r) (pfvaq r) (prev r)))).
  { apply RQ; auto.
    - pose proof (i_qn _ _ _ _ PL v wv V) as ND. rewrite VQ in ND. now inversion ND.
    - intros y Hy. apply (i_q _ _ _ _ PL v wv y V). rewrite VQ. now right.
    - intros x Hx. unfold drop. rewrite fupd_ne by auto. auto.
    - rewrite VQ. cbn [length]. unfold drop. rewrite fupd_eq. lia. }
  replace (set_virt (ws w) v o w1) with (setv (ws w) v w1) by (unfold setv; now rewrite EV).
  destruct (setv_views (ws w) v wv w1 V) as (X1 & X2 & X3 & X4 & X5 & X6 & X7 & X8 & X9). set (s1 := setv (ws w) v w1) in *.
  assert (R1 : pp s1 p = Some r) by now rewrite X2.
  assert (I1 : Inv init (own w) (drop (perm w) p) (drift w) s1).
  { (* the physical accelerator's record is rewritten with itself *)
    destruct (pp_heap _ _ _ R1) as (op & Ep & Kp).
    destruct (Inv_st_ext init _ _ _ _ s1 I2) as [Q _]; auto; unfold setp; rewrite Ep; try reflexivity.
    intros y. unfold set_phys, seto. cbn. unfold fupd. destruct (Nat.eqb_spec y p) as [->|]; auto. rewrite Ep. f_equal. destruct r, op. cbn in *. rewrite Kp. reflexivity. }
  assert (E1t : heap s1 t = Some ot) by (unfold s1, setv; rewrite EV; unfold set_virt, seto; cbn; rewrite fupd_ne; auto).
  destruct (ref_inc_ok (own w) s1 t ot I1 E1t Dt) as (s2 & A2 & E2 & I3 & U1 & U2 & U3 & U4 & U5 & L2). rewrite A2. cbn [bind].
  exists s2, (Some t). split; auto. split; [eauto|].
  assert (VV2 : forall y, vv s2 y = if y =? v then Some w1 else vv (ws w) y) by (intros y; rewrite U1, X1; reflexivity).
  assert (OO : orph s2 = orph (ws w)) by (rewrite E2; cbn; congruence).
  constructor; cbn [ws own perm drift hand issued started]; auto.
  - intros k rk. rewrite U2, X2. apply B.
  - intros k rk. rewrite U3, X3. apply C.
  - destruct D as [D1 D2]. split; auto. intros u Hu. rewrite OO. destruct (D2 u Hu) as [(wu & Vu & Wu) N]. split; auto. exists wu. rewrite VV2.
    destruct (Nat.eqb_spec u v) as [->|]; [congruence|auto].
  - intros u wu. rewrite VV2, OO. destruct (Nat.eqb_spec u v) as [->|Nu]; [|apply E]. intros Q. inversion Q; subst wu. cbn. congruence.
  - intros u. unfold qof. rewrite VV2. unfold fupd. destruct (Nat.eqb_spec u v) as [->|Nu]; [|apply F]. rewrite F. unfold qof. rewrite V, VQ. cbn. rewrite <- app_assoc. reflexivity.
  - intros u Hu. rewrite E2 in Hu. cbn in Hu. rewrite X6 in Hu. destruct (G u Hu) as [G1 G2]. split; auto. unfold fupd. destruct (Nat.eqb_spec u v) as [->|]; auto.
    pose proof (vv_lt w v wv HW V). lia.
  - intros k. unfold drop, fupd. destruct (Nat.eqb_spec k p) as [->|]; auto. specialize (H p). lia.
Qed.

Lemma drop_permit_ok w p r : WInv init w -> 1 <= perm w p -> pp (ws w) p = Some r -> (forall v, In v (pvacs r) -> qlen (ws w) v = 0) ->
  1 <= drift w p /\ WInv init (mkw (ws w) (own w) (drop (perm w) p) (drop (drift w) p) (hand w) (issued w) (started w)).
Proof.
  intros HW P1 R Q. pose proof HW as [A1 B C D E F G H]. destruct (i_cnt _ _ _ _ (i_place _ _ _ _ _ A1) p r R) as [T0 TE].
  assert (S0 : sumq (ws w) (pvacs r) = 0).
  { clear - Q. induction (pvacs r) as [|v l IH]; auto. rewrite sumq_cons, IH, Q; auto; [now left|]. intros u Hu. apply Q. now right. }
  assert (D1 : 1 <= drift w p) by lia. split; auto.
  constructor; cbn [ws own perm drift hand issued started]; auto.
  - apply (frame_inv init (own w) (perm w) (drift w) _ _ (ws w)); auto; try (intros; apply osame_refl).
    + intros x Hx. destruct (i_ghost _ _ _ _ _ A1 x Hx) as [G1 G2]. unfold drop, fupd. destruct (Nat.eqb_spec x p) as [->|]; lia.
    + destruct (i_place _ _ _ _ _ A1) as [Q1 Q2 Q3 Q4 Q5 Q6]. constructor; auto. intros q rq Rq. specialize (Q6 q rq Rq). unfold drop, fupd.
      destruct (Nat.eqb_spec q p) as [->|]; auto. split; [tauto|]. lia.
  - intros q. unfold drop, fupd. destruct (Nat.eqb_spec q p) as [->|]; auto. specialize (H p). lia.
Qed.

(** ** Issuing *)
Lemma check_sem_ok s args : (forall x, In x args -> exists d, x = Some d /\ kt s d = Some TData) -> check_semantics s args = Ok true.
Proof.
  induction args as [|x l IH]; cbn; auto. intros HL. destruct (HL x (or_introl eq_refl)) as (d & -> & K). unfold kt in K. unfold get.
  destruct (heap s d) as [o|]; [|discriminate]. inversion K. cbn [bind]. rewrite H0. cbn. apply IH. auto.
Qed.
Lemma strip_some args : (forall x, In x args -> exists d : nat, x = Some d) -> args = map Some (strip args).
Proof. induction args as [|x l IH]; cbn; auto. intros HL. destruct (HL x (or_introl eq_refl)) as (d & ->). cbn. f_equal. apply IH. auto. Qed.

Lemma issue_ok c w a p host args : WInv init w -> 1 <= own w a -> kt (ws w) a = Some TVirt ->
  (forall x, In x args -> exists d, x = Some d /\ 1 <= own w d /\ kt (ws w) d = Some TData /\ compat (ws w) d a) ->
  exists s1, task_issue c (ws w) a p host args = Ok (s1, next (ws w)) /\
    ((forall v, In v (hand w) -> heap s1 v <> None) ->
     WInv init (mkw s1 (bump (own w) (next (ws w))) (perm w) (drift w) (hand w) (fupd (issued w) a (issued w a ++ [next (ws w)])) (started w))) /\
    tt_ s1 (next (ws w)) = Some (mktask a p (strip args) true).
Proof.
  intros HW Oa Ka HA. pose proof HW as [A1 B C D E F G H]. unfold task_issue. rewrite check_sem_ok by (intros x Hx; destruct (HA x Hx) as (d & -> & _ & K & _); eauto).
  cbn [bind assert_]. unfold task_alloc. set (k := KTask (mktask a p [] false)). assert (FK : fresh k) by (cbn; auto).
  set (sz := (sTask c + 8 * N.of_nat (length (strip args)) + host)%N).
  destruct (register_ok (own w) (ws w) k 2 sz A1 FK) as (EQ & I1 & NX & OR & E' & EN & _).
  destruct (reg_views _ _ _ _ _ k 2 sz A1 FK) as (V1 & V2 & V3 & V4 & V5). cbv zeta in *. rewrite EQ.
  pose proof (i_bound _ _ _ _ _ A1 (next (ws w)) (le_n _)) as HN.
  set (t := next (ws w)) in *. set (s1 := fst (register (ws w) _ _ _)) in *. set (own1 := bump (own w) t) in *.
  assert (OB : forall y, 1 <= own w y -> 1 <= own1 y) by (intros y Hy; pose proof (bump_ge (own w) t y); unfold own1; lia).
  assert (LTo : forall y, 1 <= own w y -> y <> t) by (intros y Hy ->; destruct (own_next _ _ A1 t (le_n _)); lia).
  assert (VV1 : forall y, vv s1 y = vv (ws w) y) by (intros y; rewrite V1; destruct (Nat.eqb_spec y t) as [->|]; auto; unfold vv; now rewrite HN).
  assert (PP1 : forall y, pp s1 y = pp (ws w) y) by (intros y; rewrite V2; destruct (Nat.eqb_spec y t) as [->|]; auto; unfold pp; now rewrite HN).
  assert (KT1 : forall y, y <> t -> kt s1 y = kt (ws w) y) by (intros y Ny; rewrite V5; apply Nat.eqb_neq in Ny; now rewrite Ny).
  assert (DD1 : forall y, dd s1 y = dd (ws w) y) by (intros y; rewrite V4; destruct (Nat.eqb_spec y t) as [->|]; auto; unfold dd; now rewrite HN).
  destruct (args_init_ok own1 t a p (strip args) s1 [] I1) as (s2 & A2 & I2 & L2 & N2 & T2 & _).
  { unfold own1, bump. rewrite fupd_eq. lia. }
  { auto. }
  { rewrite V3, Nat.eqb_refl. reflexivity. }
  { rewrite KT1; auto. }
  { intros d Hd. assert (Hx : In (Some d) args).
    { rewrite (strip_some args); [apply in_map; auto|]. intros x Hx. destruct (HA x Hx) as (e & -> & _). eauto. }
    destruct (HA _ Hx) as (e & Q & Oe & Ke & Ce). inversion Q; subst e. split; auto. split; [rewrite KT1; auto|].
    intros dr b H1 H2 H3 wb wa H4 H5. rewrite DD1 in H1. rewrite VV1 in H4, H5. eapply Ce; eauto. }
  rewrite A2. cbn [bind app] in *.
  assert (Oa2 : 1 <= own1 a) by auto. destruct (own_live I2 a Oa2) as (oa & Ea & _).
  assert (Ka2 : kt s2 a = Some TVirt).
  { apply (lf_kt _ _ L2); [rewrite KT1; auto| |congruence]. rewrite NX. destruct (own_live A1 a Oa) as (o & Eo & _). pose proof (live_lt A1 a o Eo). unfold t. lia. }
  destruct (kt_vv s2 a Ka2) as (wa & Va).
  destruct (submit_ok own1 s2 t a p (strip args) wa I2 ltac:(unfold own1, bump; rewrite fupd_eq; lia) Oa2 T2 Va) as (s3 & A3 & I3 & W1 & W2 & W3 & W4 & W5 & W6 & W7).
  rewrite A3. cbn [bind]. exists s3. split; auto. split; [|rewrite W5, Nat.eqb_refl; reflexivity]. intros HS.
  pose proof (lf_qof _ _ _ _ _ _ _ _ _ I1 I2 L2) as QF.
  assert (QUE : forall y, queued s1 y -> 1 <= own1 y).
  { intros y (v & wv & V & I). rewrite VV1 in V. apply OB. eapply (w_queued_own init w y HW). exists v, wv. auto. }
  specialize (QF QUE).
  assert (LVW : forall v wv, vv (ws w) v = Some wv -> v < next s1) by (intros v wv V; pose proof (vv_lt w v wv HW V); unfold t in *; lia).
  assert (LIVE23 : forall v, heap s3 v <> None -> heap s2 v <> None) by (intros v Hv Q; apply Hv; specialize (W6 v); unfold kt in W6; rewrite Q in W6; destruct (heap s3 v); [discriminate|auto]).
  constructor; cbn [ws own perm drift hand issued started]; auto.
  - intros q rq Rq. destruct (W2 q rq Rq) as (r2 & R2 & ->). destruct (lf_pp _ _ L2 q r2 R2) as (r1 & R1 & ->). rewrite PP1 in R1. eauto.
  - intros x tx. rewrite W5. destruct (Nat.eqb_spec x t) as [->|Nx]; [intros Q; inversion Q; reflexivity|]. intros T. destruct (tsub tx) eqn:SB; auto.
    destruct (lf_ts _ _ L2 x tx T SB) as (tx1 & T1 & SB1). rewrite V3 in T1. apply Nat.eqb_neq in Nx. rewrite Nx in T1. rewrite (C x tx1 T1) in SB1. discriminate.
  - destruct D as [D1 D2]. split; auto. intros u Hu. destruct (D2 u Hu) as [(wu & Vu & Wu) N]. split.
    + assert (K2 : kt s2 u = Some TVirt). { apply (lf_kt _ _ L2); [eapply vv_kt; rewrite VV1; eauto|eauto|auto]. }
      destruct (kt_vv s2 u K2) as (w2 & V2u). pose proof (lf_vv _ _ L2 u w2 V2u) as Q. rewrite VV1, Vu in Q. inversion Q; subst w2.
      rewrite W1. destruct (Nat.eqb_spec u a) as [->|]; [|eauto]. rewrite Va in V2u. inversion V2u; subst wa. exists (pushq t wu). auto.
    + rewrite W3. intros Q. apply N. rewrite <- OR. apply (lf_o1 _ _ L2). auto.
  - intros u wu Vu Wu. assert (exists w2, vv s2 u = Some w2 /\ vphys w2 = None) as (w2 & V2u & W2u).
    { rewrite W1 in Vu. destruct (Nat.eqb_spec u a) as [->|]; [|eauto]. inversion Vu; subst wu. exists wa. auto. }
    pose proof (lf_vv _ _ L2 u w2 V2u) as Q. rewrite VV1 in Q. destruct (E u w2 Q W2u) as [O|O]; auto. left. rewrite W3. apply (lf_o2 _ _ L2); [now rewrite OR|eauto|].
    destruct (vv_heap _ _ _ V2u) as (o2 & Eo2 & _). congruence.
  - intros u. unfold qof in *. rewrite W1. specialize (QF u). rewrite VV1 in QF. unfold fupd. destruct (Nat.eqb_spec u a) as [->|Nu].
    + rewrite Va in QF. rewrite F. unfold qof. rewrite <- QF. cbn. rewrite app_assoc. reflexivity.
    + rewrite QF. apply F.
  - intros u Hu. rewrite W4, N2, NX in Hu. destruct (G u ltac:(unfold t in *; lia)) as [G1 G2]. split; auto. unfold fupd. destruct (Nat.eqb_spec u a) as [->|]; auto.
    destruct (own_live A1 a Oa) as (o & Eo & _). pose proof (live_lt A1 a o Eo). unfold t in *. lia.
Qed.

(** * Main theorem: a call made under the discipline returns normally and keeps the invariant *)
Theorem step_ok c w o : WInv init w -> ok c w o -> exists w', step c w o = Ok w' /\ WInv init w'.
Proof.
  intros HW OKo. destruct o; cbn [ok step] in *.
  - destruct (accel_init_ok c w name ty HW) as (s1 & A & W' & _). rewrite A. cbn [bind]. eauto.
  - unfold delete_accel. destruct (mem p (reg (ws w) TPhys)) eqn:M.
    + apply mem_spec in M. destruct (drop_winv init w p HW (OKo M)) as (s1 & A & W'). rewrite A. cbn [bind]. eexists. split; [reflexivity|exact W'].
    + cbn [bind]. eexists. split; [reflexivity|]. destruct w; exact HW.
  - destruct (acquire_phys_ok c w p HW OKo) as (s1 & r & A & W' & _). rewrite A. cbn [bind]. eauto.
  - destruct (acquire_type_ok c w ty HW) as (s1 & A & W'). rewrite A. cbn [bind]. eauto.
  - destruct OKo as [K DR]. destruct (drop_winv init w x HW DR) as (s1 & A & W'). unfold accel_release.
    destruct (own_live (w_inv _ _ HW) x (proj1 (proj1 DR))) as (o & E & _). unfold get. rewrite E. cbn [bind]. unfold kt in K. rewrite E in K.
    destruct (knd o); try (destruct K as [K|K]; discriminate K); rewrite A; cbn [bind]; eauto.
  - destruct OKo as (wv & V & HP & _ & K & _). destruct (kt_pp _ _ K) as (r & R). destruct (assign_ok w v p wv r HW V R HP) as (s1 & A & W'). rewrite A. cbn [bind]. eauto.
  - destruct OKo as (wv & V & W). destruct (unassign_ok w p v wv HW V W) as (s1 & A & W'). rewrite A. cbn [bind]. eauto.
  - destruct (take_orphan_ok w HW) as (s1 & r & A & Q). rewrite A. cbn [bind]. destruct r; [destruct Q; eauto|eauto].
  - unfold proc_register. destruct (find_proc (ws w) name) as [x|] eqn:FP.
    + eexists. split; [reflexivity|]. apply find_some in FP. destruct FP as [FP _]. apply mem_spec in FP. rewrite FP. destruct w; exact HW.
    + unfold proc_init. destruct (register_winv init w (KProc (mkproc (fun _ => None) 0)) name (sProc c) HW I I) as [EQ W']. cbv zeta in *. rewrite EQ.
      assert (NM : mem (next (ws w)) (reg (ws w) TProc) = false).
      { apply mem_false. intros Hin. destruct (reg_live _ _ _ _ HW Hin) as (o & E & _). pose proof (live_lt (w_inv _ _ HW) _ _ E). lia. }
      rewrite NM. eauto.
  - unfold proc_get. destruct (find_proc (ws w) name) as [x|] eqn:FP; [|eexists; split; [reflexivity|]; destruct w; exact HW].
    apply find_some in FP. destruct FP as [FP _]. destruct (reg_live _ _ _ _ HW FP) as (o & E & D & _).
    destruct (inc_winv init w x o HW E D) as (s1 & A & W'). rewrite A. cbn [bind]. eauto.
  - destruct OKo as [K DR]. destruct (drop_winv init w x HW DR) as (s1 & A & W'). unfold proc_put. rewrite A. cbn [bind]. eauto.
  - unfold data_init. apply N.eqb_neq in OKo. rewrite OKo. cbn [negb assert_ bind].
    destruct (register_winv init w (KData (mkdata None size)) 1 (sData c + (size + align + 8))%N HW eq_refl I) as [EQ W']. cbv zeta in *. rewrite EQ. eauto.
  - destruct OKo as [K DR]. destruct (drop_winv init w d HW DR) as (s1 & A & W'). unfold data_free. rewrite A. cbn [bind]. eauto.
  - destruct OKo as (Oa & Ka & _ & HA & SP). destruct (issue_ok c w a p host args HW Oa Ka HA) as (s1 & A & W' & _). rewrite A. cbn [bind]. eexists. split; [reflexivity|].
    apply W'. intros v Hv. eapply SP; eauto.
  - destruct OKo as [K DR]. destruct (drop_winv init w t HW DR) as (s1 & A & W'). unfold task_free. rewrite A. cbn [bind]. eauto.
  - destruct OKo as (K & _ & P0). destruct (wait_ok w p HW K P0) as (s1 & b & A & W' & _). rewrite A. cbn [bind]. eauto.
  - destruct OKo as (wv & p & V & W & P1). destruct (pop_ok w v wv p HW V W P1) as (s1 & r & A & Q). rewrite A. cbn [bind]. rewrite V, W. destruct r; [destruct Q; eauto|eauto].
  - destruct OKo as (P1 & r & R & Q). destruct (drop_permit_ok w p r HW P1 R Q) as [_ W']. eauto.
  - unfold accel_list. set (l := filter _ _). destruct (incs_winv init l w HW) as (s1 & A & W').
    { intros x Hx. apply filter_In in Hx. destruct Hx as [Hx _]. destruct (reg_live _ _ _ _ HW Hx) as (o & E & D & _). eauto. }
    rewrite A. cbn [bind snd]. eauto.
  - destruct OKo as [HL SP]. unfold accel_list_free in *.
    destruct (list_drop init (perm w) (drift w) l (own w) (ws w) (w_inv _ _ HW) HL) as (s1 & A & I1 & F1). rewrite A in *. cbn [bind] in *.
    eexists. split; [reflexivity|]. apply lf_winv; auto.
    + apply fr_lf; auto.
    + intros t Ht. cbn beta. replace (cnt t l) with 0; [pose proof (w_queued_own _ _ _ HW Ht); lia|]. destruct (Nat.eq_dec (cnt t l) 0) as [|N]; auto. exfalso.
      assert (Hin : In t l) by (apply cnt_in; lia). destruct (HL t Hin) as [_ K]. revert Ht. destruct K as [K|[K _]]; eapply not_queued; eauto using (w_inv _ _ HW); discriminate.
    + intros v Hv. eapply SP; eauto.
  - destruct OKo as (Od & Oa & Kd & Ka & CP & SP). destruct (kt_dd _ _ Kd) as (dr & Dr).
    destruct (migrate_ok (own w) (ws w) d a dr (w_inv _ _ HW) Od Oa Dr Ka CP) as (s1 & A & I1 & L1 & _). rewrite A in *. cbn [bind] in *.
    eexists. split; [reflexivity|]. apply lf_winv; auto.
    + intros t Ht. eapply w_queued_own; eauto.
    + intros v Hv. eapply SP; eauto.
Qed.

Theorem reach_inv c w : (init < M64)%N -> reach c init w -> WInv init w.
Proof.
  intros L R. induction R as [|w o w' R IH OKo ST]; [now apply w0_inv|]. destruct (step_ok c w o IH OKo) as (w1 & A & W'). rewrite ST in A. inversion A; subst. auto.
Qed.
End Main.
