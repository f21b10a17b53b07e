(** Histories of API calls by clients, the controller's workers and its balancer, over the object layer of
    CoreModel.v.  The ghost state records who owns what; [ok] is the discipline the callers follow (release
    only what you own, ...); the main theorem says that under it no call is undefined or aborts, and that
    the invariant of CoreInv.v holds at every moment. *)
From Verif Require Import Base CoreModel CoreInv CoreStep CorePlace CoreDec CoreOps CoreIssue.
Ltac Zify.zify_post_hook ::= idtac.
Arguments N.modulo : simpl never.
Arguments N.add : simpl never.
Arguments N.sub : simpl never.
Arguments Nat.eqb : simpl never.

(** Ghosts: [own x] references to [x] held by clients, workers and the controller; [perm p] the permits
    (returned calls of arax_accel_wait_for_task) the worker of [p] has not used; [drift p] how many queued
    tasks the pending counter of [p] over-counts; [hand] the unassigned virtual accelerators the balancer took
    from the orphan list; [issued v], [started v] the tasks issued to, popped from, [v], in order. *)
(** Ghosts around the state of CoreModel.v; no code of its own. *)
Record world := mkw { ws : st; own : nat -> nat; perm : nat -> nat; drift : nat -> nat; hand : list nat;
                      issued : nat -> list nat; started : nat -> list nat }.
(** Before the first call; no code of its own. *)
Definition w0 (init : N) : world := mkw (st0 init) (fun _ => 0) (fun _ => 0) (fun _ => 0) [] (fun _ => []) (fun _ => []).

(** The calls of CoreModel.v (src/arch/shm/impl.c:209-538, src/core/arax_accel.c, arax_pipe.c:63-107). *)
Inductive op :=
| AccelInit (name : nat) (ty : atype) | DeleteAccel (p : nat)
| AcquirePhys (p : nat) | AcquireType (ty : atype) | AccelRelease (x : nat)
| Assign (v p : nat) | Unassign (p v : nat) | TakeOrphan
| ProcRegister (name : nat) | ProcGet (name : nat) | ProcPut (x : nat)
| DataInit (size align : N) | DataFree (d : nat)
| Issue (a p : nat) (host : N) (args : list (option nat)) | TaskFree (t : nat)
| Wait (p : nat) | Pop (v : nat) | DropPermit (p : nat)
| AccelList (ty : atype) (physical : bool) | ListFree (l : list nat)
| Migrate (d a : nat).

(** Ghost update, no code of its own. *)
Definition upd_s (w : world) (s : st) (o : nat -> nat) : world := mkw s o (perm w) (drift w) (hand w) (issued w) (started w).
(** arax_accel_del_vaccel followed by arax_pipe_add_orphan_vaccel, as the schedulers do (HeterogeneousScheduler) *)
(** controller/src/Schedulers/HeterogeneousScheduler.cpp:112-217. *)
Definition unassign (s : st) (p v : nat) : outcome st := do s1 <- del_vaccel s p v; add_orphan s1 v.

(** One call; the ghosts follow what the caller receives or gives away. *)
(** One call of CoreModel.v (src/arch/shm/impl.c:209-538); the rest is ghost. *)
Definition step (c : cfg) (w : world) (o : op) : outcome world :=
  let s := ws w in
  match o with
  | AccelInit name ty => do (s1, p) <- accel_init c s name ty; Ok (upd_s w s1 (bump (own w) p))
  | DeleteAccel p => do (s1, r) <- delete_accel s p; Ok (upd_s w s1 (if r =? 0 then drop (own w) p else own w))
  | AcquirePhys p => do (s1, r) <- acquire_phys c s p; Ok (upd_s w s1 (match r with Some v => bump (own w) v | None => own w end))
  | AcquireType ty => do (s1, v) <- acquire_type c s ty; Ok (upd_s w s1 (bump (own w) v))
  | AccelRelease x => do s1 <- accel_release s x; Ok (upd_s w s1 (drop (own w) x))
  | Assign v p => do s1 <- set_physical s v p; Ok (mkw s1 (own w) (perm w) (drift w) (remove Nat.eq_dec v (hand w)) (issued w) (started w))
  | Unassign p v =>
      do s1 <- unassign s p v;
      Ok (mkw s1 (own w) (perm w) (if qlen s v =? 0 then drift w else fupd (drift w) p (S (drift w p))) (hand w) (issued w) (started w))
  | TakeOrphan =>
      do (s1, r) <- get_orphan s;
      Ok (match r with Some v => mkw s1 (own w) (perm w) (drift w) (v :: hand w) (issued w) (started w) | None => w end)
  | ProcRegister name => let '(s1, x) := proc_register c s name in Ok (upd_s w s1 (if mem x (reg s TProc) then own w else bump (own w) x))
  | ProcGet name => do (s1, r) <- proc_get s name; Ok (upd_s w s1 (match r with Some x => bump (own w) x | None => own w end))
  | ProcPut x => do (s1, _) <- proc_put s x; Ok (upd_s w s1 (drop (own w) x))
  | DataInit size align => do (s1, d) <- data_init c s size align; Ok (upd_s w s1 (bump (own w) d))
  | DataFree d => do s1 <- data_free s d; Ok (upd_s w s1 (drop (own w) d))
  | Issue a p host args =>
      do (s1, t) <- task_issue c s a p host args;
      Ok (mkw s1 (bump (own w) t) (perm w) (drift w) (hand w) (fupd (issued w) a (issued w a ++ [t])) (started w))
  | TaskFree t => do s1 <- task_free s t; Ok (upd_s w s1 (drop (own w) t))
  | Wait p => do (s1, b) <- wait_for_task s p;
              Ok (mkw s1 (own w) (if b then bump (perm w) p else perm w) (drift w) (hand w) (issued w) (started w))
  | Pop v =>
      do (s1, r) <- pop_task s v;
      Ok (match r with
          | Some t => mkw s1 (bump (own w) t)
                          (match vv s v with Some wv => match vphys wv with Some p => drop (perm w) p | None => perm w end | None => perm w end)
                          (drift w) (hand w) (issued w) (fupd (started w) v (started w v ++ [t]))
          | None => w end)
  | DropPermit p => Ok (mkw s (own w) (drop (perm w) p) (drop (drift w) p) (hand w) (issued w) (started w))
  | AccelList ty ph => do (s1, r) <- accel_list s ty ph true; Ok (upd_s w s1 (add (own w) (match snd r with Some l => l | None => [] end)))
  | ListFree l => do s1 <- accel_list_free s l; Ok (upd_s w s1 (fun x => own w x - cnt x l))
  | Migrate d a => do s1 <- migrate s d a; Ok (upd_s w s1 (own w))
  end.

(** The discipline. *)
(** [x] may be released: the caller owns a reference; the last owned reference of a task still waiting in a
    queue is not given up; a physical accelerator loses its last reference only when no virtual accelerator
    but its own is assigned to it and nobody else refers to that one. *)
Definition droppable (w : world) (x : nat) : Prop :=
  1 <= own w x /\ (queued (ws w) x -> 2 <= own w x) /\
  (forall r, pp (ws w) x = Some r -> rcof (ws w) x = 1 -> exists v, pfvaq r = Some v /\ (forall u, In u (pvacs r) -> u = v) /\ rcof (ws w) v = 1).
(** the call does not destroy a virtual accelerator the balancer is holding (it holds it without a reference) *)
Definition spares {A : Type} (w : world) (r : outcome (st * A)) : Prop :=
  forall s' a, r = Ok (s', a) -> forall v, In v (hand w) -> heap s' v <> None.
Definition drops (w : world) (x : nat) : Prop := droppable w x /\ spares w (ref_dec FUEL (ws w) x).

Definition ok (c : cfg) (w : world) (o : op) : Prop :=
  let s := ws w in
  match o with
  | AccelInit _ _ | AcquireType _ | TakeOrphan | ProcRegister _ | ProcGet _ | AccelList _ _ => True
  | DeleteAccel p => In p (reg s TPhys) -> drops w p
  | AcquirePhys p => 1 <= own w p
  | AccelRelease x => (kt s x = Some TPhys \/ kt s x = Some TVirt) /\ drops w x
  | Assign v p => exists wv, vv s v = Some wv /\ (vphys wv = None \/ vphys wv = Some p) /\ (1 <= own w v \/ In v (hand w)) /\ kt s p = Some TPhys /\ 1 <= own w p
  | Unassign p v => exists wv, vv s v = Some wv /\ vphys wv = Some p
  | ProcPut x => kt s x = Some TProc /\ drops w x
  | DataInit _ align => align <> 0%N
  | DataFree d => kt s d = Some TData /\ drops w d
  | Issue a p host args =>
      1 <= own w a /\ kt s a = Some TVirt /\ qlen s a < qcap c /\
      (forall x, In x args -> exists d, x = Some d /\ 1 <= own w d /\ kt s d = Some TData /\ compat s d a) /\
      spares w (task_issue c s a p host args)
  | TaskFree t => kt s t = Some TTask /\ drops w t
  | Wait p => kt s p = Some TPhys /\ 1 <= own w p /\ perm w p = 0
  | Pop v => exists wv p, vv s v = Some wv /\ vphys wv = Some p /\ 1 <= perm w p
  | DropPermit p => 1 <= perm w p /\ exists r, pp s p = Some r /\ forall v, In v (pvacs r) -> qlen s v = 0
  | ListFree l => (forall x, In x l -> cnt x l <= own w x /\ (kt s x = Some TVirt \/ kt s x = Some TPhys /\ cnt x l < own w x)) /\
                  spares w (do s1 <- accel_list_free s l; Ok (s1, tt))
  | Migrate d a => 1 <= own w d /\ 1 <= own w a /\ kt s d = Some TData /\ kt s a = Some TVirt /\ compat s d a /\
                   spares w (do s1 <- migrate s d a; Ok (s1, tt))
  end.

Inductive reach (c : cfg) (init : N) : world -> Prop :=
| reach0 : reach c init (w0 init)
| reach1 w o w' : reach c init w -> ok c w o -> step c w o = Ok w' -> reach c init w'.

(** * The invariant *)
Definition qof (s : st) (v : nat) : list nat := match vv s v with Some w => vq w | None => [] end.
Record WInv (init : N) (w : world) : Prop := {
  w_inv : Inv init (own w) (perm w) (drift w) (ws w);
  w_fv : forall p r, pp (ws w) p = Some r -> pfvaq r <> None;
  w_sub : forall t tr, tt_ (ws w) t = Some tr -> tsub tr = true;
  w_hand : NoDup (hand w) /\ forall v, In v (hand w) -> (exists wv, vv (ws w) v = Some wv /\ vphys wv = None) /\ ~ In v (orph (ws w));
  w_all : forall v wv, vv (ws w) v = Some wv -> vphys wv = None -> In v (orph (ws w)) \/ In v (hand w);
  w_log : forall v, issued w v = started w v ++ qof (ws w) v;
  w_new : forall v, next (ws w) <= v -> issued w v = [] /\ started w v = [];
  w_perm : forall p, perm w p <= 1
}.

Lemma w0_inv init : (init < M64)%N -> WInv init (w0 init).
Proof.
  intros L. constructor; cbn; try (intros; discriminate); auto; try lia.
  - constructor; cbn; try (intros; discriminate); auto.
    + intros ty. split; [constructor|]. intros x. split; [intros []|]. intros (o & E & _). discriminate.
    + rewrite N.add_0_r. split; auto.
    + constructor; cbn; try (intros; discriminate). split; [constructor|]. intros v [].
  - split; [constructor|]. intros v [].
Qed.

(** queues are unchanged by calls that follow the frame [lf] *)
Lemma lf_qof init own own' perm drift perm' drift' s s' :
  Inv init own perm drift s -> Inv init own' perm' drift' s' -> lf s s' -> (forall t, queued s t -> 1 <= own' t) ->
  forall v, qof s' v = qof s v.
Proof.
  intros HI HI' L Q v. unfold qof. destruct (vv s' v) as [w'|] eqn:V'.
  - rewrite (lf_vv _ _ L v w' V'). reflexivity.
  - destruct (vv s v) as [w|] eqn:V; auto. destruct (vq w) as [|t l] eqn:VQ; auto. exfalso.
    assert (Hin : In t (vq w)) by (rewrite VQ; now left).
    destruct (i_q _ _ _ _ (i_place _ _ _ _ _ HI) v w t V Hin) as (O & tr & T & SB & AC).
    assert (O' : 1 <= own' t) by (apply Q; exists v, w; auto).
    destruct (own_live HI' t O') as (o & E & D & _). pose proof (tt_heap s t tr T) as (o0 & E0 & _). pose proof (live_lt HI t o0 E0) as LT.
    pose proof (lf_tt _ _ L t tr T SB LT ltac:(congruence)) as T'. destruct (tt_heap s' t tr T') as (o1 & E1 & K1). rewrite E in E1. inversion E1; subst o1.
    assert (R : 1 <= refs s' v). { apply (refs_edge HI' v t). unfold hedges. rewrite E. unfold edges. rewrite D, K1. cbn. rewrite SB. apply in_app_iff. right. left. auto. }
    destruct (refs_live HI' v R) as (ov & Ev & _). destruct (vv_heap s v w V) as (ov0 & Ev0 & _).
    assert (KV : kt s' v = Some TVirt) by (apply (lf_kt _ _ L); [eapply vv_kt; eauto|eapply (live_lt HI); eauto|congruence]).
    apply kt_vv in KV. destruct KV. congruence.
Qed.

(** preservation by any call that follows the frame *)
Lemma lf_winv init w s' own' : WInv init w -> Inv init own' (perm w) (drift w) s' -> lf (ws w) s' ->
  (forall t, queued (ws w) t -> 1 <= own' t) -> (forall v, In v (hand w) -> heap s' v <> None) -> WInv init (upd_s w s' own').
Proof.
  intros HW I' L Q HS. pose proof HW as [A B C D E F G H]. pose proof (lf_qof _ _ _ _ _ _ _ _ _ A I' L Q) as QF.
  constructor; cbn [ws own perm drift hand issued started upd_s]; auto.
  - intros p r R. destruct (lf_pp _ _ L p r R) as (r0 & R0 & ->). eauto.
  - intros t tr T. destruct (tsub tr) eqn:SB; auto. destruct (lf_ts _ _ L t tr T SB) as (tr0 & T0 & SB0). rewrite (C t tr0 T0) in SB0. discriminate.
  - destruct D as [D1 D2]. split; auto. intros v Hv. destruct (D2 v Hv) as [(wv & V & W) N]. split; [|intros Q'; apply N; apply (lf_o1 _ _ L); auto].
    destruct (vv_heap _ v wv V) as (o & Eo & _).
    assert (KV : kt s' v = Some TVirt) by (apply (lf_kt _ _ L); [eapply vv_kt; eauto|eapply (live_lt A); eauto|auto]).
    destruct (kt_vv s' v KV) as (w' & V'). exists w'. split; auto. pose proof (lf_vv _ _ L v w' V'). congruence.
  - intros v wv V W. pose proof (lf_vv _ _ L v wv V) as V0. destruct (E v wv V0 W) as [O|O]; auto. left. destruct (vv_heap _ v wv V0) as (o & Eo & _).
    apply (lf_o2 _ _ L); auto; [eapply (live_lt A); eauto|]. destruct (vv_heap _ v wv V) as (o' & Eo' & _). congruence.
  - intros v. rewrite QF. apply F.
  - intros v Hv. apply G. pose proof (lf_nx _ _ L). lia.
Qed.
Lemma w_queued_own init w t : WInv init w -> queued (ws w) t -> 1 <= own w t.
Proof. intros HW (v & wv & V & I). apply (i_q _ _ _ _ (i_place _ _ _ _ _ (w_inv _ _ HW)) v wv t V I). Qed.
Lemma bump_ge o x y : o y <= bump o x y.
Proof. unfold bump, fupd. destruct (Nat.eqb_spec y x) as [->|]; lia. Qed.

Lemma drop_winv init w x : WInv init w -> drops w x ->
  exists s', ref_dec FUEL (ws w) x = Ok (s', rcof (ws w) x - 1) /\ WInv init (upd_s w s' (drop (own w) x)).
Proof.
  intros HW ((O & Q & P) & SP). destruct (ref_dec_ok init (own w) (perm w) (drift w) (ws w) x (w_inv _ _ HW)) as (s' & A & I & F & _).
  { split; auto. split; auto. split; auto. intros t T. eapply (w_sub _ _ HW); eauto. }
  exists s'. split; auto. apply lf_winv; auto.
  - apply fr_lf; auto.
  - intros t Ht. unfold drop, fupd. destruct (Nat.eqb_spec t x) as [->|N]; [specialize (Q Ht); lia|eapply w_queued_own; eauto].
  - intros v Hv. eapply SP; eauto.
Qed.

(** registering an object that is neither an accelerator nor a task *)
Lemma register_lf init own perm drift s k name size : Inv init own perm drift s -> fresh k ->
  match k with KProc _ | KData _ => True | _ => False end -> lf s (fst (register s k name size)).
Proof.
  intros HI FK HK. destruct (register_ok own s k name size HI FK) as (EQ & I' & NX & OR & E' & EN & _). set (s' := fst (register s k name size)) in *.
  pose proof (i_bound _ _ _ _ _ HI (next s) (le_n _)) as HN.
  assert (V1 : forall y, vv s' y = vv s y) by (intros y; unfold vv; destruct (Nat.eq_dec y (next s)) as [->|N]; [rewrite HN, E'; cbn; destruct k; tauto|now rewrite EN]).
  assert (V2 : forall y, pp s' y = pp s y) by (intros y; unfold pp; destruct (Nat.eq_dec y (next s)) as [->|N]; [rewrite HN, E'; cbn; destruct k; tauto|now rewrite EN]).
  assert (V3 : forall y, tt_ s' y = tt_ s y) by (intros y; unfold tt_; destruct (Nat.eq_dec y (next s)) as [->|N]; [rewrite HN, E'; cbn; destruct k; tauto|now rewrite EN]).
  constructor.
  - intros v w. now rewrite V1.
  - intros v w. rewrite V2. eauto.
  - now rewrite OR.
  - now rewrite OR.
  - intros t tr. rewrite V3. auto.
  - intros t tr. rewrite V3. eauto.
  - intros x L. rewrite EN by lia. auto.
  - intros x ty K L _. unfold kt in *. rewrite EN by lia. auto.
  - lia.
Qed.
Lemma register_winv init w k name size : WInv init w -> fresh k -> match k with KProc _ | KData _ => True | _ => False end ->
  let x := next (ws w) in let s' := fst (register (ws w) k name size) in
  register (ws w) k name size = (s', x) /\ WInv init (upd_s w s' (bump (own w) x)).
Proof.
  intros HW FK HK. cbv zeta. pose proof (w_inv _ _ HW) as HI. destruct (register_ok (own w) (ws w) k name size HI FK) as (EQ & I' & NX & OR & E' & EN & _).
  split; [exact EQ|]. pose proof (register_lf _ _ _ _ _ k name size HI FK HK) as L. apply lf_winv; auto.
  - intros t Ht. pose proof (w_queued_own _ _ _ HW Ht). pose proof (bump_ge (own w) (next (ws w)) t). lia.
  - intros v Hv. destruct (proj2 (w_hand _ _ HW) v Hv) as [(wv & V & _) _]. destruct (vv_heap _ v wv V) as (o & Eo & _).
    rewrite EN; [congruence|]. pose proof (live_lt HI v o Eo). lia.
Qed.
Lemma inc_winv init w x o : WInv init w -> heap (ws w) x = Some o -> dying o = false ->
  exists s', ref_inc (ws w) x = Ok s' /\ WInv init (upd_s w s' (bump (own w) x)).
Proof.
  intros HW E D. destruct (ref_inc_ok (own w) (ws w) x o (w_inv _ _ HW) E D) as (s' & A & E1 & I & V1 & V2 & V3 & V4 & V5 & L).
  exists s'. split; auto. apply lf_winv; auto.
  - intros t Ht. pose proof (w_queued_own _ _ _ HW Ht). pose proof (bump_ge (own w) x t). lia.
  - intros v Hv. destruct (proj2 (w_hand _ _ HW) v Hv) as [(wv & V & _) _]. rewrite <- V1 in V. destruct (vv_heap _ v wv V) as (o1 & Eo & _). congruence.
Qed.
Lemma reg_live init w ty x : WInv init w -> In x (reg (ws w) ty) -> exists o, heap (ws w) x = Some o /\ dying o = false /\ otype_of (knd o) = ty.
Proof. intros HW H. apply (i_reg _ _ _ _ _ (w_inv _ _ HW)) in H. exact H. Qed.
Lemma incs_winv init l : forall w, WInv init w -> (forall x, In x l -> exists o, heap (ws w) x = Some o /\ dying o = false) ->
  exists s', incs (ws w) l = Ok s' /\ WInv init (upd_s w s' (add (own w) l)).
Proof.
  induction l as [|x l IH]; intros w HW HL.
  - exists (ws w). split; auto. pose proof HW as [A B C D E F G H]. constructor; auto. cbn. eapply Inv_own_ext; [|exact A]. intros y. unfold add. cbn. lia.
  - destruct (HL x (or_introl eq_refl)) as (o & Eo & Do). destruct (inc_winv init w x o HW Eo Do) as (s1 & A & W1). cbn [incs]. rewrite A. cbn [bind].
    destruct (IH (upd_s w s1 (bump (own w) x)) W1) as (s2 & A2 & W2).
    { intros y Hy. destruct (HL y (or_intror Hy)) as (oy & Ey & Dy). cbn. unfold ref_inc, get in A. rewrite Eo in A. cbn in A. inversion A; subst s1. unfold seto. cbn. unfold fupd.
      destruct (Nat.eqb_spec y x) as [->|]; eauto. }
    cbn [ws upd_s] in A2. exists s2. split; auto. pose proof W2 as [B1 B2 B3 B4 B5 B6 B7 B8]. constructor; auto. cbn in *. eapply Inv_own_ext; [|exact B1].
    intros y. unfold add. rewrite cnt_cons, bump_cnt. rewrite (cnt_cons y x []). change (cnt y []) with 0. lia.
Qed.
