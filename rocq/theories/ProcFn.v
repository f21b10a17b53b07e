(** C31: kernels of a procedure.  Models src/core/arax_proc.c:16-39 on the procedure record of CoreModel
    ([pfun]: the table of functors, None = NULL; [canrun]: the 64-bit mask). *)
From Verif Require Import Base CoreModel.
Arguments Nat.eqb : simpl never.

(** number of valid types, include/arax_types.h:82-94 *)
Definition TYPES := 9.
(** arax_proc_get_functor, arax_proc.c:16-20 *)
Definition get_functor (p : procr) (ty : nat) : outcome (option nat) :=
  do _ <- assert_ (ty <? TYPES);
  Ok (pfun p ty).
(** arax_proc_set_functor, arax_proc.c:22-31: returns the previous functor *)
Definition set_functor (p : procr) (ty : nat) (f : option nat) : outcome (procr * option nat) :=
  do r <- get_functor p ty;
  Ok (mkproc (fupd (pfun p) ty f) (N.lor (canrun p) (N.shiftl 1 (N.of_nat ty))), r).
(** arax_proc_can_run_at, arax_proc.c:33-39 *)
Definition can_run_at (p : procr) (ty : nat) : outcome bool :=
  do _ <- assert_ (ty <? TYPES);
  do _ <- assert_ (negb (ty =? 0));
  Ok (negb (N.land (canrun p) (N.shiftl 1 (N.of_nat ty)) =? 0)%N).
(** arax_proc_init, arax_proc.c:4-14: the object memory is zeroed *)
Definition fresh : procr := mkproc (fun _ => None) 0.
Fixpoint sets (p : procr) (h : list (nat * option nat)) : outcome procr :=
  match h with [] => Ok p | (ty, f) :: r => do (p', _) <- set_functor p ty f; sets p' r end.

(** * Specification: the last kernel set for a type *)
Fixpoint last_set (h : list (nat * option nat)) (ty : nat) (cur : option nat) : option nat :=
  match h with [] => cur | (t, f) :: r => last_set r ty (if Nat.eq_dec t ty then f else cur) end.
Definition was_set (h : list (nat * option nat)) (ty : nat) : Prop := exists f, In (ty, f) h.

Lemma bit_test m ty : negb (N.land m (N.shiftl 1 (N.of_nat ty)) =? 0)%N = N.testbit m (N.of_nat ty).
Proof.
  rewrite N.shiftl_1_l. destruct (N.testbit m (N.of_nat ty)) eqn:T.
  - apply negb_true_iff, N.eqb_neq. intros Q. assert (H : N.testbit (N.land m (2 ^ N.of_nat ty)) (N.of_nat ty) = false) by (rewrite Q; apply N.bits_0). rewrite N.land_spec, T, N.pow2_bits_true in H. discriminate.
  - apply negb_false_iff, N.eqb_eq. apply N.bits_inj_0. intros k. rewrite N.land_spec, N.pow2_bits_eqb. destruct (N.eqb_spec (N.of_nat ty) k) as [<-|]; [now rewrite T|apply andb_false_r].
Qed.
Lemma sets_spec h : forall p, (forall ty f, In (ty, f) h -> ty < TYPES) -> exists p', sets p h = Ok p' /\
  (forall ty, pfun p' ty = last_set h ty (pfun p ty)) /\ (forall ty, N.testbit (canrun p') (N.of_nat ty) = true <-> N.testbit (canrun p) (N.of_nat ty) = true \/ was_set h ty).
Proof.
  induction h as [|[t f] h IH]; intros p HV; cbn [sets last_set].
  - exists p. split; auto. split; auto. intros ty. split; auto. intros [H|[f []]]; auto.
  - assert (T : t < TYPES) by (apply (HV t f); now left). unfold set_functor, get_functor. apply Nat.ltb_lt in T. rewrite T. cbn [assert_ bind].
    set (q := mkproc _ _). destruct (IH q) as (p' & A & B & D); [intros ty g H; apply (HV ty g); now right|]. exists p'. split; [exact A|]. split.
    + intros ty. rewrite B. unfold q. cbn [pfun]. unfold fupd. destruct (Nat.eqb_spec ty t) as [->|N]; destruct (Nat.eq_dec t _) as [E|E]; auto; congruence.
    + intros ty. rewrite D. unfold q. cbn [canrun]. rewrite N.lor_spec, N.shiftl_1_l, N.pow2_bits_eqb, orb_true_iff, N.eqb_eq. unfold was_set. split.
      * intros [[H|H]|[g H]]; auto; right; [exists f; left; f_equal; lia|exists g; now right].
      * intros [H|[g [H|H]]]; auto; [inversion H; subst; auto|eauto].
Qed.

(** * Properties *)
(** After any sequence of settings on a fresh procedure: every type reports the kernel last set for it (NULL if
    none), and reports it can run there iff something was set for it. *)
Theorem C31_kernels_partial h : (forall ty f, In (ty, f) h -> ty < TYPES) -> exists p, sets fresh h = Ok p /\ forall ty, ty < TYPES ->
  get_functor p ty = Ok (last_set h ty None) /\
  (0 < ty -> exists b, can_run_at p ty = Ok b /\ (b = true <-> was_set h ty)).
Proof.
  intros HV. destruct (sets_spec h fresh HV) as (p & A & B & D). exists p. split; auto. intros ty T. apply Nat.ltb_lt in T. split.
  - unfold get_functor. rewrite T. cbn. now rewrite B.
  - intros P. unfold can_run_at. rewrite T. assert (Q : negb (ty =? 0) = true) by (apply negb_true_iff, Nat.eqb_neq; lia). rewrite Q. cbn [assert_ bind]. rewrite bit_test. eexists. split; [reflexivity|].
    rewrite D. change (canrun fresh) with 0%N. rewrite N.bits_0. split; auto. intros [H|H]; [discriminate|exact H].
Qed.
(** setting returns the previous kernel and leaves the other types alone *)
Theorem C31_set_returns_previous p ty f : ty < TYPES -> exists p', set_functor p ty f = Ok (p', pfun p ty) /\ get_functor p ty = Ok (pfun p ty) /\
  get_functor p' ty = Ok f /\ (forall u, u <> ty -> get_functor p' u = get_functor p u /\ can_run_at p' u = can_run_at p u).
Proof.
  intros T. apply Nat.ltb_lt in T. unfold set_functor, get_functor. rewrite T. cbn [assert_ bind]. eexists. split; [reflexivity|]. split; [reflexivity|]. split; [cbn; now rewrite fupd_eq|].
  intros u N. cbn [pfun]. rewrite fupd_ne by auto. split; auto. unfold can_run_at. destruct (assert_ (u <? TYPES)); auto. cbn [bind]. destruct (assert_ (negb (u =? 0))); auto. cbn [bind]. rewrite !bit_test. cbn [canrun]. f_equal.
  rewrite N.lor_spec, N.shiftl_1_l, N.pow2_bits_false by lia. apply orb_false_r.
Qed.
(** an invalid type, or asking about ANY, aborts *)
Theorem C31_bad_type_aborts p ty f : (TYPES <= ty -> get_functor p ty = Abort /\ set_functor p ty f = Abort /\ can_run_at p ty = Abort) /\ can_run_at p 0 = Abort.
Proof. split; [|reflexivity]. intros T. apply Nat.ltb_ge in T. unfold set_functor, can_run_at, get_functor. rewrite T. auto. Qed.
(** "can run iff a kernel is set" is false after setting NULL, which arax_proc.h:41 allows: the procedure then
    claims to run on a type for which it has no kernel. *)
Theorem C31_null_kernel_refuted p ty : 0 < ty < TYPES -> exists p', set_functor p ty None = Ok (p', pfun p ty) /\ get_functor p' ty = Ok None /\ can_run_at p' ty = Ok true.
Proof.
  intros [P T]. apply Nat.ltb_lt in T. unfold set_functor, can_run_at, get_functor. rewrite T. cbn [assert_ bind]. eexists. split; [reflexivity|]. split; [cbn; now rewrite fupd_eq|].
  assert (Q : negb (ty =? 0) = true) by (apply negb_true_iff, Nat.eqb_neq; lia). rewrite Q. cbn [assert_ bind]. rewrite bit_test. cbn [canrun]. rewrite N.lor_spec, N.shiftl_1_l, N.pow2_bits_true. now rewrite orb_true_r.
Qed.
Example C31_nonvacuous : exists p, sets fresh [(3, Some 10); (1, Some 20); (3, Some 30)] = Ok p /\ get_functor p 3 = Ok (Some 30) /\ can_run_at p 1 = Ok true /\ can_run_at p 2 = Ok false /\ get_functor p 2 = Ok None.
Proof. eexists. split; [reflexivity|]. repeat split. Qed.
