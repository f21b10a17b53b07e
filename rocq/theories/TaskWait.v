(** One issued task, its executing worker and any number of waiting clients:
    arax_task_wait (src/arch/shm/impl.c:515-522), arax_task_wait_done / arax_task_mark_done
    (src/core/arax_task.c:77-87) on the spin completion (src/async/spin/async.c:14-22).
    Properties C16, C17. *)
From Verif Require Import Base Sums.

(** arax_task_state_e, include/arax_types.h *)
(** include/arax_types.h:61-67. *)
Inductive tstate := task_failed | task_issued | task_completed.
(** What mark_done can be given. *)
Definition final (s : tstate) : Prop := s = task_failed \/ s = task_completed.

Inductive cpc := COut | CAssert (* arax_task.c:79 *) | CWait (* 80 *) | CRead (* impl.c:521 *).
Inductive wpc := WRun (* executing the task *) | WMark (st : tstate) (* about to store the state, 85 *)
| WCompl (* about to complete, 86 *) | WDone.
Inductive wact := ClientCalls (i : nat) | ClientGo (i : nat) | WorkerEnds (st : tstate) | WorkerGo.

(** [returned]: (client, value) of the waits that returned, oldest first. *)
(** src/core/arax_task.h:9-23 (state, done) and the threads. *)
Record tw := mk { state : tstate; done : bool; clients : list cpc; worker : wpc; returned : list (nat * tstate) }.
(** after arax_task_alloc (completion initialised to 0, 24) and arax_task_submit (state = issued, 73) *)
(** src/core/arax_task.c:24 and 73. *)
Definition tw_init (n : nat) : tw := mk task_issued false (repeat COut n) WRun [].

(** A private step, no code of its own. *)
Definition setc (s : tw) i c := mk (state s) (done s) (upd (clients s) i c) (worker s) (returned s).
(** src/core/arax_task.c:77-87 and src/arch/shm/impl.c:515-522. *)
Definition step (s : tw) (a : wact) : outcome tw :=
  match a with
  | ClientCalls i => match nth_error (clients s) i with Some COut => Ok (setc s i CAssert) | _ => Ok s end
  | ClientGo i =>
    match nth_error (clients s) i with
    | Some CAssert => match state s with task_failed => Abort | _ => Ok (setc s i CWait) end
    | Some CWait => if done s then Ok (mk (state s) false (upd (clients s) i CRead) (worker s) (returned s)) else Ok s
    | Some CRead => Ok (mk (state s) (done s) (upd (clients s) i COut) (worker s) (returned s ++ [(i, state s)]))
    | _ => Ok s
    end
  | WorkerEnds st => match worker s with WRun => Ok (mk (state s) (done s) (clients s) (WMark st) (returned s)) | _ => Ok s end
  | WorkerGo =>
    match worker s with
    | WMark st => Ok (mk st (done s) (clients s) WCompl (returned s))
    | WCompl => Ok (mk (state s) true (clients s) WDone (returned s))
    | _ => Ok s
    end
  end.
(** Any interleaving, no code of its own. *)
Fixpoint run (s : tw) (l : list wact) : outcome tw :=
  match l with [] => Ok s | a :: r => do s' <- step s a; run s' r end.

(** The worker ends the task in state [st] (and no other). *)
Definition ends_with (st : tstate) (l : list wact) : Prop := forall st', In (WorkerEnds st') l -> st' = st.

(** ** Invariant *)
Definition reading (c : cpc) : nat := match c with CRead => 1 | _ => 0 end.
Record inv (st : tstate) (s : tw) : Prop := {
  i_run  : match worker s with
           | WRun => state s = task_issued
           | WMark st' => st' = st /\ state s = task_issued
           | WCompl | WDone => state s = st end;
  i_tok  : (if done s then 1 else 0) + sumf reading (clients s) + length (returned s)
           = match worker s with WDone => 1 | _ => 0 end;
  i_ret  : forall i v, In (i, v) (returned s) -> v = st
}.
Lemma setc_inv st s i c c0 : inv st s -> nth_error (clients s) i = Some c0 -> reading c0 = 0 -> reading c = 0 -> inv st (setc s i c).
Proof.
  intros [A B C] E R0 R. pose proof (sumf_upd reading (clients s) i c c0 E) as S. rewrite R, R0 in S.
  constructor; unfold setc; cbn [state done clients worker returned]; auto.
  replace (sumf reading (upd (clients s) i c)) with (sumf reading (clients s)) by lia. exact B.
Qed.
Lemma step_inv st s a s' : inv st s -> (forall st', a = WorkerEnds st' -> st' = st) -> step s a = Ok s' -> inv st s'.
Proof.
  intros HI HA E. pose proof HI as [A B C]. destruct a as [i|i|st'|]; unfold step in E.
  - destruct (nth_error (clients s) i) as [[]|] eqn:Ei; inversion E; subst; auto. eapply setc_inv; eauto.
  - destruct (nth_error (clients s) i) as [[]|] eqn:Ei; try (inversion E; subst; auto; fail).
    + destruct (state s) eqn:Es; inversion E; subst; eapply setc_inv; eauto.
    + destruct (done s) eqn:D; inversion E; subst; auto.
      pose proof (sumf_upd reading (clients s) i CRead CWait Ei) as S. cbn [reading] in S.
      constructor; cbn [state done clients worker returned]; auto. lia.
    + inversion E; subst. pose proof (sumf_upd reading (clients s) i COut CRead Ei) as S. cbn [reading] in S.
      pose proof (sumf_in reading (clients s) i CRead Ei) as S'. cbn [reading] in S'.
      constructor; cbn [state done clients worker returned]; auto.
      * rewrite app_length. cbn [length]. lia.
      * intros j v Hj. apply in_app_iff in Hj. destruct Hj as [Hj|[Hj|[]]]; [eauto|]. inversion Hj; subst.
        destruct (worker s); auto; try lia.
  - destruct (worker s) eqn:W; inversion E; subst; auto. rewrite (HA _ eq_refl).
    constructor; cbn [state done clients worker returned]; auto.
  - destruct (worker s) eqn:W; inversion E; subst; auto.
    + destruct A as [-> A]. constructor; cbn [state done clients worker returned]; auto.
    + constructor; cbn [state done clients worker returned]; auto. destruct (done s); lia.
Qed.
Lemma run_inv st l : forall s s', inv st s -> ends_with st l -> run s l = Ok s' -> inv st s'.
Proof.
  induction l as [|a l IH]; intros s s' HI HE E.
  - inversion E; subst; auto.
  - cbn [run] in E. apply bind_ok in E. destruct E as (s1 & E1 & E). apply (IH s1 s'); auto.
    + eapply step_inv; eauto. intros st' ->. apply HE. now left.
    + intros st' H. apply HE. now right.
Qed.
Lemma init_inv st n : inv st (tw_init n).
Proof. constructor; cbn; auto. { rewrite sumf_repeat; auto. } contradiction. Qed.

(** C17: for every number of clients and every interleaving, a wait that returns returns the state the
    worker gave the task, and only after the worker marked it. *)
Theorem C17_wait_reports_end_state : forall n st l s i v, final st -> ends_with st l ->
  run (tw_init n) l = Ok s -> In (i, v) (returned s) -> v = st /\ worker s = WDone.
Proof.
  intros n st l s i v _ HE E Hv. pose proof (run_inv st l _ _ (init_inv st n) HE E) as [A B C].
  split; [eauto|]. assert (L : 1 <= length (returned s)) by (destruct (returned s); [destruct Hv|cbn; lia]).
  destruct (worker s); auto; lia.
Qed.
(** If the task completes, no interleaving crashes a waiter. *)
Theorem C17_completed_never_aborts : forall n l, ends_with task_completed l -> exists s, run (tw_init n) l = Ok s.
Proof.
  intros n l HE. assert (HI := init_inv task_completed n). revert HI HE. generalize (tw_init n).
  induction l as [|a l IH]; intros s HI HE; [exists s; reflexivity|]. cbn [run].
  assert (H : exists s1, step s a = Ok s1).
  { destruct a as [i|i|st'|]; unfold step.
    - destruct (nth_error (clients s) i) as [[]|]; eauto.
    - destruct (nth_error (clients s) i) as [[]|]; eauto.
      + destruct (state s) eqn:Es; eauto. exfalso. pose proof (i_run _ _ HI) as A. destruct (worker s); try congruence. destruct A; congruence.
      + destruct (done s); eauto.
    - destruct (worker s); eauto.
    - destruct (worker s); eauto. }
  destruct H as (s1 & E1). rewrite E1. cbn [bind]. apply IH.
  - eapply step_inv; eauto. intros st' ->. apply HE. now left.
  - intros st' H. apply HE. now right.
Qed.
(** ... but a client that calls wait after the task was marked failed crashes. *)
Theorem C17_failed_refuted : exists l, ends_with task_failed l /\ run (tw_init 1) l = Abort.
Proof.
  exists [WorkerEnds task_failed; WorkerGo; WorkerGo; ClientCalls 0; ClientGo 0].
  split; [|reflexivity]. intros st H. cbn in H. intuition congruence.
Qed.
(** ... while one that called before is told. *)
Theorem C17_failed_reported_partial : forall n l s i st, ends_with st l -> final st ->
  run (tw_init n) l = Ok s -> nth_error (clients s) i = Some CRead ->
  exists s', step s (ClientGo i) = Ok s' /\ In (i, st) (returned s').
Proof.
  intros n l s i st HE HF E Ei. pose proof (run_inv st l _ _ (init_inv st n) HE E) as [A B C].
  pose proof (sumf_in reading (clients s) i CRead Ei) as S. cbn [reading] in S.
  eexists. unfold step. rewrite Ei. split; [reflexivity|]. cbn [returned]. apply in_app_iff. right. left.
  f_equal. destruct (worker s); auto; lia.
Qed.

(** [returned] is what the clients see: a client that was in a wait and is out again returned, with the recorded
    value, and every call of wait gets in. *)
Theorem C17_returned_is_observed : forall s a s' i p q, step s a = Ok s' ->
  nth_error (clients s) i = Some p -> nth_error (clients s') i = Some q ->
  (p <> COut -> q = COut -> returned s' = returned s ++ [(i, state s)]) /\
  (p = COut -> q = match a with ClientCalls j => if Nat.eqb i j then CAssert else COut | _ => COut end) /\
  (q = p -> p <> CRead -> returned s' = returned s \/ exists j v, j <> i /\ returned s' = returned s ++ [(j, v)]).
Proof.
  intros s a s' i p q E Ep Eq. pose proof (nth_error_lt _ _ _ Ep) as L.
  assert (U : forall j c, nth_error (upd (clients s) j c) i = Some q -> (i = j /\ q = c) \/ (i <> j /\ q = p)).
  { intros j c H. destruct (Nat.eq_dec i j) as [->|N].
    - rewrite nth_error_upd_eq in H by auto. left. split; congruence.
    - rewrite nth_error_upd_ne in H by congruence. right. split; congruence. }
  destruct a as [j|j|st'|]; unfold step in E.
  - destruct (nth_error (clients s) j) as [c|] eqn:Ej; [destruct c|]; inversion E; subst; cbn [setc clients returned] in *;
      try (assert (q = p) by congruence; subst q; repeat split; intros; auto; try congruence; subst;
           destruct (Nat.eqb_spec i j); congruence).
    destruct (U _ _ Eq) as [(-> & ->)|(N & ->)]; repeat split; intros; auto; try congruence;
      try (rewrite Nat.eqb_refl; reflexivity). destruct (Nat.eqb_spec i j); congruence.
  - destruct (nth_error (clients s) j) as [c|] eqn:Ej; [destruct c|].
    + inversion E; subst. assert (q = p) by congruence; subst q. repeat split; intros; auto; congruence.
    + destruct (state s) eqn:Es; inversion E; subst; cbn [setc clients returned] in *;
        (destruct (U _ _ Eq) as [(-> & ->)|(N & ->)]; repeat split; intros; auto; try congruence).
    + destruct (done s) eqn:D; inversion E; subst; cbn [clients returned] in *.
      * destruct (U _ _ Eq) as [(-> & ->)|(N & ->)]; repeat split; intros; auto; congruence.
      * assert (q = p) by congruence; subst q. repeat split; intros; auto; congruence.
    + inversion E; subst; cbn [clients returned] in *.
      destruct (U _ _ Eq) as [(-> & ->)|(N & ->)]; repeat split; intros; auto; try congruence.
      right. exists j, (state s). auto.
    + inversion E; subst. assert (q = p) by congruence; subst q. repeat split; intros; auto; congruence.
  - destruct (worker s); inversion E; subst; cbn [clients returned] in *; assert (q = p) by congruence; subst q;
      repeat split; intros; auto; congruence.
  - destruct (worker s); inversion E; subst; cbn [clients returned] in *; assert (q = p) by congruence; subst q;
      repeat split; intros; auto; congruence.
Qed.

(** ** C16: the first waiter of a finished task returns ... *)
Theorem C16_first_wait_returns_partial : forall n l s st i, final st -> ends_with st l ->
  run (tw_init n) l = Ok s -> worker s = WDone -> returned s = [] ->
  (forall j, nth_error (clients s) j <> Some CRead) -> nth_error (clients s) i = Some CWait ->
  exists s', run s [ClientGo i; ClientGo i] = Ok s' /\ returned s' = [(i, st)].
Proof.
  intros n l s st i _ HE E W R NR Ei. pose proof (run_inv st l _ _ (init_inv st n) HE E) as [A B C].
  rewrite W, R in *. cbn [length] in B.
  assert (S0 : sumf reading (clients s) = 0).
  { apply sumf_zero. intros j x Ej. destruct x; auto. exfalso. eapply NR; eauto. }
  assert (D : done s = true) by (destruct (done s); auto; lia).
  pose proof (nth_error_lt _ _ _ Ei) as Li.
  cbn [run]. unfold step at 1. rewrite Ei, D. cbn [bind]. unfold step. cbn [clients]. rewrite nth_error_upd_eq by auto.
  cbn [bind returned state]. eexists; split; [reflexivity|]. cbn [returned]. rewrite R, A. reflexivity.
Qed.
(** ... and no other wait on it ever returns, whatever else happens: at most one wait returns per task. *)
Theorem C16_second_wait_never_returns_refuted : forall n l s st, ends_with st l ->
  run (tw_init n) l = Ok s -> length (returned s) <= 1.
Proof.
  intros n l s st HE E. pose proof (run_inv st l _ _ (init_inv st n) HE E) as [A B C]. destruct (worker s); lia.
Qed.
(** A concrete run: two waits on a completed task, the second blocks. *)
Example C16_second_wait_blocks : exists s,
  run (tw_init 2) [WorkerEnds task_completed; WorkerGo; WorkerGo; ClientCalls 0; ClientGo 0; ClientGo 0; ClientGo 0;
                   ClientCalls 1; ClientGo 1; ClientGo 1; ClientGo 1] = Ok s /\
  returned s = [(0, task_completed)] /\ nth_error (clients s) 1 = Some CWait /\ step s (ClientGo 1) = Ok s.
Proof. eexists. split; [vm_compute; reflexivity|]. repeat split. Qed.
Print Assumptions C17_wait_reports_end_state.
