(** Completions of the two async back-ends, src/async/spin/async.c:9-27 and src/async/mutex/async.c:9-38,
    used by any number of threads.  Property C15.

    A schedule is a list of (thread, action): [Call op] starts an operation in an idle thread, [Go] lets a
    thread take its next atomic step.  [log] is a ghost: the operations in the order in which they took effect. *)
From Verif Require Import Base Sums.

(** async_completion_complete / wait / check: src/async/spin/async.c:14-27, src/async/mutex/async.c:17-35. *)
Inductive aop := OComplete | OWait | OCheck.
(** A schedule step, no code of its own. *)
Inductive act := Call (o : aop) | Go.
(** Ghost: an operation took effect (spin/async.c:14-27, mutex/async.c:17-35). *)
Inductive ev := EComplete (i : nat) | EWaitRet (i : nat) | ECheckRet (i : nat) (b : bool).

(** ** The specification: a completion is one bit. *)
Fixpoint spec_run (b : bool) (l : list ev) : option bool :=
  match l with
  | [] => Some b
  | EComplete _ :: r => spec_run true r
  | EWaitRet _ :: r => if b then spec_run false r else None
  | ECheckRet _ v :: r => if Bool.eqb v b then spec_run b r else None
  end.
Definition is_complete (e : ev) := match e with EComplete _ => true | _ => false end.
Definition is_waitret (e : ev) := match e with EWaitRet _ => true | _ => false end.
Definition count (p : ev -> bool) (l : list ev) : nat := length (filter p l).

Lemma count_app p l l' : count p (l ++ l') = count p l + count p l'.
Proof. unfold count. now rewrite filter_app, app_length. Qed.
Lemma spec_run_app b l l' : spec_run b (l ++ l') = match spec_run b l with Some b' => spec_run b' l' | None => None end.
Proof.
  revert b. induction l as [|e l IH]; intros b; cbn; auto.
  destruct e as [| |i v]; auto. { destruct b; auto. } { destruct (Bool.eqb v b); auto. }
Qed.

(** ** Spin back-end *)
Inductive spc := SOut | SComp | SWait | SChk.
Record sst := mks { sflag : bool; sth : list spc; slog : list ev }.
(** async_completion_init, spin/async.c:9-12 *)
Definition spin_init (n : nat) : sst := mks false (repeat SOut n) [].
Definition spin_step (s : sst) (a : nat * act) : sst :=
  let '(i, x) := a in
  match x, nth_error (sth s) i with
  | Call OComplete, Some SOut => mks (sflag s) (upd (sth s) i SComp) (slog s)
  | Call OWait, Some SOut => mks (sflag s) (upd (sth s) i SWait) (slog s)
  | Call OCheck, Some SOut => mks (sflag s) (upd (sth s) i SChk) (slog s)
  (* async_completion_complete, 14-17: compare-and-swap 0 -> 1 *)
  | Go, Some SComp => mks true (upd (sth s) i SOut) (slog s ++ [EComplete i])
  (* async_completion_wait, 19-22: compare-and-swap 1 -> 0, retried *)
  | Go, Some SWait => if sflag s then mks false (upd (sth s) i SOut) (slog s ++ [EWaitRet i]) else s
  (* async_completion_check, 24-27 *)
  | Go, Some SChk => mks (sflag s) (upd (sth s) i SOut) (slog s ++ [ECheckRet i (sflag s)])
  | _, _ => s
  end.
Definition spin_run s l := fold_left spin_step l s.

Lemma spin_step_spec s a : spec_run false (slog s) = Some (sflag s) ->
  spec_run false (slog (spin_step s a)) = Some (sflag (spin_step s a)).
Proof.
  intros H. destruct a as [i x]. unfold spin_step.
  destruct (nth_error (sth s) i) as [p|]; [|destruct x as [[]|]; auto].
  destruct x as [[]|], p; auto; cbn [sflag sth slog].
  - rewrite spec_run_app, H. reflexivity.
  - destruct (sflag s) eqn:F; cbn [sflag slog]; [|congruence]. rewrite spec_run_app, H. reflexivity.
  - rewrite spec_run_app, H. cbn. now rewrite Bool.eqb_reflx.
Qed.

(** C15, spin: every history of concurrent calls is a history of the one-bit specification: a wait consumes
    exactly one completion, completing twice is completing once, check tells whether a wait would succeed. *)
Theorem C15_spin_linearizable : forall n sched,
  let s := spin_run (spin_init n) sched in spec_run false (slog s) = Some (sflag s).
Proof.
  intros n sched. cbv zeta. unfold spin_run.
  assert (H : spec_run false (slog (spin_init n)) = Some (sflag (spin_init n))) by reflexivity.
  revert H. generalize (spin_init n). induction sched as [|a l IH]; intros s H; cbn; auto.
  apply IH. now apply spin_step_spec.
Qed.

Lemma spec_counts l : forall b b', spec_run b l = Some b' ->
  count is_waitret l + (if b' then 1 else 0) <= count is_complete l + (if b then 1 else 0).
Proof.
  induction l as [|e l IH]; intros b b' H; cbn in H.
  - inversion H; subst. cbn. lia.
  - unfold count in *. destruct e as [i|i|i v]; cbn.
    + specialize (IH _ _ H). destruct b, b'; lia.
    + destruct b; [|discriminate]. specialize (IH _ _ H). destruct b'; lia.
    + destruct (Bool.eqb v b); [|discriminate]. apply (IH _ _ H).
Qed.

(** ** Pthread back-end.  [locked] is the state of the process-shared pthread mutex.
    Trust: pthread_mutex_unlock of a mutex locked by somebody else, or already unlocked, makes it unlocked
    (glibc default mutexes; POSIX calls it undefined). *)
Inductive mpc := MOut
| MComp                       (* about to trylock, mutex/async.c:19 *)
| MCompU (held : bool)        (* about to unlock, 20; [held]: the trylock succeeded *)
| MWait                       (* about to lock, 25 *)
| MChk                        (* about to trylock, 32 *)
| MChkU.                      (* about to unlock, 33 *)
Record mst := mkm { mlocked : bool; mth : list mpc; mlog : list ev }.
(** async_completion_init, mutex/async.c:9-15 *)
Definition mutex_init (n : nat) : mst := mkm true (repeat MOut n) [].
Definition mutex_step (s : mst) (a : nat * act) : mst :=
  let '(i, x) := a in
  match x, nth_error (mth s) i with
  | Call OComplete, Some MOut => mkm (mlocked s) (upd (mth s) i MComp) (mlog s)
  | Call OWait, Some MOut => mkm (mlocked s) (upd (mth s) i MWait) (mlog s)
  | Call OCheck, Some MOut => mkm (mlocked s) (upd (mth s) i MChk) (mlog s)
  | Go, Some MComp => mkm true (upd (mth s) i (MCompU (negb (mlocked s)))) (mlog s)
  | Go, Some (MCompU _) => mkm false (upd (mth s) i MOut) (mlog s ++ [EComplete i])
  | Go, Some MWait => if mlocked s then s else mkm true (upd (mth s) i MOut) (mlog s ++ [EWaitRet i])
  | Go, Some MChk => if mlocked s then mkm true (upd (mth s) i MOut) (mlog s ++ [ECheckRet i false])
                     else mkm true (upd (mth s) i MChkU) (mlog s ++ [ECheckRet i true])
  | Go, Some MChkU => mkm false (upd (mth s) i MOut) (mlog s)
  | _, _ => s
  end.
Definition mutex_run s l := fold_left mutex_step l s.

(** threads that took the mutex only to give it back *)
Definition owes (p : mpc) : nat := match p with MCompU true | MChkU => 1 | _ => 0 end.
(** completes after the last returned wait *)
Fixpoint fresh (b : bool) (l : list ev) : bool :=
  match l with [] => b | EComplete _ :: r => fresh true r | EWaitRet _ :: r => fresh false r | ECheckRet _ _ :: r => fresh b r end.
Lemma fresh_app b l l' : fresh b (l ++ l') = fresh (fresh b l) l'.
Proof. revert b. induction l as [|e l IH]; intros b; cbn; auto. destruct e; auto. Qed.

Definition minv (s : mst) : Prop :=
  count is_waitret (mlog s) + (if mlocked s then 0 else 1) + sumf owes (mth s) <= count is_complete (mlog s) /\
  (fresh false (mlog s) = true -> mlocked s = false \/ 0 < sumf owes (mth s)).

Lemma app_count p l e : count p (l ++ [e]) = count p l + (if p e then 1 else 0).
Proof. rewrite count_app. unfold count. cbn. destruct (p e); reflexivity. Qed.

Lemma mutex_step_inv s a : minv s -> minv (mutex_step s a).
Proof.
  intros [H F]. destruct a as [i x]. unfold mutex_step.
  destruct (nth_error (mth s) i) as [p|] eqn:Ei; [|destruct x as [[]|]; split; auto].
  assert (U : forall q, sumf owes (upd (mth s) i q) + owes p = sumf owes (mth s) + owes q) by (intros; apply sumf_upd; auto).
  destruct x as [[]|], p; try (split; assumption); cbn [owes] in U;
    try (destruct (mlocked s) eqn:L); unfold minv; cbn [mlocked mth mlog]; rewrite ?app_count, ?fresh_app; cbn [is_complete is_waitret fresh];
    try (destruct (mlocked s) eqn:L); cbn [negb];
    match goal with
    | |- context [upd _ _ ?q] => specialize (U q); cbn [owes] in U
    | _ => idtac end;
    try (destruct held; cbn [owes] in * ); split; intros; auto; try discriminate; try (specialize (F ltac:(assumption))); 
    try lia; try (rewrite ?L in *; destruct F; [try discriminate|]; right; lia).
  rewrite L. lia.
Qed.

Lemma mutex_run_inv n sched : minv (mutex_run (mutex_init n) sched).
Proof.
  unfold mutex_run. assert (H : minv (mutex_init n)).
  { split; cbn; [|discriminate]. rewrite sumf_repeat; auto. }
  revert H. generalize (mutex_init n). induction sched as [|a l IH]; intros s H; cbn; auto. apply IH, mutex_step_inv, H.
Qed.

(** C15 for both back-ends, any number of threads and any interleaving: never more returned waits than
    completes -- for every prefix of the run, since [sched] is arbitrary. *)
Theorem C15_waits_bounded_by_completes : forall n sched,
  count is_waitret (slog (spin_run (spin_init n) sched)) <= count is_complete (slog (spin_run (spin_init n) sched)) /\
  count is_waitret (mlog (mutex_run (mutex_init n) sched)) <= count is_complete (mlog (mutex_run (mutex_init n) sched)).
Proof.
  intros n sched. split.
  - pose proof (spec_counts _ _ _ (C15_spin_linearizable n sched)) as H. cbv iota in H. set (s := spin_run _ _) in *. destruct (sflag s); lia.
  - pose proof (mutex_run_inv n sched) as [H _]. set (s := mutex_run _ _) in *. destruct (mlocked s); lia.
Qed.

(** No completion is lost: when no call is in progress and a complete took effect after the last returned
    wait, a wait called now returns. *)
Definition m_idle (s : mst) : Prop := forall i p, nth_error (mth s) i = Some p -> p = MOut \/ p = MWait.
Theorem C15_no_completion_lost : forall n sched i,
  let s := mutex_run (mutex_init n) sched in
  m_idle s -> nth_error (mth s) i = Some MWait ->
  (exists l1 l2 j, mlog s = l1 ++ EComplete j :: l2 /\ count is_waitret l2 = 0) ->
  nth_error (mth (mutex_step s (i, Go))) i = Some MOut.
Proof.
  intros n sched i s Q Ei (l1 & l2 & j & El & Hc). pose proof (mutex_run_inv n sched) as [_ F]. fold s in F.
  assert (FR : fresh false (mlog s) = true).
  { rewrite El, fresh_app. cbn [fresh]. clear - Hc. induction l2 as [|e l IH]; cbn; auto. unfold count in *.
    destruct e; cbn in *; auto; discriminate. }
  unfold mutex_step. rewrite Ei. destruct (F FR) as [L|L].
  - rewrite L. cbn [mth]. apply nth_error_upd_eq. eapply nth_error_lt; eauto.
  - exfalso. rewrite sumf_zero in L; [lia|]. intros k p E. destruct (Q k p E) as [->| ->]; reflexivity.
Qed.
Theorem C15_spin_no_completion_lost : forall n sched i,
  let s := spin_run (spin_init n) sched in
  nth_error (sth s) i = Some SWait ->
  (exists l1 l2 j, slog s = l1 ++ EComplete j :: l2 /\ count is_waitret l2 = 0) ->
  nth_error (sth (spin_step s (i, Go))) i = Some SOut.
Proof.
  intros n sched i s Ei (l1 & l2 & j & El & Hc). pose proof (C15_spin_linearizable n sched) as H. cbv zeta in H. fold s in H.
  assert (F : sflag s = true).
  { rewrite El, spec_run_app in H. destruct (spec_run false l1) as [b|]; [|discriminate]. cbn [spec_run] in H. clear - H Hc.
    revert H. generalize (sflag s). induction l2 as [|e l IH]; intros f H; cbn in H; [congruence|].
    unfold count in *. destruct e as [| |k v]; cbn in *; auto; try discriminate. destruct (Bool.eqb v true); [auto|discriminate]. }
  unfold spin_step. rewrite Ei, F. cbn [sth]. apply nth_error_upd_eq. eapply nth_error_lt; eauto.
Qed.

(** The pthread back-end is not the one-bit specification when a check overlaps a complete: the check's
    unlock releases a second waiter. *)
Definition ghost_wake : list (nat * act) :=
  [ (0, Call OComplete); (0, Go); (0, Go)      (* completed *)
  ; (1, Call OCheck); (1, Go)                  (* check holds the mutex *)
  ; (0, Call OComplete); (0, Go); (0, Go)      (* completing again before anybody waited: no effect expected *)
  ; (2, Call OWait); (2, Go)                   (* one waiter returns, consuming the completion *)
  ; (1, Go)                                    (* the check gives the mutex back *)
  ; (3, Call OWait); (3, Go) ].                (* a second waiter returns *)
Theorem C15_mutex_check_refuted :
  let s := mutex_run (mutex_init 4) ghost_wake in
  mlog s = [EComplete 0; ECheckRet 1 true; EComplete 0; EWaitRet 2; EWaitRet 3] /\
  spec_run false (mlog s) = None.
Proof. split; reflexivity. Qed.

(** Without checks (the library itself never checks) the pthread back-end does refine the specification. *)
Definition no_checks (l : list (nat * act)) : Prop := forall i, ~ In (i, Call OCheck) l.
Definition minv2 (s : mst) : Prop :=
  (forall i p, nth_error (mth s) i = Some p -> p <> MChk /\ p <> MChkU) /\
  match spec_run false (mlog s) with
  | Some b => b = false -> mlocked s = true
  | None => False end.
Lemma mutex_step_inv2 s a : minv2 s -> snd a <> Call OCheck -> minv2 (mutex_step s a).
Proof.
  intros [A B] NC. destruct a as [i x]. cbn [snd] in NC. unfold mutex_step.
  destruct (nth_error (mth s) i) as [p|] eqn:Ei; [|destruct x as [[]|]; split; auto].
  assert (T : forall q, q <> MChk -> q <> MChkU -> forall j p, nth_error (upd (mth s) i q) j = Some p -> p <> MChk /\ p <> MChkU).
  { intros q Q1 Q2 j p' E. apply nth_upd_cases in E. destruct E as [(-> & -> & _)|(N & E)]; eauto. }
  destruct (A i p Ei) as [P1 P2].
  destruct x as [[]|], p; try (split; assumption); try congruence.
  - split; cbn [mth mlog mlocked]; [apply T; discriminate|auto].
  - split; cbn [mth mlog mlocked]; [apply T; discriminate|auto].
  - split; cbn [mth mlog mlocked]; [apply T; discriminate|]. destruct (spec_run false (mlog s)); auto.
  - split; cbn [mth mlog mlocked]; [apply T; discriminate|]. rewrite spec_run_app. destruct (spec_run false (mlog s)); [|auto]. cbn. discriminate.
  - destruct (mlocked s) eqn:L; [split; auto; rewrite L; auto|]. split; cbn [mth mlog mlocked]; [apply T; discriminate|].
    rewrite spec_run_app. destruct (spec_run false (mlog s)) as [[]|]; cbn; auto. specialize (B eq_refl). discriminate.
Qed.
Theorem C15_mutex_linearizable_without_checks_partial : forall n sched, no_checks sched ->
  exists b, spec_run false (mlog (mutex_run (mutex_init n) sched)) = Some b.
Proof.
  intros n sched NC. assert (H : minv2 (mutex_run (mutex_init n) sched)).
  { unfold mutex_run. assert (H : minv2 (mutex_init n)).
    { split; cbn; [|auto]. intros i p E. apply nth_error_In, repeat_spec in E. subst. split; discriminate. }
    revert H NC. generalize (mutex_init n). induction sched as [|a l IH]; intros s H NC; cbn; auto. apply IH.
    - apply mutex_step_inv2; auto. intros E. apply (NC (fst a)). left. destruct a; cbn in *; congruence.
    - intros i Hi. apply (NC i). now right. }
  destruct H as [_ H]. destruct (spec_run false _); [eauto|contradiction].
Qed.

(** The histories above are what the callers see: a call that was started ends (the thread is out again) exactly
    when its event is recorded, with the result it returns; nothing else is recorded; a call started in an idle
    thread is the call that was asked for.  (A pthread check is recorded when it looks, one step before it ends
    if it has to give the mutex back.) *)
Definition spin_op (p : spc) : option aop := match p with SOut => None | SComp => Some OComplete | SWait => Some OWait | SChk => Some OCheck end.
Definition mutex_op (p : mpc) : option aop :=
  match p with MOut => None | MComp | MCompU _ => Some OComplete | MWait => Some OWait | MChk | MChkU => Some OCheck end.
Definition ev_of (i : nat) (o : aop) (e : ev) : Prop :=
  match o with OComplete => e = EComplete i | OWait => e = EWaitRet i | OCheck => exists b, e = ECheckRet i b end.
Theorem C15_spin_history_is_observed : forall s i x,
  let s' := spin_step s (i, x) in
  (forall j, j <> i -> nth_error (sth s') j = nth_error (sth s) j) /\
  (forall p, nth_error (sth s) i = Some p -> exists q, nth_error (sth s') i = Some q /\
     match spin_op p, x with
     | None, Call o => spin_op q = Some o /\ slog s' = slog s
     | None, Go => q = p /\ slog s' = slog s
     | Some o, _ => (spin_op q = Some o /\ slog s' = slog s) \/ (spin_op q = None /\ exists e, ev_of i o e /\ slog s' = slog s ++ [e])
     end).
Proof.
  intros s i x. cbv zeta. split.
  - intros j N. unfold spin_step. destruct x as [[]|]; destruct (nth_error (sth s) i) as [[]|]; try reflexivity;
      try (destruct (sflag s)); cbn [sth]; try reflexivity; apply nth_error_upd_ne; congruence.
  - intros p E. pose proof (nth_error_lt _ _ _ E) as L. unfold spin_step. rewrite E.
    destruct p, x as [[]|]; cbn [spin_op]; try (destruct (sflag s) eqn:F); cbn [sth slog];
      rewrite ?nth_error_upd_eq by exact L; rewrite ?E;
      (eexists; split; [reflexivity|]); cbn [spin_op]; try (split; reflexivity);
      try (left; split; reflexivity); right; (split; [reflexivity|]); eexists; (split; [|reflexivity]); cbn; eauto.
Qed.
Theorem C15_mutex_history_is_observed : forall s i x,
  let s' := mutex_step s (i, x) in
  (forall j, j <> i -> nth_error (mth s') j = nth_error (mth s) j) /\
  (forall p, nth_error (mth s) i = Some p -> exists q, nth_error (mth s') i = Some q /\
     match mutex_op p, x with
     | None, Call o => mutex_op q = Some o /\ mlog s' = mlog s
     | None, Go => q = p /\ mlog s' = mlog s
     | Some OCheck, Go => (p = MChkU /\ q = MOut /\ mlog s' = mlog s) \/
                          (p = MChk /\ q = MChkU /\ mlog s' = mlog s ++ [ECheckRet i true]) \/
                          (p = MChk /\ q = MOut /\ mlog s' = mlog s ++ [ECheckRet i false])
     | Some o, _ => (mutex_op q = Some o /\ mlog s' = mlog s) \/ (mutex_op q = None /\ exists e, ev_of i o e /\ mlog s' = mlog s ++ [e])
     end).
Proof.
  intros s i x. cbv zeta. split.
  - intros j N. unfold mutex_step. destruct x as [[]|]; destruct (nth_error (mth s) i) as [[]|]; try reflexivity;
      try (destruct (mlocked s)); cbn [mth]; try reflexivity; apply nth_error_upd_ne; congruence.
  - intros p E. pose proof (nth_error_lt _ _ _ E) as L. unfold mutex_step. rewrite E.
    destruct p, x as [[]|]; cbn [mutex_op]; try (destruct (mlocked s) eqn:F); cbn [mth mlog];
      rewrite ?nth_error_upd_eq by exact L; rewrite ?E;
      (eexists; split; [reflexivity|]); cbn [mutex_op]; auto 6;
      right; (split; [reflexivity|]); eexists; (split; [|reflexivity]); cbn; eauto.
Qed.

Example C15_nontrivial :
  let l := [(0, Call OWait); (0, Go); (1, Call OComplete); (1, Go); (2, Call OCheck); (2, Go); (0, Go); (2, Call OCheck); (2, Go)] in
  slog (spin_run (spin_init 3) l) = [EComplete 1; ECheckRet 2 true; EWaitRet 0; ECheckRet 2 false].
Proof. reflexivity. Qed.
Print Assumptions C15_waits_bounded_by_completes.
