(** The life of one task: property C51.

    Code modelled
    - [src/arch/shm/impl.c:467-529]   arax_task_issue (from the return of arax_task_submit on), arax_task_wait, arax_task_free
    - [src/core/arax_task.c:77-103]   arax_task_wait_done, arax_task_mark_done, the destructor (once, when the count reaches 0)
    - [src/arch/shm/impl.c:400-420]   arax_proc_get, arax_proc_put
    - [controller/src/Core/accelThread.cpp:369-440]  workFunc: from taking a task to giving its reference back
    - [controller/src/Cpu/CpuBuiltins.cpp:39-133]    the ways a handler ends: marking the task done, releasing it, or both

    One issued task, the client that issued it, the worker that executes it, and the other users of the task's
    procedure.  One step is one access to the task or to its procedure; taking and releasing a reference is one step
    (C49 is about their interleavings).  Touching a task or procedure after its last reference was released is [UB]. *)
From Verif Require Import Base.
Local Open Scope nat_scope.

(** How the handler treats the task (CpuBuiltins.cpp): [marks] it calls arax_task_mark_done (all but arax_data_set),
    [frees] it releases the task itself (arax_data_set, memcpy with sync = false). *)
Record handler := mkh { marks : bool; frees : bool; result : N }.

(** The client: after arax_task_issue returned, inside arax_task_wait (impl.c:515-522), after it, after arax_task_free. *)
Inductive cpc := CIssued | CWaiting | CWaited | CFreed.
(** The worker (accelThread.cpp:372-440): idle; 376 reading proc; 387-390 the assertions; 392 ref_inc; 399-406 the buffer
    table; 407 arax_proc_get_functor; the handler reading its arguments and writing its results; arax_task_mark_done
    (two stores); the handler's own arax_task_free; 428-438 ref_dec; done. *)
Inductive wpc := WIdle | WProc | WCheck | WInc | WArgs | WFun | WExec | WMark | WCompl | WFree | WDec | WEnd.

(** [trc]/[tdead]: the task's count, whether it was destroyed; [tdtors]: how often; [prc]/[pdead]: the procedure's;
    [mine]: the client still holds its reference to the procedure; [oth]: references of others; [queued];
    [marked]: task->state is final; [done]: the completion; [out]: the results in the argument block;
    [got]: what the client read after waiting. *)
Record st := mkst { trc : nat; tdead : bool; tdtors : nat; prc : nat; pdead : bool; mine : bool; oth : nat; queued : bool;
                    marked : bool; done : bool; out : option N; cp : cpc; wp : wpc; got : option (bool * option N) }.

(** Right after arax_task_issue (arax_task_alloc registers with one reference); [o] other references to the procedure. *)
Definition start (o : nat) : st :=
  mkst 1 false 0 (S o) false true o true false false None CIssued WIdle None.

Inductive act :=
| AWait | AWake | ARead | AFree      (* client: call wait; wait returns; read state and results; arax_task_free *)
| APut                               (* client: arax_proc_put *)
| AOGet | AOPut                      (* another user of the procedure *)
| AWork.                             (* the worker's next step *)

(** Dereferencing the task / the procedure. *)
Definition touch_t (s : st) (r : outcome st) : outcome st := if tdead s then UB else r.
Definition touch_p (s : st) (r : outcome st) : outcome st := if pdead s then UB else r.

(** arax_object_ref_dec (arax_object.c:161-209) of the task by the client / the worker; of the procedure. *)
Definition dec_t (s : st) (c : cpc) (w : wpc) : outcome st :=
  touch_t s (if trc s =? 0 then Abort else
    Ok (mkst (trc s - 1) (trc s =? 1) (tdtors s + if trc s =? 1 then 1 else 0) (prc s) (pdead s) (mine s) (oth s) (queued s)
             (marked s) (done s) (out s) c w (got s))).
Definition dec_p (s : st) (m : bool) (o : nat) : outcome st :=
  touch_p s (if prc s =? 0 then Abort else
    Ok (mkst (trc s) (tdead s) (tdtors s) (prc s - 1) (prc s =? 1) m o (queued s)
             (marked s) (done s) (out s) (cp s) (wp s) (got s))).
(** Moving on without writing (no code of its own). *)
Definition goc (s : st) (c : cpc) : st :=
  mkst (trc s) (tdead s) (tdtors s) (prc s) (pdead s) (mine s) (oth s) (queued s) (marked s) (done s) (out s) c (wp s) (got s).
Definition gow (s : st) (w : wpc) : st :=
  mkst (trc s) (tdead s) (tdtors s) (prc s) (pdead s) (mine s) (oth s) (queued s) (marked s) (done s) (out s) (cp s) w (got s).

(** accelThread.cpp:369-440 and the handler, line by line. *)
Definition work (h : handler) (s : st) : outcome st :=
  match wp s with
  | WIdle => if queued s                                   (* 372: selectTask *)
             then Ok (mkst (trc s) (tdead s) (tdtors s) (prc s) (pdead s) (mine s) (oth s) false (marked s) (done s) (out s) (cp s) WProc (got s))
             else Ok s
  | WProc => touch_t s (Ok (gow s WCheck))                 (* 376 *)
  | WCheck => touch_t s (touch_p s (Ok (gow s WInc)))      (* 380-390: the procedure's name, assertions *)
  | WInc => touch_t s (Ok (mkst (S (trc s)) (tdead s) (tdtors s) (prc s) (pdead s) (mine s) (oth s) (queued s) (marked s) (done s) (out s) (cp s) WArgs (got s)))
  | WArgs => touch_t s (Ok (gow s WFun))                   (* 399-406 *)
  | WFun => touch_p s (Ok (gow s WExec))                   (* 407 *)
  | WExec => touch_t s (Ok (mkst (trc s) (tdead s) (tdtors s) (prc s) (pdead s) (mine s) (oth s) (queued s) (marked s) (done s) (Some (result h))
                                 (cp s) (if marks h then WMark else WFree) (got s)))
  | WMark => touch_t s (Ok (mkst (trc s) (tdead s) (tdtors s) (prc s) (pdead s) (mine s) (oth s) (queued s) true (done s) (out s) (cp s) WCompl (got s)))
  | WCompl => touch_t s (Ok (mkst (trc s) (tdead s) (tdtors s) (prc s) (pdead s) (mine s) (oth s) (queued s) (marked s) true (out s) (cp s) WFree (got s)))
  | WFree => if frees h then dec_t s (cp s) WDec else touch_t s (Ok (gow s WDec))  (* memcpy: reads args->sync *)
  | WDec => dec_t s (cp s) WEnd                            (* 428-438 *)
  | WEnd => Ok s
  end.

(** [perm]: one of the other references to the procedure is never released (the controller's libraries register
    their procedures for good). *)
Definition step (h : handler) (perm : bool) (s : st) (a : act) : outcome st :=
  match a, cp s with
  | AWait, CIssued => touch_t s (Ok (goc s CWaiting))
  | AWake, CWaiting => touch_t s (Ok (if done s then goc s CWaited else s))
  | ARead, CWaited => touch_t s (Ok (mkst (trc s) (tdead s) (tdtors s) (prc s) (pdead s) (mine s) (oth s) (queued s) (marked s) (done s) (out s)
                                          (cp s) (wp s) (Some (marked s, out s))))
  | AFree, CFreed => Ok s
  | AFree, _ => dec_t s CFreed (wp s)
  | APut, _ => if mine s then dec_p s false (oth s) else Ok s
  | AOGet, _ => if oth s =? 0 then Ok s else
                touch_p s (Ok (mkst (trc s) (tdead s) (tdtors s) (S (prc s)) (pdead s) (mine s) (S (oth s)) (queued s) (marked s) (done s) (out s)
                                    (cp s) (wp s) (got s)))
  | AOPut, _ => if oth s <=? (if perm then 1 else 0) then Ok s else dec_p s (mine s) (oth s - 1)
  | AWork, _ => work h s
  | _, _ => Ok s
  end.
Fixpoint run (h : handler) (perm : bool) (s : st) (l : list act) : outcome st :=
  match l with [] => Ok s | a :: r => do s' <- step h perm s a; run h perm s' r end.

(** ** Specification *)

(** The documented use (arax.h:189-200): the task is released only after waiting for it. *)
Fixpoint waited (h : handler) (perm : bool) (s : st) (l : list act) : Prop :=
  match l with
  | [] => True
  | a :: r => (a = AFree -> cp s = CWaited \/ cp s = CFreed) /\ match step h perm s a with Ok s' => waited h perm s' r | _ => True end
  end.
(** A task that is left to its handler: nobody waits for it or releases it. *)
Definition detached (l : list act) : Prop := ~ In AWait l /\ ~ In AFree l.

(** ** Invariants *)
Definition wref (w : wpc) : nat := match w with WArgs | WFun | WExec | WMark | WCompl | WFree | WDec => 1 | _ => 0 end.
Definition b2n (b : bool) : nat := if b then 1 else 0.
(** Everything is done: no reference is left. *)
Record inv (h : handler) (perm : bool) (s : st) : Prop := {
  v_p : prc s = b2n (mine s) + oth s;
  v_perm : perm = true -> oth s <> 0;
  v_pd : pdead s = (prc s =? 0);
  v_t : trc s = (if frees h then match wp s with WDec | WEnd => 0 | _ => 1 end else match cp s with CFreed => 0 | _ => 1 end) + wref (wp s);
  v_td : tdead s = (trc s =? 0);
  v_dt : tdtors s = b2n (tdead s);
  v_q : queued s = match wp s with WIdle => true | _ => false end;
  v_done : done s = true -> marked s = true /\ out s = Some (result h) /\ match wp s with WFree | WDec | WEnd => True | _ => False end;
  v_cw : cp s = CWaited \/ cp s = CFreed -> done s = true;
  v_got : got s = None \/ got s = Some (true, Some (result h));
  v_mk : match wp s with WCompl => marked s = true /\ out s = Some (result h) | WMark => out s = Some (result h) | _ => True end;
  v_fr : frees h = true -> cp s = CIssued }.

Lemma start_inv h perm o : (perm = true -> o <> 0) -> inv h perm (start o).
Proof. intros P. constructor; cbn; auto; try (intros [X|X]; discriminate); try discriminate. destruct (frees h); reflexivity. Qed.

Ltac nateq := repeat match goal with
  | H : (?a =? ?b) = true |- _ => apply Nat.eqb_eq in H
  | H : (?a =? ?b) = false |- _ => apply Nat.eqb_neq in H
  | H : (?a <=? ?b) = true |- _ => apply Nat.leb_le in H
  | H : (?a <=? ?b) = false |- _ => apply Nat.leb_gt in H
  end.
Ltac solve_field := try reflexivity; try assumption; try discriminate; try tauto; try lia;
  try (symmetry; apply Nat.eqb_neq; lia); try (intros [X|X]; discriminate X); try (intros; repeat split; try tauto; try lia; try discriminate).

(** With a permanent reference to the procedure, every step of a legal user succeeds. *)
Lemma step_inv h s a : (frees h = true -> a <> AWait /\ a <> AFree) -> (frees h = true \/ marks h = true) ->
  (frees h = false -> a = AFree -> cp s = CWaited \/ cp s = CFreed) ->
  inv h true s -> exists s', step h true s a = Ok s' /\ inv h true s'.
Proof.
  intros FR HM FW I. destruct I as [I1 I2 I3 I4 I5 I6 I7 I8 I9 I10 I11 I12]. pose proof (I2 eq_refl) as O0.
  destruct s as [T TD TN P PD M O Q MK DN OU C W G]. cbn [trc tdead tdtors prc pdead mine oth queued marked done out cp wp got] in *.
  assert (PD = false) as -> by (rewrite I3; apply Nat.eqb_neq; lia).
  destruct h as [MA F RS]. cbn [frees marks result] in *.
  unfold step. cbn [cp done mine oth].
  destruct a.
  - (* AWait *) destruct F; [destruct (FR eq_refl); congruence|]. destruct C; try (eexists; split; [reflexivity|constructor; cbn; assumption]).
    assert (TD = false) as -> by (rewrite I5; apply Nat.eqb_neq; lia).
    eexists. split; [reflexivity|]. constructor; cbn; solve_field.
  - (* AWake *) destruct C; try (eexists; split; [reflexivity|constructor; cbn; assumption]).
    destruct F; [discriminate (I12 eq_refl)|].
    assert (TD = false) as -> by (rewrite I5; apply Nat.eqb_neq; lia).
    eexists. split; [reflexivity|]. destruct DN; constructor; cbn; solve_field.
  - (* ARead *) destruct C; try (eexists; split; [reflexivity|constructor; cbn; assumption]).
    destruct F; [discriminate (I12 eq_refl)|].
    assert (TD = false) as -> by (rewrite I5; apply Nat.eqb_neq; lia).
    destruct (I8 (I9 (or_introl eq_refl))) as (E1 & E2 & E3).
    eexists. split; [reflexivity|]. constructor; cbn; solve_field. right. now rewrite E1, E2.
  - (* AFree *) destruct F; [destruct (FR eq_refl); congruence|]. destruct (FW eq_refl eq_refl) as [->| ->].
    + pose proof (I9 (or_introl eq_refl)) as D. destruct (I8 D) as (E1 & E2 & E3).
      assert (TD = false) as -> by (rewrite I5; apply Nat.eqb_neq; lia).
      unfold dec_t, touch_t. cbn [tdead trc]. 
      destruct W; try contradiction; cbn in I4; subst T; cbn;
        (eexists; split; [reflexivity|]); constructor; cbn; solve_field; subst TN; reflexivity.
    + eexists. split; [reflexivity|]. constructor; cbn; assumption.
  - (* APut *) destruct C, M; try (eexists; split; [reflexivity|constructor; cbn; assumption]);
      unfold dec_p, touch_p; cbn [pdead prc]; (replace (P =? 0) with false by (symmetry; apply Nat.eqb_neq; lia));
      cbn [b2n] in I1; (replace (P =? 1) with false by (symmetry; apply Nat.eqb_neq; lia));
      (eexists; split; [reflexivity|]); constructor; cbn; solve_field.
  - (* AOGet *) replace (O =? 0) with false by (symmetry; apply Nat.eqb_neq; lia).
    assert (X : touch_p (mkst T TD TN P false M O Q MK DN OU C W G) (Ok (mkst T TD TN (S P) false M (S O) Q MK DN OU C W G)) = Ok (mkst T TD TN (S P) false M (S O) Q MK DN OU C W G)) by reflexivity.
    destruct C; (eexists; split; [exact X|]); constructor; cbn; solve_field.
  - (* AOPut *) destruct (O <=? 1) eqn:OL; nateq; [destruct C; (eexists; split; [reflexivity|constructor; cbn; assumption])|].
    assert (X : dec_p (mkst T TD TN P false M O Q MK DN OU C W G) M (O - 1) = Ok (mkst T TD TN (P - 1) (P =? 1) M (O - 1) Q MK DN OU C W G)).
    { unfold dec_p, touch_p. cbn. replace (P =? 0) with false by (symmetry; apply Nat.eqb_neq; lia). reflexivity. }
    replace (P =? 1) with false in X by (symmetry; apply Nat.eqb_neq; destruct M; cbn in I1; lia).
    destruct C; (eexists; split; [exact X|]); constructor; cbn; solve_field.
  - (* AWork *)
    assert (X : exists s', work (mkh MA F RS) (mkst T TD TN P false M O Q MK DN OU C W G) = Ok s' /\ inv (mkh MA F RS) true s').
    { unfold work. cbn [wp queued].
      assert (ND : DN = true -> match W with WFree | WDec | WEnd => True | _ => False end) by (intros D; apply (I8 D)).
      assert (TT : W <> WEnd -> TD = false).
      { intros NE. rewrite I5, I4. apply Nat.eqb_neq. destruct F, C, W; cbn; try lia; try congruence;
          specialize (I9 (or_intror eq_refl)); specialize (ND I9); contradiction. }
      destruct W; try (rewrite TT in * by discriminate);
        try (subst Q); unfold touch_t, touch_p; cbn [tdead pdead];
        try (eexists; split; [reflexivity|]; constructor; cbn; cbn in I4; solve_field; fail).
      - (* WExec *) eexists; split; [reflexivity|]. destruct MA.
        + constructor; cbn; cbn in I4; solve_field.
        + destruct F; [|destruct HM; discriminate]. constructor; cbn; cbn in I4; solve_field.
      - (* WFree *) unfold dec_t, touch_t. cbn [tdead trc]. destruct F.
        + cbn in I4. subst T. cbn. eexists; split; [reflexivity|]. constructor; cbn; solve_field. subst TN. reflexivity.
        + eexists; split; [reflexivity|]. constructor; cbn; cbn in I4; solve_field.
      - (* WDec *) unfold dec_t, touch_t. cbn [tdead trc]. cbn in I4, I6. 
        assert (TE : T = 1 \/ T = 2) by (destruct F, C; lia).
        destruct TE as [-> | ->]; cbn; (eexists; split; [reflexivity|]); constructor; cbn; solve_field; try (subst TN; reflexivity);
          destruct F, C; cbn in I4 |- *; try lia; try discriminate. }
    destruct C; exact X.
Qed.

Lemma run_waited h l : frees h = false -> marks h = true -> forall s, waited h true s l -> inv h true s -> exists s', run h true s l = Ok s' /\ inv h true s'.
Proof.
  intros F MK. induction l as [|a l IH]; intros s WT I; cbn [run]; [eauto|]. destruct WT as [W1 W2].
  destruct (step_inv h s a) as (s1 & E1 & I1); [congruence|now right|auto|assumption|].
  rewrite E1 in *. cbn [bind]. now apply IH.
Qed.

Lemma run_detached h l : frees h = true -> detached l -> forall s, inv h true s -> exists s', run h true s l = Ok s' /\ inv h true s'.
Proof.
  intros F [N1 N2]. induction l as [|a l IH]; intros s I; cbn [run]; [eauto|].
  destruct (step_inv h s a) as (s1 & E1 & I1); [|now left|congruence|assumption|].
  - intros _. split; intros ->; [apply N1|apply N2]; now left.
  - rewrite E1. cbn [bind]. apply IH; [intros X; apply N1; now right|intros X; apply N2; now right|assumption].
Qed.

(** ** C51 *)

(** A client that waits for its task before releasing it, a handler that marks the task done, any interleaving with
    the worker and with the other users of the procedure: nothing is touched after it was destroyed, no assertion
    fails; what the client reads after waiting is the final state and the handler's results; the task is destroyed
    at most once, not before the client released it and the worker has finished with it, and by then for certain. *)
Theorem C51_waited_partial : forall h o l, frees h = false -> marks h = true -> o <> 0 -> waited h true (start o) l ->
  exists s, run h true (start o) l = Ok s /\
    (forall r, got s = Some r -> r = (true, Some (result h))) /\
    tdtors s <= 1 /\ (tdtors s = 1 <-> cp s = CFreed /\ wp s = WEnd) /\
    (cp s = CWaited -> done s = true /\ tdead s = false).
Proof.
  intros h o l F MK NO WT. destruct (run_waited h l F MK (start o) WT) as (s & E & I); [now apply start_inv|].
  exists s. split; [assumption|]. destruct I as [I1 I2 I3 I4 I5 I6 I7 I8 I9 I10 I11 I12]. rewrite F in *.
  split; [intros r G; rewrite G in I10; destruct I10 as [X|X]; congruence|]. rewrite I6.
  assert (BD : b2n (tdead s) <= 1) by (destruct (tdead s); cbn; lia). split; [assumption|].
  assert (TE : b2n (tdead s) = 1 <-> trc s = 0).
  { rewrite I5. destruct (trc s =? 0) eqn:TZ; nateq; cbn; split; intros; try reflexivity; try lia. }
  split; [rewrite TE, I4; split|].
  - intros TZ. destruct (cp s) eqn:C; try (exfalso; lia).
    assert (D : done s = true) by (apply I9; now right). destruct (I8 D) as (_ & _ & X).
    destruct (wp s); try contradiction; cbn in TZ; try (exfalso; lia). now split.
  - intros [-> ->]. reflexivity.
  - intros C. split; [apply I9; now left|]. rewrite I5, I4, C. reflexivity.
Qed.

(** A task left to a handler that releases it (arax_data_set): the same, whoever uses the procedure. *)
Theorem C51_detached_partial : forall h o l, frees h = true -> o <> 0 -> detached l ->
  exists s, run h true (start o) l = Ok s /\ tdtors s <= 1 /\ (tdtors s = 1 <-> wp s = WEnd).
Proof.
  intros h o l F NO D. destruct (run_detached h l F D (start o)) as (s & E & I); [now apply start_inv|].
  exists s. split; [assumption|]. destruct I as [I1 I2 I3 I4 I5 I6 I7 I8 I9 I10 I11 I12]. rewrite F in *.
  rewrite I6, I5, I4. destruct (wp s); cbn; repeat split; intros; try lia; try discriminate; reflexivity.
Qed.

(** Non-vacuity: the client waits, reads and releases while the worker is still between completing and releasing. *)
Example C51_example :
  let h := mkh true false 42%N in
  let l := [APut; AWait; AWork; AWork; AWork; AOGet; AWork; AWork; AWork; AWork; AWork; AWork; AWake; ARead; AFree; AWork; AWork] in
  waited h true (start 1) l /\
  exists s, run h true (start 1) l = Ok s /\ got s = Some (true, Some 42%N) /\ tdtors s = 1 /\ wp s = WEnd.
Proof. vm_compute. split; [intuition discriminate|]. eexists. repeat split. Qed.

Example C51_detached_example :
  let l := [AWork; AWork; APut] ++ repeat AWork 7 in
  detached l /\ exists s, run (mkh false true 1%N) true (start 1) l = Ok s /\ tdtors s = 1 /\ wp s = WEnd.
Proof. split; [split; cbn; intuition discriminate|]. vm_compute. eexists. repeat split. Qed.

(** ** Where it fails *)

(** Tasks hold references to their buffers and their virtual accelerator, not to their procedure: when the last
    reference to the procedure is released after the issue (as arax_proc_put's documentation asks for: one put for
    every get or register), the worker reads a destroyed procedure. *)
Theorem C51_procedure_refuted :
  run (mkh true false 42%N) false (start 0) [APut; AWork; AWork; AWork] = UB /\
  run (mkh true false 42%N) false (start 1) [AOPut; AWork; AWork; APut; AWork] = UB.
Proof. split; reflexivity. Qed.

(** Waiting before releasing is necessary: a task released right after the issue is destroyed in the queue. *)
Theorem C51_unwaited_refuted :
  run (mkh true false 42%N) true (start 1) [AFree; AWork; AWork] = UB.
Proof. reflexivity. Qed.
