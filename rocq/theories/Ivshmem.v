(** Waiting between virtual machines: property C57, the ivshmem back-end of the async API.

    Code modelled
    - [src/async/ivshmem/async.c:26-34]    wakeupVm, getVmID
    - [src/async/ivshmem/async.c:37-62]    async_thread
    - [src/async/ivshmem/async.c:64-69]    _add_completion
    - [src/async/ivshmem/async.c:118-147]  completions
    - [src/async/ivshmem/async.c:149-204]  semaphores
    - [src/async/ivshmem/async.c:206-233]  conditions

    One completion (a task's, or the one inside a condition) and any number of threads of any number of machines.  Each
    machine has a doorbell and a thread (async_thread) that waits for it.  One access to shared memory is a step; adding to
    the list of outstanding completions, which is done under a lock, is one, and so is one walk of async_thread over that
    list (which takes no lock: walks and additions that overlap are not modelled).  Other completions appear as doorbells
    that ring at any time. *)
From Verif Require Import Base Sums.
Local Open Scope nat_scope.
Arguments Nat.eqb : simpl never.
Arguments Nat.sub : simpl never.

(** Where a thread is.  async_completion_wait (async.c:135-142): [WTry] before pthread_mutex_trylock, [WAdd] before
    _add_completion, [WVm] before the store to vm_id, [WLock] before pthread_mutex_lock, [WDone] returned.
    async_completion_complete (129-133): [CSet] before the store to completed, [CRing] before the doorbell. *)
Inductive pc := Idle | WTry | WAdd | WVm | WLock | WDone | CSet | CRing.
(** A thread: its machine and where it is. *)
Record thread := mkth { vm : nat; at_ : pc }.
(** [compl]: completed; [mtx]: the mutex is locked; [out]: the completion is in meta->outstanding; [vmid]: vm_id; [bell v]:
    machine [v] has an interrupt its async_thread has not read; [bad]: a node that is in the list was added again (its
    links then form a loop). *)
Record st := mkst { compl : bool; mtx : bool; out : bool; vmid : nat; bell : nat -> bool; bad : bool; th : list thread }.
(** async_completion_init, async.c:118-127, for threads of the given machines; vm_id is not initialised *)
Definition init (junk : nat) (vms : list nat) : st := mkst false true false junk (fun _ => false) false (map (fun v => mkth v Idle) vms).
(** async_condition_init, async.c:206-211, up to the semaphore: complete is called once *)
Definition cond_init (junk : nat) (vms : list nat) : st :=
  mkst true true false junk (fun v => v =? junk) false (map (fun v => mkth v Idle) vms).

(** no code of its own *)
Definition go (s : st) (i : nat) (t : thread) (p : pc) : list thread := upd (th s) i (mkth (vm t) p).
(** One step of a thread inside async_completion_wait or async_completion_complete, async.c:129-142, 64-69; [None]: it is
    blocked or in no call. *)
Definition tstep (s : st) (i : nat) (t : thread) : option st :=
  match at_ t with
  | WTry => if mtx s then Some (mkst (compl s) (mtx s) (out s) (vmid s) (bell s) (bad s) (go s i t WAdd))
            else Some (mkst (compl s) true (out s) (vmid s) (bell s) (bad s) (go s i t WVm))
  | WAdd => Some (mkst (compl s) (mtx s) true (vmid s) (bell s) (bad s || out s) (go s i t WVm))
  | WVm => Some (mkst (compl s) (mtx s) (out s) (vm t) (bell s) (bad s) (go s i t WLock))
  | WLock => if mtx s then None else Some (mkst (compl s) true (out s) (vmid s) (bell s) (bad s) (go s i t WDone))
  | CSet => Some (mkst true (mtx s) (out s) (vmid s) (bell s) (bad s) (go s i t CRing))
  | CRing => Some (mkst (compl s) (mtx s) (out s) (vmid s) (fun v => if v =? vmid s then true else bell s v) (bad s) (go s i t Idle))
  | Idle | WDone => None
  end.
(** What can happen: thread [i] calls wait or complete (a thread that has returned from wait may call again); it takes a
    step; another completion's doorbell rings for machine [v]; the async_thread of machine [v] reads its interrupt and
    walks the list (async.c:46-59). *)
Inductive act := BWait (i : nat) | BComplete (i : nat) | Step (i : nat) | Ring (v : nat) | Serve (v : nat).
(** no code of its own *)
Definition idle (t : thread) : bool := match at_ t with Idle | WDone => true | _ => false end.
(** async.c:37-62 and the calls *)
Definition step (s : st) (a : act) : option st :=
  match a with
  | BWait i => match nth_error (th s) i with
               | Some t => if idle t then Some (mkst (compl s) (mtx s) (out s) (vmid s) (bell s) (bad s) (go s i t WTry)) else None
               | None => None end
  | BComplete i => match nth_error (th s) i with
                   | Some t => if idle t then Some (mkst (compl s) (mtx s) (out s) (vmid s) (bell s) (bad s) (go s i t CSet)) else None
                   | None => None end
  | Step i => match nth_error (th s) i with Some t => tstep s i t | None => None end
  | Ring v => Some (mkst (compl s) (mtx s) (out s) (vmid s) (fun w => if w =? v then true else bell s w) (bad s) (th s))
  | Serve v => if bell s v
               then Some (mkst (compl s) (if out s && compl s then false else mtx s) (if out s && compl s then false else out s) (vmid s)
                               (fun w => if w =? v then false else bell s w) (bad s) (th s))
               else None
  end.
(** A history, no code of its own. *)
Fixpoint run (s : st) (h : list act) : option st := match h with [] => Some s | a :: h => match step s a with Some s' => run s' h | None => None end end.

(** ** Waiting for a task *)
(** A thread returned from wait. *)
Definition returned (s : st) (i : nat) : Prop := exists t, nth_error (th s) i = Some t /\ at_ t = WDone.
(** Nobody who waits is let through before the completion is completed, by any interleaving and with any other
    doorbells. *)
Definition inv1 (s : st) : Prop := (mtx s = false -> compl s = true) /\ (forall i t, nth_error (th s) i = Some t -> at_ t = WDone -> compl s = true).
Lemma go_nth s i t p j u : nth_error (th s) i = Some t -> nth_error (go s i t p) j = Some u -> (j = i /\ u = mkth (vm t) p) \/ (j <> i /\ nth_error (th s) j = Some u).
Proof.
  intros E H. unfold go in H. apply nth_upd_cases in H. destruct H as [(-> & -> & _)|(NE & H)]; auto.
Qed.
Lemma step_inv1 s a s' : step s a = Some s' -> inv1 s -> inv1 s'.
Proof.
  intros E [I1 I2].
  assert (K : forall i t p, nth_error (th s) i = Some t -> (p = WDone -> compl s = true) -> forall j u, nth_error (go s i t p) j = Some u -> at_ u = WDone -> compl s = true).
  { intros i t p N H j u J Q. apply go_nth with (1 := N) in J. destruct J as [[-> ->]|[_ J]]; eauto. }
  destruct a as [i|i|i|v|v]; cbn [step] in E.
  - destruct (nth_error (th s) i) as [t|] eqn:N; [|discriminate]. destruct (idle t); [|discriminate]. injection E as <-. split; cbn; [auto|]. eapply K; eauto. discriminate.
  - destruct (nth_error (th s) i) as [t|] eqn:N; [|discriminate]. destruct (idle t); [|discriminate]. injection E as <-. split; cbn; [auto|]. eapply K; eauto. discriminate.
  - destruct (nth_error (th s) i) as [t|] eqn:N; [|discriminate]. unfold tstep in E.
    destruct (at_ t); try discriminate; try (destruct (mtx s) eqn:M); try discriminate; injection E as <-; split; cbn; try discriminate; auto; try (eapply K; eauto; discriminate).
  - injection E as <-. split; cbn; auto.
  - destruct (bell s v); [|discriminate]. injection E as <-. split; cbn; [|auto]. destruct (out s); [|auto]. destruct (compl s) eqn:C; cbn; auto.
Qed.
Lemma run_inv1 h : forall s s', run s h = Some s' -> inv1 s -> inv1 s'.
Proof. induction h as [|a h IH]; intros s s' R I; cbn [run] in R; [now injection R as <-|]. destruct (step s a) eqn:E; [|discriminate]. eauto using step_inv1. Qed.
Lemma compl_why h : forall s s', run s h = Some s' -> compl s = false -> (forall i t, nth_error (th s) i = Some t -> at_ t <> CSet) -> compl s' = true -> exists i, In (BComplete i) h.
Proof.
  induction h as [|a h IH]; intros s s' R C N C'; cbn [run] in R; [injection R as <-; congruence|].
  destruct (step s a) as [s1|] eqn:E; [|discriminate].
  destruct a as [i|i|i|v|v]; [|exists i; now left| | |].
  all: assert (H : compl s1 = false /\ forall j u, nth_error (th s1) j = Some u -> at_ u <> CSet); [|destruct (IH _ _ R (proj1 H) (proj2 H) C') as [k K]; exists k; now right].
  - cbn [step] in E. destruct (nth_error (th s) i) as [t|] eqn:T; [|discriminate]. destruct (idle t); [|discriminate]. injection E as <-. split; [exact C|]. cbn.
    intros j u J. apply go_nth with (1 := T) in J. destruct J as [[-> ->]|[_ J]]; [discriminate|eauto].
  - cbn [step] in E. destruct (nth_error (th s) i) as [t|] eqn:T; [|discriminate]. assert (T' := N i t T). unfold tstep in E.
    destruct (at_ t); try congruence; try (destruct (mtx s)); try discriminate; injection E as <-; (split; [exact C|]); cbn;
      intros j u J; apply go_nth with (1 := T) in J; (destruct J as [[-> ->]|[_ J]]; [discriminate|eauto]).
  - cbn [step] in E. injection E as <-. split; [exact C|exact N].
  - cbn [step] in E. destruct (bell s v); [|discriminate]. injection E as <-. split; [exact C|exact N].
Qed.
Theorem C57_not_early junk vms h s i : run (init junk vms) h = Some s -> returned s i -> exists k, In (BComplete k) h.
Proof.
  intros R (t & T & W). assert (I : inv1 s).
  { eapply run_inv1; [exact R|]. split; [discriminate|]. intros j u J Q. cbn in J. apply nth_error_In, in_map_iff in J. destruct J as (v & <- & _). discriminate. }
  eapply compl_why; [exact R|reflexivity| |]. 
  - intros j u J. cbn in J. apply nth_error_In, in_map_iff in J. destruct J as (v & <- & _). discriminate.
  - destruct I as [_ I]. eauto.
Qed.

(** With one thread that waits, once, the list is never damaged, and a completion that is announced after that thread has
    stored its machine's number reaches it. *)
Definition no_wait (h : list act) : Prop := forall i, ~ In (BWait i) h.
(** Some thread rings the doorbell, at the end of async_completion_complete. *)
Definition announced (s : st) (h : list act) : Prop := exists h1 k h2 s1 t, h = h1 ++ Step k :: h2 /\ run s h1 = Some s1 /\ nth_error (th s1) k = Some t /\ at_ t = CRing.
Definition inv2 (w : nat) (s : st) : Prop :=
  bad s = false /\
  (forall j u, nth_error (th s) j = Some u -> at_ u = CRing -> compl s = true) /\
  (forall j u, nth_error (th s) j = Some u -> j <> w -> at_ u = Idle \/ at_ u = CSet \/ at_ u = CRing) /\
  (forall u, nth_error (th s) w = Some u ->
     match at_ u with
     | WVm | WLock => (out s = true /\ mtx s = true) \/ (out s = false /\ mtx s = false /\ compl s = true)
     | _ => out s = false /\ mtx s = true
     end /\ (at_ u = WLock -> vmid s = vm u)) /\
  (nth_error (th s) w = None -> out s = false).
Lemma go_none s i t p w : nth_error (th s) w = None -> nth_error (go s i t p) w = None.
Proof. intros H. unfold go. apply nth_error_None. rewrite upd_length. now apply nth_error_None. Qed.
Lemma go_none' s i t p w : nth_error (go s i t p) w = None -> nth_error (th s) w = None.
Proof. unfold go. rewrite !nth_error_None, upd_length. auto. Qed.
Lemma step_inv2 w s a s' : step s a = Some s' -> inv2 w s -> (forall i, a = BWait i -> i = w /\ exists u, nth_error (th s) w = Some u /\ at_ u = Idle) -> inv2 w s'.
Proof.
  intros E (B & R & O & W & X) HB.
  assert (G : forall i t p c m o v b, nth_error (th s) i = Some t ->
     (p = CRing -> c = true) -> (compl s = true -> c = true) -> (i <> w -> p = Idle \/ p = CSet \/ p = CRing) ->
     (i = w -> match p with WVm | WLock => (o = true /\ m = true) \/ (o = false /\ m = false /\ c = true) | _ => o = false /\ m = true end /\ (p = WLock -> v = vm t)) ->
     (i <> w -> m = mtx s /\ o = out s /\ v = vmid s) ->
     inv2 w (mkst c m o v b false (go s i t p))).
  { intros i t p c m o v b T H1 H2 H3 H4 H5. split; [reflexivity|]. cbn [bad compl mtx out vmid th]. split; [|split; [|split]].
    - intros j u J Q. apply go_nth with (1 := T) in J. destruct J as [[-> ->]|[_ J]]; [auto|eauto].
    - intros j u J NE. apply go_nth with (1 := T) in J. destruct J as [[-> ->]|[_ J]]; [auto|eauto].
    - intros u J. apply go_nth with (1 := T) in J. destruct J as [[<- ->]|[NE J]]; [apply H4; reflexivity|].
      destruct (H5 ltac:(auto)) as (-> & -> & ->). destruct (W u J) as [W1 W2]. split; [|exact W2]. destruct (at_ u); auto; destruct W1 as [W1|(Y & Z & C)]; auto; right; auto.
    - intros Q. apply go_none' in Q. assert (NE : i <> w) by congruence. destruct (H5 NE) as (_ & -> & _). auto. }
  destruct a as [i|i|i|v|v]; cbn [step] in E.
  - destruct (HB i eq_refl) as (-> & u & U & Q). rewrite U in E. unfold idle in E. rewrite Q in E. injection E as <-. rewrite B. destruct (W u U) as [W1 _]. rewrite Q in W1.
    apply G; auto; try discriminate; try tauto; try (intros _; split; [tauto|first [discriminate|reflexivity|auto]]). 
  - destruct (nth_error (th s) i) as [t|] eqn:T; [|discriminate]. destruct (idle t) eqn:Q; [|discriminate]. injection E as <-. rewrite B.
    apply G; auto; try discriminate. intros ->. split; [|discriminate]. destruct (W t T) as [W1 _]. unfold idle in Q. destruct (at_ t); auto; discriminate.
  - destruct (nth_error (th s) i) as [t|] eqn:T; [|discriminate]. unfold tstep in E.
    destruct (Nat.eq_dec i w) as [->|NE].
    + destruct (W t T) as [W1 W2]. destruct (at_ t) eqn:Q; try discriminate.
      * destruct W1 as [W1 W3]. rewrite W3 in E. injection E as <-. rewrite B. apply G; auto; try discriminate; try tauto; try (intros _; split; [tauto|first [discriminate|reflexivity|auto]]).
      * destruct W1 as [W1 W3]. rewrite W1, B in E. injection E as <-. apply G; auto; try discriminate; try tauto; try (intros _; split; [tauto|first [discriminate|reflexivity|auto]]).
      * injection E as <-. rewrite B. apply G; auto; try discriminate; try tauto; try (intros _; split; [tauto|first [discriminate|reflexivity|auto]]).
      * destruct (mtx s) eqn:M; [discriminate|]. injection E as <-. rewrite B. apply G; auto; try discriminate; try tauto; try (intros _; split; [tauto|first [discriminate|reflexivity|auto]]).
        intros _. split; [|discriminate]. split; [|reflexivity]. destruct W1 as [[_ W1]|[W1 _]]; [congruence|exact W1].
      * injection E as <-. rewrite B. apply G; auto; try discriminate; try tauto; try (intros _; split; [tauto|first [discriminate|reflexivity|auto]]).
      * injection E as <-. rewrite B. apply G; auto; try discriminate; try tauto; try (intros _; split; [tauto|first [discriminate|reflexivity|auto]]).
    + destruct (O i t T NE) as [Q|[Q|Q]]; rewrite Q in E; [discriminate| |]; injection E as <-; rewrite B; apply G; auto; try discriminate; try tauto; try (intros _; split; [tauto|first [discriminate|reflexivity|auto]]).
  - injection E as <-. split; [exact B|]. cbn. auto.
  - destruct (bell s v); [|discriminate]. injection E as <-. split; [exact B|]. cbn [bad compl mtx out vmid th].
    destruct (out s && compl s) eqn:OC; [|auto]. apply andb_prop in OC. destruct OC as [O1 C1]. split; [exact R|split; [exact O|split; [|auto]]].
    intros u U. destruct (W u U) as [W1 W2]. split; [|exact W2]. destruct (at_ u); try (destruct W1; congruence); right; auto.
Qed.
(** the thread has been, or is about to be, let through *)
Definition due (w : nat) (s : st) : Prop := exists u, nth_error (th s) w = Some u /\
  match at_ u with
  | WLock => mtx s = false \/ (bell s (vm u) = true /\ out s = true /\ compl s = true)
  | WTry | WAdd | WVm => False
  | _ => True
  end.
Lemma step_due w s a s' : step s a = Some s' -> inv2 w s -> no_wait [a] -> due w s -> due w s'.
Proof.
  intros E (B & R & O & W & _) NW (u & U & D).
  assert (G : forall i t p c m o v b, nth_error (th s) i = Some t -> i <> w -> (compl s = true -> c = true) -> (forall x, bell s x = true -> b x = true) ->
      m = mtx s -> o = out s -> due w (mkst c m o v b (bad s) (go s i t p))).
  { intros i t p c m o v b T NE HC Hb -> ->. exists u. split; [unfold go; cbn; rewrite nth_error_upd_ne by auto; exact U|]. destruct (at_ u); auto. cbn. destruct D as [D|(D1 & D2 & D3)]; auto. }
  assert (H : forall c m o v b p, nth_error (th s) w = Some u -> match p with WLock | WTry | WAdd | WVm => False | _ => True end -> due w (mkst c m o v b (bad s) (go s w u p))).
  { intros c m o v b p T P. exists (mkth (vm u) p). split; [unfold go; cbn; apply nth_error_upd_eq; apply nth_error_Some; congruence|]. cbn. destruct p; tauto. }
  destruct a as [i|i|i|v|v]; cbn [step] in E.
  - exfalso. apply (NW i). now left.
  - destruct (nth_error (th s) i) as [t|] eqn:T; [|discriminate]. destruct (idle t) eqn:Q; [|discriminate]. injection E as <-.
    destruct (Nat.eq_dec i w) as [->|NE]; [|apply G; auto]. assert (t = u) by congruence. subst t. apply H; auto.
  - destruct (nth_error (th s) i) as [t|] eqn:T; [|discriminate]. unfold tstep in E.
    destruct (Nat.eq_dec i w) as [->|NE].
    + assert (t = u) by congruence. subst t. destruct (at_ u) eqn:Q; try discriminate; try (destruct D); try (destruct (mtx s)); try discriminate; injection E as <-; apply H; exact I || auto.
    + destruct (O i t T NE) as [Q|[Q|Q]]; rewrite Q in E; [discriminate| |]; injection E as <-; apply G; auto.
      intros x Hx. destruct (x =? vmid s); auto.
  - injection E as <-. exists u. split; [exact U|]. cbn. destruct (at_ u); auto. destruct D as [D|(D1 & D2 & D3)]; auto. right. rewrite D1. destruct (vm u =? v); auto.
  - destruct (bell s v) eqn:Bv; [|discriminate]. injection E as <-. exists u. split; [exact U|]. cbn. destruct (at_ u) eqn:Q; auto.
    destruct D as [D|(D1 & D2 & D3)]; [rewrite D; left; destruct (out s && compl s); reflexivity|]. rewrite D2, D3. left. reflexivity.
Qed.
Lemma run_app h1 : forall h2 s, run s (h1 ++ h2) = match run s h1 with Some s1 => run s1 h2 | None => None end.
Proof. induction h1 as [|a h1 IH]; intros h2 s; cbn [app run]; [reflexivity|]. destruct (step s a); auto. Qed.
Lemma run_inv2 w h : forall s s', run s h = Some s' -> inv2 w s -> no_wait h -> inv2 w s'.
Proof.
  induction h as [|a h IH]; intros s s' R I N; cbn [run] in R; [now injection R as <-|]. destruct (step s a) as [s1|] eqn:E; [|discriminate].
  apply (IH s1); auto; [|intros i J; apply (N i); now right]. eapply step_inv2; eauto. intros i ->. exfalso. apply (N i). now left.
Qed.
Lemma run_due w h : forall s s', run s h = Some s' -> inv2 w s -> no_wait h -> due w s -> due w s'.
Proof.
  induction h as [|a h IH]; intros s s' R I N D; cbn [run] in R; [now injection R as <-|]. destruct (step s a) as [s1|] eqn:E; [|discriminate].
  assert (N1 : no_wait [a]) by (intros i [->|[]]; apply (N i); now left).
  apply (IH s1); auto; [|intros i J; apply (N i); now right|eapply step_due; eauto]. eapply step_inv2; eauto. intros i ->. exfalso. apply (N i). now left.
Qed.
(** the thread, once at the lock, stays there or returns *)
Lemma run_at w h : forall s s' u, run s h = Some s' -> inv2 w s -> no_wait h -> nth_error (th s) w = Some u -> (at_ u = WLock \/ due w s) ->
  exists u', nth_error (th s') w = Some u' /\ vm u' = vm u /\ (at_ u' = WLock \/ due w s').
Proof.
  induction h as [|a h IH]; intros s s' u R I N U Q; cbn [run] in R; [injection R as <-; eauto|]. destruct (step s a) as [s1|] eqn:E; [|discriminate].
  assert (N1 : no_wait [a]) by (intros i [->|[]]; apply (N i); now left).
  assert (I1 : inv2 w s1) by (eapply step_inv2; eauto; intros i ->; exfalso; apply (N i); now left).
  assert (exists u1, nth_error (th s1) w = Some u1 /\ vm u1 = vm u) as (u1 & U1 & V1).
  { assert (G : forall i t p, nth_error (th s) i = Some t -> exists u1, nth_error (go s i t p) w = Some u1 /\ vm u1 = vm u).
    { intros i t p T. destruct (Nat.eq_dec i w) as [->|NE].
      - exists (mkth (vm t) p). split; [unfold go; apply nth_error_upd_eq; apply nth_error_Some; congruence|]. cbn. congruence.
      - exists u. split; [unfold go; now rewrite nth_error_upd_ne by auto|reflexivity]. }
    destruct a as [i|i|i|v|v]; cbn [step] in E.
    - destruct (nth_error (th s) i) as [t|] eqn:T; [|discriminate]. destruct (idle t); [|discriminate]. injection E as <-. cbn. eauto.
    - destruct (nth_error (th s) i) as [t|] eqn:T; [|discriminate]. destruct (idle t); [|discriminate]. injection E as <-. cbn. eauto.
    - destruct (nth_error (th s) i) as [t|] eqn:T; [|discriminate]. unfold tstep in E. destruct (at_ t); try discriminate; try (destruct (mtx s)); try discriminate; injection E as <-; cbn; eauto.
    - injection E as <-. eauto.
    - destruct (bell s v); [|discriminate]. injection E as <-. eauto. }
  destruct (IH s1 s' u1 R I1 (fun i J => N i (or_intror J)) U1) as (u' & U' & V' & Q'); [|exists u'; split; [exact U'|split; [congruence|exact Q']]].
  destruct Q as [Q|Q]; [|right; eapply step_due; eauto].
  destruct (nth_error (th s1) w) as [x|] eqn:X; [|discriminate]. injection U1 as ->.
  destruct a as [i|i|i|v|v]; cbn [step] in E.
  - exfalso. apply (N1 i). now left.
  - destruct (nth_error (th s) i) as [t|] eqn:T; [|discriminate]. destruct (idle t) eqn:QI; [|discriminate]. injection E as <-. cbn in X.
    apply go_nth with (1 := T) in X. destruct X as [[-> ->]|[_ X]]; [|left; congruence]. assert (t = u) by congruence. subst. unfold idle in QI. rewrite Q in QI. discriminate.
  - destruct (nth_error (th s) i) as [t|] eqn:T; [|discriminate]. destruct (Nat.eq_dec i w) as [->|NE].
    + assert (t = u) by congruence. subst t. unfold tstep in E. rewrite Q in E. destruct (mtx s); [discriminate|]. right. injection E as <-. exists u1. split; [exact X|].
      cbn in X. apply go_nth with (1 := T) in X. destruct X as [[_ ->]|[NE _]]; [exact Logic.I|congruence].
    + left. unfold tstep in E. destruct (at_ t); try discriminate; try (destruct (mtx s)); try discriminate; injection E as <-; cbn in X;
        apply go_nth with (1 := T) in X; (destruct X as [[-> _]|[_ X]]; [congruence|congruence]).
  - injection E as <-. cbn in X. left. congruence.
  - destruct (bell s v); [|discriminate]. injection E as <-. cbn in X. left. congruence.
Qed.
Lemma init_inv2 junk vms w : inv2 w (init junk vms).
Proof.
  assert (H : forall j u, nth_error (th (init junk vms)) j = Some u -> at_ u = Idle).
  { intros j u J. cbn in J. apply nth_error_In, in_map_iff in J. destruct J as (v & <- & _). reflexivity. }
  split; [reflexivity|]. split; [|split; [|split]].
  - intros j u J Q. rewrite (H j u J) in Q. discriminate.
  - intros j u J _. left. eauto.
  - intros u U. rewrite (H w u U). split; [auto|discriminate].
  - reflexivity.
Qed.
(** The thread is not inside async_completion_wait. *)
Definition out_of_wait (s : st) (w : nat) : Prop := exists u, nth_error (th s) w = Some u /\ match at_ u with WTry | WAdd | WVm | WLock => False | _ => True end.
(** Thread [w] is the only one that ever waits, it waits once, and in [s] it is registered: it only has the mutex left to
    take.  If after that some thread announces the completion, then in every state from there on, whatever else happened,
    [w] has returned, or returns by its next step, or does so as soon as its machine has handled the interrupt that is
    pending there.  The list of outstanding completions stays intact. *)
Theorem C57_reaches_partial junk vms w h0 h1 s u h s' :
  run (init junk vms) (h0 ++ BWait w :: h1) = Some s -> no_wait h0 -> no_wait h1 ->
  nth_error (th s) w = Some u -> at_ u = WLock ->
  run s h = Some s' -> no_wait h -> announced s h ->
  bad s' = false /\
  (out_of_wait s' w \/ (exists s2, run s' [Step w] = Some s2 /\ returned s2 w) \/ (exists s2, run s' [Serve (vm u); Step w] = Some s2 /\ returned s2 w)).
Proof.
  intros R N0 N1 U Q R' N (ha & k & hb & sa & t & -> & Ra & T & Tk).
  assert (I : inv2 w s).
  { rewrite run_app in R. destruct (run (init junk vms) h0) as [x|] eqn:R0; [|discriminate]. assert (I0 := run_inv2 w h0 _ _ R0 (init_inv2 junk vms w) N0).
    cbn [run] in R. destruct (step x (BWait w)) as [y|] eqn:E; [|discriminate].
    eapply run_inv2; [exact R| |exact N1]. eapply step_inv2; eauto. intros i [= <-]. split; [reflexivity|].
    assert (GI : forall h a b, run a h = Some b -> no_wait h -> (forall j z, nth_error (th a) j = Some z -> at_ z = Idle \/ at_ z = CSet \/ at_ z = CRing) ->
      forall j z, nth_error (th b) j = Some z -> at_ z = Idle \/ at_ z = CSet \/ at_ z = CRing).
    { clear. induction h as [|c h IH]; intros a b R N H; cbn [run] in R; [now injection R as <-|]. destruct (step a c) as [a1|] eqn:E; [|discriminate].
      apply (IH a1); auto; [intros i J; apply (N i); now right|]. intros j z J. destruct c as [i|i|i|v|v]; cbn [step] in E.
      - exfalso. apply (N i). now left.
      - destruct (nth_error (th a) i) as [t|] eqn:T; [|discriminate]. destruct (idle t); [|discriminate]. injection E as <-. cbn in J. apply go_nth with (1 := T) in J. destruct J as [[-> ->]|[_ J]]; cbn; eauto.
      - destruct (nth_error (th a) i) as [t|] eqn:T; [|discriminate]. unfold tstep in E. destruct (H i t T) as [Q|[Q|Q]]; rewrite Q in E; [discriminate| |]; injection E as <-; cbn in J;
          apply go_nth with (1 := T) in J; (destruct J as [[-> ->]|[_ J]]; cbn; eauto).
      - injection E as <-. eauto.
      - destruct (bell a v); [|discriminate]. injection E as <-. eauto. }
    cbn [step] in E. destruct (nth_error (th x) w) as [z|] eqn:Z; [|discriminate]. exists z. split; [reflexivity|].
    destruct (idle z) eqn:ZI; [|discriminate]. unfold idle in ZI.
    destruct (GI _ _ _ R0 N0 ltac:(intros j q J; cbn in J; apply nth_error_In, in_map_iff in J; destruct J as (v & <- & _); now left) w z Z) as [H|[H|H]]; rewrite H in *; auto; discriminate. }
  rewrite run_app, Ra in R'. cbn [run] in R'. destruct (step sa (Step k)) as [sb|] eqn:E; [|discriminate].
  assert (Na : no_wait ha) by (intros i J; apply (N i); apply in_or_app; now left).
  assert (Nb : no_wait hb) by (intros i J; apply (N i); apply in_or_app; right; now right).
  assert (Nk : no_wait [Step k]) by (intros i [J|[]]; discriminate).
  assert (Ia := run_inv2 w ha _ _ Ra I Na).
  destruct (run_at w ha s sa u Ra I Na U (or_introl Q)) as (ua & Ua & Va & Qa).
  assert (Ib : inv2 w sb) by (eapply step_inv2; eauto; discriminate).
  assert (Db : due w sb).
  { destruct Qa as [Qa|D]; [|eapply step_due; eauto].
    cbn [step] in E. rewrite T in E. unfold tstep in E. rewrite Tk in E. injection E as <-. destruct Ia as (_ & C & _ & W & _).
    destruct (W ua Ua) as [W1 W2]. rewrite Qa in W1, W2. specialize (W2 eq_refl). specialize (C k t T Tk).
    exists ua. assert (NE : k <> w) by (intros ->; congruence). split; [unfold go; cbn; rewrite nth_error_upd_ne by auto; exact Ua|]. rewrite Qa. cbn. rewrite W2, Nat.eqb_refl.
    destruct W1 as [[W1 W3]|(W1 & W3 & _)]; auto. }
  assert (Is := run_inv2 w hb _ _ R' Ib Nb). assert (Ds := run_due w hb _ _ R' Ib Nb Db).
  assert (VV : exists u', nth_error (th s') w = Some u' /\ vm u' = vm u).
  { destruct (run_at w (ha ++ Step k :: hb) s s' u) as (u' & U' & V' & _); auto; [|eauto]. rewrite run_app, Ra. cbn [run]. rewrite E. exact R'. }
  split; [apply Is|]. destruct Ds as (us & Us & Ds). destruct VV as (u' & U' & V'). assert (u' = us) by congruence. subst u'.
  destruct (at_ us) eqn:Qs; try (left; exists us; split; [exact Us|rewrite Qs; exact Logic.I]); try contradiction. right.
  assert (F : forall x, nth_error (th x) w = Some us -> mtx x = false -> exists s2, run x [Step w] = Some s2 /\ returned s2 w).
  { intros x X M. cbn [run step]. rewrite X. unfold tstep. rewrite Qs, M. eexists. split; [reflexivity|]. exists (mkth (vm us) WDone). split; [|reflexivity].
    unfold go. cbn. apply nth_error_upd_eq. apply nth_error_Some. congruence. }
  destruct Ds as [M|(D1 & D2 & D3)]; [left; auto|right]. rewrite <- V'.
  change (run s' [Serve (vm us); Step w]) with (match step s' (Serve (vm us)) with Some y => run y [Step w] | None => None end).
  cbn [step]. rewrite D1, D2, D3. apply F; [exact Us|reflexivity].
Qed.
(** The case: a client on machine 1 waits, a worker on machine 2 completes; other doorbells ring in between. *)
Example C57_reaches_example : exists s u s', run (init 9 [1; 2]) ([Ring 1] ++ BWait 0 :: [Step 0; Serve 1; Step 0; Ring 2; Step 0]) = Some s /\
  nth_error (th s) 0 = Some u /\ at_ u = WLock /\ run s [BComplete 1; Step 1; Serve 2; Step 1; Ring 2] = Some s' /\
  announced s [BComplete 1; Step 1; Serve 2; Step 1; Ring 2] /\ ~ returned s' 0 /\ exists s2, run s' [Serve 1; Step 0] = Some s2 /\ returned s2 0.
Proof.
  eexists; eexists; eexists. split; [vm_compute; reflexivity|]. split; [reflexivity|]. split; [reflexivity|]. split; [vm_compute; reflexivity|]. split; [|split].
  - exists [BComplete 1; Step 1; Serve 2], 1, [Ring 2]. eexists; eexists. split; [reflexivity|]. split; [vm_compute; reflexivity|]. split; reflexivity.
  - intros (t & T & W). cbn in T. injection T as <-. discriminate.
  - eexists. split; [vm_compute; reflexivity|]. eexists. split; reflexivity.
Qed.

(** ** What goes wrong *)
(** No doorbell rings: neither another completion's nor that of a new call. *)
Definition quiet (h : list act) : Prop := forall a, In a h -> match a with Ring _ | BComplete _ | BWait _ => False | _ => True end.
(** A thread at the lock, with no doorbell pending but perhaps that of a machine [x] that does not exist, stays there. *)
Lemma stuck x h : forall s s' w u, run s h = Some s' -> quiet h -> ~ In (Serve x) h -> nth_error (th s) w = Some u -> at_ u = WLock -> mtx s = true ->
  (forall v, v <> x -> bell s v = false) -> (forall j t, nth_error (th s) j = Some t -> j <> w -> at_ t = Idle) -> nth_error (th s') w = Some u.
Proof.
  induction h as [|a h IH]; intros s s' w u R QT NS U W M B O; cbn [run] in R; [now injection R as <-|].
  destruct (step s a) as [s1|] eqn:E; [|discriminate]. assert (A := QT a (or_introl eq_refl)).
  destruct a as [i|i|i|v|v]; try contradiction; cbn [step] in E.
  - destruct (nth_error (th s) i) as [t|] eqn:T; [|discriminate]. unfold tstep in E. destruct (Nat.eq_dec i w) as [->|NE].
    + assert (t = u) by congruence. subst. rewrite W, M in E. discriminate.
    + rewrite (O i t T NE) in E. discriminate.
  - destruct (bell s v) eqn:Bv; [|discriminate]. destruct (Nat.eq_dec v x) as [->|NE]; [exfalso; apply NS; now left|]. rewrite (B v NE) in Bv. discriminate.
Qed.
Lemma stuck' x h s s' w u : run s h = Some s' -> quiet h -> ~ In (Serve x) h -> nth_error (th s) w = Some u -> at_ u = WLock -> mtx s = true ->
  (forall v, v <> x -> bell s v = false) -> (forall j t, nth_error (th s) j = Some t -> j <> w -> at_ t = Idle) -> ~ returned s' w.
Proof. intros R QT NS U W M B O (t & T & D). rewrite (stuck x h s s' w u R QT NS U W M B O) in T. injection T as <-. congruence. Qed.
(** A task that completes before the client waits: the client waits for ever, unless a doorbell rings for something
    else.  The doorbell was rung for whatever machine number was in memory (9), handled there, and that was it. *)
Theorem C57_completed_first_refuted : exists h s, run (init 9 [1; 2]) h = Some s /\ compl s = true /\
  forall h' s', quiet h' -> run s h' = Some s' -> ~ returned s' 0.
Proof.
  exists [BComplete 1; Step 1; Step 1; Serve 9; BWait 0; Step 0; Step 0; Step 0]. eexists. split; [vm_compute; reflexivity|]. split; [reflexivity|].
  intros h' s' QT R (t & T & D). 
  assert (G : forall h s s', run s h = Some s' -> quiet h -> (exists u, nth_error (th s) 0 = Some u /\ at_ u = WLock) -> mtx s = true -> (forall v, bell s v = false) ->
     (forall j t, nth_error (th s) j = Some t -> j <> 0 -> at_ t = Idle) -> s' = s).
  { clear. intros h. destruct h as [|a h]; intros s s' R QT (u & U & W) M B O; cbn [run] in R; [now injection R as <-|].
    destruct (step s a) as [s1|] eqn:E; [|discriminate]. assert (A := QT a (or_introl eq_refl)). destruct a as [i|i|i|v|v]; try contradiction; cbn [step] in E.
    - destruct (nth_error (th s) i) as [t|] eqn:T; [|discriminate]. unfold tstep in E. destruct i as [|i]; [rewrite U in T; injection T as <-; rewrite W, M in E; discriminate|].
      rewrite (O (S i) t T ltac:(lia)) in E. discriminate.
    - rewrite B in E. discriminate. }
  rewrite (G _ _ _ R QT) in T; cbn in *.
  - injection T as <-. discriminate.
  - eexists. split; reflexivity.
  - reflexivity.
  - intros v. do 10 (destruct v as [|v]; [reflexivity|]); reflexivity.
  - intros [|[|[|j]]] q J NE; cbn in J; try discriminate; [lia|]. injection J as <-. reflexivity.
Qed.
(** A task that completes after the client registered but before it stored its machine's number, memory naming a machine
    (9) that does not exist. *)
Theorem C57_before_number_refuted : exists h s, run (init 9 [1; 2]) h = Some s /\ compl s = true /\ out s = true /\
  forall h' s', quiet h' -> ~ In (Serve 9) h' -> run s h' = Some s' -> ~ returned s' 0.
Proof.
  exists [BWait 0; Step 0; Step 0; BComplete 1; Step 1; Step 1; Step 0]. eexists. split; [vm_compute; reflexivity|]. split; [reflexivity|]. split; [reflexivity|].
  intros h' s' QT NS R. refine (stuck' 9 h' _ s' 0 _ R QT NS _ _ _ _ _).
  - reflexivity.
  - reflexivity.
  - reflexivity.
  - intros v NE. do 10 (destruct v as [|v]; [reflexivity || congruence|]); reflexivity.
  - intros [|[|[|j]]] q J NE; cbn in J; try discriminate; [lia|]. injection J as <-. reflexivity.
Qed.
(** Two threads waiting for one task damage the list. *)
Theorem C57_two_waiters_refuted : exists h s, run (init 9 [1; 1]) h = Some s /\ bad s = true.
Proof. exists [BWait 0; Step 0; Step 0; BWait 1; Step 1; Step 1]. eexists. split; [vm_compute; reflexivity|reflexivity]. Qed.
(** Locking a new condition, with nobody else using it, waits for ever. *)
Theorem C57_first_lock_refuted : exists h s, run (cond_init 9 [1]) h = Some s /\ h = [BWait 0; Step 0; Step 0; Step 0] /\
  forall h' s', quiet h' -> ~ In (Serve 9) h' -> run s h' = Some s' -> ~ returned s' 0.
Proof.
  exists [BWait 0; Step 0; Step 0; Step 0]. eexists. split; [vm_compute; reflexivity|split; [reflexivity|]].
  intros h' s' QT NS R. refine (stuck' 9 h' _ s' 0 _ R QT NS _ _ _ _ _).
  - reflexivity.
  - reflexivity.
  - reflexivity.
  - intros v NE. do 10 (destruct v as [|v]; [reflexivity || congruence|]); reflexivity.
  - intros [|[|j]] q J NE; cbn in J; try discriminate. lia.
Qed.
(** Two threads hold a condition's lock at the same time: nobody called unlock (which is complete). *)
Theorem C57_two_holders_refuted : exists h s, run (cond_init 9 [1; 1]) h = Some s /\ (forall i, ~ In (BComplete i) h) /\ returned s 0 /\ returned s 1.
Proof.
  exists [BWait 0; Step 0; Step 0; Step 0; Ring 1; Serve 1; Step 0; BWait 1; Step 1; Step 1; Step 1; Ring 1; Serve 1; Step 1]. eexists. split; [vm_compute; reflexivity|].
  split; [intros i H; cbn in H; repeat (destruct H as [H|H]; [discriminate|]); exact H|]. split; eexists; split; reflexivity.
Qed.

(** ** Semaphores *)
(** async_semaphore_dec up to where it has to wait, async.c:181-191: [DLoad] first load, [DCas v] the loop with [val = v],
    [DRet] returned, [DWait] has to wait. *)
Inductive dpc := DLoad | DCas (v : nat) | DRet | DWait.
(** async.c:183-191: the compare-and-swap expects val - 1 and stores val *)
Definition dstep (value : nat) (p : dpc) : nat * dpc :=
  match p with
  | DLoad => (value, DCas value)
  | DCas 0 => (value, DWait)
  | DCas (S k) => if value =? k then (S k, DRet) else (value, DCas value)
  | _ => (value, p)
  end.
(** [n] steps of a thread that is alone, no code of its own *)
Fixpoint dalone (n : nat) (x : nat * dpc) : nat * dpc := match n with O => x | S n => dalone n (dstep (fst x) (snd x)) end.
(** Decrementing a semaphore that is positive never returns if nobody else touches it. *)
Theorem C57_dec_spins_refuted n value : 0 < value -> dalone n (value, DLoad) = (value, DLoad) \/ dalone n (value, DLoad) = (value, DCas value).
Proof.
  intros V. destruct n as [|n]; [now left|right]. cbn [dalone fst snd dstep]. induction n as [|n IH]; [reflexivity|].
  cbn [dalone fst snd]. replace (dstep value (DCas value)) with (value, DCas value); [exact IH|]. destruct value as [|k]; [lia|]. cbn [dstep].
  destruct (S k =? k) eqn:E; [apply Nat.eqb_eq in E; lia|reflexivity].
Qed.
(** If it does return, because somebody else changed the semaphore, it has incremented it. *)
Theorem C57_dec_increments_refuted value p value' : p <> DRet -> dstep value p = (value', DRet) -> value' = S value.
Proof. destruct p as [|[|k]| |]; cbn; intros N E; try congruence. destruct (value =? k) eqn:H; [|discriminate]. apply Nat.eqb_eq in H. congruence. Qed.
Example C57_dec_example : dalone 1000 (3, DLoad) = (3, DCas 3) /\ dstep 2 (DCas 3) = (3, DRet).
Proof. split; vm_compute; reflexivity. Qed.
