(** Starting and stopping the controller: property C54.

    Code modelled
    - [controller/src/Core/arax_controller.cpp:36-42]    signal_callback_handler
    - [controller/src/Core/arax_controller.cpp:67-116]   deRegisterAccel, spawnThreads, deleteThreads (order of their calls)
    - [controller/src/Core/arax_controller.cpp:121-237]  main: attach, spawn, announce, wait for the signal, stop, detach
    - [controller/src/Core/accelThread.cpp:47-70]        constructor and start
    - [controller/src/Core/accelThread.cpp:124-144]      setJobPreference, enable, disable, terminate
    - [controller/src/Core/accelThread.cpp:293-474]      workFunc: the life of a worker
    - [src/core/arax_accel.c:26-44, 107-189]             waiting for work, adding work, taking a virtual accelerator away
    - [src/core/arax_ptr.c:4-18]                         arax_ptr_valid, called once per loop of a worker
    - [src/arch/shm/impl.c:44, 161]                      the process's thread count

    One controller with any number of physical accelerators.  The code between locking and unlocking an accelerator is
    one step, and so is choosing a task and executing one (handlers that never return are out of scope); what clients
    and the balancer do to an accelerator is part of the schedule: work arrives, virtual accelerators are taken away.
    Library loading is left out. *)
From Verif Require Import Base Sums.
Local Open Scope nat_scope.
Arguments Nat.eqb : simpl never.
Arguments Nat.ltb : simpl never.
Arguments Nat.leb : simpl never.
Arguments Nat.sub : simpl never.
Arguments Nat.add : simpl never.
Arguments Nat.mul : simpl never.

(** Where a worker is in workFunc: not started; accelThread.cpp:308-336; 363; 368; 369; 479 (and asleep there);
    373-375; executing; 455-473; returned. *)
Inductive wpc := WNone | WInit | WTop | WPref | WLock | WWait | WAsleep | WSel | WRun | WRel | WEnd.

(** One accelerator.  [mtx]: enable_mtx is locked; [tasks]: arax_accel_s.tasks; [q]: tasks queued on its virtual
    accelerators; [ready]: readyToServe; [released]: arax_accel_release was called. *)
Record wk := mkwk { stop : bool; nojob : bool; mtx : bool; tasks : nat; q : nat; wp : wpc; ready : bool; released : bool }.

(** Where main is: arax_controller.cpp:82-90 and 92-96 for accelerator [i]; 186-192; 194; 109 ([k] of terminate's four
    steps, accelThread.cpp:140, 142, 126, 130); 112; 64; 235; returned. *)
Inductive cpc := CSpawn (i : nat) | CReady (i : nat) | CTell | CServe | CTerm (i k : nat) | CJoin (i : nat) | CDereg (i : nat) | CExit | CEnd.

(** How the process ends up: still running or ended as it should; aborted; touched a released accelerator. *)
Inductive fate := Fine | Aborted | Touched.

(** [sig]: shouldExit has its value; [told]: cntrl_ready; [threads]: arax_state.threads; [att]: attached to the segment. *)
Record st := mkst { ws : list wk; ctl : cpc; sig : bool; told : bool; threads : nat; att : bool; end_ : fate }.

(** accelThread.cpp:47-60: the constructor locks enable_mtx; the flags: is the accelerator configured with NoJob.
    arax_controller_init_start counted this process's main thread. *)
Definition start (cfg : list bool) : st :=
  mkst (map (fun b => mkwk false b true 0 0 WNone false false) cfg) (CSpawn 0) false false 1 true Fine.

(** [AWork i ok]: the worker of accelerator [i]; [ok] is what acceleratorInit returns.  [AAdd i k]: [k] tasks appear on
    accelerator [i] (a client issued one, or the balancer assigned a virtual accelerator with [k]).  [ADel i k]: a virtual
    accelerator with [k] tasks is taken away.  [ASig]: SIGINT. *)
Inductive act := ACtl | AWork (i : nat) (ok : bool) | AAdd (i k : nat) | ADel (i k : nat) | ASig.

(** One accelerator changes; no code of its own. *)
Definition setw (s : st) (i : nat) (w : wk) : st := mkst (upd (ws s) i w) (ctl s) (sig s) (told s) (threads s) (att s) (end_ s).
(** A worker moves; no code of its own. *)
Definition go (w : wk) (c : wpc) : wk := mkwk (stop w) (nojob w) (mtx w) (tasks w) (q w) c (ready w) (released w).
(** arax_accel.c:26-44, 127-130: [k] more tasks to wait for, wake the worker *)
Definition add (w : wk) (k kq : nat) : wk :=
  mkwk (stop w) (nojob w) (mtx w) (tasks w + k) (q w + kq) (match wp w with WAsleep => WWait | c => c end) (ready w) (released w).

(** accelThread.cpp:293-474 *)
Definition wstep (s : st) (i : nat) (w : wk) (ok : bool) : st :=
  match wp w with
  | WNone | WEnd | WAsleep => s
  | WInit => if ok then setw s i (mkwk (stop w) (nojob w) (mtx w) (tasks w) (q w) WTop true (released w)) else setw s i (go w WEnd)
  | WTop => setw s i (go w (if stop w then WRel else WPref))
  | WPref => setw s i (go w (if nojob w then WLock else WWait))
  | WLock => if mtx w then s else setw s i (mkwk (stop w) (nojob w) true (tasks w) (q w) WWait (ready w) (released w))
  | WWait => if tasks w =? 0 then setw s i (go w WAsleep)
             else setw s i (mkwk (stop w) (nojob w) (mtx w) (tasks w - 1) (q w) WSel (ready w) (released w))
  (* arax_ptr_valid calls arax_init: waits for the announcement, counts a thread *)
  | WSel => if told s then
              mkst (upd (ws s) i (mkwk (stop w) (nojob w) (mtx w) (tasks w) (q w - 1) (if q w =? 0 then WTop else WRun) (ready w) (released w)))
                   (ctl s) (sig s) (told s) (S (threads s)) (att s) (end_ s)
            else s
  | WRun => setw s i (go w WTop)
  | WRel => setw s i (go w WEnd)
  end.

(** arax_controller.cpp:121-237; main moves on, to [c] *)
Definition to (s : st) (c : cpc) : st := mkst (ws s) c (sig s) (told s) (threads s) (att s) (end_ s).
(** and changes accelerator [i] *)
Definition toi (s : st) (c : cpc) (i : nat) (f : wk -> wk) : st :=
  match nth_error (ws s) i with
  | None => to s c
  | Some w => mkst (upd (ws s) i (f w)) c (sig s) (told s) (threads s) (att s) (end_ s)
  end.
(** accelThread.cpp:138-144 *)
Definition term (k : nat) (w : wk) : wk :=
  match k with
  | 0 => mkwk true (nojob w) (mtx w) (tasks w) (q w) (wp w) (ready w) (released w)
  | 1 => add w 1 0
  | 2 => mkwk (stop w) false (mtx w) (tasks w) (q w) (wp w) (ready w) (released w)
  | _ => mkwk (stop w) (nojob w) false (tasks w) (q w) (wp w) (ready w) (released w)
  end.
Definition cstep (s : st) : st :=
  let n := length (ws s) in
  match ctl s with
  | CSpawn i => if i <? n then toi s (CReady i) i (fun w => go w WInit) else to s CTell
  | CReady i => match nth_error (ws s) i with
                | Some w => if ready w then to s (CSpawn (S i)) else s
                | None => to s (CSpawn (S i))
                end
  | CTell => mkst (ws s) CServe (sig s) true (threads s) (att s) (end_ s)
  | CServe => if sig s then to s (CTerm 0 0) else s
  | CTerm i k => if i <? n then toi s (match k with 0 => CTerm i 1 | 1 => CTerm i 2 | 2 => CTerm i 3 | _ => CTerm (S i) 0 end) i (term k)
                 else to s (CJoin 0)
  | CJoin i => match nth_error (ws s) i with
               | Some w => match wp w with WEnd => to s (CJoin (S i)) | _ => s end
               | None => to s (CDereg 0)
               end
  | CDereg i => if i <? n
                then toi s (CDereg (S i)) i (fun w => mkwk (stop w) (nojob w) (mtx w) (tasks w) (q w) (wp w) (ready w) true)
                else to s CExit
  (* impl.c:161 *)
  | CExit => mkst (ws s) CEnd (sig s) (told s) (threads s - 1) (negb (threads s =? 1)) (end_ s)
  | CEnd => s
  end.

(** One step of anything. *)
Definition step (s : st) (a : act) : st :=
  match end_ s with
  | Aborted | Touched => s
  | Fine =>
    match a with
    | ACtl => cstep s
    | AWork i ok => match nth_error (ws s) i with Some w => wstep s i w ok | None => s end
    | AAdd i k => match nth_error (ws s) i with
                  | Some w => if released w then mkst (ws s) (ctl s) (sig s) (told s) (threads s) (att s) Touched
                              else if ready w then setw s i (add w k k) else s
                  | None => s
                  end
    (* arax_accel.c:158-179 *)
    | ADel i k => match nth_error (ws s) i with
                  | Some w => if released w then mkst (ws s) (ctl s) (sig s) (told s) (threads s) (att s) Touched
                              else if (k <=? q w) && negb (k =? 0)
                              then setw s i (mkwk (stop w) (nojob w) (mtx w) (tasks w - (k - 1)) (q w - k)
                                               (match wp w with WAsleep => WWait | c => c end) (ready w) (released w))
                              else s
                  | None => s
                  end
    (* arax_controller.cpp:36-42: set_value a second time throws, nothing catches it *)
    | ASig => if sig s then match ctl s with CEnd => s | _ => mkst (ws s) (ctl s) (sig s) (told s) (threads s) (att s) Aborted end
              else mkst (ws s) (ctl s) true (told s) (threads s) (att s) (end_ s)
    end
  end.
(** Any interleaving, no code of its own. *)
Definition run (s : st) (l : list act) : st := fold_left step l s.

(** ** Specification *)

(** Every accelerator's acceleratorInit succeeds. *)
Definition devices_work (l : list act) : Prop := forall i ok, In (AWork i ok) l -> ok = true.
(** In this stretch of the schedule main and each of the [n] workers get at least one step. *)
Definition fair_round (n : nat) (r : list act) : Prop := In ACtl r /\ forall i, i < n -> exists ok, In (AWork i ok) r.
(** The controller returned from main, with every worker joined and every accelerator released. *)
Definition stopped (s : st) : Prop := ctl s = CEnd /\ forall w, In w (ws s) -> wp w = WEnd /\ released w = true.

(** ** Proofs *)

(** How far main is with accelerator [i]: its steps of terminate; spawned; seen ready; joined; released. *)
Definition pt (c : cpc) (i : nat) : nat :=
  match c with
  | CSpawn _ | CReady _ | CTell | CServe => 0
  | CTerm j k => if i <? j then 4 else if i =? j then k else 0
  | _ => 4
  end.
Definition sp (c : cpc) (i : nat) : bool := match c with CSpawn j => i <? j | CReady j => i <=? j | _ => true end.
Definition rd (c : cpc) (i : nat) : bool := match c with CSpawn j => i <? j | CReady j => i <? j | _ => true end.
Definition jn (c : cpc) (i : nat) : bool := match c with CJoin j => i <? j | CDereg _ | CExit | CEnd => true | _ => false end.
Definition dr (c : cpc) (i : nat) : bool := match c with CDereg j => i <? j | CExit | CEnd => true | _ => false end.
Definition late (c : cpc) : bool := match c with CSpawn _ | CReady _ | CTell => false | _ => true end.
Definition sel (c : wpc) : nat := match c with WSel => 1 | _ => 0 end.
Definition before (c : wpc) : bool := match c with WPref | WLock | WWait | WAsleep => true | _ => false end.

Record okw (p : nat) (s r j d : bool) (w : wk) : Prop := mkok {
  o1 : s = false <-> wp w = WNone;
  o2 : r = true -> ready w = true;
  o3 : ready w = false <-> (wp w = WNone \/ wp w = WInit);
  o4 : stop w = true <-> 1 <= p;
  o5 : wp w = WRel \/ wp w = WEnd -> stop w = true;
  o6 : q w <= tasks w + sel (wp w);
  o7 : wp w = WAsleep -> tasks w = 0;
  o8 : 2 <= p -> before (wp w) = true -> q w < tasks w;
  o9 : 3 <= p -> nojob w = false;
  o10 : 4 <= p -> wp w = WLock -> mtx w = false;
  o11 : j = true -> wp w = WEnd;
  o12 : released w = d }.

Definition cok (c : cpc) (n : nat) : Prop :=
  match c with CReady i => i < n | CTerm _ k => k <= 3 | _ => True end.
Definition okc (c : cpc) (i : nat) (w : wk) : Prop := okw (pt c i) (sp c i) (rd c i) (jn c i) (dr c i) w.
Record inv (s : st) : Prop := mkinv {
  i1 : forall i w, nth_error (ws s) i = Some w -> okc (ctl s) i w;
  i2 : cok (ctl s) (length (ws s));
  i3 : late (ctl s) = true -> told s = true }.

Lemma start_inv cfg : inv (start cfg).
Proof.
  constructor; cbn [start ws ctl]; [|exact Logic.I|discriminate].
  intros i w N. rewrite nth_error_map in N. destruct (nth_error cfg i); [|discriminate]. injection N as <-.
  constructor; cbn; try (intuition congruence); try lia; try (intuition lia).
Qed.

Lemma setw_inv s i w' : inv s -> okc (ctl s) i w' -> inv (setw s i w').
Proof.
  intros [A B C] O. constructor; cbn; [|now rewrite upd_length|assumption].
  intros j w N. apply nth_upd_cases in N. destruct N as [(-> & -> & _)|(N & E)]; auto.
Qed.

Definition same (c c' : cpc) (i : nat) : Prop :=
  pt c i = pt c' i /\ sp c i = sp c' i /\ rd c i = rd c' i /\ jn c i = jn c' i /\ dr c i = dr c' i.
Lemma okc_same c c' i w : same c c' i -> okc c i w -> okc c' i w.
Proof. unfold okc. intros (-> & -> & -> & -> & ->). auto. Qed.

Lemma ctl_inv s s' : inv s -> ws s' = ws s -> cok (ctl s') (length (ws s)) -> (late (ctl s') = true -> told s' = true) ->
  (forall i w, nth_error (ws s) i = Some w -> okc (ctl s) i w -> okc (ctl s') i w) -> inv s'.
Proof. intros [A B C] E K L O. constructor; rewrite ?E; auto. Qed.

Lemma toi_inv s c i f : inv s -> i < length (ws s) -> cok c (length (ws s)) -> (late c = true -> told s = true) ->
  (forall j, j <> i -> j < length (ws s) -> same (ctl s) c j) ->
  (forall w, nth_error (ws s) i = Some w -> okc (ctl s) i w -> okc c i (f w)) -> inv (toi s c i f).
Proof.
  intros [A B C] LT K L S O. unfold toi. destruct (nth_error (ws s) i) as [w|] eqn:E; [|apply nth_error_None in E; lia].
  constructor; cbn; [|now rewrite upd_length|assumption].
  intros j w' N. apply nth_upd_cases in N. destruct N as [(-> & -> & _)|(NE & N)]; [apply O; auto|].
  apply (okc_same (ctl s)); [apply S; [auto|now apply nth_error_lt in N]|]. auto.
Qed.

Ltac cmp := repeat match goal with
  | |- context [?a <? ?b] => destruct (Nat.ltb_spec a b)
  | |- context [?a <=? ?b] => destruct (Nat.leb_spec a b)
  | |- context [?a =? ?b] => destruct (Nat.eqb_spec a b)
  | H : context [?a <? ?b] |- _ => destruct (Nat.ltb_spec a b)
  | H : context [?a <=? ?b] |- _ => destruct (Nat.leb_spec a b)
  | H : context [?a =? ?b] |- _ => destruct (Nat.eqb_spec a b)
  end.
Ltac viewt := unfold same, pt, sp, rd, jn, dr; cmp; repeat split; auto; try lia.

Lemma cstep_inv s : inv s -> inv (cstep s).
Proof.
  intros I. pose proof I as [A B C]. unfold cstep. destruct (ctl s) as [i|i| | |i k|i|i| |] eqn:EC.
  - destruct (i <? length (ws s)) eqn:LT.
    + apply Nat.ltb_lt in LT. apply toi_inv; [assumption|assumption|exact LT|discriminate| |].
      * intros j NE LJ. rewrite EC. viewt.
      * intros w N O. rewrite EC in O. unfold okc in *. cbn [pt sp rd jn dr] in *. destruct O as [O1 O2 O3 O4 O5 O6 O7 O8 O9 O10 O11 O12].
        rewrite Nat.ltb_irrefl in *. rewrite Nat.leb_refl.
        assert (W : wp w = WNone) by (apply O1; reflexivity). rewrite W in *.
        constructor; cbn [go wp ready stop q tasks nojob mtx released sel before]; intuition (try congruence); try lia.
    + apply Nat.ltb_ge in LT. apply (ctl_inv s); [assumption|reflexivity|exact Logic.I|discriminate|].
      intros j w N O. apply (okc_same (ctl s)); [|assumption]. apply nth_error_lt in N. rewrite EC. viewt.
  - destruct (nth_error (ws s) i) as [w0|] eqn:E; [|apply nth_error_None in E; cbn in B; lia].
    destruct (ready w0) eqn:R; [|assumption].
    apply (ctl_inv s); [assumption|reflexivity|exact Logic.I|discriminate|]. intros j w N O. rewrite EC in O. unfold okc in *. cbn [pt sp rd jn dr] in *.
    replace (j <? S i) with (j <=? i) by (cmp; auto; lia).
    destruct O as [O1 O2 O3 O4 O5 O6 O7 O8 O9 O10 O11 O12]. constructor; auto.
    intros H. apply Nat.leb_le in H. destruct (Nat.eq_dec j i) as [->|NE]; [congruence|]. apply O2. apply Nat.ltb_lt. lia.
  - apply (ctl_inv s); [assumption|reflexivity|exact Logic.I|cbn; auto|cbn [ctl to]]. intros j w N O. now rewrite EC in O.
  - destruct (sig s); [|assumption]. apply (ctl_inv s); [assumption|reflexivity|cbn; lia|cbn; auto|cbn [ctl to]]. intros j w N O. rewrite EC in O.
    apply (okc_same CServe); [|assumption]. viewt.
  - destruct (i <? length (ws s)) eqn:LT.
    + apply Nat.ltb_lt in LT. cbn [cok late] in *. assert (T : told s = true) by auto. clear C.
      apply toi_inv; [assumption|assumption| |auto| |].
      * destruct k as [|[|[|k]]]; cbn; lia.
      * intros j NE LJ. rewrite EC. destruct k as [|[|[|k]]]; viewt.
      * intros w N O. rewrite EC in O. unfold okc in *.
        assert (P : pt (CTerm i k) i = k) by (cbn; rewrite Nat.ltb_irrefl, Nat.eqb_refl; reflexivity). rewrite P in O.
        destruct k as [|[|[|[|k]]]]; [| | | |lia];
          [replace (pt _ i) with 1 by viewt|replace (pt _ i) with 2 by viewt|replace (pt _ i) with 3 by viewt|replace (pt _ i) with 4 by viewt];
          cbn [sp rd jn dr] in *; destruct O as [O1 O2 O3 O4 O5 O6 O7 O8 O9 O10 O11 O12];
          constructor; cbn [term add wp ready stop q tasks nojob mtx released] in *; auto;
          try (destruct (wp w) eqn:W; cbn [sel before] in *; intuition (try congruence); try lia; fail).
    + apply Nat.ltb_ge in LT. apply (ctl_inv s); [assumption|reflexivity|exact Logic.I|cbn; auto|cbn [ctl to]].
      intros j w N O. apply nth_error_lt in N. rewrite EC in O. apply (okc_same (CTerm i k)); [|assumption]. viewt.
  - destruct (nth_error (ws s) i) as [w0|] eqn:E.
    + destruct (wp w0) eqn:W; try assumption. apply (ctl_inv s); [assumption|reflexivity|exact Logic.I|cbn; auto|cbn [ctl to]].
      intros j w N O. rewrite EC in O. unfold okc in *. cbn [pt sp rd jn dr] in *.
      destruct O as [O1 O2 O3 O4 O5 O6 O7 O8 O9 O10 O11 O12]. constructor; auto.
      intros H. apply Nat.ltb_lt in H. destruct (Nat.eq_dec j i) as [->|NE]; [congruence|]. apply O11. apply Nat.ltb_lt. lia.
    + apply nth_error_None in E. apply (ctl_inv s); [assumption|reflexivity|exact Logic.I|cbn; auto|cbn [ctl to]].
      intros j w N O. apply nth_error_lt in N. rewrite EC in O. apply (okc_same (CJoin i)); [|assumption]. viewt.
  - destruct (i <? length (ws s)) eqn:LT.
    + apply Nat.ltb_lt in LT. apply toi_inv; [assumption|assumption|exact Logic.I|exact C| |].
      * intros j NE LJ. rewrite EC. viewt.
      * intros w N O. rewrite EC in O. unfold okc in *. cbn [pt sp rd jn dr] in *.
        replace (i <? S i) with true by (cmp; auto; lia).
        destruct O as [O1 O2 O3 O4 O5 O6 O7 O8 O9 O10 O11 O12]. constructor; cbn [wp ready stop q tasks nojob mtx released]; auto.
    + apply Nat.ltb_ge in LT. apply (ctl_inv s); [assumption|reflexivity|exact Logic.I|cbn; auto|cbn [ctl to]].
      intros j w N O. apply nth_error_lt in N. rewrite EC in O. apply (okc_same (CDereg i)); [|assumption]. viewt.
  - apply (ctl_inv s); [assumption|reflexivity|exact Logic.I|cbn; auto|cbn [ctl to]]. intros j w N O. now rewrite EC in O.
  - assumption.
Qed.

Lemma wstep_inv s i w : inv s -> nth_error (ws s) i = Some w -> inv (wstep s i w true).
Proof.
  intros I E. pose proof (i1 s I i w E) as O. unfold okc in O. unfold wstep.
  assert (SW : forall w', okc (ctl s) i w' -> inv (setw s i w')) by (intros; now apply setw_inv).
  destruct (wp w) eqn:W; auto;
    repeat match goal with |- inv (if ?b then _ else _) => destruct b eqn:? end; auto.
  all: try (apply SW; unfold okc; destruct O as [O1 O2 O3 O4 O5 O6 O7 O8 O9 O10 O11 O12]; rewrite W in *; cbn [sel before] in *;
    try match goal with
      | H : (_ =? _) = true |- _ => apply Nat.eqb_eq in H
      | H : (_ =? _) = false |- _ => apply Nat.eqb_neq in H
      end;
    first [constructor; cbn [go wp ready stop q tasks nojob mtx released sel before]; intuition (try congruence); try lia; fail
          |destruct (stop w) eqn:SE, (nojob w) eqn:NE;
           constructor; cbn [go wp ready stop q tasks nojob mtx released sel before]; intuition (try congruence); try lia; fail]).
  apply (setw_inv s i (mkwk (stop w) (nojob w) (mtx w) (tasks w) (q w - 1) (if q w =? 0 then WTop else WRun) (ready w) (released w))) in I.
  - destruct I as [A B C]. constructor; [exact A|exact B|cbn; auto].
  - unfold okc. destruct O as [O1 O2 O3 O4 O5 O6 O7 O8 O9 O10 O11 O12]; rewrite W in *; cbn [sel before] in *.
    destruct (Nat.eqb_spec (q w) 0); constructor; cbn [go wp ready stop q tasks nojob mtx released sel before]; intuition (try congruence); try lia.
Qed.

Lemma step_inv s a : inv s -> (forall i ok, a = AWork i ok -> ok = true) -> inv (step s a).
Proof.
  intros I DW. unfold step. destruct (end_ s); auto. destruct a as [|i ok|i k|i k|].
  - now apply cstep_inv.
  - rewrite (DW i ok eq_refl). destruct (nth_error (ws s) i) eqn:E; auto. now apply wstep_inv.
  - destruct (nth_error (ws s) i) as [w|] eqn:E; auto. destruct (released w) eqn:RL; [destruct I; constructor; auto|].
    destruct (ready w) eqn:R; auto. apply setw_inv; auto.
    pose proof (i1 s I i w E) as O. unfold okc in *. destruct O as [O1 O2 O3 O4 O5 O6 O7 O8 O9 O10 O11 O12].
    destruct (wp w) eqn:W; constructor; cbn [add wp ready stop q tasks nojob mtx released]; rewrite ?W; cbn [sel before] in *;
      first [assumption|discriminate|(clear O1 O2 O3 O4 O5 O9 O10 O11; try specialize (O7 eq_refl); lia)
            |(intros A B; specialize (O8 A B); clear O1 O2 O3 O4 O5 O9 O10 O11; lia)
            |(split; intros H; [apply O1 in H; discriminate|discriminate])
            |(split; intros H; [apply O3 in H; destruct H; discriminate|destruct H; discriminate])
            |(intros [H|H]; discriminate)|(intros H; specialize (O7 H); lia)|(intros H; specialize (O11 H); discriminate)|(intros ? ?; discriminate)|congruence].
  - destruct (nth_error (ws s) i) as [w|] eqn:E; auto. destruct (released w) eqn:RL; [destruct I; constructor; auto|].
    destruct ((k <=? q w) && negb (k =? 0)) eqn:G; auto. apply andb_prop in G. destruct G as [G1 G2].
    apply Nat.leb_le in G1. destruct (Nat.eqb_spec k 0); [discriminate|]. apply setw_inv; auto.
    pose proof (i1 s I i w E) as O. unfold okc in *. destruct O as [O1 O2 O3 O4 O5 O6 O7 O8 O9 O10 O11 O12].
    destruct (wp w) eqn:W; constructor; cbn [add wp ready stop q tasks nojob mtx released]; rewrite ?W; cbn [sel before] in *;
      first [assumption|discriminate|(clear O1 O2 O3 O4 O5 O9 O10 O11; try specialize (O7 eq_refl); lia)
            |(intros A B; specialize (O8 A B); clear O1 O2 O3 O4 O5 O9 O10 O11; lia)
            |(split; intros H; [apply O1 in H; discriminate|discriminate])
            |(split; intros H; [apply O3 in H; destruct H; discriminate|destruct H; discriminate])
            |(intros [H|H]; discriminate)|(intros H; specialize (O7 H); lia)|(intros H; specialize (O11 H); discriminate)|(intros ? ?; discriminate)|congruence].
  - destruct (sig s); [destruct (ctl s) eqn:EC; auto|]; destruct I; constructor; rewrite ?EC in *; auto.
Qed.

Lemma run_inv l : forall s, devices_work l -> inv s -> inv (run s l).
Proof.
  induction l as [|a l IH]; intros s DW I; cbn; [assumption|]. apply IH.
  - intros i ok H. apply (DW i ok). now right.
  - apply step_inv; [assumption|]. intros i ok ->. apply (DW i ok). now left.
Qed.

(** What is left to do: main's steps, and the steps of every worker until it returns. *)
Definition cleft (n : nat) (c : cpc) : nat :=
  match c with
  | CSpawn i => 2 * (n - i) + (6 * n + 7)
  | CReady i => 2 * (n - i) - 1 + (6 * n + 7)
  | CTell => 6 * n + 6
  | CServe => 6 * n + 5
  | CTerm i k => 4 * (n - i) - k + (2 * n + 4)
  | CJoin i => (n - i) + (n + 3)
  | CDereg i => (n - i) + 2
  | CExit => 1
  | CEnd => 0
  end.
Definition wleft (w : wk) : nat :=
  match wp w with
  | WNone => 10 | WInit => 9 | WEnd => 0 | WRel => 1
  | c => if stop w then match c with WTop => 2 | WRun => 3 | WSel => 4 | WWait | WAsleep => 5 | WLock => 6 | _ => 7 end else 8
  end.
Definition left (s : st) : nat := cleft (length (ws s)) (ctl s) + sumf wleft (ws s).

Lemma left_upd s s' i w w' : nth_error (ws s) i = Some w -> ws s' = upd (ws s) i w' ->
  left s' + wleft w + cleft (length (ws s)) (ctl s) = left s + wleft w' + cleft (length (ws s)) (ctl s').
Proof.
  intros E U. unfold left. rewrite U, upd_length. pose proof (sumf_upd wleft (ws s) i w' w E). lia.
Qed.

Lemma wleft_after w c : wp w <> WNone -> wp w <> WInit -> wleft (go w c) <= 8 \/ c = WNone \/ c = WInit.
Proof. intros _ _. unfold wleft, go. cbn. destruct c; auto; destruct (stop w); left; lia. Qed.

(** A worker that main is waiting for. *)
Definition awaited (s : st) (i : nat) : Prop :=
  exists w, nth_error (ws s) i = Some w /\ ((ctl s = CReady i /\ wp w = WInit) \/ (ctl s = CJoin i /\ wp w <> WEnd)).
(** Main can move. *)
Definition free (s : st) : Prop :=
  match ctl s with
  | CReady i => exists w, nth_error (ws s) i = Some w /\ ready w = true
  | CServe => sig s = true
  | CJoin i => forall w, nth_error (ws s) i = Some w -> wp w = WEnd
  | CEnd => False
  | _ => True
  end.

Lemma cstep_left s : inv s -> left (cstep s) <= left s /\ (free s -> left (cstep s) < left s).
Proof.
  intros I. pose proof I as [A B C]. unfold cstep, free.
  assert (TO : forall c, cleft (length (ws s)) c < cleft (length (ws s)) (ctl s) -> left (to s c) < left s)
    by (intros c H; unfold left, to; cbn; lia).
  assert (TI : forall c i f, i < length (ws s) -> cleft (length (ws s)) c < cleft (length (ws s)) (ctl s) ->
    (forall w, nth_error (ws s) i = Some w -> okc (ctl s) i w -> wleft (f w) <= wleft w) -> left (toi s c i f) < left s).
  { intros c i f LT H F. unfold toi. destruct (nth_error (ws s) i) as [w|] eqn:E; [|apply nth_error_None in E; lia].
    specialize (F w eq_refl (A i w E)).
    match goal with |- left ?s' < _ => pose proof (left_upd s s' i w (f w) E eq_refl) as L; cbn [ctl] in L end. lia. }
  assert (LE : forall s' (P : Prop), left s' < left s -> left s' <= left s /\ (P -> left s' < left s)) by (intros; split; intros; lia).
  destruct (ctl s) as [i|i| | |i k|i|i| |] eqn:EC.
  - destruct (Nat.ltb_spec i (length (ws s))) as [LT|GE].
    + apply LE. apply TI; [assumption|cbn; lia|]. intros w N O. unfold okc in O. cbn [sp] in O.
      assert (W : wp w = WNone) by (apply (o1 _ _ _ _ _ _ O); apply Nat.ltb_irrefl). unfold wleft. cbn. rewrite W. lia.
    + apply LE. apply TO. cbn. lia.
  - cbn [cok] in B. destruct (nth_error (ws s) i) as [w|] eqn:E; [|apply nth_error_None in E; lia].
    destruct (ready w) eqn:R; [apply LE; apply TO; cbn; lia|]. split; [lia|]. intros (w' & E' & R'). congruence.
  - apply LE. unfold left. cbn. rewrite EC. cbn. lia.
  - destruct (sig s); [apply LE; apply TO; cbn; lia|]. split; [lia|discriminate].
  - cbn [cok] in B. destruct (Nat.ltb_spec i (length (ws s))) as [LT|GE].
    + apply LE. apply TI; [assumption| |].
      * destruct k as [|[|[|[|k]]]]; cbn; lia.
      * intros w N O. unfold wleft. destruct k as [|[|[|k]]]; cbn [term add wp stop]; destruct (wp w), (stop w); lia.
    + apply LE. apply TO. cbn. lia.
  - destruct (nth_error (ws s) i) as [w|] eqn:E.
    + assert (LT : i < length (ws s)) by (now apply nth_error_lt in E).
      destruct (wp w) eqn:W; try (split; [lia|intros H; specialize (H w eq_refl); congruence]). apply LE. apply TO. cbn. lia.
    + apply LE. apply nth_error_None in E. apply TO. cbn. lia.
  - destruct (Nat.ltb_spec i (length (ws s))) as [LT|GE].
    + apply LE. apply TI; [assumption|cbn; lia|]. intros w N O. unfold wleft. cbn. lia.
    + apply LE. apply TO. cbn. lia.
  - apply LE. unfold left. cbn. rewrite EC. cbn. lia.
  - split; [lia|tauto].
Qed.

Lemma wstep_left s i w : inv s -> nth_error (ws s) i = Some w -> left (wstep s i w true) <= left s /\
  ((ctl s = CReady i /\ wp w = WInit) \/ (ctl s = CJoin i /\ wp w <> WEnd) -> left (wstep s i w true) < left s).
Proof.
  intros I E. pose proof I as [A B C]. pose proof (A i w E) as O. unfold okc in O.
  assert (P : forall s' w', ws s' = upd (ws s) i w' -> ctl s' = ctl s -> wleft w' < wleft w ->
    left s' <= left s /\ ((ctl s = CReady i /\ wp w = WInit) \/ (ctl s = CJoin i /\ wp w <> WEnd) -> left s' < left s)).
  { intros s' w' U EC LT. pose proof (left_upd s s' i w w' E U) as L. rewrite EC in L. split; intros; lia. }
  assert (Q : forall s' w', ws s' = upd (ws s) i w' -> ctl s' = ctl s -> wleft w' <= wleft w -> wp w <> WInit ->
    (ctl s = CJoin i -> wleft w' < wleft w) ->
    left s' <= left s /\ ((ctl s = CReady i /\ wp w = WInit) \/ (ctl s = CJoin i /\ wp w <> WEnd) -> left s' < left s)).
  { intros s' w' U EC LE NI J. pose proof (left_upd s s' i w w' E U) as L. rewrite EC in L. split; [lia|].
    intros [[_ H]|[H _]]; [congruence|]. specialize (J H). lia. }
  assert (ST : ctl s = CJoin i -> stop w = true) by (intros H; apply (o4 _ _ _ _ _ _ O); rewrite H; cbn; lia).
  assert (BF : ctl s = CJoin i -> before (wp w) = true -> q w < tasks w) by (intros H; apply (o8 _ _ _ _ _ _ O); rewrite H; cbn; lia).
  unfold wstep. destruct (wp w) eqn:W.
  - split; [lia|]. intros [[_ H]|[H _]]; [discriminate|]. exfalso.
    assert (X : sp (ctl s) i = false) by (now apply (o1 _ _ _ _ _ _ O)). rewrite H in X. discriminate X.
  - apply (P _ (mkwk (stop w) (nojob w) (mtx w) (tasks w) (q w) WTop true (released w))); [reflexivity|reflexivity|].
    unfold wleft. cbn. rewrite W. destruct (stop w); lia.
  - destruct (stop w) eqn:SE.
    + apply (P _ (go w WRel)); [reflexivity|reflexivity|]. unfold wleft. cbn. rewrite W, SE. lia.
    + apply (Q _ (go w WPref)); [reflexivity|reflexivity| |discriminate|intros H; specialize (ST H); discriminate].
      unfold wleft. cbn. rewrite W, SE. lia.
  - apply (Q _ (go w (if nojob w then WLock else WWait))); [reflexivity|reflexivity| |discriminate|];
      [|intros H; specialize (ST H)]; unfold wleft; cbn; rewrite W; destruct (nojob w), (stop w); try discriminate; lia.
  - destruct (mtx w) eqn:M.
    + split; [lia|]. intros [[_ H]|[H _]]; [discriminate|].
      assert (X : mtx w = false) by (apply (o10 _ _ _ _ _ _ O); [rewrite H; cbn; lia|assumption]). congruence.
    + apply (Q _ (mkwk (stop w) (nojob w) true (tasks w) (q w) WWait (ready w) (released w))); [reflexivity|reflexivity| |discriminate|];
      [|intros H; specialize (ST H)]; unfold wleft; cbn; rewrite W; destruct (stop w); try discriminate; lia.
  - destruct (Nat.eqb_spec (tasks w) 0) as [T|T].
    + apply (Q _ (go w WAsleep)); [reflexivity|reflexivity| |discriminate|].
      * unfold wleft; cbn; rewrite W; destruct (stop w); lia.
      * intros H. specialize (BF H eq_refl). lia.
    + apply (Q _ (mkwk (stop w) (nojob w) (mtx w) (tasks w - 1) (q w) WSel (ready w) (released w))); [reflexivity|reflexivity| |discriminate|];
      [|intros H; specialize (ST H)]; unfold wleft; cbn; rewrite W; destruct (stop w); try discriminate; lia.
  - split; [lia|]. intros [[_ H]|[H _]]; [discriminate|]. specialize (BF H eq_refl).
    pose proof (o7 _ _ _ _ _ _ O W). lia.
  - destruct (told s) eqn:T.
    + apply (Q _ (mkwk (stop w) (nojob w) (mtx w) (tasks w) (q w - 1) (if q w =? 0 then WTop else WRun) (ready w) (released w)));
        [reflexivity|reflexivity| |discriminate|]; [|intros H; specialize (ST H)];
        unfold wleft; cbn; rewrite W; destruct (stop w), (q w =? 0); try discriminate; lia.
    + split; [lia|]. intros [[_ H]|[H _]]; [discriminate|]. assert (X : false = true) by (apply C; rewrite H; reflexivity). discriminate X.
  - apply (Q _ (go w WTop)); [reflexivity|reflexivity| |discriminate|]; [|intros H; specialize (ST H)]; unfold wleft; cbn; rewrite W; destruct (stop w); try discriminate; lia.
  - apply (P _ (go w WEnd)); [reflexivity|reflexivity|]. unfold wleft. cbn. rewrite W. destruct (stop w); lia.
  - split; [lia|]. intros [[_ H]|[_ H]]; [discriminate|congruence].
Qed.

Lemma wleft_wake w t q' r rl : wleft (mkwk (stop w) (nojob w) (mtx w) t q' (match wp w with WAsleep => WWait | c => c end) r rl) = wleft w.
Proof. unfold wleft. cbn. destruct (wp w); reflexivity. Qed.

Lemma step_left s a : inv s -> (forall i ok, a = AWork i ok -> ok = true) -> left (step s a) <= left s.
Proof.
  intros I DW. unfold step. destruct (end_ s); try lia. destruct a as [|i ok|i k|i k|].
  - now apply cstep_left.
  - rewrite (DW i ok eq_refl). destruct (nth_error (ws s) i) eqn:E; try lia. now apply wstep_left.
  - destruct (nth_error (ws s) i) as [w|] eqn:E; try lia. destruct (released w); [unfold left; cbn; lia|].
    destruct (ready w); try lia. match goal with |- left (setw s i ?w') <= _ => pose proof (left_upd s (setw s i w') i w w' E eq_refl) as L end.
    unfold add in *. rewrite wleft_wake in L. cbn [ctl setw] in L. lia.
  - destruct (nth_error (ws s) i) as [w|] eqn:E; try lia. destruct (released w); [unfold left; cbn; lia|].
    destruct ((k <=? q w) && negb (k =? 0)); try lia.
    match goal with |- left (setw s i ?w') <= _ => pose proof (left_upd s (setw s i w') i w w' E eq_refl) as L end.
    rewrite wleft_wake in L. cbn [ctl setw] in L. lia.
  - unfold left. destruct (sig s); [destruct (ctl s) eqn:EC|]; cbn [ws ctl]; rewrite ?EC; cbn [cleft]; lia.
Qed.

(** What no step undoes. *)
Lemma step_fine s a : end_ (step s a) = Fine -> end_ s = Fine.
Proof. unfold step. destruct (end_ s) eqn:E; auto; intros H; congruence. Qed.
Lemma run_fine l : forall s, end_ (run s l) = Fine -> end_ s = Fine.
Proof. induction l as [|a l IH]; intros s H; cbn in H; [assumption|]. apply IH in H. now apply step_fine in H. Qed.

Definition grows (w w' : wk) : Prop := (ready w = true -> ready w' = true) /\ (wp w = WEnd -> wp w' = WEnd).
Definition woken (a b : wpc) : Prop := b = a \/ (a = WAsleep /\ b = WWait).
Lemma other_steps s a : a <> ACtl -> end_ (step s a) = Fine ->
  ctl (step s a) = ctl s /\ (sig s = true -> sig (step s a) = true) /\ length (ws (step s a)) = length (ws s) /\
  (forall i w, nth_error (ws s) i = Some w -> exists w', nth_error (ws (step s a)) i = Some w' /\ grows w w' /\
     ((forall ok, a <> AWork i ok) -> woken (wp w) (wp w'))).
Proof.
  intros NC F. pose proof (step_fine _ _ F) as F0. revert F. unfold step. rewrite F0.
  assert (SAME : forall i w, nth_error (ws s) i = Some w -> exists w', nth_error (ws s) i = Some w' /\ grows w w' /\
     ((forall ok, a <> AWork i ok) -> woken (wp w) (wp w'))).
  { intros i w E. exists w. split; [assumption|]. split; [split; auto|]. intros _. now left. }
  assert (SW : forall j v v', nth_error (ws s) j = Some v -> grows v v' ->
     ((forall ok, a <> AWork j ok) -> woken (wp v) (wp v')) ->
     forall i w, nth_error (ws s) i = Some w -> exists w', nth_error (upd (ws s) j v') i = Some w' /\ grows w w' /\
     ((forall ok, a <> AWork i ok) -> woken (wp w) (wp w'))).
  { intros j v v' EJ G P i w E. destruct (Nat.eq_dec i j) as [->|NE].
    - assert (v = w) by congruence. subst v. exists v'. split; [|auto]. apply nth_error_upd_eq. now apply nth_error_lt in E.
    - destruct (SAME i w E) as (w' & E' & R). exists w'. split; [|auto]. rewrite nth_error_upd_ne; auto. }
  destruct a as [|i ok|i k|i k|]; [congruence| | | |].
  - destruct (nth_error (ws s) i) as [v|] eqn:E; [|auto]. unfold wstep. intros _.
    destruct (wp v) eqn:W; auto;
      repeat match goal with |- context [if ?b then _ else _] => destruct b eqn:? end; auto;
      cbn [ctl sig ws setw]; (split; [reflexivity|split; [auto|split; [apply upd_length|]]]);
      (eapply SW; [exact E|split; cbn; congruence|intros H; exfalso; eapply H; reflexivity]).
  - destruct (nth_error (ws s) i) as [v|] eqn:E; [|auto]. destruct (released v); [discriminate|]. destruct (ready v); auto. intros _.
    cbn [ctl sig ws setw]. split; [reflexivity|split; [auto|split; [apply upd_length|]]].
    eapply SW; [exact E|split; cbn; [auto|intros ->; reflexivity]|]. intros _. cbn. unfold woken. destruct (wp v); auto.
  - destruct (nth_error (ws s) i) as [v|] eqn:E; [|auto]. destruct (released v); [discriminate|].
    destruct ((k <=? q v) && negb (k =? 0)); auto. intros _.
    cbn [ctl sig ws setw]. split; [reflexivity|split; [auto|split; [apply upd_length|]]].
    eapply SW; [exact E|split; cbn; [auto|intros ->; reflexivity]|]. intros _. cbn. unfold woken. destruct (wp v); auto.
  - destruct (sig s) eqn:SG; [destruct (ctl s) eqn:EC; cbn; try discriminate; rewrite ?EC, ?SG; auto|cbn; auto].
Qed.

Lemma free_stays s a : a <> ACtl -> end_ (step s a) = Fine -> free s -> free (step s a).
Proof.
  intros NC F FR. destruct (other_steps s a NC F) as (E1 & E2 & E3 & E4). unfold free in *. rewrite E1.
  destruct (ctl s) eqn:EC; auto.
  - destruct FR as (w & E & R). destruct (E4 i w E) as (w' & E' & G & _). exists w'. split; [assumption|]. now apply G.
  - intros w' E'. destruct (nth_error (ws s) i) as [w|] eqn:E.
    + destruct (E4 i w E) as (w2 & E2' & G & _). assert (w2 = w') by congruence. subst. apply G. now apply FR.
    + apply nth_error_None in E. apply nth_error_lt in E'. lia.
Qed.

Lemma awaited_stays s a i : inv s -> (forall ok, a <> AWork i ok) -> end_ (step s a) = Fine -> awaited s i -> awaited (step s a) i.
Proof.
  intros I NW F (w & E & H). destruct a as [|j ok|j k|j k|].
  - pose proof (step_fine _ _ F) as F0. unfold step. rewrite F0. assert (X : cstep s = s); [|rewrite X; exists w; auto].
    pose proof (i1 s I i w E) as O. unfold okc in O. unfold cstep. destruct H as [[HC HW]|[HC HW]]; rewrite HC, E.
    + assert (R : ready w = false) by (apply (o3 _ _ _ _ _ _ O); auto). now rewrite R.
    + destruct (wp w); congruence.
  - destruct (other_steps s (AWork j ok)) as (E1 & _ & _ & E4); [discriminate|assumption|].
    destruct (E4 i w E) as (w' & E' & G & P). exists w'. split; [assumption|]. rewrite E1. specialize (P NW).
    destruct H as [[HC HW]|[HC HW]]; [left|right]; (split; [assumption|]); destruct P as [P|[P1 P2]]; congruence.
  - destruct (other_steps s (AAdd j k)) as (E1 & _ & _ & E4); [discriminate|assumption|].
    destruct (E4 i w E) as (w' & E' & G & P). exists w'. split; [assumption|]. rewrite E1. specialize (P NW).
    destruct H as [[HC HW]|[HC HW]]; [left|right]; (split; [assumption|]); destruct P as [P|[P1 P2]]; congruence.
  - destruct (other_steps s (ADel j k)) as (E1 & _ & _ & E4); [discriminate|assumption|].
    destruct (E4 i w E) as (w' & E' & G & P). exists w'. split; [assumption|]. rewrite E1. specialize (P NW).
    destruct H as [[HC HW]|[HC HW]]; [left|right]; (split; [assumption|]); destruct P as [P|[P1 P2]]; congruence.
  - destruct (other_steps s ASig) as (E1 & _ & _ & E4); [discriminate|assumption|].
    destruct (E4 i w E) as (w' & E' & G & P). exists w'. split; [assumption|]. rewrite E1. specialize (P NW).
    destruct H as [[HC HW]|[HC HW]]; [left|right]; (split; [assumption|]); destruct P as [P|[P1 P2]]; congruence.
Qed.

Lemma dw_cons a l : devices_work (a :: l) -> (forall i ok, a = AWork i ok -> ok = true) /\ devices_work l.
Proof. intros H. split; intros i ok E; apply (H i ok); [now left|now right]. Qed.

Lemma run_left l : forall s, inv s -> devices_work l -> left (run s l) <= left s.
Proof.
  induction l as [|a l IH]; intros s I DW; cbn; [lia|]. apply dw_cons in DW. destruct DW as [D1 D2].
  pose proof (step_left s a I D1). pose proof (IH (step s a) (step_inv s a I D1) D2). unfold run in *. lia.
Qed.

Lemma free_round l : forall s, inv s -> devices_work l -> end_ (run s l) = Fine -> free s -> In ACtl l -> left (run s l) < left s.
Proof.
  induction l as [|a l IH]; intros s I DW F FR IN; [destruct IN|]. destruct IN as [->|IN]; cbn in F |- *.
  - apply dw_cons in DW. destruct DW as [D1 D2]. pose proof (step_fine _ _ (run_fine _ _ F)) as F0.
    pose proof (run_left l (step s ACtl) (step_inv s ACtl I D1) D2). unfold run in *.
    assert (left (step s ACtl) < left s) by (unfold step; rewrite F0; now apply cstep_left). lia.
  - apply dw_cons in DW. destruct DW as [D1 D2]. pose proof (run_fine _ _ F) as F1. pose proof (step_fine _ _ F1) as F0.
    pose proof (step_inv s a I D1) as I1. assert (a = ACtl \/ a <> ACtl) as [->|NE] by (destruct a; auto; right; discriminate).
    + pose proof (run_left l (step s ACtl) I1 D2). unfold run in *.
      assert (left (step s ACtl) < left s) by (unfold step; rewrite F0; now apply cstep_left). lia.
    + pose proof (IH (step s a) I1 D2 F (free_stays s a NE F1 FR) IN). pose proof (step_left s a I D1). unfold run in *. lia.
Qed.

Lemma awaited_round l i : forall s, inv s -> devices_work l -> end_ (run s l) = Fine -> awaited s i -> (exists ok, In (AWork i ok) l) ->
  left (run s l) < left s.
Proof.
  induction l as [|a l IH]; intros s I DW F AW (ok & IN); cbn in F |- *; [destruct IN|].
  apply dw_cons in DW. destruct DW as [D1 D2]. pose proof (run_fine _ _ F) as F1. pose proof (step_fine _ _ F1) as F0.
  pose proof (step_inv s a I D1) as I1.
  assert (NOW : forall ok', a = AWork i ok' -> fold_left step l (step s a) = run (step s a) l /\ left (step s a) < left s).
  { intros ok' ->. split; [reflexivity|]. destruct AW as (w & E & H). unfold step. rewrite F0, E, (D1 i ok' eq_refl). now apply wstep_left. }
  destruct IN as [->|IN].
  - destruct (NOW ok eq_refl) as [R L]. rewrite R. pose proof (run_left l _ I1 D2). lia.
  - assert ((exists ok', a = AWork i ok') \/ (forall ok', a <> AWork i ok')) as [(ok' & EA)|NE].
    { destruct a as [|j b|j b|j b|]; try (right; discriminate). destruct (Nat.eq_dec j i) as [->|NE]; [left; eauto|right; congruence]. }
    + destruct (NOW ok' EA) as [R L]. rewrite R. pose proof (run_left l _ I1 D2). lia.
    + pose proof (IH (step s a) I1 D2 F (awaited_stays s a i I NE F1 AW) (ex_intro _ ok IN)). pose proof (step_left s a I D1). unfold run in *. lia.
Qed.

Lemma somebody s : inv s -> (sig s = true \/ late (ctl s) = false) -> ctl s <> CEnd ->
  free s \/ exists i, i < length (ws s) /\ awaited s i.
Proof.
  intros I G NE. pose proof I as [A B C]. unfold free. destruct (ctl s) as [i|i| | |i k|i|i| |] eqn:EC; auto.
  - cbn [cok] in B. destruct (nth_error (ws s) i) as [w|] eqn:E; [|apply nth_error_None in E; lia].
    destruct (ready w) eqn:R; [left; exists w; auto|right]. exists i. split; [assumption|]. exists w. split; [assumption|]. left.
    split; [assumption|]. pose proof (A i w E) as O. unfold okc in O. cbn [sp] in O. rewrite Nat.leb_refl in O.
    pose proof (proj1 (o3 _ _ _ _ _ _ O) R) as [W|W]; [|assumption]. apply (o1 _ _ _ _ _ _ O) in W. discriminate.
  - left. destruct G; [assumption|discriminate].
  - destruct (nth_error (ws s) i) as [w|] eqn:E; [|left; discriminate].
    assert (wp w = WEnd \/ wp w <> WEnd) as [W|W] by (destruct (wp w); auto; right; discriminate).
    + left. intros w' H. assert (w' = w) by congruence. now subst.
    + right. exists i. split; [now apply nth_error_lt in E|]. exists w. auto.
Qed.

Ltac brk := repeat match goal with
  | |- context [if ?b then _ else _] => destruct b eqn:?
  | |- context [match nth_error ?m ?i with None => _ | Some _ => _ end] => destruct (nth_error m i)
  | |- context [match wp ?w with _ => _ end] => destruct (wp w)
  end.
Lemma ctl_other s a : a <> ACtl -> ctl (step s a) = ctl s /\ length (ws (step s a)) = length (ws s).
Proof.
  intros NE. unfold step, wstep, setw. destruct (end_ s); auto. destruct a; try congruence; brk; cbn; rewrite ?upd_length; auto.
  destruct (ctl s) eqn:EC; cbn; auto.
Qed.
Lemma ctl_main s : length (ws (cstep s)) = length (ws s) /\ sig (cstep s) = sig s /\
  (late (ctl s) = true -> late (ctl (cstep s)) = true) /\ (ctl s = CEnd -> ctl (cstep s) = CEnd).
Proof.
  unfold cstep, toi, to. destruct (ctl s) as [i|i| | |i k|i|i| |] eqn:EC; brk; cbn; rewrite ?upd_length, ?EC;
    (split; [reflexivity|split; [congruence|split; intros; try discriminate; auto]]);
    destruct k as [|[|[|k]]]; reflexivity.
Qed.
Lemma act_dec (a : act) : a = ACtl \/ a <> ACtl.
Proof. destruct a; auto; right; discriminate. Qed.
Lemma ctl_act s : step s ACtl = match end_ s with Fine => cstep s | _ => s end.
Proof. unfold step. destruct (end_ s); reflexivity. Qed.

Lemma sig_stays s a : end_ (step s a) = Fine -> sig s = true -> sig (step s a) = true.
Proof.
  intros F S. destruct (act_dec a) as [->|NE].
  - rewrite ctl_act. destruct (ctl_main s) as (_ & E & _). destruct (end_ s); congruence.
  - now apply (other_steps s a NE F).
Qed.
Lemma run_sig l : forall s, end_ (run s l) = Fine -> sig s = true -> sig (run s l) = true.
Proof. induction l as [|a l IH]; intros s F S; cbn in *; [assumption|]. apply IH; [assumption|]. apply sig_stays; [|assumption]. now apply run_fine in F. Qed.

Lemma late_stays s a : late (ctl s) = true -> late (ctl (step s a)) = true.
Proof.
  intros L. destruct (act_dec a) as [->|NE]; [|now rewrite (proj1 (ctl_other s a NE))].
  rewrite ctl_act. destruct (ctl_main s) as (_ & _ & E & _). destruct (end_ s); auto.
Qed.
Lemma run_late l : forall s, late (ctl s) = true -> late (ctl (run s l)) = true.
Proof. induction l as [|a l IH]; intros s L; cbn; [assumption|]. apply IH. now apply late_stays. Qed.

Lemma end_stays s a : ctl s = CEnd -> ctl (step s a) = CEnd.
Proof.
  intros L. destruct (act_dec a) as [->|NE]; [|now rewrite (proj1 (ctl_other s a NE))].
  rewrite ctl_act. destruct (ctl_main s) as (_ & _ & _ & E). destruct (end_ s); auto.
Qed.
Lemma run_end l : forall s, ctl s = CEnd -> ctl (run s l) = CEnd.
Proof. induction l as [|a l IH]; intros s L; cbn; [assumption|]. apply IH. now apply end_stays. Qed.

Lemma len_step s a : length (ws (step s a)) = length (ws s).
Proof.
  destruct (act_dec a) as [->|NE]; [|now rewrite (proj2 (ctl_other s a NE))].
  rewrite ctl_act. destruct (ctl_main s) as (E & _). destruct (end_ s); auto.
Qed.
Lemma len_run l : forall s, length (ws (run s l)) = length (ws s).
Proof. induction l as [|a l IH]; intros s; cbn; [reflexivity|]. etransitivity; [apply IH|apply len_step]. Qed.

Lemma one_round s r : inv s -> devices_work r -> end_ (run s r) = Fine -> fair_round (length (ws s)) r ->
  (sig s = true \/ late (ctl s) = false) -> ctl s <> CEnd -> left (run s r) < left s.
Proof.
  intros I DW F [FC FW] G NE. destruct (somebody s I G NE) as [FR|(i & LT & AW)].
  - now apply free_round.
  - apply (awaited_round r i); auto.
Qed.

Lemma dw_app a b : devices_work (a ++ b) -> devices_work a /\ devices_work b.
Proof. intros H. split; intros i ok E; apply (H i ok); apply in_or_app; auto. Qed.

Lemma rounds rs : forall s, inv s -> devices_work (concat rs) -> end_ (run s (concat rs)) = Fine -> Forall (fair_round (length (ws s))) rs ->
  sig s = true -> ctl (run s (concat rs)) = CEnd \/ left (run s (concat rs)) + length rs <= left s.
Proof.
  induction rs as [|r rs IH]; intros s I DW F FR G; cbn in *; [right; lia|].
  apply dw_app in DW. destruct DW as [D1 D2]. unfold run in *. rewrite fold_left_app in *. fold (run s r) in *. inversion FR as [|? ? FR1 FR2]; subst.
  pose proof (run_fine _ _ F) as F1. pose proof (run_inv r s D1 I) as I1.
  assert (ctl s = CEnd \/ ctl s <> CEnd) as [E|NE] by (destruct (ctl s); auto; right; discriminate).
  - left. apply (run_end (concat rs)). now apply run_end.
  - pose proof (one_round s r I D1 F1 FR1 (or_introl G) NE) as L.
    rewrite <- (len_run r s) in FR2. specialize (IH (run s r) I1 D2 F FR2 (run_sig r s F1 G)). destruct IH as [IH|IH]; [now left|right]. lia.
Qed.

Lemma rounds_start rs : forall s, inv s -> devices_work (concat rs) -> end_ (run s (concat rs)) = Fine -> Forall (fair_round (length (ws s))) rs ->
  late (ctl (run s (concat rs))) = true \/ left (run s (concat rs)) + length rs <= left s.
Proof.
  induction rs as [|r rs IH]; intros s I DW F FR; cbn in *; [right; lia|].
  apply dw_app in DW. destruct DW as [D1 D2]. unfold run in *. rewrite fold_left_app in *. fold (run s r) in *. inversion FR as [|? ? FR1 FR2]; subst.
  pose proof (run_fine _ _ F) as F1. pose proof (run_inv r s D1 I) as I1.
  destruct (late (ctl s)) eqn:L.
  - left. apply (run_late (concat rs)). now apply run_late.
  - assert (NE : ctl s <> CEnd) by (intros X; rewrite X in L; discriminate).
    pose proof (one_round s r I D1 F1 FR1 (or_intror L) NE) as LT.
    rewrite <- (len_run r s) in FR2. specialize (IH (run s r) I1 D2 F FR2). destruct IH as [IH|IH]; [now left|right]. lia.
Qed.

Lemma left_bound s : inv s -> left s <= 18 * length (ws s) + 7.
Proof.
  intros [A B C]. unfold left.
  assert (X : sumf wleft (ws s) <= 10 * length (ws s)).
  { generalize (ws s). induction l as [|w l IH]; cbn; [lia|]. unfold sumf in *. cbn. assert (wleft w <= 10) by (unfold wleft; destruct (wp w), (stop w); lia). lia. }
  assert (Y : cleft (length (ws s)) (ctl s) <= 8 * length (ws s) + 7) by (destruct (ctl s); cbn; lia). lia.
Qed.
Lemma left_zero s : left s = 0 -> ctl s = CEnd.
Proof. unfold left. destruct (ctl s); cbn [cleft]; intros; try lia; reflexivity. Qed.

(** ** C54 *)

(** Every accelerator that can be initialised: for every number of accelerators and every fair interleaving, the controller
    announces itself. *)
Theorem C54_serves_partial : forall cfg rs,
  devices_work (concat rs) -> Forall (fair_round (length cfg)) rs -> 18 * length cfg + 7 <= length rs ->
  end_ (run (start cfg) (concat rs)) = Fine -> told (run (start cfg) (concat rs)) = true.
Proof.
  intros cfg rs DW FR LE F. pose proof (start_inv cfg) as I.
  assert (N : length (ws (start cfg)) = length cfg) by (cbn; apply map_length).
  destruct (rounds_start rs (start cfg) I DW F) as [L|L]; [now rewrite N| |].
  - apply (i3 _ (run_inv _ _ DW I)). exact L.
  - pose proof (left_bound _ I) as B. rewrite N in B. assert (Z : left (run (start cfg) (concat rs)) = 0) by lia.
    apply left_zero in Z. apply (i3 _ (run_inv _ _ DW I)). rewrite Z. reflexivity.
Qed.

(** After SIGINT, wherever the workers and the starting or serving controller are, whatever clients and balancer do
    meanwhile to accelerators not yet released: in every fair interleaving every worker returns, every accelerator is
    released and main returns.  Partial: SIGINT only once, see below for a second one. *)
Theorem C54_stops_partial : forall cfg l rs,
  devices_work (l ++ concat rs) -> sig (run (start cfg) l) = true ->
  Forall (fair_round (length cfg)) rs -> 18 * length cfg + 7 <= length rs ->
  end_ (run (start cfg) (l ++ concat rs)) = Fine -> stopped (run (start cfg) (l ++ concat rs)).
Proof.
  intros cfg l rs DW SG FR LE F. pose proof (run_inv _ (start cfg) DW (start_inv cfg)) as IE. apply dw_app in DW. destruct DW as [D1 D2].
  pose proof (run_inv l (start cfg) D1 (start_inv cfg)) as I.
  assert (R : run (start cfg) (l ++ concat rs) = run (run (start cfg) l) (concat rs)) by (unfold run; apply fold_left_app).
  rewrite R in *. assert (N : length (ws (run (start cfg) l)) = length cfg) by (rewrite len_run; cbn; apply map_length).
  assert (E : ctl (run (run (start cfg) l) (concat rs)) = CEnd).
  { destruct (rounds rs _ I D2 F) as [E|L]; [now rewrite N|assumption|assumption|].
    pose proof (left_bound _ I) as B. rewrite N in B. apply left_zero. lia. }
  split; [assumption|]. intros w IN. apply In_nth_error in IN. destruct IN as [i IN].
  pose proof (i1 _ IE i w IN) as O. unfold okc in O. rewrite E in O. split; [apply (o11 _ _ _ _ _ _ O); reflexivity|apply (o12 _ _ _ _ _ _ O)].
Qed.

(** Only these two things end the controller otherwise. *)
Theorem C54_what_else : forall cfg l a, end_ (run (start cfg) l) = Fine -> end_ (run (start cfg) (l ++ [a])) <> Fine ->
  (a = ASig /\ sig (run (start cfg) l) = true) \/
  (exists i k w, (a = AAdd i k \/ a = ADel i k) /\ nth_error (ws (run (start cfg) l)) i = Some w /\ released w = true).
Proof.
  intros cfg l a F NF. unfold run in *. rewrite fold_left_app in NF. cbn in NF. fold (run (start cfg) l) in *.
  set (s := run (start cfg) l) in *. clearbody s. revert NF. unfold step. rewrite F. destruct a as [|i ok|i k|i k|].
  - unfold cstep, toi, to. destruct (ctl s); brk; cbn; congruence.
  - destruct (nth_error (ws s) i); [|congruence]. unfold wstep. brk; cbn; congruence.
  - destruct (nth_error (ws s) i) as [w|] eqn:E; [|congruence]. destruct (released w) eqn:R; [|brk; cbn; congruence].
    intros _. right. exists i, k, w. auto.
  - destruct (nth_error (ws s) i) as [w|] eqn:E; [|congruence]. destruct (released w) eqn:R; [|brk; cbn; congruence].
    intros _. right. exists i, k, w. auto.
  - destruct (sig s) eqn:SG; [auto|cbn; congruence].
Qed.

(** Two accelerators, one of them configured to run nothing; tasks arrive; SIGINT; one task had been executed. *)
Definition fair1 : list act := [AWork 0 true; AWork 1 true; ACtl].
Fixpoint times (n : nat) (l : list (list act)) : list (list act) := match n with 0 => [] | S n => l ++ times n l end.
Definition ex_l : list act := concat (times 20 [fair1]) ++ [AAdd 0 1; AWork 0 true; AWork 0 true; AWork 0 true; ASig].
Example C54_example :
  let rs := times 43 [fair1] in
  devices_work (ex_l ++ concat rs) /\ sig (run (start [false; true]) ex_l) = true /\
  Forall (fair_round 2) rs /\ 18 * 2 + 7 <= length rs /\
  map wp (ws (run (start [false; true]) ex_l)) = [WTop; WLock] /\
  end_ (run (start [false; true]) (ex_l ++ concat rs)) = Fine /\ ctl (run (start [false; true]) (ex_l ++ concat rs)) = CEnd.
Proof.
  split; [|split; [|split; [|split; [|split]]]]; try (vm_compute; reflexivity).
  - intros i ok H. vm_compute in H. repeat (destruct H as [H|H]; [try discriminate H; injection H; auto|]). destruct H.
  - apply Forall_forall. intros r H. assert (r = fair1) as ->.
    { vm_compute in H. repeat (destruct H as [H|H]; [symmetry; exact H|]). destruct H. }
    split; [cbn; auto|]. intros [|[|i]] LT; [exists true; cbn; auto|exists true; cbn; auto|lia].
  - split; vm_compute; reflexivity.
Qed.

(** ** What fails *)

(** If the first accelerator cannot be initialised, the controller neither announces itself nor gives up, nor does
    SIGINT stop it. *)
Theorem C54_failed_device_refuted : forall b cfg l,
  let s := run (start (b :: cfg)) ([ACtl; AWork 0 false] ++ l) in ctl s = CReady 0 /\ told s = false.
Proof.
  intros b cfg l. set (s0 := run (start (b :: cfg)) [ACtl; AWork 0 false]).
  assert (R : run (start (b :: cfg)) ([ACtl; AWork 0 false] ++ l) = run s0 l) by (unfold run; apply fold_left_app).
  rewrite R. clear R. cbv zeta.
  assert (H : forall l s w, ctl s = CReady 0 -> told s = false -> nth_error (ws s) 0 = Some w -> ready w = false -> wp w = WEnd ->
            ctl (run s l) = CReady 0 /\ told (run s l) = false).
  { clear. induction l as [|a l IH]; intros s w C T E R W; cbn; [auto|]. unfold run in IH.
    assert (KEEP : forall s' w', ctl s' = CReady 0 -> told s' = false -> nth_error (ws s') 0 = Some w' -> ready w' = false -> wp w' = WEnd ->
              ctl (fold_left step l s') = CReady 0 /\ told (fold_left step l s') = false) by (intros; eapply IH; eauto).
    assert (SW : forall j v v', nth_error (ws s) j = Some v -> ready v' = ready v -> (wp v = WEnd -> wp v' = WEnd) ->
              exists w', nth_error (upd (ws s) j v') 0 = Some w' /\ ready w' = false /\ wp w' = WEnd).
    { intros j v v' EJ RV WV. destruct (Nat.eq_dec j 0) as [->|NE].
      - assert (v = w) by congruence. subst. exists v'. split; [apply nth_error_upd_eq; now apply nth_error_lt in E|]. split; [congruence|auto].
      - exists w. rewrite nth_error_upd_ne by auto. auto. }
    unfold step. destruct (end_ s); [|eapply KEEP; eauto|eapply KEEP; eauto].
    destruct a as [|i ok|i k|i k|].
    - unfold cstep. rewrite C, E, R. eapply KEEP; eauto.
    - destruct (nth_error (ws s) i) as [v|] eqn:EI; [|eapply KEEP; eauto].
      destruct (Nat.eq_dec i 0) as [->|NE].
      + assert (v = w) by congruence. subst v. unfold wstep. rewrite W. eapply KEEP; eauto.
      + unfold wstep. destruct (wp v); brk; try (eapply KEEP; eauto; fail);
          (eapply KEEP; [exact C|exact T|cbn [ws setw]; rewrite nth_error_upd_ne by auto; exact E|exact R|exact W]).
    - destruct (nth_error (ws s) i) as [v|] eqn:EI; [|eapply KEEP; eauto]. destruct (released v); [eapply KEEP; eauto|].
      destruct (ready v) eqn:RV; [|eapply KEEP; eauto].
      destruct (SW i v (add v k k) EI) as (w' & E' & R' & W'); [reflexivity|cbn; intros ->; reflexivity|]. eapply KEEP; eauto.
    - destruct (nth_error (ws s) i) as [v|] eqn:EI; [|eapply KEEP; eauto]. destruct (released v) eqn:RL; [eapply KEEP; eauto|].
      destruct ((k <=? q v) && negb (k =? 0)); [|eapply KEEP; eauto].
      edestruct (SW i v) as (w' & E' & R' & W'); [exact EI| | |eapply KEEP; [exact C|exact T|exact E'|exact R'|exact W']]; [reflexivity|cbn; intros ->; reflexivity].
    - rewrite C. destruct (sig s); eapply KEEP; eauto. }
  eapply H; unfold s0; try reflexivity.
Qed.

(** A second SIGINT while the controller stops aborts it. *)
Theorem C54_second_interrupt_refuted : exists l,
  devices_work (l ++ [ASig]) /\ end_ (run (start [false]) l) = Fine /\ end_ (run (start [false]) (l ++ [ASig])) = Aborted.
Proof.
  exists [ACtl; AWork 0 true; ACtl; ACtl; ACtl; ASig; ACtl]. split; [|split; vm_compute; reflexivity].
  intros i ok H. cbn in H. intuition congruence.
Qed.

(** The balancer is never stopped: a virtual accelerator created while the controller stops is given to an accelerator
    that was released. *)
Theorem C54_released_used_refuted : exists l i k,
  devices_work (l ++ [AAdd i k]) /\ end_ (run (start [false]) l) = Fine /\ end_ (run (start [false]) (l ++ [AAdd i k])) = Touched.
Proof.
  exists (ASig :: concat (times 25 [fair1])), 0, 0. split; [|split; vm_compute; reflexivity].
  intros i ok H. vm_compute in H. repeat (destruct H as [H|H]; [try discriminate H; injection H; auto|]). destruct H.
Qed.

(** A task that was issued before SIGINT and is still queued is never executed, and nobody tells its client. *)
Theorem C54_pending_dropped_refuted : exists l w,
  devices_work l /\ end_ (run (start [false]) l) = Fine /\ ctl (run (start [false]) l) = CEnd /\
  ws (run (start [false]) l) = [w] /\ q w = 1.
Proof.
  eexists ([ACtl; AWork 0 true; ACtl; ACtl; ACtl; AAdd 0 2; ASig] ++ concat (times 25 [fair1])), _.
  split; [|split; [|split; [|split]]]; [|vm_compute; reflexivity|vm_compute; reflexivity|vm_compute; reflexivity|vm_compute; reflexivity].
  intros i ok H. vm_compute in H. repeat (destruct H as [H|H]; [try discriminate H; injection H; auto|]). destruct H.
Qed.

(** Whenever a worker has once waited for work, the controller is still attached to the segment after main returned: its
    entry in the process table and its share of the process count stay behind. *)
Definition waits (c : wpc) : bool := match c with WWait | WAsleep | WSel => true | _ => false end.
Definition held (i : nat) (s : st) : Prop :=
  match ctl s with
  | CEnd => att s = true
  | _ => 2 <= threads s \/ (1 <= threads s /\ exists w, nth_error (ws s) i = Some w /\ waits (wp w) = true)
  end.

Lemma held_step i s a : inv s -> held i s -> held i (step s a).
Proof.
  intros I H. unfold step. destruct (end_ s); auto.
  assert (KEEP : forall s', ctl s' = ctl s -> threads s <= threads s' -> att s' = att s ->
     (forall w, nth_error (ws s) i = Some w -> waits (wp w) = true -> (exists w', nth_error (ws s') i = Some w' /\ waits (wp w') = true) \/ threads s < threads s') -> held i s').
  { intros s' C T A W. unfold held in *. rewrite C. rewrite A.
    assert (G : 2 <= threads s \/ (1 <= threads s /\ exists w, nth_error (ws s) i = Some w /\ waits (wp w) = true) ->
                2 <= threads s' \/ (1 <= threads s' /\ exists w, nth_error (ws s') i = Some w /\ waits (wp w) = true)).
    { intros [G|(G & w & E & WW)]; [left; lia|]. destruct (W w E WW) as [(w' & E' & WW')|L]; [right; split; [lia|eauto]|left; lia]. }
    destruct (ctl s); auto. }
  assert (SW : forall j v v', nth_error (ws s) j = Some v -> (waits (wp v) = true -> waits (wp v') = true) ->
     forall w, nth_error (ws s) i = Some w -> waits (wp w) = true -> exists w', nth_error (upd (ws s) j v') i = Some w' /\ waits (wp w') = true).
  { intros j v v' EJ P w E WW. destruct (Nat.eq_dec j i) as [->|NE].
    - assert (v = w) by congruence. subst. exists v'. split; [apply nth_error_upd_eq; now apply nth_error_lt in E|auto].
    - exists w. rewrite nth_error_upd_ne by auto. auto. }
  destruct a as [|j ok|j k|j k|].
  - assert (MV : forall s', (ctl s' <> CEnd) -> ctl s <> CEnd -> threads s' = threads s ->
       (forall w, nth_error (ws s) i = Some w -> waits (wp w) = true -> exists w', nth_error (ws s') i = Some w' /\ waits (wp w') = true) -> held i s').
    { intros s' N1 N2 T W. assert (G : 2 <= threads s \/ (1 <= threads s /\ exists w, nth_error (ws s) i = Some w /\ waits (wp w) = true))
        by (unfold held in H; destruct (ctl s); auto; congruence).
      assert (G' : 2 <= threads s' \/ (1 <= threads s' /\ exists w, nth_error (ws s') i = Some w /\ waits (wp w) = true)).
      { destruct G as [G|(G & w & E & WW)]; [left; lia|]. right. split; [lia|]. eauto. }
      unfold held. destruct (ctl s'); auto; congruence. }
    assert (TO : forall c, c <> CEnd -> ctl s <> CEnd -> held i (to s c)) by (intros c N1 N2; apply MV; auto; intros w E WW; exists w; auto).
    assert (TI : forall c j f, c <> CEnd -> ctl s <> CEnd -> (forall w, nth_error (ws s) j = Some w -> waits (wp w) = true -> waits (wp (f w)) = true) -> held i (toi s c j f)).
    { intros c j f N1 N2 P. unfold toi. destruct (nth_error (ws s) j) as [v|] eqn:E; [|now apply TO].
      apply MV; auto. cbn [ws]. apply (SW j v); auto. }
    unfold cstep. destruct (ctl s) as [j|j| | |j k|j|j| |] eqn:EC.
    + destruct (j <? length (ws s)) eqn:LT; [|apply TO; discriminate]. apply TI; try discriminate.
      intros w E WW. exfalso. pose proof (i1 s I j w E) as O. unfold okc in O. rewrite EC in O. cbn [sp] in O. rewrite Nat.ltb_irrefl in O.
      rewrite (proj1 (o1 _ _ _ _ _ _ O) eq_refl) in WW. discriminate.
    + brk; try (apply TO; discriminate); auto.
    + apply MV; try (cbn; discriminate); auto. intros w E WW. exists w. auto.
    + brk; try (apply TO; discriminate); auto.
    + destruct (j <? length (ws s)); [|apply TO; discriminate]. apply TI; try discriminate; [destruct k as [|[|[|k]]]; discriminate|].
      intros w E WW. destruct k as [|[|[|k]]]; cbn; auto. destruct (wp w); auto.
    + brk; try (apply TO; discriminate); auto.
    + destruct (j <? length (ws s)); [|apply TO; discriminate]. apply TI; try discriminate. auto.
    + unfold held in *. rewrite EC in H. cbn. destruct (Nat.eqb_spec (threads s) 1) as [T|T]; [exfalso|reflexivity].
      destruct H as [H|(_ & w & E & WW)]; [lia|]. pose proof (i1 s I i w E) as O. unfold okc in O. rewrite EC in O.
      rewrite (o11 _ _ _ _ _ _ O eq_refl) in WW. discriminate.
    + assumption.
  - destruct (nth_error (ws s) j) as [v|] eqn:E; auto. unfold wstep. destruct (wp v) eqn:W; auto; brk; auto;
      try (apply KEEP; [reflexivity|cbn; lia|reflexivity|]; intros w EW WW; left; cbn [ws setw]; revert w EW WW; apply (SW j v); [assumption|rewrite W; cbn; auto; discriminate]; fail).
    all: apply KEEP; [reflexivity|cbn; lia|reflexivity|]; intros w EW WW; right; cbn; lia.
  - destruct (nth_error (ws s) j) as [v|] eqn:E; auto. destruct (released v);
      [apply KEEP; [reflexivity|cbn; lia|reflexivity|]; intros w EW WW; left; exists w; auto|]. destruct (ready v); auto.
    apply KEEP; [reflexivity|cbn; lia|reflexivity|]. intros w EW WW. left. revert w EW WW. cbn [ws setw].
    apply (SW j v); [assumption|]. cbn. destruct (wp v); auto.
  - destruct (nth_error (ws s) j) as [v|] eqn:E; auto. destruct (released v);
      [apply KEEP; [reflexivity|cbn; lia|reflexivity|]; intros w EW WW; left; exists w; auto|].
    destruct ((k <=? q v) && negb (k =? 0)); auto.
    apply KEEP; [reflexivity|cbn; lia|reflexivity|]. intros w EW WW. left. revert w EW WW. cbn [ws setw].
    apply (SW j v); [assumption|]. cbn. destruct (wp v); auto.
  - destruct (sig s) eqn:SG; [|apply KEEP; [reflexivity|cbn; lia|reflexivity|]; intros w EW WW; left; exists w; auto].
    destruct (ctl s) eqn:EC; try assumption; (apply KEEP; [cbn; first [reflexivity|rewrite EC; reflexivity]|cbn; lia|reflexivity|]; intros w EW WW; left; exists w; auto).
Qed.

Lemma threads_pos l : forall s, (ctl s <> CEnd -> 1 <= threads s) -> ctl (run s l) <> CEnd -> 1 <= threads (run s l).
Proof.
  induction l as [|a l IH]; intros s P NE; [now apply P|]. cbn in *. apply IH; [|assumption]. intros NE1.
  assert (NE0 : ctl s <> CEnd) by (intros E; apply NE1; now apply end_stays). specialize (P NE0).
  destruct (act_dec a) as [->|NA].
  - rewrite ctl_act in *. destruct (end_ s); auto. clear IH NE. revert NE1. unfold cstep, toi, to.
    destruct (ctl s) eqn:EC; brk; cbn [threads ctl]; intros; auto; congruence.
  - clear IH NE NE1. unfold step. destruct (end_ s); auto. destruct a as [|j ok|j k|j k|]; [congruence| | | |].
    + destruct (nth_error (ws s) j) as [v|]; auto. unfold wstep. destruct (wp v); brk; cbn [threads setw]; auto.
    + destruct (nth_error (ws s) j) as [v|]; auto. destruct (released v); auto. destruct (ready v); auto.
    + destruct (nth_error (ws s) j) as [v|]; auto. destruct (released v); auto. destruct ((k <=? q v) && negb (k =? 0)); auto.
    + destruct (sig s); auto. destruct (ctl s); auto.
Qed.

Theorem C54_still_attached_refuted : forall cfg l1 l2 i w,
  devices_work (l1 ++ l2) -> nth_error (ws (run (start cfg) l1)) i = Some w -> wp w = WAsleep ->
  ctl (run (start cfg) (l1 ++ l2)) = CEnd -> att (run (start cfg) (l1 ++ l2)) = true.
Proof.
  intros cfg l1 l2 i w DW E W C. apply dw_app in DW. destruct DW as [D1 D2].
  assert (R : run (start cfg) (l1 ++ l2) = run (run (start cfg) l1) l2) by (unfold run; apply fold_left_app). rewrite R in *.
  pose proof (run_inv l1 (start cfg) D1 (start_inv cfg)) as I.
  assert (H : held i (run (start cfg) l1)).
  { unfold held. assert (NE : ctl (run (start cfg) l1) <> CEnd).
    { intros X. pose proof (i1 _ I i w E) as O. unfold okc in O. rewrite X in O. pose proof (o11 _ _ _ _ _ _ O eq_refl). congruence. }
    pose proof (threads_pos l1 (start cfg)) as TP. cbn [start threads ctl] in TP. specialize (TP (fun _ => le_n 1) NE).
    destruct (ctl (run (start cfg) l1)); try (right; split; [assumption|]; exists w; rewrite W; auto). congruence. }
  clear R E. revert C. generalize dependent (run (start cfg) l1). clear l1 D1 W w.
  induction l2 as [|a l IH]; intros s I H C; cbn in *; [unfold held in H; now rewrite C in H|].
  apply dw_cons in D2. destruct D2 as [D2 D3]. apply (IH D3 (step s a)); auto. now apply step_inv. now apply held_step.
Qed.

(** Such executions exist: one accelerator, its worker asleep, SIGINT, main returned. *)
Example C54_attached_example : let l1 := [ACtl; AWork 0 true; ACtl; ACtl; ACtl; AWork 0 true; AWork 0 true; AWork 0 true] in
  let l2 := ASig :: concat (times 25 [fair1]) in
  map wp (ws (run (start [false]) l1)) = [WAsleep] /\ ctl (run (start [false]) (l1 ++ l2)) = CEnd /\
  end_ (run (start [false]) (l1 ++ l2)) = Fine /\ att (run (start [false]) (l1 ++ l2)) = true.
Proof. vm_compute. auto. Qed.
