(** Times: property C79.  What the timers of utils/timer.h answer, and what arax_task_stat tells about how long a task took.

    Code modelled
    - [src/utils/timer.h:13, 48-49, 58-69, 76-88, 95-114]  the macros utils_timer_set, _tv_time, _get_time_*, _get_duration_*, _get_elapsed_*
    - [include/arax_types.h:32-36, 71-76]        utils_timer_s, arax_task_stats_s
    - [src/core/arax_object.c:98-126]            arax_object_register: clears what follows the header
    - [src/core/arax_task.c:7-47]                arax_task_alloc: does not write the statistics
    - [src/core/arax_task.c:63-75]               arax_task_submit
    - [src/core/arax_task.c:83-87]               arax_task_mark_done
    - [src/arch/shm/impl.c:502-513]              arax_task_stat

    Time is counted in nanoseconds, a clock reading takes no time, and time_t and long have 64 bits. *)
From Verif Require Import Base.
From Coq Require Import ZArith ZifyBool Lia.
Local Open Scope Z_scope.
Ltac Zify.zify_post_hook ::= Z.to_euclidean_division_equations.

(** ** The code *)
(** struct timespec, of which utils_timer_s has two, arax_types.h:32-36 *)
Record timespec := mkts { sec : Z; nsec : Z }.
(** arax_types.h:32-36 *)
Record timer := mktm { start : timespec; stop : timespec }.
(** a value of type long; arithmetic beyond it is undefined (timer.h:48-49) *)
Definition long (z : Z) : outcome Z := if (- 9223372036854775808 <=? z) && (z <? 9223372036854775808) then Ok z else UB.
(** utils_timer_tv_time, timer.h:48-49 *)
Definition tv_time (t : timespec) (scale : Z) : outcome Z :=
  do a <- long (sec t * Z.quot 1000000000 scale); long (a + Z.quot (nsec t) scale).
(** UTILS_TIMER_US and UTILS_TIMER_NS, timer.h:36-38 *)
Definition US := 1000. Definition NS := 1.
(** utils_timer_get_duration_us and _ns, timer.h:76-88 *)
Definition duration (t : timer) (scale : Z) : outcome Z :=
  do b <- tv_time (stop t) scale; do a <- tv_time (start t) scale; long (b - a).
(** utils_timer_get_elapsed_us and _ns, timer.h:95-114; [now] is what clock_gettime answers *)
Definition elapsed (now : timespec) (t : timer) (scale : Z) : outcome Z :=
  do b <- tv_time now scale; do a <- tv_time (start t) scale; long (b - a).

(** arax_task_stats_s, arax_types.h:71-76 *)
Record stats := mkst { slots : Z; without_issue : timer; whole : timer }.
(** arax_task_state_e, arax_types.h:61-66 *)
Inductive state := Failed | Issued | Completed.
(** the fields of a task these functions read or write, arax_task.h:9-23 *)
Record task := mktk { tstate : state; tstats : stats }.
(** the machine: true time in nanoseconds since the epoch, how far CLOCK_REALTIME (timer.h:13) is off, and the tasks *)
Record mach := mkm { now : Z; off : Z; tasks : nat -> option task }.
(** clock_gettime(CLOCK_REALTIME, ..), timer.h:13 *)
Definition clock (m : mach) : timespec := mkts ((now m + off m) / 1000000000) ((now m + off m) mod 1000000000).
(** What happens: time passes, somebody sets the clock (settimeofday, NTP), a task is allocated, submitted,
    marked done.  arax_task.c:7-47, 63-75, 83-87. *)
Inductive event := Pass (d : N) | SetClock (o : Z) | Alloc (i : nat) | Submit (i : nat) | Done (i : nat) (e : state).
(** what arax_object_register leaves in the statistics, arax_object.c:120-123 *)
Definition zero : stats := mkst 0 (mktm (mkts 0 0) (mkts 0 0)) (mktm (mkts 0 0) (mkts 0 0)).
(** set a task, no code of its own; arax_task.c:63-87 *)
Definition put (m : mach) (i : nat) (t : task) : mach := mkm (now m) (off m) (fupd (tasks m) i (Some t)).
(** arax_task_alloc, arax_task.c:7-47 (everything is 0 after arax_object_register, and 0 is task_failed); arax_task_submit, 63-75; arax_task_mark_done, 83-87 *)
Definition step (m : mach) (e : event) : mach :=
  match e with
  | Pass d => mkm (now m + Z.of_N d) (off m) (tasks m)
  | SetClock o => mkm (now m) o (tasks m)
  | Alloc i => put m i (mktk Failed zero)
  | Submit i => match tasks m i with
                | Some t => put m i (mktk Issued (mkst (slots (tstats t)) (without_issue (tstats t)) (mktm (clock m) (stop (whole (tstats t))))))
                | None => m
                end
  | Done i e => match tasks m i with Some t => put m i (mktk e (tstats t)) | None => m end
  end.
(** a history, no code of its own; arax_task.c:7-87 *)
Definition run (m : mach) (l : list event) : mach := fold_left step l m.
(** arax_task_stat, impl.c:502-513 *)
Definition stat (m : mach) (i : nat) : option (state * stats) := match tasks m i with Some t => Some (tstate t, tstats t) | None => None end.

(** ** Specification *)
(** A reading, in nanoseconds since the epoch. *)
Definition nanos (t : timespec) : Z := sec t * 1000000000 + nsec t.
(** What clock_gettime can answer between 1970 and 2262. *)
Definition valid (t : timespec) : Prop := 0 <= nsec t /\ nsec t < 1000000000 /\ 0 <= sec t /\ sec t < 9223372036.
(** The clock is somewhere between 1970 and 2262. *)
Definition in_era (m : mach) : Prop := 0 <= now m + off m /\ now m + off m < 9223372036 * 1000000000.
(** Does the event concern task [i] in a way that starts it anew?  Does it set the clock? *)
Definition restarts (i : nat) (e : event) : Prop := match e with Alloc j | Submit j => i = j | _ => False end.
Definition sets_clock (e : event) : Prop := match e with SetClock _ => True | _ => False end.

(** ** Timers *)
Lemma long_ok z : - 9223372036854775808 <= z < 9223372036854775808 -> long z = Ok z.
Proof. intros H. unfold long. replace (- 9223372036854775808 <=? z) with true by lia. replace (z <? 9223372036854775808) with true by lia. reflexivity. Qed.
Lemma tv_ns t : valid t -> tv_time t NS = Ok (nanos t).
Proof.
  intros (A & B & C & D). unfold tv_time, NS. change (Z.quot 1000000000 1) with 1000000000. rewrite Z.quot_1_r.
  rewrite long_ok by lia. cbn [bind]. unfold nanos. apply long_ok. lia.
Qed.
Lemma tv_us t : valid t -> tv_time t US = Ok (nanos t / 1000) /\ 0 <= nanos t.
Proof.
  intros (A & B & C & D). unfold tv_time, US, nanos. change (Z.quot 1000000000 1000) with 1000000. rewrite long_ok by lia. cbn [bind].
  replace (sec t * 1000000 + Z.quot (nsec t) 1000) with ((sec t * 1000000000 + nsec t) / 1000) by lia. split; [apply long_ok | ]; lia.
Qed.
Lemma nanos_range t : valid t -> 0 <= nanos t < 9223372036000000000.
Proof. intros (A & B & C & D). unfold nanos. lia. Qed.
(** Nanoseconds: exactly the difference of the two readings.  Microseconds: off by less than one, and never negative when the readings
    are in order. *)
Theorem C79_duration : forall t, valid (start t) -> valid (stop t) ->
  duration t NS = Ok (nanos (stop t) - nanos (start t)) /\
  exists u, duration t US = Ok u /\ Z.abs (1000 * u - (nanos (stop t) - nanos (start t))) < 1000 /\
    (nanos (start t) <= nanos (stop t) -> 0 <= u).
Proof.
  intros t A B. pose proof (nanos_range _ A). pose proof (nanos_range _ B). unfold duration. rewrite !tv_ns by assumption. cbn [bind].
  split; [apply long_ok; lia|]. destruct (tv_us _ A) as (-> & _), (tv_us _ B) as (-> & _). cbn [bind].
  exists (nanos (stop t) / 1000 - nanos (start t) / 1000). split; [apply long_ok; lia|]. lia.
Qed.
(** After 2262 (and before 1678) the conversion overflows: undefined behaviour, for every reading from there on; microseconds
    last longer. *)
Theorem C79_2262_refuted : forall t, 0 <= nsec t -> nsec t < 1000000000 -> 9223372037 <= sec t -> sec t < 9223372036854775808 -> tv_time t NS = UB.
Proof.
  intros t A B C D. unfold tv_time, NS. change (Z.quot 1000000000 1) with 1000000000. unfold long at 1.
  replace (sec t * 1000000000 <? 9223372036854775808) with false by lia. rewrite andb_false_r. reflexivity.
Qed.

(** ** Tasks *)
Lemma clock_valid m : in_era m -> valid (clock m) /\ nanos (clock m) = now m + off m.
Proof. intros (A & B). unfold valid, nanos, clock. cbn [sec nsec]. lia. Qed.
Lemma run_stat i l : forall m t, tasks m i = Some t -> Forall (fun e => ~ restarts i e) l ->
  exists t', tasks (run m l) i = Some t' /\ tstats t' = tstats t.
Proof.
  induction l as [|e l IH]; intros m t T F; [exists t; auto|]. inversion F as [|? ? F1 F2]; subst. change (run m (e :: l)) with (run (step m e) l).
  assert (K : exists t1, tasks (step m e) i = Some t1 /\ tstats t1 = tstats t).
  { destruct e as [d|o|j|j|j e]; cbn [step restarts] in *; eauto.
    - exists t. cbn [put tasks]. rewrite fupd_ne by auto. auto.
    - destruct (tasks m j); [|eauto]. exists t. cbn [put tasks]. rewrite fupd_ne by auto. auto.
    - destruct (tasks m j) as [x|] eqn:E; [|eauto]. cbn [put tasks]. destruct (Nat.eq_dec i j) as [<-|N].
      + rewrite fupd_eq. eexists. split; [reflexivity|]. cbn. congruence.
      + rewrite fupd_ne by auto. eauto. }
  destruct K as (t1 & T1 & S1). destruct (IH _ _ T1 F2) as (t' & T' & S'). exists t'. split; [exact T' | congruence].
Qed.
Lemma run_off l : forall m, Forall (fun e => ~ sets_clock e) l -> off (run m l) = off m.
Proof.
  induction l as [|e l IH]; intros m F; [reflexivity|]. inversion F as [|? ? F1 F2]; subst. change (run m (e :: l)) with (run (step m e) l). rewrite IH by exact F2.
  destruct e; cbn [step sets_clock] in *; try reflexivity; try tauto; destruct (tasks m i); reflexivity.
Qed.
Lemma run_now l : forall m, now m <= now (run m l).
Proof.
  induction l as [|e l IH]; intros m; [cbn; lia|]. change (run m (e :: l)) with (run (step m e) l). specialize (IH (step m e)).
  assert (now m <= now (step m e)); [|lia]. destruct e; cbn [step now put]; try lia; destruct (tasks m i); cbn; lia.
Qed.
(** When a task was issued: whatever happened since, arax_task_stat gives the reading of the clock at the issue, and the time since
    then is exactly the time that passed, as long as nobody set the clock. *)
Theorem C79_issue_time : forall m i t l, tasks m i = Some t -> Forall (fun e => ~ restarts i e) l ->
  let m' := run (step m (Submit i)) l in
  exists s x, stat m' i = Some (s, x) /\ start (whole x) = clock m /\
    (Forall (fun e => ~ sets_clock e) l -> in_era m -> in_era m' ->
     now m <= now m' /\ elapsed (clock m') (whole x) NS = Ok (now m' - now m) /\
     exists u, elapsed (clock m') (whole x) US = Ok u /\ 0 <= u /\ Z.abs (1000 * u - (now m' - now m)) < 1000).
Proof.
  intros m i t l T F m'. set (m1 := step m (Submit i)) in *.
  assert (T1 : tasks m1 i = Some (mktk Issued (mkst (slots (tstats t)) (without_issue (tstats t)) (mktm (clock m) (stop (whole (tstats t))))))).
  { unfold m1. cbn [step]. rewrite T. cbn [put tasks]. apply fupd_eq. }
  destruct (run_stat i l m1 _ T1 F) as (t' & T' & S'). exists (tstate t'), (tstats t'). unfold stat. fold m' in T'. rewrite T'. split; [reflexivity|].
  rewrite S'. cbn [tstats whole start]. split; [reflexivity|]. intros NC E1 E2.
  assert (NW : now m1 = now m /\ off m1 = off m) by (unfold m1; cbn [step]; rewrite T; auto). destruct NW as (N1 & O1).
  pose proof (run_now l m1) as MN. pose proof (run_off l m1 NC) as OF. fold m' in MN, OF. rewrite N1 in MN. rewrite O1 in OF.
  destruct (clock_valid _ E1) as (V1 & K1). destruct (clock_valid _ E2) as (V2 & K2).
  split; [exact MN|].
  destruct (C79_duration (mktm (clock m) (clock m')) V1 V2) as (D1 & u & D2 & D3 & D4). cbn [start stop] in *. rewrite K1, K2, OF in *.
  split; [unfold elapsed; cbn [start]; unfold duration in D1; cbn [start stop] in D1; rewrite D1; f_equal; lia|].
  exists u. split; [exact D2|]. split; [apply D4; lia | lia].
Qed.
(** How long a task took is never recorded: however it ends and whatever happens, the end of task_duration, all of
    task_duration_without_issue and usedSlots stay 0, so that the duration in the statistics is minus the time since 1970 at which it was issued. *)
Theorem C79_task_duration_refuted : forall m0 l1 m i l, m = run (step m0 (Alloc i)) l1 -> Forall (fun e => ~ restarts i e) l1 ->
  Forall (fun e => ~ restarts i e) l -> in_era m ->
  exists s x, stat (run (step m (Submit i)) l) i = Some (s, x) /\ slots x = 0 /\ duration (without_issue x) NS = Ok 0 /\
    duration (whole x) NS = Ok (- (now m + off m)).
Proof.
  intros m0 l1 m i l EM F1 F2 E.
  destruct (run_stat i l1 (step m0 (Alloc i)) (mktk Failed zero)) as (t & T & S); [apply fupd_eq | exact F1|]. rewrite <- EM in T.
  set (m1 := step m (Submit i)).
  assert (T1 : tasks m1 i = Some (mktk Issued (mkst 0 (mktm (mkts 0 0) (mkts 0 0)) (mktm (clock m) (mkts 0 0))))).
  { unfold m1. cbn [step]. rewrite T. cbn [put tasks]. rewrite fupd_eq, S. reflexivity. }
  destruct (run_stat i l m1 _ T1 F2) as (t' & T' & S'). exists (tstate t'), (tstats t'). unfold stat. rewrite T', S'. cbn [tstats slots without_issue whole].
  split; [reflexivity|]. split; [reflexivity|]. split; [reflexivity|]. destruct (clock_valid _ E) as (V & K).
  destruct (C79_duration (mktm (clock m) (mkts 0 0)) V) as (D & _); [unfold valid; cbn; lia|]. cbn [start stop] in D. rewrite K in D. exact D.
Qed.
(** The timers read the wall clock: after it was set back, a time that passed is negative. *)
Definition none : mach := mkm 1700000000123456789 0 (fun _ => None).
Theorem C79_clock_set_refuted : exists l s x d, let m := run none l in
  stat m 0%nat = Some (s, x) /\ s = Completed /\ now none < now m /\ elapsed (clock m) (whole x) NS = Ok d /\ d < 0.
Proof.
  exists [Alloc 0; Submit 0; Pass 5000000; SetClock (-3600000000000); Done 0 Completed]. do 3 eexists. cbn zeta.
  split; [vm_compute; reflexivity|]. split; [reflexivity|]. split; [reflexivity|]. split; [vm_compute; reflexivity|]. reflexivity.
Qed.

(** A case: a task that takes 5 ms and 999 ns. *)
Theorem C79_case : let m := step none (Alloc 0) in let l := [Pass 5000999; Done 0 Completed] in
  in_era m /\ in_era (run (step m (Submit 0)) l) /\ Forall (fun e => ~ restarts 0 e) l /\ Forall (fun e => ~ sets_clock e) l /\
  match stat (run (step m (Submit 0)) l) 0%nat with
  | Some (Completed, x) => elapsed (clock (run (step m (Submit 0)) l)) (whole x) NS = Ok 5000999 /\
      elapsed (clock (run (step m (Submit 0)) l)) (whole x) US = Ok 5001 /\ duration (whole x) NS = Ok (-1700000000123456789)
  | _ => False end.
Proof.
  cbn zeta. split; [vm_compute; split; discriminate || reflexivity|]. split; [vm_compute; split; discriminate || reflexivity|].
  split; [repeat constructor; cbn; auto|]. split; [repeat constructor; cbn; auto|]. vm_compute. auto.
Qed.
