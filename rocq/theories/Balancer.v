(** New virtual accelerators and the controller's balancer: properties C42 and C45.

    Code modelled
    - [src/core/arax_pipe.c:63-71]    arax_pipe_add_orphan_vaccel
    - [src/core/arax_pipe.c:78-98]    arax_pipe_get_orphan_vaccel
    - [src/core/arax_pipe.c:100-107]   arax_pipe_remove_orphan_vaccel
    - [src/utils/list.c:12-45]        utils_list_add (puts the node first), utils_list_pop_head
    - [src/async/spin/async.c:39-84], [src/async/mutex/async.c:58-87]  the two condition variables
    - [controller/src/Core/VacBalancerThread.cpp:12-24]  the balancer's loop
    - [controller/src/Schedulers/RoundRobinScheduler.cpp:9-26]  RoundRobinScheduler::assignVac
    - [controller/src/Schedulers/ElasticScheduler.cpp:14-36]    the same start of ElasticScheduler::assignVac
    - [controller/src/Schedulers/HeterogeneousScheduler.cpp:51-109] HeterogeneousScheduler::assignVac

    Clients add and remove (destroy) virtual accelerators, one balancer thread
    takes them, interleaved at the granularity of critical sections: add and
    remove are one step (the whole critical section), taking is one step when the
    list is not empty, and otherwise wait / wake up / take the lock again and look.
    pthread's spurious wake-ups are not modelled. *)
From Coq Require Import List Arith Lia Bool.
Import ListNotations.

Arguments Nat.eqb : simpl never.

(** src/async/mutex/async.c:60-87 and src/async/spin/async.c:39-84. *)
Inductive backend := Pthread | Spin.

(** The balancer: which of the two calls in the loop body it is in. *)
(** controller/src/Core/VacBalancerThread.cpp:12-23 and src/core/arax_pipe.c:78-98. *)
Inductive bpc :=
| BLook (second : bool)      (* about to take the lock in arax_pipe_get_orphan_vaccel *)
| BBlocked (second : bool)   (* in async_condition_wait *)
| BWoken (second : bool)     (* woken, about to take the lock again *)
| BCrashed.                  (* assignVac(NULL): reads vac->type *)

(** [assigned]: what was passed to assignVac, newest first. *)
(** include/arax_pipe.h:24-47 (orphan_vacs, orphan_cond) and the balancer thread, VacBalancerThread.cpp:12-23. *)
Record st := mkst { orphans : list nat; tok : nat; bp : bpc; assigned : list nat; created : list nat }.
(** src/core/arax_pipe.c:40-42, an empty list; the balancer before its first call. *)
Definition init : st := mkst [] 0 (BLook false) [] [].

(** Calls of src/core/arax_pipe.c:63-107 and steps of VacBalancerThread.cpp:12-23. *)
Inductive act :=
| AAdd (v : nat)      (* a client creates virtual accelerator v *)
| ARemove (v : nat)   (* a client destroys v before it was assigned *)
| ABal.               (* the balancer takes a step *)

(** arax_pipe_get_orphan_vaccel returned NULL. *)
(** controller/src/Core/VacBalancerThread.cpp:15-20. *)
Definition got_null (second : bool) : bpc := if second then BCrashed else BLook true.

(** src/core/arax_pipe.c:63-107 and VacBalancerThread.cpp:12-23, line by line below. *)
Definition step (be : backend) (a : act) (s : st) : option st :=
  match a with
  | AAdd v =>
      if existsb (Nat.eqb v) (created s) then None
      else Some (mkst (v :: orphans s)
                      (match be with Spin => S (tok s) | Pthread => tok s end)
                      (match be, bp s with Pthread, BBlocked x => BWoken x | _, p => p end)
                      (assigned s) (v :: created s))
  | ARemove v =>
      if existsb (Nat.eqb v) (orphans s)
      then Some (mkst (filter (fun u => negb (u =? v)) (orphans s)) (tok s) (bp s) (assigned s) (created s)) else None
  | ABal =>
      match bp s with
      | BLook x => match orphans s with
                   | v :: l => Some (mkst l (tok s) (BLook false) (v :: assigned s) (created s))
                   | [] => Some (mkst [] (tok s) (BBlocked x) (assigned s) (created s))
                   end
      | BBlocked x => match be, tok s with
                      | Spin, S t => Some (mkst (orphans s) t (BWoken x) (assigned s) (created s))
                      | _, _ => None
                      end
      | BWoken x => match orphans s with
                    | v :: l => Some (mkst l (tok s) (BLook false) (v :: assigned s) (created s))
                    | [] => Some (mkst [] (tok s) (got_null x) (assigned s) (created s))
                    end
      | BCrashed => None
      end
  end.

(** Any interleaving, no code of its own. *)
Fixpoint run (be : backend) (l : list act) (s : st) : option st :=
  match l with [] => Some s | a :: l' => match step be a s with Some s' => run be l' s' | None => None end end.
Definition reach (be : backend) (s : st) : Prop := exists l, run be l init = Some s.

Lemma run_app : forall be l1 l2 s, run be (l1 ++ l2) s = match run be l1 s with Some s' => run be l2 s' | None => None end.
Proof. induction l1 as [|a l1 IH]; intros l2 s; cbn [run app]; [reflexivity|]. destruct (step be a s); auto. Qed.

(** C42: whatever happens, a virtual accelerator is handed out at most once, only
    if it was created, and never while still waiting on the list; and none is
    both forgotten and not removed. *)
Definition exclusive (s : st) : Prop :=
  NoDup (orphans s ++ assigned s) /\ incl (orphans s ++ assigned s) (created s) /\ NoDup (created s).

Lemma filter_incl : forall (f : nat -> bool) l, incl (filter f l) l.
Proof. intros f l x I. apply filter_In in I. apply I. Qed.

Lemma filter_le : forall (f : nat -> bool) l, length (filter f l) <= length l.
Proof. intros f. induction l as [|x l IH]; cbn; [lia|]. destruct (f x); cbn; lia. Qed.

Lemma existsb_in : forall v l, existsb (Nat.eqb v) l = true <-> In v l.
Proof.
  intros v l. rewrite existsb_exists. split.
  - intros (x & I & E). apply Nat.eqb_eq in E. now subst.
  - intros I. exists v. split; [assumption|apply Nat.eqb_refl].
Qed.

Lemma move_head : forall (v : nat) l a, NoDup ((v :: l) ++ a) -> NoDup (l ++ v :: a) /\ incl (l ++ v :: a) ((v :: l) ++ a).
Proof.
  intros v l a ND. split.
  - cbn in ND. inversion ND; subst. apply NoDup_Add with (a := v) (l := l ++ a); [apply Add_app|]. split; assumption.
  - intros x I. apply in_app_or in I. cbn. destruct I as [I|[<-|I]]; [right|now left|right]; apply in_or_app; auto.
Qed.

Theorem C42_exclusive : forall be s, reach be s -> exclusive s.
Proof.
  intros be s [l R]. assert (G : forall l s s', run be l s = Some s' -> exclusive s -> exclusive s').
  { clear. induction l as [|a l IH]; cbn [run]; intros s s' R E; [now injection R as <-|].
    destruct (step be a s) as [s1|] eqn:ST; [|discriminate]. apply (IH s1 s' R). clear IH R.
    destruct E as (ND & IN & NC). destruct a as [v|v|]; cbn [step] in ST.
    - destruct (existsb (Nat.eqb v) (created s)) eqn:X; [discriminate|]. injection ST as <-.
      assert (NI : ~ In v (created s)) by (rewrite <- existsb_in; congruence).
      split; [|split]; cbn.
      + constructor; [|assumption]. intros H. apply NI, IN, H.
      + intros x [<-|H]; [now left|right; auto].
      + constructor; assumption.
    - destruct (existsb (Nat.eqb v) (orphans s)); [|discriminate]. injection ST as <-. split; [|split]; cbn; [| |assumption].
      + revert ND. generalize (assigned s) as b. generalize (orphans s) as o. clear. induction o as [|x o IH]; intros b ND; [assumption|].
        cbn in ND |- *. inversion ND; subst. destruct (negb (x =? v)); cbn; [constructor|]; auto.
        intros I. apply H1. apply in_app_or in I. apply in_or_app. destruct I as [I|I]; [left; eapply filter_incl; eauto|auto].
      + intros x I. apply IN. apply in_app_or in I. apply in_or_app. destruct I as [I|I]; [left; eapply filter_incl; eauto|auto].
    - destruct (bp s) as [x|x|x|].
      + destruct (orphans s) as [|v o] eqn:O; injection ST as <-.
        * split; [|split]; assumption.
        * destruct (move_head v o (assigned s) ND) as [N2 I2]. split; [|split]; cbn [orphans assigned created]; auto. eapply incl_tran; eauto.
      + destruct be; [discriminate|]. destruct (tok s); [discriminate|]. injection ST as <-. split; [|split]; assumption.
      + destruct (orphans s) as [|v o] eqn:O; injection ST as <-.
        * split; [|split]; assumption.
        * destruct (move_head v o (assigned s) ND) as [N2 I2]. split; [|split]; cbn [orphans assigned created]; auto. eapply incl_tran; eauto.
      + discriminate. }
  eapply G; [exact R|]. split; [|split]; cbn; constructor || (intros x []).
Qed.

(** C42, none is forgotten: a virtual accelerator that was created is waiting,
    was handed over, or was destroyed by its client; and it is handed over only
    by the balancer, by taking it off the list. *)
Theorem C42_none_forgotten : forall be l s, run be l init = Some s -> forall v, In (AAdd v) l ->
  In v (orphans s) \/ In v (assigned s) \/ In (ARemove v) l.
Proof.
  intros be l. induction l as [|a l IH] using rev_ind; intros s R v I; [destruct I|].
  rewrite run_app in R. destruct (run be l init) as [s0|] eqn:R0; [|discriminate]. cbn [run] in R.
  destruct (step be a s0) as [s1|] eqn:ST; [|discriminate]. injection R as <-.
  assert (K : In (AAdd v) l -> In v (orphans s0) \/ In v (assigned s0) \/ In (ARemove v) (l ++ [a])).
  { intros H. destruct (IH s0 eq_refl v H) as [X|[X|X]]; auto. right. right. apply in_or_app. now left. }
  destruct a as [u|u|]; cbn [step] in ST.
  - destruct (existsb (Nat.eqb u) (created s0)); [discriminate|]. injection ST as <-. cbn [orphans assigned].
    apply in_app_or in I. destruct I as [I|[E|[]]]; [|injection E as ->; left; now left].
    destruct (K I) as [X|[X|X]]; auto. left. now right.
  - destruct (existsb (Nat.eqb u) (orphans s0)); [|discriminate]. injection ST as <-. cbn [orphans assigned].
    apply in_app_or in I. destruct I as [I|[E|[]]]; [|discriminate].
    destruct (K I) as [X|[X|X]]; auto. destruct (Nat.eq_dec v u) as [->|N].
    + right. right. apply in_or_app. right. now left.
    + left. apply filter_In. split; [assumption|]. apply Nat.eqb_neq in N. now rewrite N.
  - apply in_app_or in I. destruct I as [I|[E|[]]]; [|discriminate]. specialize (K I).
    assert (T : forall w o, orphans s0 = w :: o -> In v o \/ In v (w :: assigned s0) \/ In (ARemove v) (l ++ [ABal])).
    { intros w o E. rewrite E in K. cbn in *. tauto. }
    destruct (bp s0) as [x|x|x|].
    + destruct (orphans s0) as [|w o] eqn:O; injection ST as <-; cbn [orphans assigned]; [exact K|now apply T].
    + destruct be; [discriminate|]. destruct (tok s0); [discriminate|]. injection ST as <-. exact K.
    + destruct (orphans s0) as [|w o] eqn:O; injection ST as <-; cbn [orphans assigned]; [exact K|now apply T].
    + discriminate.
Qed.

(** What is handed over is what the balancer took off the front of the list. *)
Theorem C42_handed_over_is_taken : forall be a s s', step be a s = Some s' ->
  (assigned s' = assigned s /\ (a = ABal -> orphans s' = orphans s)) \/
  (a = ABal /\ exists v, orphans s = v :: orphans s' /\ assigned s' = v :: assigned s /\ bp s' = BLook false).
Proof.
  intros be a s s' ST. destruct a as [u|u|]; cbn [step] in ST.
  - destruct (existsb (Nat.eqb u) (created s)); [discriminate|]. injection ST as <-. left. split; [reflexivity|discriminate].
  - destruct (existsb (Nat.eqb u) (orphans s)); [|discriminate]. injection ST as <-. left. split; [reflexivity|discriminate].
  - destruct (bp s) as [x|x|x|].
    + destruct (orphans s) as [|v o] eqn:O; injection ST as <-; [now left|right; split; [reflexivity|]; exists v; auto].
    + destruct be; [discriminate|]. destruct (tok s); [discriminate|]. injection ST as <-. now left.
    + destruct (orphans s) as [|v o] eqn:O; injection ST as <-; [now left|right; split; [reflexivity|]; exists v; auto].
    + discriminate.
Qed.

(** C42: the balancer never sleeps while a virtual accelerator is waiting: if one
    is, the balancer can take a step (unless it crashed). *)
Theorem C42_no_lost_wakeup : forall be s, reach be s -> orphans s <> [] -> bp s <> BCrashed -> exists s', step be ABal s = Some s'.
Proof.
  intros be s [l R] NE NC.
  assert (I : forall x, bp s = BBlocked x -> match be with Pthread => orphans s = [] | Spin => length (orphans s) <= tok s end).
  { clear NE NC.
    assert (G : forall l s0, (forall x, bp s0 = BBlocked x -> match be with Pthread => orphans s0 = [] | Spin => length (orphans s0) <= tok s0 end) ->
      run be l s0 = Some s -> forall x, bp s = BBlocked x -> match be with Pthread => orphans s = [] | Spin => length (orphans s) <= tok s end).
    { clear. induction l as [|a l IH]; cbn [run]; intros s0 I R; [now injection R as <-|].
      destruct (step be a s0) as [s1|] eqn:ST; [|discriminate]. apply (IH s1); [|assumption]. clear IH R.
      intros x B. destruct a as [v|v|]; cbn [step] in ST.
      - destruct (existsb (Nat.eqb v) (created s0)); [discriminate|]. injection ST as <-. cbn [bp orphans tok] in *.
        destruct be; [destruct (bp s0); discriminate|]. apply I in B. cbn. lia.
      - destruct (existsb (Nat.eqb v) (orphans s0)); [|discriminate]. injection ST as <-. cbn [bp orphans tok] in *.
        apply I in B. destruct be; [rewrite B; reflexivity|].
        pose proof (filter_le (fun u => negb (u =? v)) (orphans s0)). lia.
      - destruct (bp s0) as [y|y|y|].
        + destruct (orphans s0) as [|v o]; injection ST as <-; cbn in B |- *; [destruct be; [reflexivity|lia]|discriminate].
        + destruct be; [discriminate|]. destruct (tok s0); [discriminate|]. injection ST as <-. discriminate.
        + destruct (orphans s0) as [|v o]; injection ST as <-; cbn in B; [destruct y; discriminate|discriminate].
        + discriminate. }
    apply (G l init); [discriminate|exact R]. }
  destruct (bp s) as [x|x|x|] eqn:B; cbn [step]; rewrite B.
  - destruct (orphans s); eauto.
  - specialize (I x eq_refl). destruct be; [contradiction|]. destruct (tok s); [|eauto].
    destruct (orphans s); [congruence|cbn in I; lia].
  - destruct (orphans s); eauto.
  - congruence.
Qed.

(** C42, pthread back-end: as long as no waiting virtual accelerator is destroyed,
    the balancer is never handed a null one (and so never crashes). *)
Definition no_remove (a : act) : Prop := match a with ARemove _ => False | _ => True end.

Theorem C42_pthread_partial : forall l s, Forall no_remove l -> run Pthread l init = Some s -> bp s <> BCrashed.
Proof.
  intros l s F R.
  assert (G : forall l s0, Forall no_remove l -> run Pthread l s0 = Some s ->
    (match bp s0 with BLook x | BBlocked x => x = false | BWoken x => x = false /\ orphans s0 <> [] | BCrashed => False end) ->
    bp s <> BCrashed).
  { clear. induction l as [|a l IH]; cbn [run]; intros s0 F R I; [injection R as <-; intros E; now rewrite E in I|].
    destruct (step Pthread a s0) as [s1|] eqn:ST; [|discriminate]. inversion F as [|? ? NR F']; subst.
    apply (IH s1 F' R). clear IH R F F'. destruct a as [v|v|]; cbn [step] in ST; [|contradiction|].
    - destruct (existsb (Nat.eqb v) (created s0)); [discriminate|]. injection ST as <-. cbn [bp orphans].
      destruct (bp s0); auto; (split; [tauto|discriminate]).
    - destruct (bp s0) as [y|y|y|]; [| |destruct I as [-> NE]|contradiction].
      + destruct (orphans s0); injection ST as <-; cbn; auto.
      + discriminate.
      + destruct (orphans s0); [congruence|]. injection ST as <-. reflexivity. }
  apply (G l init F R). reflexivity.
Qed.

(** C42, spin back-end: the same if virtual accelerators arrive one at a time, each
    while the balancer is asleep with nothing waiting. *)
Inductive one_at_a_time : st -> list act -> Prop :=
| o_nil : forall s, one_at_a_time s []
| o_cons : forall s a l, (match a with
     | AAdd _ => orphans s = [] /\ exists x, bp s = BBlocked x
     | ARemove _ => False
     | ABal => True end) -> (forall s', step Spin a s = Some s' -> one_at_a_time s' l) -> one_at_a_time s (a :: l).

Theorem C42_spin_partial : forall l s, one_at_a_time init l -> run Spin l init = Some s -> bp s <> BCrashed.
Proof.
  intros l s F R.
  assert (G : forall l s0, one_at_a_time s0 l -> run Spin l s0 = Some s ->
    (match bp s0 with
     | BLook x => x = false /\ tok s0 = 0 /\ orphans s0 = []
     | BBlocked x => x = false /\ tok s0 = length (orphans s0)
     | BWoken x => x = false /\ S (tok s0) = length (orphans s0)
     | BCrashed => False end) /\ length (orphans s0) <= 1 -> bp s <> BCrashed).
  { clear. induction l as [|a l IH]; cbn [run]; intros s0 F R [I L]; [injection R as <-; intros E; now rewrite E in I|].
    destruct (step Spin a s0) as [s1|] eqn:ST; [|discriminate]. inversion F as [|? ? ? C F']; subst.
    apply (IH s1 (F' s1 ST) R). clear IH R F F'. destruct a as [v|v|]; cbn [step] in ST; [|contradiction|].
    - destruct C as (E & x & B). destruct (existsb (Nat.eqb v) (created s0)); [discriminate|]. injection ST as <-. cbn [bp orphans tok].
      rewrite E, B in *. cbn in *. split; [|lia]. destruct I as [I1 I2]. split; [assumption|lia].
    - destruct (bp s0) as [y|y|y|]; [| | |contradiction].
      + destruct I as (-> & T0 & O0). rewrite O0 in ST. injection ST as <-. cbn. rewrite T0. auto.
      + destruct I as (-> & T0). destruct (tok s0) as [|t] eqn:T1; [discriminate|]. injection ST as <-. cbn. split; [split; [reflexivity|lia]|lia].
      + destruct I as (-> & T0). destruct (orphans s0) as [|v o] eqn:O; [discriminate|]. injection ST as <-. cbn in *.
        split; [|lia]. destruct o; [|cbn in L; lia]. cbn in T0. repeat split; lia. }
  apply (G l init F R). split; [repeat split|cbn; lia].
Qed.

(** C42 refuted, spin back-end: two virtual accelerators are created before the
    balancer looks.  It takes both; then both notifications are still there, both
    calls return null, and the balancer passes null to assignVac. *)
Theorem C42_two_at_once_crashes_refuted : forall v w, v <> w ->
  run Spin [AAdd v; AAdd w; ABal; ABal; ABal; ABal; ABal; ABal; ABal; ABal] init =
  Some (mkst [] 0 BCrashed [v; w] [w; v]).
Proof.
  intros v w N. cbn. assert (E : (w =? v) = false) by (apply Nat.eqb_neq; congruence). rewrite E. reflexivity.
Qed.

(** C42 refuted, pthread back-end: two virtual accelerators that are destroyed
    between the notification and the balancer's waking up. *)
Theorem C42_removed_crashes_refuted : forall v w, v <> w ->
  run Pthread [ABal; AAdd v; ARemove v; ABal; ABal; AAdd w; ARemove w; ABal] init =
  Some (mkst [] 0 BCrashed [] [w; v]).
Proof.
  intros v w N. cbn. rewrite !Nat.eqb_refl. cbn. assert (E : (w =? v) = false) by (apply Nat.eqb_neq; congruence). rewrite E.
  cbn. rewrite !Nat.eqb_refl. cbn. reflexivity.
Qed.

(** C42 refuted, waiting time: the newest is taken first, so a virtual accelerator
    can wait for ever although the balancer keeps assigning. *)
Fixpoint newer (k n : nat) : list act :=
  match n with O => [] | S n' => AAdd k :: ABal :: newer (S k) n' end.

Theorem C42_oldest_waits_refuted : forall n, exists s, run Pthread (AAdd 0 :: newer 1 n) init = Some s /\
  orphans s = [0] /\ length (assigned s) = n /\ ~ In 0 (assigned s).
Proof.
  assert (G : forall n k s, orphans s = [0] -> bp s = BLook false -> (forall x, In x (created s) -> x < k) -> 0 < k ->
    ~ In 0 (assigned s) -> exists s', run Pthread (newer k n) s = Some s' /\ orphans s' = [0] /\
    length (assigned s') = n + length (assigned s) /\ ~ In 0 (assigned s')).
  { induction n as [|n IH]; intros k s O B C K A.
    - exists s. repeat split; auto.
    - cbn [newer run step]. destruct (existsb (Nat.eqb k) (created s)) eqn:X.
      + apply existsb_in in X. apply C in X. lia.
      + cbn [bp step orphans]. rewrite B. cbn [orphans tok assigned created bp].
        destruct (IH (S k) (mkst (orphans s) (tok s) (BLook false) (k :: assigned s) (k :: created s))) as (s' & R & O' & L' & N'); auto.
        * cbn. intros x [<-|I]; [lia|]. apply C in I. lia.
        * cbn. intros [E|I]; [lia|contradiction].
        * exists s'. repeat split; auto. rewrite L'. cbn. lia. }
  intros n. cbn [run step existsb created init].
  destruct (G n 1 (mkst [0] 0 (BLook false) [] [0])) as (s' & R & O & L & N); auto; cbn.
  - intros x [<-|[]]. lia.
  - exists s'. repeat split; auto. rewrite L. cbn. lia.
Qed.

Example C42_example : exists s, run Spin [ABal; AAdd 4; ABal; ABal; ABal; AAdd 5; ABal; ABal] init = Some s /\ assigned s = [5; 4].
Proof. eexists. split; reflexivity. Qed.
Example C42_one_at_a_time_example : one_at_a_time init [ABal; AAdd 4; ABal; ABal; ABal; AAdd 5; ABal; ABal].
Proof.
  constructor; [exact I|]. intros s1 E1. injection E1 as <-.
  constructor; [split; [reflexivity|eexists; reflexivity]|]. intros s2 E2. injection E2 as <-.
  do 3 (constructor; [exact I|]; intros ? E; injection E as <-).
  constructor; [split; [reflexivity|eexists; reflexivity]|]. intros s6 E6. injection E6 as <-.
  do 2 (constructor; [exact I|]; intros ? E; injection E as <-). constructor.
Qed.

(* ------------------------------------------------------------------ *)
(** ** C45: choosing the device *)

(** A C++ iterator: which vector it points into, and where.  The vector is a local
    variable of assignVac, so each call has a new one and the old one is gone when
    the call returns. *)
(** controller/src/Schedulers/RoundRobinScheduler.cpp:11-12, the static iterator. *)
Record iter := mkiter { of_call : nat; pos : nat }.

(** What a call does: which device it assigns to, or undefined behaviour (comparing
    iterators of different vectors, using one into a destroyed vector, reading past
    the end). *)
(** How RoundRobinScheduler.cpp:9-26 / HeterogeneousScheduler.cpp:51-109 end. *)
Inductive result := Assigned (d : nat) | UndefinedBehaviour | Aborts.

(** RoundRobinScheduler::assignVac, call number [c], [devs]: the devices of the
    virtual accelerator's type in getAccelerators' order; [static]: the static
    variable, [None] before its first initialisation. *)
(** controller/src/Schedulers/RoundRobinScheduler.cpp:9-26. *)
Definition rr_assign (c : nat) (devs : list nat) (static : option iter) : result * option iter :=
  let it := match static with Some i => i | None => mkiter c 0 end in
  if negb (of_call it =? c) then (UndefinedBehaviour, static)     (* paccel_rr == accelsOfAType.end() *)
  else
    let p := if pos it =? length devs then 0 else pos it in
    match nth_error devs p with
    | None => (UndefinedBehaviour, static)
    | Some d => (Assigned d, Some (mkiter c (S p)))
    end.

(** Calls in order; stops at the first undefined behaviour. *)
(** A history of calls, no code of its own. *)
Fixpoint rr_calls (c : nat) (static : option iter) (l : list (list nat)) : list result :=
  match l with
  | [] => []
  | devs :: l' => match rr_assign c devs static with
                  | (Assigned d, st') => Assigned d :: rr_calls (S c) st' l'
                  | (r, _) => [r]
                  end
  end.

(** C45, what holds: the first virtual accelerator of the controller's life is
    assigned to a device of its type, if there is one. *)
Theorem C45_first_partial : forall devs d l, rr_calls 0 None ((d :: devs) :: l) = Assigned d :: rr_calls 1 (Some (mkiter 0 1)) l.
Proof. reflexivity. Qed.

(** C45 refuted: the second one is undefined behaviour, whatever the devices; and
    so is a type without devices. *)
Theorem C45_second_refuted : forall d devs devs2 l, rr_calls 0 None ((d :: devs) :: devs2 :: l) = [Assigned d; UndefinedBehaviour].
Proof. reflexivity. Qed.
Theorem C45_no_device_refuted : forall l, rr_calls 0 None ([] :: l) = [UndefinedBehaviour].
Proof. reflexivity. Qed.

(** HeterogeneousScheduler::assignVac, its first call: [state] is
    checkForRunnableTask of the virtual accelerator's oldest task on a device
    ([None]: no task). *)
(** controller/src/Schedulers/HeterogeneousScheduler.cpp:51-109. *)
Fixpoint het_first (devs : list nat) (state : nat -> option bool) : result :=
  match devs with
  | [] => Aborts                              (* abort() after the loop *)
  | d :: devs' => match state d with
                  | Some false => het_first devs' state
                  | _ => Assigned d
                  end
  end.

(** C45: in that call a device is chosen exactly when one can run the oldest task
    or there is none to run; and it is the first such device. *)
Theorem C45_het_partial : forall devs state,
  match het_first devs state with
  | Assigned d => exists a b, devs = a ++ d :: b /\ state d <> Some false /\ (forall e, In e a -> state e = Some false)
  | Aborts => forall e, In e devs -> state e = Some false
  | UndefinedBehaviour => False
  end.
Proof.
  induction devs as [|d devs IH]; intros state; cbn [het_first]; [intros e []|].
  destruct (state d) as [[]|] eqn:S.
  - exists [], devs. repeat split; [congruence|intros e []].
  - specialize (IH state). destruct (het_first devs state).
    + destruct IH as (a & b & -> & N & A). exists (d :: a), b. repeat split; auto. intros e [<-|I]; auto.
    + contradiction.
    + intros e [<-|I]; auto.
  - exists [], devs. repeat split; [congruence|intros e []].
Qed.

(** C45 refuted: one task that no device supports aborts the controller. *)
Theorem C45_unsupported_task_aborts_refuted : forall devs state, (forall d, In d devs -> state d = Some false) -> het_first devs state = Aborts.
Proof.
  induction devs as [|d devs IH]; intros state H; cbn [het_first]; [reflexivity|]. rewrite (H d) by now left. apply IH. intros e I. apply H. now right.
Qed.
Example C45_het_example : het_first [10; 11; 12] (fun d => if d =? 12 then Some true else Some false) = Assigned 12.
Proof. reflexivity. Qed.
