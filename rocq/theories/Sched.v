(** How a worker picks its next task: properties C40 and C41.

    Code modelled
    - [controller/src/Schedulers/RoundRobinScheduler.cpp:28-57]   RoundRobinScheduler::selectTask
    - [controller/src/Schedulers/ElasticScheduler.cpp:95-165]     ElasticScheduler::selectTask (same selection; its data migrations are left out)
    - [controller/src/Schedulers/HeterogeneousScheduler.cpp:12-48, 112-217] checkForRunnableTask, HeterogeneousScheduler::selectTask
    - [controller/src/Core/accelThread.cpp:477-490]               updateVirtAccels (the snapshot VACs)

    Virtual accelerators are numbers; [q v] is the queue of [v], oldest task
    first.  One call of selectTask is one step: the worker is the only consumer
    of the queues in its snapshot, and clients only append, so a task appended
    during the scan is as if appended before or after the look at its queue.
    (Snapshots that are out of date are C24's subject.) *)
From Coq Require Import List Arith Lia Bool.
Import ListNotations.

Arguments Nat.eqb : simpl never.
Arguments Nat.modulo : simpl never.

(** src/core/arax_task.h:9-23. *)
Definition task := nat.
(** The queue of each arax_vaccel_s, src/core/arax_vaccel.h:24-41. *)
Definition queues := nat -> list task.
(** Update of a map, no code of its own. *)
Definition upd {A} (f : nat -> A) (i : nat) (x : A) : nat -> A := fun j => if j =? i then x else f j.

(* ------------------------------------------------------------------ *)
(** ** Round robin *)

(** One of the two loops: utils_queue_pop each queue until one gives a task;
    [idx] is the position in VACs. *)
(** controller/src/Schedulers/RoundRobinScheduler.cpp:34-44 and 46-55. *)
Fixpoint pop_first (q : queues) (vs : list nat) (idx : nat) : option (nat * task * nat * queues) :=
  match vs with
  | [] => None
  | v :: vs' => match q v with
                | t :: l => Some (v, t, idx, upd q v l)
                | [] => pop_first q vs' (S idx)
                end
  end.

(** selectTask: the task taken and from where ([None]: no task), the queues, rr_counter. *)
(** controller/src/Schedulers/RoundRobinScheduler.cpp:28-57. *)
Definition select (vs : list nat) (q : queues) (rr : nat) : option (nat * task) * queues * nat :=
  match vs with
  | [] => (None, q, rr)
  | _ :: _ =>
      let off := (rr + 1) mod length vs in
      match pop_first q (skipn off vs) off with
      | Some (v, t, i, q') => (Some (v, t), q', i)
      | None => match pop_first q (firstn off vs) 0 with
                | Some (v, t, i, q') => (Some (v, t), q', i)
                | None => (None, q, rr)
                end
      end
  end.

Lemma pop_first_spec : forall vs q idx,
  match pop_first q vs idx with
  | Some (v, t, i, q') => exists a b l, vs = a ++ v :: b /\ (forall u, In u a -> q u = []) /\ q v = t :: l /\ q' = upd q v l /\ i = idx + length a
  | None => forall u, In u vs -> q u = []
  end.
Proof.
  induction vs as [|v vs IH]; intros q idx; cbn [pop_first]; [intros u []|].
  destruct (q v) as [|t l] eqn:Q.
  - specialize (IH q (S idx)). destruct (pop_first q vs (S idx)) as [[[[v' t] i] q']|].
    + destruct IH as (a & b & l & E & A & Q' & -> & ->). exists (v :: a), b, l. rewrite E. repeat split; auto.
      * intros u [<-|I]; auto.
      * cbn. lia.
    + intros u [<-|I]; auto.
  - exists [], vs, l. repeat split; auto; try (intros u []); cbn; lia.
Qed.

(** Which queue is taken: the first non-empty one in cyclic order from [off]. *)
Lemma select_spec : forall vs q rr, vs <> [] ->
  let off := (rr + 1) mod length vs in
  match select vs q rr with
  | (Some (v, t), q', i) =>
      exists l, i < length vs /\ nth_error vs i = Some v /\ q v = t :: l /\ q' = upd q v l /\
        (off <= i -> forall k u, off <= k < i -> nth_error vs k = Some u -> q u = []) /\
        (i < off -> forall k u, (off <= k \/ k < i) -> nth_error vs k = Some u -> q u = [])
  | (None, q', i) => q' = q /\ i = rr /\ forall u, In u vs -> q u = []
  end.
Proof.
  intros vs q rr NE off. unfold select. destruct vs as [|v0 vs0]; [congruence|]. fold off. set (vs := v0 :: vs0) in *.
  assert (OFF : off < length vs) by (apply Nat.mod_upper_bound; discriminate).
  clearbody vs off.
  pose proof (firstn_skipn off vs) as SP.
  assert (LF : length (firstn off vs) = off) by (rewrite firstn_length; lia).
  pose proof (pop_first_spec (skipn off vs) q off) as P1.
  destruct (pop_first q (skipn off vs) off) as [[[[v t] i] q']|].
  - destruct P1 as (a & b & l & E & A & Q & -> & ->). exists l.
    assert (EV : vs = firstn off vs ++ a ++ v :: b) by (rewrite <- SP at 1; now rewrite E).
    assert (NTH : nth_error vs (off + length a) = Some v).
    { rewrite EV. rewrite nth_error_app2 by lia. rewrite LF. replace (off + length a - off) with (length a) by lia.
      rewrite nth_error_app2 by lia. now rewrite Nat.sub_diag. }
    repeat split; auto.
    + apply nth_error_Some. congruence.
    + intros _ k u K N. rewrite EV in N. rewrite nth_error_app2 in N by lia. rewrite LF in N.
      rewrite nth_error_app1 in N by lia. apply A. eapply nth_error_In; eauto.
    + lia.
  - pose proof (pop_first_spec (firstn off vs) q 0) as P2.
    destruct (pop_first q (firstn off vs) 0) as [[[[v t] i] q']|].
    + destruct P2 as (a & b & l & E & A & Q & -> & ->). exists l. cbn [plus].
      assert (EV : vs = (a ++ v :: b) ++ skipn off vs) by (rewrite <- E; now rewrite SP).
      assert (LA : length a < off).
      { rewrite <- LF, E, app_length. cbn. lia. }
      assert (NTH : nth_error vs (length a) = Some v).
      { rewrite EV, <- app_assoc. rewrite nth_error_app2 by lia. now rewrite Nat.sub_diag. }
      repeat split; auto.
      * lia.
      * lia.
      * intros _ k u K N. destruct K as [K|K].
        -- apply P1. rewrite <- SP, nth_error_app2 in N by lia. eapply nth_error_In; eauto.
        -- apply A. rewrite EV, <- app_assoc, nth_error_app1 in N by lia. eapply nth_error_In; eauto.
    + repeat split; auto. intros u I. rewrite <- SP in I. apply in_app_or in I. destruct I; auto.
Qed.

(** C40, work conserving: a selection finds a task exactly when some assigned
    queue has one. *)
Theorem C40_work_conserving : forall vs q rr,
  (exists v, In v vs /\ q v <> []) <-> (exists r, fst (fst (select vs q rr)) = Some r).
Proof.
  intros vs q rr. destruct vs as [|v0 vs0].
  - cbn. split; [intros (v & [] & _)|intros (r & H); discriminate].
  - pose proof (select_spec (v0 :: vs0) q rr ltac:(discriminate)) as S. cbv zeta in S.
    destruct (select (v0 :: vs0) q rr) as [[[[v t]|] q'] i]; cbn [fst].
    + destruct S as (l & _ & N & Q & _). split; [eauto|]. intros _. exists v. split; [eapply nth_error_In; eauto|]. rewrite Q. discriminate.
    + destruct S as (_ & _ & E). split; [|intros (r & H); discriminate]. intros (v & I & Q). now rewrite E in Q.
Qed.

(** C40, only heads: a selection takes the oldest task of one assigned queue and
    leaves everything else alone. *)
Theorem C40_takes_one_head : forall vs q rr r q' rr', select vs q rr = (r, q', rr') ->
  match r with
  | None => q' = q
  | Some (v, t) => In v vs /\ q v = t :: q' v /\ (forall u, u <> v -> q' u = q u)
  end.
Proof.
  intros vs q rr r q' rr' E. destruct vs as [|v0 vs0]; [cbn in E; now injection E as <- <- <-|].
  pose proof (select_spec (v0 :: vs0) q rr ltac:(discriminate)) as S. cbv zeta in S. rewrite E in S.
  destruct r as [[v t]|]; [|apply S]. destruct S as (l & _ & N & Q & -> & _). split; [eapply nth_error_In; eauto|].
  unfold upd. rewrite Nat.eqb_refl. split; [assumption|]. intros u NU. apply Nat.eqb_neq in NU. now rewrite NU.
Qed.

(** Rounds: between selections clients append tasks.  [svs k] is the snapshot of
    round [k]; results in order. *)
Definition arrive (q q' : queues) : Prop := forall v, exists l, q' v = q v ++ l.

Inductive rounds : list (list nat) -> queues -> nat -> list (option (nat * task)) -> queues -> nat -> Prop :=
| r_nil : forall q rr, rounds [] q rr [] q rr
| r_cons : forall vs svs q q1 rr r q2 rr2 rs q3 rr3, arrive q q1 -> select vs q1 rr = (r, q2, rr2) ->
    rounds svs q2 rr2 rs q3 rr3 -> rounds (vs :: svs) q rr (r :: rs) q3 rr3.

(** Steps from [s] to [i] going round a circle of [n]. *)
Definition dist (n s i : nat) : nat := if s <=? i then i - s else i + n - s.

Lemma dist_lt : forall n s i, s < n -> i < n -> dist n s i < n.
Proof. intros. unfold dist. destruct (Nat.leb_spec s i); lia. Qed.

Lemma next_off : forall n i, i < n -> (i + 1) mod n = if i + 1 =? n then 0 else i + 1.
Proof.
  intros n i L. destruct (Nat.eqb_spec (i + 1) n) as [->|N]; [apply Nat.mod_same; lia|apply Nat.mod_small; lia].
Qed.

Lemma served_within : forall d vs v i t q rr svs rs q' rr', NoDup vs -> nth_error vs i = Some v ->
  dist (length vs) ((rr + 1) mod length vs) i <= d -> (exists l, q v = t :: l) ->
  rounds svs q rr rs q' rr' -> Forall (eq vs) svs -> d < length svs ->
  exists k, k <= d /\ nth_error rs k = Some (Some (v, t)).
Proof.
  induction d as [d IH] using lt_wf_ind. intros vs v i t q rr svs rs q' rr' ND NV D [l Q] R F L.
  destruct R as [|vs1 svs q q1 rr r q2 rr2 rs q3 rr3 A S R]; [cbn in L; lia|].
  inversion F as [|? ? E F']; subst. clear F.
  assert (Q1 : exists l1, q1 v = t :: l1) by (destruct (A v) as [x ->]; rewrite Q; cbn; eauto). destruct Q1 as [l1 Q1].
  assert (NE : vs1 <> []) by (intros ->; destruct i; discriminate).
  assert (IL : i < length vs1) by (apply nth_error_Some; congruence).
  pose proof (select_spec vs1 q1 rr NE) as SS. cbv zeta in SS. rewrite S in SS.
  set (off := (rr + 1) mod length vs1) in *.
  assert (OFF : off < length vs1) by (apply Nat.mod_upper_bound; lia).
  destruct r as [[u t']|].
  2:{ destruct SS as (_ & _ & E). rewrite E in Q1 by (eapply nth_error_In; eauto). discriminate. }
  destruct SS as (l2 & RL & NU & QU & -> & H1 & H2).
  destruct (Nat.eq_dec rr2 i) as [->|NI].
  - assert (u = v) by congruence. subst u. assert (t' = t) by congruence. subst t'. exists 0. split; [lia|reflexivity].
  - assert (UV : u <> v).
    { intros ->. apply NI. rewrite NoDup_nth_error in ND. apply ND; [assumption|congruence]. }
    (* the chosen position is strictly before i in cyclic order from off *)
    assert (B : dist (length vs1) ((rr2 + 1) mod length vs1) i < dist (length vs1) off i).
    { rewrite next_off by assumption. unfold dist.
      destruct (Nat.le_gt_cases off rr2) as [C|C].
      - assert (NB : ~ (off <= i < rr2)).
        { intros X. rewrite (H1 C i v) in Q1 by (auto; lia). discriminate. }
        destruct (Nat.eqb_spec (rr2 + 1) (length vs1)); destruct (Nat.leb_spec off i);
          repeat match goal with |- context [?a <=? ?b] => destruct (Nat.leb_spec a b) end; lia.
      - assert (NB : ~ (off <= i \/ i < rr2)).
        { intros X. rewrite (H2 C i v) in Q1 by auto. discriminate. }
        destruct (Nat.eqb_spec (rr2 + 1) (length vs1)); destruct (Nat.leb_spec off i);
          repeat match goal with |- context [?a <=? ?b] => destruct (Nat.leb_spec a b) end; lia. }
    destruct d as [|d]; [lia|].
    destruct (IH d ltac:(lia) vs1 v i t (upd q1 u l2) rr2 svs rs q3 rr3) as (k & K & NK); auto.
    + lia.
    + exists l1. unfold upd. assert (X : (v =? u) = false) by (apply Nat.eqb_neq; congruence). rewrite X. assumption.
    + cbn in L. lia.
    + exists (Datatypes.S k). split; [lia|assumption].
Qed.

(** C40, bounded waiting: while the set of assigned virtual accelerators does not
    change, the oldest task of a virtual accelerator is taken within as many
    selections as there are assigned virtual accelerators, whatever arrives. *)
Theorem C40_bounded_wait_partial : forall vs v t l q rr svs rs q' rr', NoDup vs -> In v vs -> q v = t :: l ->
  rounds svs q rr rs q' rr' -> svs = repeat vs (length vs) ->
  exists k, k < length vs /\ nth_error rs k = Some (Some (v, t)).
Proof.
  intros vs v t l q rr svs rs q' rr' ND I Q R ->. apply In_nth_error in I. destruct I as [i NI].
  assert (IL : i < length vs) by (apply nth_error_Some; congruence).
  assert (OFF : (rr + 1) mod length vs < length vs) by (apply Nat.mod_upper_bound; lia).
  destruct (served_within (length vs - 1) vs v i t q rr (repeat vs (length vs)) rs q' rr') as (k & K & NK); auto.
  - pose proof (dist_lt (length vs) _ i OFF IL). lia.
  - eauto.
  - apply Forall_forall. intros x X. symmetry. eapply repeat_spec; eauto.
  - rewrite repeat_length. lia.
  - exists k. split; [lia|assumption].
Qed.

(** C40 refuted when the set changes: rr_counter is a position, and positions
    shift.  Virtual accelerators 1 and 2 always have work; a third one, always
    empty, is assigned before every second selection and taken away again (a
    client that creates and releases one).  Virtual accelerator 2 is never
    served, for as long as this goes on. *)
Fixpoint churn (n : nat) : list (list nat) :=
  match n with O => [] | S n' => [3; 1; 2] :: [1; 2] :: churn n' end.

Definition busy_q (t1 : task) : queues := fun v => if v =? 1 then [t1] else if v =? 2 then [7] else [].

Theorem C40_churn_starves_refuted : forall n, exists rs q' rr',
  rounds (churn n) (fun v => if v =? 2 then [7] else []) 0 rs q' rr' /\ length rs = 2 * n /\
  (forall r, In r rs -> r = Some (1, 5)) /\ q' 2 = [7].
Proof.
  assert (AR : forall q : queues, (forall v, q v = if v =? 2 then [7] else []) -> arrive q (busy_q 5)).
  { intros q E v. exists (if v =? 1 then [5] else []). rewrite E. unfold busy_q.
    destruct (Nat.eqb_spec v 1) as [->|]; [reflexivity|]. destruct (v =? 2); reflexivity. }
  assert (G : forall n q, (forall v, q v = if v =? 2 then [7] else []) -> exists rs q' rr',
    rounds (churn n) q 0 rs q' rr' /\ length rs = 2 * n /\ (forall r, In r rs -> r = Some (1, 5)) /\ q' 2 = [7]).
  { induction n as [|n IH]; intros q E.
    - exists [], q, 0. repeat split; [constructor|intros r []|]. now rewrite E.
    - set (q1 := upd (busy_q 5) 1 []).
      assert (E1 : forall v, q1 v = if v =? 2 then [7] else []).
      { intros v. unfold q1, upd, busy_q. destruct (Nat.eqb_spec v 1) as [->|]; [reflexivity|]. destruct (v =? 2); reflexivity. }
      destruct (IH q1 E1) as (rs & q' & rr' & R & LR & IR & Q2).
      exists (Some (1, 5) :: Some (1, 5) :: rs), q', rr'. split; [|split; [|split; [|assumption]]].
      + cbn [churn]. eapply r_cons with (q1 := busy_q 5) (q2 := q1) (rr2 := 1); [now apply AR|reflexivity|].
        eapply r_cons with (q1 := busy_q 5) (q2 := q1) (rr2 := 0); [now apply AR|reflexivity|]. exact R.
      + cbn. lia.
      + intros r [<-|[<-|H]]; auto. }
  intros n. apply G. reflexivity.
Qed.

(** A concrete case of the bounded wait: four accelerators, the one just served is
    asked for again. *)
Example C40_example : exists rs q' rr', rounds (repeat [4; 3; 2; 1] 4) (fun v => [v; v + 10]) 2 rs q' rr' /\
  rs = [Some (1, 1); Some (4, 4); Some (3, 3); Some (2, 2)] /\ NoDup [4; 3; 2; 1].
Proof.
  do 3 eexists. split; [|split].
  - cbn [repeat length]. eapply r_cons; [intros v; exists []; symmetry; apply app_nil_r|reflexivity|].
    eapply r_cons; [intros v; exists []; symmetry; apply app_nil_r|reflexivity|].
    eapply r_cons; [intros v; exists []; symmetry; apply app_nil_r|reflexivity|].
    eapply r_cons; [intros v; exists []; symmetry; apply app_nil_r|reflexivity|]. apply r_nil.
  - reflexivity.
  - repeat constructor; cbn; intuition discriminate.
Qed.

(* ------------------------------------------------------------------ *)
(** ** Heterogeneous *)

(** checkForRunnableTask. *)
(** controller/src/Schedulers/HeterogeneousScheduler.cpp:12-48. *)
Inductive state := RT | T | NT.
(** controller/src/Schedulers/HeterogeneousScheduler.cpp:12-48. *)
Definition check (can_run : task -> bool) (q : queues) (v : nat) : state :=
  match q v with
  | [] => NT
  | t :: _ => if can_run t then RT else T
  end.

(** One of the two loops.  [orph]: virtual accelerators handed to the balancer
    (taken off this accelerator and put on the orphan list) so far. *)
(** controller/src/Schedulers/HeterogeneousScheduler.cpp:112-217. *)
Fixpoint het_loop (can_run : task -> bool) (q : queues) (vs : list nat) (idx : nat) (orph : list nat)
  : option (nat * task * nat * queues) * list nat :=
  match vs with
  | [] => (None, orph)
  | v :: vs' =>
      match check can_run q v with
      | RT => match q v with
              | t :: l => (Some (v, t, idx, upd q v l), orph)
              | [] => (None, orph)   (* arax_assert(task) *)
              end
      | T => het_loop can_run q vs' (S idx) (orph ++ [v])
      | NT => het_loop can_run q vs' (S idx) orph
      end
  end.

(** selectTask: the task taken and from where, the queues, the virtual accelerators
    handed to the balancer, rr_counter. *)
(** controller/src/Schedulers/HeterogeneousScheduler.cpp:112-217. *)
Definition het_select (can_run : task -> bool) (vs : list nat) (q : queues) (rr : nat)
  : option (nat * task) * queues * list nat * nat :=
  match vs with
  | [] => (None, q, [], rr)
  | _ :: _ =>
      let off := (rr + 1) mod length vs in
      match het_loop can_run q (skipn off vs) off [] with
      | (Some (v, t, i, q'), o) => (Some (v, t), q', o, i)
      | (None, o) => match het_loop can_run q (firstn off vs) 0 o with
                     | (Some (v, t, i, q'), o') => (Some (v, t), q', o', i)
                     | (None, o') => (None, q, o', rr)
                     end
      end
  end.

(** The oldest task of [v] cannot run here. *)
Definition blocked (can_run : task -> bool) (q : queues) (v : nat) : Prop := exists t l, q v = t :: l /\ can_run t = false.
Definition runnable (can_run : task -> bool) (q : queues) (v : nat) : Prop := exists t l, q v = t :: l /\ can_run t = true.

Lemma het_loop_spec : forall can_run vs q idx orph,
  match het_loop can_run q vs idx orph with
  | (Some (v, t, i, q'), o) => exists a b l m, vs = a ++ v :: b /\ q v = t :: l /\ q' = upd q v l /\ can_run t = true /\
      o = orph ++ m /\ (forall u, In u m <-> In u a /\ blocked can_run q u) /\ (forall u, In u a -> ~ runnable can_run q u)
  | (None, o) => exists m, o = orph ++ m /\ (forall u, In u m <-> In u vs /\ blocked can_run q u) /\
      (forall u, In u vs -> ~ runnable can_run q u)
  end.
Proof.
  intros can_run. induction vs as [|v vs IH]; intros q idx orph; cbn [het_loop].
  - exists []. rewrite app_nil_r. split; [reflexivity|]. split; [intros u; cbn; tauto|intros u []].
  - unfold check. destruct (q v) as [|t l] eqn:Q.
    + assert (NB : ~ blocked can_run q v) by (intros (t & l & E & _); congruence).
      assert (NR : ~ runnable can_run q v) by (intros (t & l & E & _); congruence).
      specialize (IH q (S idx) orph). destruct (het_loop can_run q vs (S idx) orph) as [[[[[v' t'] i] q']|] o].
      * destruct IH as (a & b & l & m & E & Q' & Qq & C & EO & M & N). exists (v :: a), b, l, m. rewrite E.
        repeat split; auto.
        -- apply M in H. right. apply H.
        -- apply M in H. apply H.
        -- intros [[<-|I] B]; [contradiction|]. apply M. auto.
        -- intros u [<-|I]; auto.
      * destruct IH as (m & EO & M & N). exists m. repeat split; auto.
        -- apply M in H. right. apply H.
        -- apply M in H. apply H.
        -- intros [[<-|I] B]; [contradiction|]. apply M. auto.
        -- intros u [<-|I]; auto.
    + destruct (can_run t) eqn:C.
      * exists [], vs, l, []. rewrite app_nil_r. repeat split; auto; try (intros u []); cbn in *; tauto.
      * assert (BL : blocked can_run q v) by (exists t, l; auto).
        assert (NR : ~ runnable can_run q v) by (intros (t' & l' & E & C'); congruence).
        specialize (IH q (S idx) (orph ++ [v])). destruct (het_loop can_run q vs (S idx) (orph ++ [v])) as [[[[[v' t'] i] q']|] o].
        -- destruct IH as (a & b & l' & m & E & Q' & Qq & C' & EO & M & N). exists (v :: a), b, l', (v :: m). rewrite E.
           repeat split; auto.
           ++ rewrite EO, <- app_assoc. reflexivity.
           ++ destruct H as [<-|I]; [now left|]. apply M in I. right. apply I.
           ++ destruct H as [<-|I]; [assumption|]. apply M in I. apply I.
           ++ intros [[<-|I] B]; [now left|]. right. apply M. auto.
           ++ intros u [<-|I]; auto.
        -- destruct IH as (m & EO & M & N). exists (v :: m). repeat split; auto.
           ++ rewrite EO, <- app_assoc. reflexivity.
           ++ destruct H as [<-|I]; [now left|]. apply M in I. right. apply I.
           ++ destruct H as [<-|I]; [assumption|]. apply M in I. apply I.
           ++ intros [[<-|I] B]; [now left|]. right. apply M. auto.
           ++ intros u [<-|I]; auto.
Qed.

Lemma het_select_spec : forall can_run vs q rr,
  match het_select can_run vs q rr with
  | (Some (v, t), q', o, i) => In v vs /\ can_run t = true /\ q v = t :: q' v /\ (forall u, u <> v -> q' u = q u) /\
      (forall u, In u o -> In u vs /\ blocked can_run q u)
  | (None, q', o, i) => q' = q /\ i = rr /\ (forall u, In u o <-> In u vs /\ blocked can_run q u) /\
      (forall u, In u vs -> ~ runnable can_run q u)
  end.
Proof.
  intros can_run vs q rr. unfold het_select. destruct vs as [|v0 vs0].
  { repeat split; auto; cbn in *; tauto. }
  set (vs := v0 :: vs0). set (off := (rr + 1) mod length vs). clearbody off.
  pose proof (firstn_skipn off vs) as SP.
  assert (IN1 : forall u, In u (skipn off vs) -> In u vs) by (intros; rewrite <- SP; apply in_or_app; auto).
  assert (IN2 : forall u, In u (firstn off vs) -> In u vs) by (intros; rewrite <- SP; apply in_or_app; auto).
  assert (UP : forall v t l, q v = t :: l -> q v = t :: upd q v l v /\ (forall u, u <> v -> upd q v l u = q u)).
  { intros v t l E. unfold upd. rewrite Nat.eqb_refl. split; [assumption|]. intros u N. apply Nat.eqb_neq in N. now rewrite N. }
  pose proof (het_loop_spec can_run (skipn off vs) q off []) as P1.
  destruct (het_loop can_run q (skipn off vs) off []) as [[[[[v t] i] q']|] o].
  - destruct P1 as (a & b & l & m & E & Q & -> & C & -> & M & N). destruct (UP v t l Q) as [U1 U2]. cbn [app].
    split; [apply IN1; rewrite E; apply in_or_app; right; now left|]. split; [assumption|]. split; [assumption|]. split; [assumption|].
    intros u I. apply M in I. destruct I as [I B]. split; [|assumption]. apply IN1. rewrite E. apply in_or_app. auto.
  - destruct P1 as (m & -> & M & N). cbn [app].
    pose proof (het_loop_spec can_run (firstn off vs) q 0 m) as P2.
    destruct (het_loop can_run q (firstn off vs) 0 m) as [[[[[v t] i] q']|] o].
    + destruct P2 as (a & b & l & m2 & E & Q & -> & C & -> & M2 & N2). destruct (UP v t l Q) as [U1 U2].
      split; [apply IN2; rewrite E; apply in_or_app; right; now left|]. split; [assumption|]. split; [assumption|]. split; [assumption|].
      intros u I. apply in_app_or in I. destruct I as [I|I].
      * apply M in I. split; [apply IN1|]; apply I.
      * apply M2 in I. destruct I as [I B]. split; [|assumption]. apply IN2. rewrite E. apply in_or_app. auto.
    + destruct P2 as (m2 & -> & M2 & N2). split; [reflexivity|]. split; [reflexivity|]. split.
      * intros u. rewrite in_app_iff, M, M2. rewrite <- SP at 3. rewrite in_app_iff. tauto.
      * intros u I. rewrite <- SP in I. apply in_app_or in I. destruct I; auto.
Qed.

(** C41: the task selected is the oldest of an assigned queue and runs on this
    device; all other queues are untouched; only virtual accelerators whose oldest
    task cannot run here are handed back to the balancer. *)
Theorem C41_supported_head : forall can_run vs q rr v t q' o rr', het_select can_run vs q rr = (Some (v, t), q', o, rr') ->
  In v vs /\ can_run t = true /\ q v = t :: q' v /\ (forall u, u <> v -> q' u = q u) /\
  (forall u, In u o -> In u vs /\ exists t' l, q u = t' :: l /\ can_run t' = false) /\ ~ In v o.
Proof.
  intros can_run vs q rr v t q' o rr' E. pose proof (het_select_spec can_run vs q rr) as S. rewrite E in S.
  destruct S as (I & C & Q & U & O). repeat (split; [assumption|]).
  intros X. apply O in X. destruct X as (_ & t' & l & Q' & C'). congruence.
Qed.

(** C41: no task is selected exactly when no assigned queue has a runnable oldest
    task; then nothing is taken, and all blocked virtual accelerators are handed back. *)
Theorem C41_none_runnable : forall can_run vs q rr,
  (fst (fst (fst (het_select can_run vs q rr))) = None <-> forall v, In v vs -> ~ exists t l, q v = t :: l /\ can_run t = true) /\
  (forall q' o rr', het_select can_run vs q rr = (None, q', o, rr') ->
     q' = q /\ forall v, In v o <-> In v vs /\ exists t l, q v = t :: l /\ can_run t = false).
Proof.
  intros can_run vs q rr. pose proof (het_select_spec can_run vs q rr) as S.
  destruct (het_select can_run vs q rr) as [[[[[v t]|] q'] o] i]; cbn [fst].
  - destruct S as (I & C & Q & _). split; [|discriminate]. split; [discriminate|]. intros H. exfalso. eapply H; eauto.
  - destruct S as (E & _ & M & N). split.
    + split; [intros _; exact N|reflexivity].
    + intros q2 o2 rr2 X. injection X as <- <- <-. split; [assumption|exact M].
Qed.

(** All devices together: submissions append to a queue, a device selects with its
    own kernel table from any snapshot, executed tasks are logged (device, virtual
    accelerator, task), newest last. *)
(** Devices (accelThread.cpp:293-474) around selectTask; [log] and [sub] are ghosts. *)
Record sys := mksys { sq : queues; log : list (nat * nat * task); sub : queues; ctr : nat -> nat }.
(** Before the first task; no code of its own. *)
Definition sys0 : sys := mksys (fun _ => []) [] (fun _ => []) (fun _ => 0).

(** A client appends (arax_vaccel.c:32-39) or a device selects (HeterogeneousScheduler.cpp:112-217). *)
Inductive sys_step (can_run : nat -> task -> bool) : sys -> sys -> Prop :=
| y_submit : forall s v t, sys_step can_run s
    (mksys (upd (sq s) v (sq s v ++ [t])) (log s) (upd (sub s) v (sub s v ++ [t])) (ctr s))
| y_take : forall s d vs v t q' o i, het_select (can_run d) vs (sq s) (ctr s d) = (Some (v, t), q', o, i) ->
    sys_step can_run s (mksys q' (log s ++ [(d, v, t)]) (sub s) (upd (ctr s) d i))
| y_none : forall s d vs q' o i, het_select (can_run d) vs (sq s) (ctr s d) = (None, q', o, i) ->
    sys_step can_run s (mksys q' (log s) (sub s) (upd (ctr s) d i)).

Inductive sys_reach (can_run : nat -> task -> bool) : sys -> Prop :=
| y_init : sys_reach can_run sys0
| y_next : forall s s', sys_reach can_run s -> sys_step can_run s s' -> sys_reach can_run s'.

(** What was executed from [v], in order. *)
Definition executed (v : nat) (lg : list (nat * nat * task)) : list task :=
  map snd (filter (fun e => snd (fst e) =? v) lg).

(** C41: over any history, on any number of devices, the tasks of a virtual
    accelerator are executed in the order of submission, none lost, none twice, and
    every one on a device that supports it. *)
Theorem C41_in_order_supported : forall can_run s, sys_reach can_run s ->
  (forall v, sub s v = executed v (log s) ++ sq s v) /\ (forall d v t, In (d, v, t) (log s) -> can_run d t = true).
Proof.
  intros can_run s R. induction R as [|s s' R [IS IL] ST]; [split; [reflexivity|intros ? ? ? []]|].
  destruct ST as [s v t|s d vs v t q' o i E|s d vs q' o i E]; cbn [sub log sq].
  - split; [|assumption]. intros u. unfold upd. destruct (Nat.eqb_spec u v) as [->|]; [|apply IS].
    rewrite IS, app_assoc. reflexivity.
  - apply C41_supported_head in E. destruct E as (_ & C & Q & U & _). split.
    + intros u. unfold executed. rewrite filter_app, map_app. cbn [filter snd fst].
      fold (executed u (log s)). rewrite IS. destruct (Nat.eqb_spec v u) as [->|N].
      * rewrite Q. cbn. now rewrite <- app_assoc.
      * rewrite U by congruence. cbn. now rewrite app_nil_r.
    + intros d' v' t' I. apply in_app_or in I. destruct I as [I|[I|[]]]; [eauto|]. injection I as <- <- <-. assumption.
  - apply C41_none_runnable in E. destruct E as [-> _]. split; assumption.
Qed.

(** A concrete selection: from accelerator 1 on, 2 is blocked (handed back), 3 is
    empty, 1 has a runnable task. *)
Example C41_example :
  het_select (fun t => t <? 10) [1; 2; 3] (fun v => if v =? 1 then [4; 20] else if v =? 2 then [30; 5] else []) 0 =
  (Some (1, 4), upd (fun v => if v =? 1 then [4; 20] else if v =? 2 then [30; 5] else []) 1 [20], [2], 0).
Proof. reflexivity. Qed.

(** ** Which one is taken *)

(** The queues as this device sees them: one whose oldest task it cannot run looks empty.  Specification, no code of its own. *)
Definition seen (can_run : task -> bool) (q : queues) : queues :=
  fun v => match q v with t :: l => if can_run t then t :: l else [] | [] => [] end.

Lemma het_loop_seen : forall can_run q vs idx orph,
  option_map fst (fst (het_loop can_run q vs idx orph)) = option_map fst (pop_first (seen can_run q) vs idx).
Proof.
  intros can_run q. induction vs as [|v vs IH]; intros idx orph; [reflexivity|]. cbn [het_loop pop_first].
  unfold check, seen at 1. destruct (q v) as [|t l] eqn:Q; [apply IH|]. destruct (can_run t); [|apply IH]. reflexivity.
Qed.

(** C41, no favourites: the task taken is the one plain round robin would take if the queues whose oldest task cannot run
    here were empty, and the next selection starts where round robin would start. *)
Theorem C41_in_turn : forall can_run vs q rr r q' o i, het_select can_run vs q rr = (r, q', o, i) ->
  fst (fst (select vs (seen can_run q) rr)) = r /\ snd (select vs (seen can_run q) rr) = i.
Proof.
  intros can_run vs q rr r q' o i. unfold het_select, select. destruct vs as [|v0 vs0].
  { intros E. injection E as <- <- <- <-. split; reflexivity. }
  set (vs := v0 :: vs0). set (off := (rr + 1) mod length vs). cbv zeta.
  pose proof (het_loop_seen can_run q (skipn off vs) off []) as L1.
  destruct (het_loop can_run q (skipn off vs) off []) as [[[[[v t] j] qa]|] o1]; cbn [fst option_map] in L1;
    destruct (pop_first (seen can_run q) (skipn off vs) off) as [[[[v' t'] j'] qb]|]; cbn [fst option_map] in L1; try discriminate.
  - injection L1 as <- <- <-. intros E. injection E as <- <- <- <-. split; reflexivity.
  - pose proof (het_loop_seen can_run q (firstn off vs) 0 o1) as L2.
    destruct (het_loop can_run q (firstn off vs) 0 o1) as [[[[[v t] j] qa]|] o2]; cbn [fst option_map] in L2;
      destruct (pop_first (seen can_run q) (firstn off vs) 0) as [[[[v' t'] j'] qb]|]; cbn [fst option_map] in L2; try discriminate.
    + injection L2 as <- <- <-. intros E. injection E as <- <- <- <-. split; reflexivity.
    + intros E. injection E as <- <- <- <-. split; reflexivity.
Qed.

(** C41: on a device that can run every oldest task of its virtual accelerators the selection is plain round robin and
    nothing is handed back, so C40_bounded_wait_partial holds there. *)
Theorem C41_all_supported : forall can_run vs q rr, (forall v t l, In v vs -> q v = t :: l -> can_run t = true) ->
  forall r q' i, select vs q rr = (r, q', i) -> het_select can_run vs q rr = (r, q', [], i).
Proof.
  intros can_run vs q rr A r q' i. unfold het_select, select. destruct vs as [|v0 vs0].
  { intros E. injection E as <- <- <-. reflexivity. }
  set (vs := v0 :: vs0) in *. set (off := (rr + 1) mod length vs). cbv zeta.
  assert (G : forall us idx, (forall u, In u us -> In u vs) -> het_loop can_run q us idx [] = (pop_first q us idx, [])).
  { induction us as [|u us IH]; intros idx I; [reflexivity|]. cbn [het_loop pop_first]. unfold check.
    destruct (q u) as [|t l] eqn:Q; [apply IH; intros; apply I; now right|]. rewrite (A u t l (I u (or_introl eq_refl)) Q). reflexivity. }
  pose proof (firstn_skipn off vs) as SP.
  rewrite (G (skipn off vs)) by (intros u I; rewrite <- SP; apply in_or_app; now right).
  destruct (pop_first q (skipn off vs) off) as [[[[v t] j] qa]|].
  { intros E. injection E as <- <- <-. reflexivity. }
  rewrite (G (firstn off vs)) by (intros u I; rewrite <- SP; apply in_or_app; now left).
  destruct (pop_first q (firstn off vs) 0) as [[[[v t] j] qa]|]; intros E; injection E as <- <- <-; reflexivity.
Qed.

(** Three virtual accelerators, the device runs tasks below 10: it takes 1's task, then 3's, passing over 2. *)
Example C41_in_turn_example : exists q1 q2 o1 o2,
  het_select (fun t => t <? 10) [1; 2; 3] (fun v => if v =? 1 then [4; 5] else if v =? 2 then [30] else [6]) 2 = (Some (1, 4), q1, o1, 0) /\
  het_select (fun t => t <? 10) [1; 2; 3] q1 0 = (Some (3, 6), q2, o2, 2) /\ o1 = [] /\ o2 = [2].
Proof. eexists _, _, _, _. repeat split; reflexivity. Qed.
