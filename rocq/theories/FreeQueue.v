(** * Releasing the memory that buffers have on a device, and the worker that waits for itself (C75)

    Code modelled
    - [src/core/arax_data.c:74-92]                arax_data_set: a write nobody waits for; its task holds a reference to the buffer
    - [src/core/arax_data.c:373-403]              the destructor of a buffer with memory on a device issues the task "free" to the free queue of that device
    - [src/core/arax_vaccel.c:32-39]              arax_vaccel_add_task: tries again until the queue has room
    - [controller/src/Core/accelThread.cpp:364-443] workFunc: takes a task, allocates memory for its buffers, executes it, and drops its reference to it, by which the destructors run in the worker
    - [controller/src/Cuda/CUDABuiltins.cu:245-281] arax_data_set: the handler drops the task; [controller/src/Cuda/CUDABuiltins.cu:218-237] free: releases the memory
    - [controller/src/Schedulers/RoundRobinScheduler.cpp:28-57] selectTask
    - [src/core/arax_accel.c:22]                  the free queue is the first virtual accelerator of the device

    Simplified: one device and its worker; tasks are writes that nobody waits for (reads and kernels only keep buffers alive longer); a client that has to wait for room in the free queue does so before
    it drops its reference; one reference of the client to each buffer. *)
From Verif Require Import Base.
From Coq Require Import Lia.
Local Open Scope nat_scope.

(** ** The model *)
(** Writes that wait, in the order of issue, with the virtual accelerator they were issued to; the free queue; the references to a buffer; whether the client holds one; whether the buffer was ever made;
    whether it has memory on the device; the buffer whose destructor the worker executes, waiting for room in the free queue. *)
(** src/core/arax_data.h:36-51, src/core/arax_vaccel.h:22-41. *)
Record st := mks { pend : list (nat * nat); fq : list nat; refs : nat -> nat; held : nat -> bool; used : nat -> bool; dev : nat -> bool; wk : option nat }.
Definition init : st := mks [] [] (fun _ => 0) (fun _ => false) (fun _ => false) (fun _ => false) None.
(** [Init]: arax_data_init; [Set_]: arax_data_set; [Drop]: arax_data_free; [Take v]: the worker takes and executes a task of [v], 0 for the free queue; [Put]: the worker's push into the free queue. *)
(** src/core/arax_data.c:16-92, 325-332, controller/src/Core/accelThread.cpp:364-443. *)
Inductive event := Init (b : nat) | Set_ (v b : nat) | Drop (b : nat) | Take (v : nat) | Put.
(** The oldest write of [v] (utils_queue_pop, src/utils/queue.c:63-86). *)
Fixpoint pick (v : nat) (l : list (nat * nat)) : option (nat * list (nat * nat)) :=
  match l with
  | [] => None
  | (u, b) :: r => if u =? v then Some (b, r) else match pick v r with Some (x, r') => Some (x, (u, b) :: r') | None => None end end.
Definition of_vac (v : nat) (l : list (nat * nat)) : list (nat * nat) := filter (fun x => fst x =? v) l.
(** One event, with queues of [cap] entries; [None]: it cannot happen now (src lines as in [event]). *)
Definition step (cap : nat) (s : st) (e : event) : option st :=
  match e with
  | Init b => if used s b then None else Some (mks (pend s) (fq s) (fupd (refs s) b 1) (fupd (held s) b true) (fupd (used s) b true) (dev s) (wk s))
  | Set_ v b => if held s b && negb (v =? 0) && (length (of_vac v (pend s)) <? cap)
      then Some (mks (pend s ++ [(v, b)]) (fq s) (fupd (refs s) b (S (refs s b))) (held s) (used s) (dev s) (wk s)) else None
  | Drop b =>
      if held s b then
        let r := refs s b - 1 in
        if (r =? 0) && dev s b then
          if length (fq s) <? cap then Some (mks (pend s) (fq s ++ [b]) (fupd (refs s) b r) (fupd (held s) b false) (used s) (dev s) (wk s)) else None
        else Some (mks (pend s) (fq s) (fupd (refs s) b r) (fupd (held s) b false) (used s) (dev s) (wk s))
      else None
  | Take 0 => match wk s, fq s with None, b :: r => Some (mks (pend s) r (refs s) (held s) (used s) (fupd (dev s) b false) None) | _, _ => None end
  | Take v =>
      match wk s, pick v (pend s) with
      | None, Some (b, p) => let r := refs s b - 1 in Some (mks p (fq s) (fupd (refs s) b r) (held s) (used s) (fupd (dev s) b true) (if r =? 0 then Some b else None))
      | _, _ => None end
  | Put => match wk s with Some b => if length (fq s) <? cap then Some (mks (pend s) (fq s ++ [b]) (refs s) (held s) (used s) (dev s) None) else None | None => None end
  end.
(** Any history. *)
Fixpoint run (cap : nat) (s : st) (l : list event) : option st := match l with [] => Some s | e :: l' => match step cap s e with Some s' => run cap s' l' | None => None end end.
(** RoundRobinScheduler::selectTask, RoundRobinScheduler.cpp:28-57, with [n] virtual accelerators, after a task of [c]. *)
Definition nonempty (s : st) (v : nat) : bool := match v with 0 => match fq s with [] => false | _ => true end | _ => match pick v (pend s) with Some _ => true | None => false end end.
Definition select (n c : nat) (s : st) : option nat := find (nonempty s) (seq ((c + 1) mod n) (n - (c + 1) mod n) ++ seq 0 ((c + 1) mod n)).
(** Histories in which the worker takes what round robin selects ([c]: what it took last; RoundRobinScheduler.cpp:28-57). *)
Fixpoint round_robin (cap n c : nat) (s : st) (l : list event) : Prop :=
  match l with
  | [] => True
  | e :: l' => match e with Take v => select n c s = Some v | _ => True end /\
      match step cap s e with Some s' => round_robin cap n (match e with Take v => v | _ => c end) s' l' | None => False end end.

(** ** Specification *)
Definition reach (cap : nat) (s : st) : Prop := exists l, run cap init l = Some s.
(** The device has memory for at most [cap] buffers at a time. *)
Definition fits (cap : nat) (s : st) : Prop := forall l, NoDup l -> (forall b, In b l -> dev s b = true) -> length l <= cap.
(** A buffer whose release is on its way: queued, or waiting to be queued by the worker. *)
Definition releasing (s : st) : list nat := fq s ++ match wk s with Some b => [b] | None => [] end.

(** ** Proofs *)
Definition writes (b : nat) (l : list (nat * nat)) : nat := length (filter (fun x => snd x =? b) l).
Lemma writes_app b l l' : writes b (l ++ l') = writes b l + writes b l'.
Proof. unfold writes. now rewrite filter_app, app_length. Qed.
Lemma pick_writes v l b p x : pick v l = Some (b, p) -> writes x l = writes x p + (if b =? x then 1 else 0).
Proof.
  revert b p. induction l as [|[u y] l IH]; intros b p; simpl; [discriminate|]. destruct (u =? v).
  - intros E. injection E as -> ->. unfold writes. simpl. destruct (b =? x); simpl; lia.
  - destruct (pick v l) as [[z r]|] eqn:P; [|discriminate]. intros E. injection E as -> <-. specialize (IH _ _ eq_refl). unfold writes in *. simpl. destruct (y =? x); simpl; lia.
Qed.
Record inv (s : st) : Prop := mkinv {
  i_refs : forall b, refs s b = (if held s b then 1 else 0) + writes b (pend s);
  i_new : forall b, used s b = false -> held s b = false /\ writes b (pend s) = 0 /\ dev s b = false;
  i_rel : forall b, In b (releasing s) <-> (refs s b = 0 /\ dev s b = true);
  i_once : NoDup (releasing s) }.
Lemma inv_init : inv init.
Proof. split; simpl; auto; [intros b; split; [tauto|intros [_ H]; discriminate]|constructor]. Qed.
Lemma NoDup_snoc (l : list nat) x : NoDup l -> ~ In x l -> NoDup (l ++ [x]).
Proof.
  induction 1 as [|y l N ND IH]; simpl; intros H; [repeat constructor; auto|]. constructor; [|apply IH; tauto].
  intros Y. apply in_app_or in Y as [Y|[<-|[]]]; tauto.
Qed.
Lemma NoDup_ins (l m : list nat) x : NoDup (l ++ m) -> ~ In x (l ++ m) -> NoDup ((l ++ [x]) ++ m).
Proof.
  intros A B. rewrite <- app_assoc. simpl. induction l as [|y l IH]; simpl in *; [constructor; auto|]. inversion A as [|? ? N1 N2]; subst.
  constructor; [|apply IH; auto]. intros X. apply N1. apply in_app_or in X as [X|[X|X]]; [apply in_or_app; auto|subst; exfalso; tauto|apply in_or_app; auto].
Qed.
Lemma inv_step cap s e s' : inv s -> step cap s e = Some s' -> inv s'.
Proof.
  intros I E. destruct e as [b|v b|b|v|]; simpl in E.
  - destruct (used s b) eqn:U; [discriminate|]. injection E as <-. destruct (i_new _ I b U) as (H1 & H2 & H3).
    assert (Rb : refs s b = 0) by (rewrite (i_refs _ I), H1, H2; reflexivity).
    split; cbn [pend fq refs held used dev wk]; unfold releasing; cbn [fq wk].
    + intros x. unfold fupd. destruct (Nat.eqb_spec x b) as [->|N]; [now rewrite H2|apply I].
    + intros x. unfold fupd. destruct (Nat.eqb_spec x b) as [->|N]; [discriminate|apply I].
    + intros x. fold (releasing s). rewrite (i_rel _ I). unfold fupd. destruct (Nat.eqb_spec x b) as [->|N]; [|tauto]. rewrite H3. intuition discriminate.
    + apply I.
  - destruct (held s b && negb (v =? 0) && (length (of_vac v (pend s)) <? cap)) eqn:C; [|discriminate]. injection E as <-. apply Bool.andb_true_iff in C as [C _]. apply Bool.andb_true_iff in C as [C _].
    pose proof (i_refs _ I b) as Rb. rewrite C in Rb.
    assert (W : forall x, writes x (pend s ++ [(v, b)]) = writes x (pend s) + if b =? x then 1 else 0) by (intros x; rewrite writes_app; unfold writes; simpl; destruct (b =? x); reflexivity).
    split; cbn [pend fq refs held used dev wk]; unfold releasing; cbn [fq wk].
    + intros x. rewrite W. unfold fupd. destruct (Nat.eqb_spec x b) as [->|N]; [rewrite Nat.eqb_refl, C; lia|]. rewrite (i_refs _ I x). destruct (Nat.eqb_spec b x); [congruence|lia].
    + intros x X. destruct (i_new _ I x X) as (A1 & A2 & A3). rewrite W. destruct (Nat.eqb_spec b x); [subst; congruence|]. rewrite A2. auto.
    + intros x. fold (releasing s). rewrite (i_rel _ I). unfold fupd. destruct (Nat.eqb_spec x b) as [->|N]; [|tauto]. lia.
    + apply I.
  - destruct (held s b) eqn:H; [|discriminate]. pose proof (i_refs _ I b) as Rb. rewrite H in Rb.
    assert (Nb : ~ In b (releasing s)) by (rewrite (i_rel _ I); lia).
    assert (Ub : used s b = true) by (destruct (used s b) eqn:U; auto; destruct (i_new _ I b U); congruence).
    assert (Common : forall f, (forall x, In x (f ++ match wk s with Some b => [b] | None => [] end) <-> In x (releasing s) \/ (x = b /\ refs s b - 1 = 0 /\ dev s b = true)) ->
      NoDup (f ++ match wk s with Some b => [b] | None => [] end) -> inv (mks (pend s) f (fupd (refs s) b (refs s b - 1)) (fupd (held s) b false) (used s) (dev s) (wk s))).
    { intros f F1 F2. split; cbn [pend fq refs held used dev wk]; unfold releasing; cbn [fq wk].
      - intros x. unfold fupd. destruct (Nat.eqb_spec x b) as [->|N]; [lia|apply I].
      - intros x X. destruct (i_new _ I x X) as (A1 & A2 & A3). rewrite fupd_ne by congruence. auto.
      - intros x. rewrite F1, (i_rel _ I). unfold fupd. destruct (Nat.eqb_spec x b) as [->|N]; [lia|tauto].
      - exact F2. }
    destruct ((refs s b - 1 =? 0) && dev s b) eqn:C.
    + destruct (length (fq s) <? cap); [|discriminate]. injection E as <-. apply Bool.andb_true_iff in C as [C1 C2]. apply Nat.eqb_eq in C1. apply Common.
      * intros x. unfold releasing. rewrite <- app_assoc. rewrite !in_app_iff. simpl. intuition.
      * apply NoDup_ins; [apply I|exact Nb].
    + injection E as <-. apply Common; [|apply I]. intros x. fold (releasing s). split; auto. intros [X|(-> & X & Y)]; auto. rewrite X, Y in C. discriminate.
  - destruct v as [|v].
    + destruct (wk s) eqn:W; [discriminate|]. destruct (fq s) as [|b r] eqn:F; [discriminate|]. injection E as <-. pose proof (i_once _ I) as ND. pose proof (i_rel _ I) as RL. unfold releasing in *. rewrite F, W in *.
      rewrite app_nil_r in *. inversion ND as [|? ? N1 N2]; subst.
      split; cbn [pend fq refs held used dev wk]; unfold releasing; cbn [fq wk]; try rewrite app_nil_r; auto; try apply I.
      * intros x X. destruct (i_new _ I x X) as (A1 & A2 & A3). unfold fupd. destruct (x =? b); auto.
      * intros x. unfold fupd. destruct (Nat.eqb_spec x b) as [->|N]; [split; [tauto|intros [_ ?]; discriminate]|]. rewrite <- RL. simpl. intuition. congruence.
    + destruct (wk s) eqn:W; [discriminate|]. destruct (pick (S v) (pend s)) as [[b p]|] eqn:P; [|discriminate]. injection E as <-.
      pose proof (fun x => pick_writes _ _ _ _ x P) as WR. pose proof (i_refs _ I b) as Rb. rewrite (WR b), Nat.eqb_refl in Rb.
      pose proof (i_rel _ I) as RL. unfold releasing in RL. rewrite W, app_nil_r in RL. assert (Nb : ~ In b (fq s)) by (rewrite RL; lia).
      pose proof (i_once _ I) as ND. unfold releasing in ND. rewrite W, app_nil_r in ND.
      assert (Ub : used s b = true). { destruct (used s b) eqn:U; auto. destruct (i_new _ I b U) as (_ & A & _). rewrite (WR b), Nat.eqb_refl in A. lia. }
      split; cbn [pend fq refs held used dev wk]; unfold releasing; cbn [fq wk].
      * intros x. unfold fupd. destruct (Nat.eqb_spec x b) as [->|N]; [lia|]. rewrite (i_refs _ I x), (WR x). destruct (Nat.eqb_spec b x); [congruence|lia].
      * intros x X. destruct (i_new _ I x X) as (A1 & A2 & A3). rewrite (WR x) in A2. rewrite fupd_ne by congruence. split; auto. split; auto. lia.
      * intros x. unfold fupd. destruct (Nat.eqb_spec x b) as [->|N].
        -- destruct (Nat.eqb_spec (refs s b - 1) 0) as [Z|Z]; rewrite in_app_iff; simpl; intuition.
        -- rewrite <- RL. destruct (refs s b - 1 =? 0); rewrite in_app_iff; simpl; intuition. congruence.
      * destruct (refs s b - 1 =? 0); [now apply NoDup_snoc|now rewrite app_nil_r].
  - destruct (wk s) as [b|] eqn:W; [|discriminate]. destruct (length (fq s) <? cap); [|discriminate]. injection E as <-.
    pose proof (i_rel _ I) as RL. pose proof (i_once _ I) as ND. unfold releasing in *. rewrite W in *.
    split; cbn [pend fq refs held used dev wk]; unfold releasing; cbn [fq wk]; rewrite ?app_nil_r; auto; apply I.
Qed.
Lemma inv_run cap l : forall s s', inv s -> run cap s l = Some s' -> inv s'.
Proof. induction l as [|e l IH]; intros s s' I R; simpl in R; [now injection R as <-|]. destruct (step cap s e) as [s1|] eqn:E; try discriminate. apply (IH s1); auto. apply (inv_step cap s e); auto. Qed.
Lemma reach_inv cap s : reach cap s -> inv s.
Proof. intros [l R]. apply (inv_run cap l init); auto. apply inv_init. Qed.

(** ** Theorems *)
(** A buffer's memory on the device is on its way to be released exactly if nobody references the buffer any more and it has such memory, and once only. *)
Theorem C75_released_once cap s : reach cap s -> NoDup (releasing s) /\ forall b, In b (releasing s) <-> (refs s b = 0 /\ dev s b = true).
Proof. intros R. destruct (reach_inv cap s R) as [A B C D]. auto. Qed.
(** If the device never has more buffers in its memory than the free queue has entries, a worker that releases a buffer finds room, whatever the scheduler selects. *)
Theorem C75_room cap s b : reach cap s -> fits cap s -> wk s = Some b -> exists s', step cap s Put = Some s'.
Proof.
  intros R F W. destruct (C75_released_once cap s R) as [ND RL]. specialize (F (releasing s) ND ltac:(intros x X; now apply RL in X)). unfold releasing in F. rewrite W, app_length in F. simpl in F.
  unfold step. rewrite W. assert (L : length (fq s) < cap) by lia. apply Nat.ltb_lt in L. rewrite L. eauto.
Qed.
(** A worker that finds the free queue full as it releases a buffer waits for ever: only it takes tasks from there. *)
Theorem C75_waits_for_itself_refuted cap s b l s' : wk s = Some b -> cap <= length (fq s) -> run cap s l = Some s' -> wk s' = Some b /\ fq s' = fq s /\ forall v, ~ In (Take v) l.
Proof.
  revert s. induction l as [|e l IH]; intros s W C R; simpl in R; [injection R as <-; auto|]. destruct (step cap s e) as [s1|] eqn:E; [|discriminate].
  assert (C' : length (fq s) <? cap = false) by (apply Nat.ltb_ge; auto).
  assert (G : wk s1 = Some b /\ fq s1 = fq s /\ forall v, e <> Take v).
  { destruct e as [x|v x|x|v|]; simpl in E.
    - destruct (used s x); [discriminate|]. injection E as <-. repeat split; auto; discriminate.
    - destruct (held s x && negb (v =? 0) && (length (of_vac v (pend s)) <? cap)); [|discriminate]. injection E as <-. repeat split; auto; discriminate.
    - destruct (held s x); [|discriminate]. rewrite C' in E. destruct ((refs s x - 1 =? 0) && dev s x); [discriminate|]. injection E as <-. repeat split; auto; discriminate.
    - destruct v; rewrite W in E; discriminate.
    - rewrite W, C' in E. discriminate. }
  destruct G as (G1 & G2 & G3). destruct (IH s1 G1 ltac:(rewrite G2; auto) R) as (A & B & D). split; auto. split; [congruence|]. intros v [X|X]; [now apply (G3 v)|now apply (D v)].
Qed.
(** It comes to that with round robin, whatever the size of the queues, if two virtual accelerators write to buffers and drop them: two buffers are released for every one the worker takes from the free
    queue. *)
Definition round (b c : nat) : list event := [Init b; Set_ 1 b; Drop b; Init c; Set_ 2 c; Drop c; Take 1; Put; Take 2].
Definition quiet (n : nat) (s : st) : Prop := pend s = [] /\ wk s = None /\ forall b, n <= b -> used s b = false /\ refs s b = 0 /\ held s b = false /\ dev s b = false.
Lemma round_run cap n s : quiet n s -> S (length (fq s)) <= cap -> exists s', run cap s (round n (S n)) = Some s' /\ round_robin cap 3 0 s (round n (S n)) /\
  pend s' = [] /\ wk s' = Some (S n) /\ fq s' = fq s ++ [n] /\ forall b, S (S n) <= b -> used s' b = false /\ refs s' b = 0 /\ held s' b = false /\ dev s' b = false.
Proof.
  intros (P & W & Q) L. destruct s as [pe f re he us de w]. simpl in P, W. subst pe w. cbn [fq used refs held dev] in *.
  destruct (Q n ltac:(lia)) as (A1 & A2 & A3 & A4). destruct (Q (S n) ltac:(lia)) as (B1 & B2 & B3 & B4).
  assert (N1 : (S n =? n) = false) by (apply Nat.eqb_neq; lia). assert (N2 : (n =? S n) = false) by (apply Nat.eqb_neq; lia).
  assert (L0 : (0 <? cap) = true) by (apply Nat.ltb_lt; lia). assert (L1 : (length f <? cap) = true) by (apply Nat.ltb_lt; lia).
  assert (F : forall X (g : nat -> X) a x, fupd g a x a = x) by (intros; apply fupd_eq).
  assert (F1 : forall X (g : nat -> X) x, fupd g n x (S n) = g (S n)) by (intros; apply fupd_ne; lia).
  assert (F2 : forall X (g : nat -> X) x, fupd g (S n) x n = g n) by (intros; apply fupd_ne; lia).
  eexists. split; [|split; [|split; [|split; [|split]]]].
  - unfold round. cbn [run step used held refs dev pend fq wk of_vac filter length app pick fst snd].
    rewrite A1. cbn [run step used held refs dev pend fq wk of_vac filter length app pick fst snd]. rewrite ?F. cbn [negb andb Nat.eqb of_vac filter length]. rewrite L0.
    cbn [run step used held refs dev pend fq wk of_vac filter length app pick fst snd]. rewrite ?F. cbn [Nat.sub Nat.eqb andb].
    cbn [run step used held refs dev pend fq wk of_vac filter length app pick fst snd]. rewrite ?F1, B1.
    cbn [run step used held refs dev pend fq wk of_vac filter length app pick fst snd]. rewrite ?F. cbn [negb andb Nat.eqb of_vac filter fst length]. rewrite L0.
    cbn [run step used held refs dev pend fq wk of_vac filter length app pick fst snd]. rewrite ?F. cbn [Nat.sub Nat.eqb andb].
    cbn [run step used held refs dev pend fq wk of_vac filter length app pick fst snd Nat.eqb]. rewrite ?F2, ?F. cbn [Nat.sub Nat.eqb].
    cbn [run step used held refs dev pend fq wk of_vac filter length app pick fst snd Nat.eqb]. rewrite L1.
    cbn [run step used held refs dev pend fq wk of_vac filter length app pick fst snd Nat.eqb]. rewrite ?F1, ?F. cbn [Nat.sub Nat.eqb]. reflexivity.
  - unfold round. cbn [round_robin step used held refs dev pend fq wk of_vac filter length app pick fst snd].
    rewrite A1. cbn [round_robin step used held refs dev pend fq wk of_vac filter length app pick fst snd]. rewrite ?F. cbn [negb andb Nat.eqb of_vac filter length]. rewrite L0.
    cbn [round_robin step used held refs dev pend fq wk of_vac filter length app pick fst snd]. rewrite ?F. cbn [Nat.sub Nat.eqb andb].
    cbn [round_robin step used held refs dev pend fq wk of_vac filter length app pick fst snd]. rewrite ?F1, B1.
    cbn [round_robin step used held refs dev pend fq wk of_vac filter length app pick fst snd]. rewrite ?F. cbn [negb andb Nat.eqb of_vac filter fst length]. rewrite L0.
    cbn [round_robin step used held refs dev pend fq wk of_vac filter length app pick fst snd]. rewrite ?F. cbn [Nat.sub Nat.eqb andb].
    cbn [round_robin step used held refs dev pend fq wk of_vac filter length app pick fst snd Nat.eqb]. rewrite ?F2, ?F. cbn [Nat.sub Nat.eqb].
    cbn [round_robin step used held refs dev pend fq wk of_vac filter length app pick fst snd Nat.eqb]. rewrite L1.
    cbn [round_robin step used held refs dev pend fq wk of_vac filter length app pick fst snd Nat.eqb]. rewrite ?F1, ?F. cbn [Nat.sub Nat.eqb].
    repeat split; reflexivity.
  - reflexivity.
  - reflexivity.
  - reflexivity.
  - intros b Lb. cbn [used refs held dev]. rewrite !fupd_ne by lia. apply Q. lia.
Qed.

Lemma run_app cap l1 : forall l2 s, run cap s (l1 ++ l2) = match run cap s l1 with Some s' => run cap s' l2 | None => None end.
Proof. induction l1 as [|e l1 IH]; intros l2 s; simpl; auto. destruct (step cap s e); auto. Qed.
Definition taken (c : nat) (l : list event) : nat := fold_left (fun c e => match e with Take v => v | _ => c end) l c.
Lemma rr_app cap n l1 : forall l2 c s s1, run cap s l1 = Some s1 -> round_robin cap n c s l1 -> round_robin cap n (taken c l1) s1 l2 -> round_robin cap n c s (l1 ++ l2).
Proof.
  induction l1 as [|e l1 IH]; intros l2 c s s1 R A B; simpl in *; [now injection R as <-|]. destruct A as [A1 A2]. split; auto. destruct (step cap s e) as [s2|]; [|discriminate].
  eapply IH; eauto.
Qed.
Lemma rounds cap r : r < cap -> exists l s, run cap init l = Some s /\ round_robin cap 3 0 init l /\ taken 0 l = 0 /\ quiet (2 * r) s /\ length (fq s) = r.
Proof.
  induction r as [|r IH]; intros L; [exists [], init; simpl; repeat split; auto|]. destruct (IH ltac:(lia)) as (l & s & R & RR & T & Q & F).
  destruct (round_run cap (2 * r) s Q ltac:(lia)) as (s1 & R1 & RR1 & P1 & W1 & F1 & N1).
  assert (L1 : length (fq s1) = S r) by (rewrite F1, app_length, F; simpl; lia).
  destruct (fq s ++ [2 * r]) as [|x f] eqn:Ef; [destruct (fq s); discriminate|].
  set (s2 := mks (pend s1) (fq s1 ++ [S (2 * r)]) (refs s1) (held s1) (used s1) (dev s1) None).
  assert (E2 : step cap s1 Put = Some s2) by (simpl; rewrite W1; replace (length (fq s1) <? cap) with true by (symmetry; apply Nat.ltb_lt; lia); reflexivity).
  set (s3 := mks (pend s1) (f ++ [S (2 * r)]) (refs s1) (held s1) (used s1) (fupd (dev s1) x false) None).
  assert (E3 : step cap s2 (Take 0) = Some s3) by (simpl; rewrite F1; reflexivity).
  exists ((l ++ round (2 * r) (S (2 * r))) ++ [Put; Take 0]), s3.
  assert (Rr : run cap init (l ++ round (2 * r) (S (2 * r))) = Some s1) by (rewrite run_app, R; exact R1).
  split; [rewrite run_app, Rr; cbn [run]; now rewrite E2, E3|]. split; [|split; [|split]].
  - apply (rr_app cap 3 _ _ 0 init s1 Rr).
    + apply (rr_app cap 3 _ _ 0 init s R RR). now rewrite T.
    + unfold taken. rewrite fold_left_app. simpl fold_left. cbn [round_robin]. rewrite E2. split; auto. rewrite E3. split; auto. unfold select. simpl. unfold s2. simpl. rewrite F1. reflexivity.
  - unfold taken. rewrite fold_left_app. reflexivity.
  - split; [exact P1|]. split; [reflexivity|]. intros b Lb. unfold s3. cbn [used refs held dev]. destruct (N1 b ltac:(lia)) as (A1 & A2 & A3 & A4). repeat split; auto. unfold fupd. destruct (b =? x); auto.
  - unfold s3. cbn [fq]. assert (length (fq s1) = S (length f)) by (rewrite F1; reflexivity). rewrite app_length. simpl. lia.
Qed.
Theorem C75_round_robin_refuted cap : 0 < cap -> exists l s b, run cap init l = Some s /\ round_robin cap 3 0 init l /\ wk s = Some b /\ length (fq s) = cap /\ step cap s Put = None.
Proof.
  intros L. destruct (rounds cap (cap - 1) ltac:(lia)) as (l & s & R & RR & T & Q & F). destruct (round_run cap (2 * (cap - 1)) s Q ltac:(lia)) as (s1 & R1 & RR1 & P1 & W1 & F1 & N1).
  assert (L1 : length (fq s1) = cap) by (rewrite F1, app_length; simpl; lia).
  exists (l ++ round (2 * (cap - 1)) (S (2 * (cap - 1)))), s1, (S (2 * (cap - 1))). split; [rewrite run_app, R; exact R1|]. split; [apply (rr_app cap 3 _ _ 0 init s R RR); now rewrite T|]. split; auto. split; auto.
  unfold step. rewrite W1, L1, Nat.ltb_irrefl. reflexivity.
Qed.
(** Buffers that are released by the worker, with room, and their memory given back. *)
Definition c75_case : list event := [Init 0; Set_ 1 0; Drop 0; Init 1; Set_ 2 1; Set_ 2 1; Drop 1; Take 1].
Theorem C75_case : exists s, run 2 init c75_case = Some s /\ wk s = Some 0 /\ fits 2 s /\ exists s', run 2 s [Put; Take 2; Take 2; Put; Take 0; Take 0] = Some s' /\ fq s' = [] /\ dev s' 0 = false /\ dev s' 1 = false.
Proof.
  eexists. split; [vm_compute; reflexivity|]. split; [reflexivity|]. split; [|eexists; split; [vm_compute; reflexivity|vm_compute; auto]].
  intros l ND H. assert (G : incl l [0]). { intros b X. apply H in X. destruct b as [|b]; [simpl; auto|]. exfalso. cbv in X. destruct b; discriminate. }
  pose proof (NoDup_incl_length ND G). simpl in *. lia.
Qed.
