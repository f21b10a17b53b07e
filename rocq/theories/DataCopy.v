(** Copying one buffer to another: property C50.

    Code modelled
    - [src/core/arax_data.c:52-73]   arax_data_get
    - [src/core/arax_data.c:75-93]   arax_data_set
    - [src/core/arax_data.c:95-113]  arax_data_memcpy (documented in arax_data.h:114-125)
    - [controller/src/Cpu/CpuBuiltins.cpp:100-133]  the CPU handlers of arax_data_get / arax_data_set

    One client and the devices' workers.  A queue holds the tasks of a virtual accelerator, oldest first; waiting
    for a task lets the worker execute the queue up to it (C21, C16).  Only reads and writes of whole buffers are
    issued here; the reference counts are in CoreModel.v, the interleavings of several clients in DataPath.v. *)
From Verif Require Import Base.
Local Open Scope nat_scope.
Arguments Nat.eqb : simpl never.

(** A pending write: the buffer and the argument block, a private copy of the user's bytes (impl.c:482-483). *)
Record job := mkjob { j_buf : nat; j_bytes : list N }.

(** [bufs b]: the contents of buffer [b], as long as the buffer (arax_data.h:36-51); [acc b]: data->accel;
    [q v]: the pending writes of virtual accelerator [v] (arax_vaccel.h:28-41). *)
Record st := mkst { bufs : nat -> list N; acc : nat -> option nat; q : nat -> list job }.

(** CpuBuiltins.cpp:118-133: memcpy(deref(data), ud, size). *)
Definition exec1 (m : nat -> list N) (j : job) : nat -> list N := fupd m (j_buf j) (j_bytes j).

(** The worker of [v] executes everything in its queue (accelThread.cpp:350-432). *)
Definition drain (s : st) (v : nat) : st := mkst (fold_left exec1 (q s v) (bufs s)) (acc s) (fupd (q s) v []).

(** memcpy of C: copying to or from NULL, or reading more than the source has, is undefined. *)
Definition c_memcpy (dst_null : bool) (x : list N) : outcome (list N) :=
  if dst_null then match x with [] => Ok [] | _ => UB end else Ok x.

(** arax_data_get, arax_data.c:52-73: the bytes the user's memory [user] holds afterwards; [user = None] is NULL.
    Line 66: the task's handler copies the buffer to the argument block; 68: that block to the user. *)
Definition data_get (s : st) (b : nat) (user : option unit) : outcome (st * list N) :=
  match acc s b with
  | None => Abort
  | Some v => let s1 := drain s v in
              do x <- c_memcpy (match user with None => true | Some _ => false end) (bufs s1 b);
              Ok (s1, x)
  end.

(** arax_data_set, arax_data.c:75-93. [user]: the memory at the user's pointer; arax_task_issue copies
    arax_data_size bytes of it. *)
Definition data_set (s : st) (b v : nat) (user : list N) : outcome st :=
  if match acc s b with None => false | Some w => negb (w =? v) end then Abort else
  if length user <? length (bufs s b) then UB else
  Ok (mkst (bufs s) (fupd (acc s) b (Some v)) (fupd (q s) v (q s v ++ [mkjob b (firstn (length (bufs s b)) user)]))).

(** arax_data_memcpy, arax_data.c:95-113; [block] is not used. *)
Definition data_memcpy (s : st) (v dst src : nat) (block : bool) : outcome st :=
  if dst =? src then Ok s else
  if negb (length (bufs s dst) =? length (bufs s src)) then Abort else
  do (s1, _) <- data_get s src None;
  data_set s1 dst v (bufs s1 src).

(** ** Specification *)

(** What a reader of [b] gets once everything issued so far has been executed. *)
Definition eventually (s : st) (b : nat) : list N :=
  match acc s b with None => bufs s b | Some v => bufs (drain s v) b end.
(** States a client can be in: buffers keep their size; a pending write to a buffer is queued at its accelerator. *)
Definition sane (s : st) : Prop :=
  forall v j, In j (q s v) -> acc s (j_buf j) = Some v /\ length (j_bytes j) = length (bufs s (j_buf j)).

(** ** Proofs *)
Lemma fold_exec_len : forall l m b, (forall j, In j l -> length (j_bytes j) = length (m (j_buf j))) -> length (fold_left exec1 l m b) = length (m b).
Proof.
  induction l as [|j l IH]; intros m b H; cbn; [reflexivity|]. rewrite IH.
  - unfold exec1. destruct (Nat.eq_dec b (j_buf j)) as [->|NB]; [rewrite fupd_eq; apply H; now left|now rewrite fupd_ne].
  - intros j' IJ. unfold exec1. destruct (Nat.eq_dec (j_buf j') (j_buf j)) as [E|NE]; [|rewrite fupd_ne by exact NE; apply H; now right].
    rewrite E, fupd_eq. rewrite (H j' (or_intror IJ)). rewrite E. symmetry. apply H. now left.
Qed.

Lemma fold_exec_app l j m : fold_left exec1 (l ++ [j]) m = exec1 (fold_left exec1 l m) j.
Proof. now rewrite fold_left_app. Qed.

(** ** C50 *)

(** The documented special cases hold: copying a buffer to itself does nothing, different sizes are refused. *)
Theorem C50_self_is_noop : forall s v b block, data_memcpy s v b b block = Ok s.
Proof. intros. unfold data_memcpy. now rewrite Nat.eqb_refl. Qed.

Theorem C50_sizes_must_match : forall s v dst src block,
  dst <> src -> length (bufs s dst) <> length (bufs s src) -> data_memcpy s v dst src block = Abort.
Proof.
  intros s v dst src block N L. unfold data_memcpy. apply Nat.eqb_neq in N, L. now rewrite N, L.
Qed.

(** ... but no call ever copies anything: for different, non-empty buffers it aborts when the source was never
    written, and otherwise writes through a null pointer (the user pointer it passes to arax_data_get). *)
Theorem C50_never_copies_refuted : forall s v dst src block,
  sane s -> dst <> src -> bufs s src <> [] ->
  data_memcpy s v dst src block = Abort \/ data_memcpy s v dst src block = UB.
Proof.
  intros s v dst src block SN N NE. unfold data_memcpy. apply Nat.eqb_neq in N. rewrite N.
  destruct (negb (length (bufs s dst) =? length (bufs s src))); [now left|].
  unfold data_get. destruct (acc s src) as [w|] eqn:A; [|now left]. right.
  assert (L : length (bufs (drain s w) src) = length (bufs s src)).
  { unfold drain. cbn. apply fold_exec_len. intros j H. apply (SN w j H). }
  destruct (bufs (drain s w) src) as [|x l]; [|reflexivity].
  destruct (bufs s src); [contradiction|discriminate].
Qed.

(** A concrete call: two 2-byte buffers, the source was written. *)
Example C50_refuted_example :
  exists s0 s1, s0 = mkst (fun _ => [0%N; 0%N]) (fun _ => None) (fun _ => []) /\
    data_set s0 1 7 [5%N; 6%N] = Ok s1 /\ eventually s1 1 = [5%N; 6%N] /\ data_memcpy s1 7 0 1 true = UB.
Proof. eexists. eexists. split; [reflexivity|]. split; [reflexivity|]. split; reflexivity. Qed.

(** With the public calls the copy can be made by hand: reading the source into one's own memory and writing that
    to the destination.  Whoever reads the destination afterwards gets the contents of the source. *)
Theorem C50_by_hand_partial : forall s src x s1 v dst s2,
  sane s -> dst <> src -> length (bufs s dst) = length (bufs s src) ->
  data_get s src (Some tt) = Ok (s1, x) -> data_set s1 dst v x = Ok s2 ->
  x = eventually s src /\ eventually s2 dst = eventually s src /\ eventually s2 src = eventually s src /\ sane s2.
Proof.
  intros s src x s1 v dst s2 SN N L G D. unfold data_get in G. destruct (acc s src) as [w|] eqn:A; [|discriminate].
  cbv zeta in G. cbn [bind c_memcpy] in G. injection G as <- <-.
  change (fold_left exec1 (q s w) (bufs s) src) with (bufs (drain s w) src) in D.
  assert (LN : forall b, length (bufs (drain s w) b) = length (bufs s b)).
  { intros b. unfold drain. cbn. apply fold_exec_len. intros j H. apply (SN w j H). }
  unfold data_set in D. destruct (match acc (drain s w) dst with None => false | Some u => negb (u =? v) end) eqn:AC; [discriminate|].
  destruct (length (bufs (drain s w) src) <? length (bufs (drain s w) dst)) eqn:LL; [discriminate|]. apply Nat.ltb_ge in LL.
  match type of D with Ok ?a = Ok _ => assert (E2 : s2 = a) by congruence end. subst s2. clear D. rewrite !LN in LL.
  assert (F : firstn (length (bufs (drain s w) dst)) (bufs (drain s w) src) = bufs (drain s w) src).
  { apply firstn_all2. rewrite !LN. lia. }
  rewrite F. unfold eventually at 1 3 5. rewrite A.
  set (x := bufs (drain s w) src). split; [reflexivity|].
  assert (AS : acc (drain s w) src = Some w) by exact A.
  split; [|split].
  - unfold eventually. cbn [acc]. rewrite fupd_eq. unfold drain at 1. cbn [bufs q]. rewrite fupd_eq, fold_exec_app.
    unfold exec1. cbn [j_buf j_bytes]. now rewrite fupd_eq.
  - unfold eventually. cbn [acc]. rewrite fupd_ne, AS by congruence. unfold drain at 1. cbn [bufs q]. fold x.
    destruct (Nat.eq_dec w v) as [->|NV].
    + rewrite fupd_eq. unfold drain at 1. cbn [q]. rewrite fupd_eq. cbn. unfold exec1. cbn. rewrite fupd_ne by congruence. reflexivity.
    + rewrite fupd_ne by congruence. unfold drain at 1. cbn [q]. rewrite fupd_eq. reflexivity.
  - intros u j H. cbn [acc q bufs] in *. destruct (Nat.eq_dec u v) as [->|NU].
    + rewrite fupd_eq in H. apply in_app_or in H. destruct H as [H|[<-|[]]].
      * unfold drain in H. cbn [q] in H. destruct (Nat.eq_dec v w) as [->|NV]; [rewrite fupd_eq in H; contradiction|].
        rewrite fupd_ne in H by congruence. destruct (SN v j H) as [A1 A2]. rewrite LN, A2. split; [|reflexivity].
        destruct (Nat.eq_dec (j_buf j) dst) as [->|ND]; [now rewrite fupd_eq|rewrite fupd_ne by congruence; exact A1].
      * cbn [j_buf j_bytes]. rewrite fupd_eq. split; [reflexivity|]. unfold x. rewrite !LN. now rewrite L.
    + rewrite fupd_ne in H by congruence. unfold drain in H. cbn [q] in H.
      destruct (Nat.eq_dec u w) as [->|NW]; [rewrite fupd_eq in H; contradiction|]. rewrite fupd_ne in H by congruence.
      destruct (SN u j H) as [A1 A2]. rewrite LN, A2. split; [|reflexivity].
      destruct (Nat.eq_dec (j_buf j) dst) as [E|ND]; [|rewrite fupd_ne by congruence; exact A1].
      exfalso. rewrite E in A1. cbn [acc drain] in AC. rewrite A1 in AC. apply negb_false_iff, Nat.eqb_eq in AC. congruence.
Qed.

(** Non-vacuity: the copy by hand between buffers of different virtual accelerators. *)
Example C50_by_hand_example :
  let s0 := mkst (fun _ => [0%N; 0%N]) (fun _ => None) (fun _ => []) in
  exists s s1 x s2, data_set s0 1 7 [5%N; 6%N] = Ok s /\ sane s /\ data_get s 1 (Some tt) = Ok (s1, x) /\
    data_set s1 0 8 x = Ok s2 /\ eventually s2 0 = [5%N; 6%N].
Proof.
  eexists. eexists. eexists. eexists. split; [reflexivity|]. split; [|split; [reflexivity|split; reflexivity]].
  intros v j H. cbn in H. destruct (Nat.eq_dec v 7) as [->|NV]; [rewrite fupd_eq in H|rewrite fupd_ne in H by exact NV; contradiction]. destruct H as [<-|[]]. split; reflexivity.
Qed.
