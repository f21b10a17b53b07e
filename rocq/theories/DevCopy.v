(** * The copies and fills that devices make for "memcpy" and "memset" tasks (C67)

    Every back-end of the controller registers a procedure "memcpy" and a procedure "memset"; a task
    of theirs carries offsets, a size and, for "memcpy", whether the client will wait
    (controller/include/AraxLibUtilsMemOps.h).  The handlers differ from one back-end to the other
    in what they check, in how many bytes they touch, and in what they do with the task afterwards. *)
From Verif Require Import Base.
Local Open Scope N_scope.

Arguments N.add : simpl never.
Arguments N.sub : simpl never.
Arguments N.mul : simpl never.
Arguments N.div : simpl never.
Arguments N.leb : simpl never.
Arguments N.ltb : simpl never.
Arguments N.eqb : simpl never.
Arguments N.modulo : simpl never.
Arguments N.of_nat : simpl never.
Arguments N.to_nat : simpl never.

(** ** The model *)

(** The contents of the buffers, as seen by the device that holds them, by the number of the buffer
    (arax_data_s: src/core/arax_data.h:56-70).  Every byte is below 256. *)
Definition mem := list (list N).
Definition buf (m : mem) (i : nat) : list N := nth i m [].
(** arax_data_size, src/core/arax_data.c:251-256. *)
Definition size (m : mem) (i : nat) : N := N.of_nat (length (buf m i)).

(** memcpyArgs and memsetArgs, controller/include/AraxLibUtilsMemOps.h:5-21; the buffers are task->io[0]
    and task->io[1], the pointers in the arguments are not read.  All numbers are size_t, the value
    of a fill is an int, here as 32 bits. *)
Record copy_args := mkcopy { c_src : nat; c_so : N; c_dst : nat; c_do : N; c_sync : bool; c_size : N }.
Record fill_args := mkfill { f_dst : nat; f_off : N; f_val : N; f_size : N }.

(** What a handler does with its task: arax_task_mark_done (src/core/arax_task.c:83-87) and
    arax_task_free (src/arch/shm/impl.c:524-529). *)
Inductive event := Mark | Free.

Definition W : N := 2 ^ 64.
(** size_t subtraction. *)
Definition sub64 (a b : N) : N := (a + (W - b)) mod W.

(** Two stretches of one buffer overlap. *)
Definition overlap (a : copy_args) (n : N) : bool :=
  Nat.eqb (c_src a) (c_dst a) && (c_so a <? c_do a + n) && (c_do a <? c_so a + n).

Definition splice (d s : list N) (doff soff n : N) : list N :=
  firstn (N.to_nat doff) d ++ firstn (N.to_nat n) (skipn (N.to_nat soff) s) ++ skipn (N.to_nat (doff + n)) d.
Definition copy_bytes (m : mem) (a : copy_args) (n : N) : mem :=
  upd m (c_dst a) (splice (buf m (c_dst a)) (buf m (c_src a)) (c_do a) (c_so a) n).

(** memcpy of the C library and cudaMemcpyAsync: they check nothing; touching bytes outside the buffers
    is undefined, and so is an overlap. *)
Definition raw_copy (m : mem) (a : copy_args) (n : N) : outcome mem :=
  if (c_so a + n <=? size m (c_src a)) && (c_do a + n <=? size m (c_dst a)) && negb (overlap a n)
  then Ok (copy_bytes m a n) else UB.
(** memset of the C library and cudaMemsetAsync. *)
Definition raw_fill (m : mem) (b : nat) (off v n : N) : outcome mem :=
  if off + n <=? size m b
  then Ok (upd m b (firstn (N.to_nat off) (buf m b) ++ repeat (v mod 256) (N.to_nat n) ++ skipn (N.to_nat (off + n)) (buf m b)))
  else UB.

(** The conversions size_t -> int -> size_t of the parameters of _clMemcpyD2D and _clMemset
    (controller/include/CLHelper.h:87-104, 107-120). *)
Definition via_int (x : N) : N := if x mod 2 ^ 32 <? 2 ^ 31 then x mod 2 ^ 32 else W - 2 ^ 32 + x mod 2 ^ 32.

(** clEnqueueCopyBuffer (OpenCL 1.2, 5.2.2): a stretch outside a buffer, an empty one and an overlap are
    errors and nothing is copied; the callers ignore the error (OpenclBuiltins.cpp:135). *)
Definition cl_copy (m : mem) (a : copy_args) (so doff n : N) : mem :=
  let a' := mkcopy (c_src a) so (c_dst a) doff (c_sync a) n in
  if (so + n <=? size m (c_src a)) && (doff + n <=? size m (c_dst a)) && (0 <? n) && negb (overlap a' n)
  then copy_bytes m a' n else m.
(** clEnqueueFillBuffer with a pattern of 4 bytes (OpenCL 1.2, 5.2.2): offset and size must be multiples
    of 4 and inside the buffer, else it is an error and nothing is filled. *)
Definition pattern (v : N) (j : nat) : N :=
  match (j mod 4)%nat with O => v mod 256 | 1%nat => v / 256 mod 256 | 2%nat => v / 65536 mod 256 | _ => v / 16777216 mod 256 end.
Definition cl_fill (m : mem) (b : nat) (off v n : N) : mem :=
  if (off + n <=? size m b) && (off mod 4 =? 0) && (n mod 4 =? 0)
  then upd m b (firstn (N.to_nat off) (buf m b) ++ map (pattern v) (seq 0 (N.to_nat n)) ++ skipn (N.to_nat (off + n)) (buf m b))
  else m.

(** The handler "memcpy" of the CPU: controller/src/Cpu/CpuBuiltins.cpp:39-86. *)
Definition cpu_memcpy (m : mem) (a : copy_args) : outcome (mem * list event) :=
  if c_size a =? 0 then Abort
  else do m' <- raw_copy m a (c_size a);
       Ok (m', Mark :: if c_sync a then [] else [Free]).
(** The handler "memset" of the CPU: CpuBuiltins.cpp:18-38. *)
Definition cpu_memset (m : mem) (a : fill_args) : outcome (mem * list event) :=
  do m' <- raw_fill m (f_dst a) (f_off a) (f_val a) (f_size a); Ok (m', [Mark]).

(** The check of CUDABuiltins.cu:149-160 and OpenclBuiltins.cpp:123-134. *)
Definition checked (m : mem) (a : copy_args) : bool :=
  (c_size a <=? sub64 (size m (c_dst a)) (c_do a)) && (c_size a <=? sub64 (size m (c_src a)) (c_so a)).
(** The handler "memcpy" of CUDA: controller/src/Cuda/CUDABuiltins.cu:119-190.  Both buffers are resident
    unless they are empty (C66). *)
Definition cuda_memcpy (m : mem) (a : copy_args) : outcome (mem * list event) :=
  if (c_size a =? 0) || (size m (c_src a) =? 0) || (size m (c_dst a) =? 0) then Abort
  else if checked m a then
    do m' <- raw_copy m a (c_size a); Ok (m', if c_sync a then [Mark] else [])
  else Abort.
(** The handler "memset" of CUDA: CUDABuiltins.cu:199-216. *)
Definition cuda_memset (m : mem) (a : fill_args) : outcome (mem * list event) :=
  do m' <- raw_fill m (f_dst a) (f_off a) (f_val a) (f_size a); Ok (m', [Mark]).

(** The handler "memcpy" of OpenCL: controller/src/OpenCL/OpenclBuiltins.cpp:90-145. *)
Definition cl_memcpy (m : mem) (a : copy_args) : outcome (mem * list event) :=
  if (c_size a =? 0) || (size m (c_src a) =? 0) || (size m (c_dst a) =? 0) then Abort
  else if checked m a then
    Ok (cl_copy m a (via_int (c_so a)) (via_int (c_do a)) (via_int (size m (c_src a))),
        Mark :: if c_sync a then [] else [Free])
  else Abort.
(** The handler "memset" of OpenCL: OpenclBuiltins.cpp:147-168. *)
Definition cl_memset (m : mem) (a : fill_args) : outcome (mem * list event) :=
  if size m (f_dst a) =? 0 then Abort
  else Ok (cl_fill m (f_dst a) (via_int (f_off a)) (f_val a) (via_int (size m (f_dst a))), [Mark; Free]).

(** ** Specification *)

Definition byte (m : mem) (i : nat) (j : N) : option N := nth_error (buf m i) (N.to_nat j).
(** Arguments a client can pass: size_t, and buffers that exist. *)
Definition copy_ok (m : mem) (a : copy_args) : Prop :=
  (c_src a < length m)%nat /\ (c_dst a < length m)%nat /\ c_so a < W /\ c_do a < W /\ c_size a < W /\ forall i, size m i < W.
(** The request makes sense: both stretches lie inside their buffers and do not overlap. *)
Definition sensible (m : mem) (a : copy_args) : Prop :=
  0 < c_size a /\ c_so a + c_size a <= size m (c_src a) /\ c_do a + c_size a <= size m (c_dst a) /\
  (c_src a = c_dst a -> c_so a + c_size a <= c_do a \/ c_do a + c_size a <= c_so a).
(** [m'] is [m] with [n] bytes copied. *)
Definition copied (m : mem) (a : copy_args) (n : N) (m' : mem) : Prop :=
  length m' = length m /\ (forall i, size m' i = size m i) /\
  forall i j, byte m' i j =
    if Nat.eqb i (c_dst a) && (c_do a <=? j) && (j <? c_do a + n) then byte m (c_src a) (c_so a + (j - c_do a)) else byte m i j.
(** [m'] is [m] with [n] bytes of buffer [b] from [off] replaced by [f 0], [f 1], ... *)
Definition filled (m : mem) (b : nat) (off n : N) (f : nat -> N) (m' : mem) : Prop :=
  length m' = length m /\ (forall i, size m' i = size m i) /\
  forall i j, byte m' i j = if Nat.eqb i b && (off <=? j) && (j <? off + n) then Some (f (N.to_nat (j - off))) else byte m i j.

(** The references to a task: one made by the client's issue (src/arch/shm/impl.c:467-488), one held by the
    worker while it executes (controller/src/Core/accelThread.cpp:395, 436).  A client that waits
    returns from the wait only after a [Mark] and then frees the task once; one that does not wait
    leaves the task alone.  [Leaked]: the task stays allocated for ever; [Hung]: the waiting client
    never returns; [DoubleFree]: the client's wait or free touches a task already destroyed. *)
Inductive fate := Fine | Leaked | Hung | DoubleFree.
Definition task_fate (waits : bool) (ev : list event) : fate :=
  let frees := length (filter (fun e => match e with Free => true | _ => false end) ev) in
  let marks := length (filter (fun e => match e with Mark => true | _ => false end) ev) in
  if waits then if Nat.eqb marks 0 then Hung else match frees with O => Fine | _ => DoubleFree end
  else match frees with O => Leaked | 1%nat => Fine | _ => DoubleFree end.

(** ** Proofs *)

Lemma nth_error_firstn {A} (l : list A) n j : nth_error (firstn n l) j = if (j <? n)%nat then nth_error l j else None.
Proof.
  revert n j. induction l as [|x l IH]; intros [|n] [|j]; cbn; auto.
  - match goal with |- _ = (if ?c then _ else _) => destruct c end; reflexivity.
  - rewrite IH. reflexivity.
Qed.
Lemma nth_error_skipn {A} (l : list A) n j : nth_error (skipn n l) j = nth_error l (n + j).
Proof. revert n. induction l as [|x l IH]; intros [|n]; cbn; auto. destruct j; reflexivity. Qed.

(** replacing a stretch of a list *)
Lemma patch_length {A} (d x : list A) a : (a + length x <= length d)%nat ->
  length (firstn a d ++ x ++ skipn (a + length x) d) = length d.
Proof. intros H. rewrite !app_length, firstn_length, skipn_length. lia. Qed.
Lemma patch_nth {A} (d x : list A) a j : (a + length x <= length d)%nat ->
  nth_error (firstn a d ++ x ++ skipn (a + length x) d) j =
  if (a <=? j)%nat && (j <? a + length x)%nat then nth_error x (j - a) else nth_error d j.
Proof.
  intros H. assert (L : length (firstn a d) = a) by (rewrite firstn_length; lia).
  destruct (Nat.leb_spec a j) as [A1|A1]; cbn [andb].
  - rewrite nth_error_app2 by lia. rewrite L. destruct (Nat.ltb_spec j (a + length x)) as [B1|B1].
    + rewrite nth_error_app1 by lia. reflexivity.
    + rewrite nth_error_app2 by lia. rewrite nth_error_skipn. f_equal. lia.
  - rewrite nth_error_app1 by lia. rewrite nth_error_firstn. rewrite (proj2 (Nat.ltb_lt _ _) A1). reflexivity.
Qed.

Lemma buf_upd m b l i : (b < length m)%nat -> buf (upd m b l) i = if Nat.eqb i b then l else buf m i.
Proof.
  intros H. unfold buf. destruct (Nat.eqb_spec i b) as [->|N]; [now apply nth_upd_eq|apply nth_upd_ne; auto].
Qed.

Lemma patched m b off x : (b < length m)%nat -> off + N.of_nat (length x) <= size m b ->
  let m' := upd m b (firstn (N.to_nat off) (buf m b) ++ x ++ skipn (N.to_nat (off + N.of_nat (length x))) (buf m b)) in
  length m' = length m /\ (forall i, size m' i = size m i) /\
  forall i j, byte m' i j = if Nat.eqb i b && (off <=? j) && (j <? off + N.of_nat (length x))
                            then nth_error x (N.to_nat (j - off)) else byte m i j.
Proof.
  intros Hb H m'. unfold size in H.
  assert (L : (N.to_nat off + length x <= length (buf m b))%nat) by lia.
  assert (Q : N.to_nat (off + N.of_nat (length x)) = (N.to_nat off + length x)%nat) by lia.
  split; [apply upd_length|]. split.
  - intros i. unfold size, m'. rewrite buf_upd by auto. destruct (Nat.eqb_spec i b) as [->|]; auto. rewrite Q, patch_length by auto. reflexivity.
  - intros i j. unfold byte, m'. rewrite buf_upd by auto. destruct (Nat.eqb_spec i b) as [->|]; cbn [andb]; auto.
    rewrite Q, patch_nth by auto.
    assert (E1 : (N.to_nat off <=? N.to_nat j)%nat = (off <=? j)) by (destruct (N.leb_spec off j); [apply Nat.leb_le|apply Nat.leb_gt]; lia).
    assert (E2 : (N.to_nat j <? N.to_nat off + length x)%nat = (j <? off + N.of_nat (length x)))
      by (destruct (N.ltb_spec j (off + N.of_nat (length x))); [apply Nat.ltb_lt|apply Nat.ltb_ge]; lia).
    rewrite E1, E2, N2Nat.inj_sub. reflexivity.
Qed.

Lemma copy_bytes_copied m a n : (c_dst a < length m)%nat ->
  c_so a + n <= size m (c_src a) -> c_do a + n <= size m (c_dst a) -> copied m a n (copy_bytes m a n).
Proof.
  intros Hd Hs Hn. unfold copied, copy_bytes, splice.
  set (x := firstn (N.to_nat n) (skipn (N.to_nat (c_so a)) (buf m (c_src a)))).
  assert (L : N.of_nat (length x) = n). { unfold x, size in *. rewrite firstn_length, skipn_length. lia. }
  destruct (patched m (c_dst a) (c_do a) x Hd) as (P1 & P2 & P3); [lia|]. rewrite L in *.
  split; [exact P1|]. split; [exact P2|]. intros i j. rewrite P3.
  destruct (Nat.eqb i (c_dst a) && (c_do a <=? j) && (j <? c_do a + n)) eqn:T; auto.
  apply andb_true_iff in T. destruct T as [T T2]. apply andb_true_iff in T. destruct T as [_ T1].
  apply N.leb_le in T1. apply N.ltb_lt in T2. unfold x, byte.
  rewrite nth_error_firstn, nth_error_skipn. rewrite (proj2 (Nat.ltb_lt _ _)) by lia. f_equal. lia.
Qed.
Lemma overlap_false a n : (c_src a = c_dst a -> c_so a + n <= c_do a \/ c_do a + n <= c_so a) -> overlap a n = false.
Proof.
  intros H. unfold overlap. destruct (Nat.eqb_spec (c_src a) (c_dst a)) as [E|]; auto. cbn [andb]. specialize (H E).
  destruct (N.ltb_spec (c_so a) (c_do a + n)); cbn [andb]; auto. apply N.ltb_ge. lia.
Qed.
Lemma overlap_true a n : overlap a n = false -> c_src a = c_dst a -> c_so a + n <= c_do a \/ c_do a + n <= c_so a.
Proof.
  unfold overlap. intros H E. rewrite E, Nat.eqb_refl in H. cbn [andb] in H. apply andb_false_iff in H.
  destruct H as [H|H]; apply N.ltb_ge in H; lia.
Qed.
Lemma raw_copy_sensible m a : copy_ok m a -> sensible m a -> raw_copy m a (c_size a) = Ok (copy_bytes m a (c_size a)).
Proof.
  intros _ (_ & H1 & H2 & H3). unfold raw_copy. rewrite (proj2 (N.leb_le _ _) H1), (proj2 (N.leb_le _ _) H2), (overlap_false _ _ H3). reflexivity.
Qed.
Lemma raw_copy_not m a n : raw_copy m a n <> UB ->
  c_so a + n <= size m (c_src a) /\ c_do a + n <= size m (c_dst a) /\ overlap a n = false.
Proof.
  unfold raw_copy. intros H. destruct (_ <=? _) eqn:E1; cbn [andb] in H; [|congruence].
  destruct (_ <=? _) eqn:E2 in H; cbn [andb] in H; [|congruence]. apply N.leb_le in E1. apply N.leb_le in E2.
  destruct (overlap a n); cbn [negb] in H; [congruence|auto].
Qed.
Lemma sub64_small a b : a < W -> b <= a -> sub64 a b = a - b.
Proof.
  intros H1 H2. unfold sub64. replace (a + (W - b)) with ((a - b) + 1 * W) by lia. rewrite N.mod_add by discriminate.
  apply N.mod_small. lia.
Qed.
Lemma sub64_wrap a b : a < b -> b < W -> sub64 a b = W - (b - a).
Proof. intros H1 H2. unfold sub64. rewrite N.mod_small by lia. lia. Qed.
Lemma checked_sensible m a : copy_ok m a -> sensible m a -> checked m a = true.
Proof.
  intros (_ & _ & _ & _ & _ & S) (_ & H1 & H2 & _). unfold checked. rewrite !sub64_small by (auto; lia).
  apply andb_true_iff. split; apply N.leb_le; lia.
Qed.

(** ** The theorems *)

(** *** Copies *)

(** The CPU performs every sensible copy exactly, and disposes of the task as the client expects. *)
Theorem C67_cpu_copy : forall m a, copy_ok m a -> sensible m a ->
  exists m' ev, cpu_memcpy m a = Ok (m', ev) /\ copied m a (c_size a) m' /\ task_fate (c_sync a) ev = Fine.
Proof.
  intros m a K S. exists (copy_bytes m a (c_size a)), (Mark :: if c_sync a then [] else [Free]).
  unfold cpu_memcpy. rewrite (raw_copy_sensible _ _ K S). pose proof S as (S0 & S1 & S2 & _).
  rewrite (proj2 (N.eqb_neq _ _)) by lia. cbn [bind]. split; [reflexivity|]. split.
  - apply copy_bytes_copied; auto. apply K.
  - destruct (c_sync a); reflexivity.
Qed.
(** It checks nothing: every other copy of at least one byte is undefined behaviour in the controller. *)
Theorem C67_cpu_unchecked : forall m a, copy_ok m a -> 0 < c_size a -> ~ sensible m a -> cpu_memcpy m a = UB.
Proof.
  intros m a K Z S. unfold cpu_memcpy. rewrite (proj2 (N.eqb_neq _ _)) by lia.
  destruct (raw_copy m a (c_size a)) as [m'| |] eqn:R; cbn [bind]; auto.
  - destruct S. destruct (raw_copy_not m a (c_size a)) as (A & B & C); [congruence|].
    split; [auto|]. split; [auto|]. split; [auto|]. now apply overlap_true.
  - unfold raw_copy in R. destruct (_ && _); discriminate.
Qed.

(** CUDA performs every sensible copy exactly; the client that waits is woken. *)
Theorem C67_cuda_copy : forall m a, copy_ok m a -> sensible m a ->
  exists m' ev, cuda_memcpy m a = Ok (m', ev) /\ copied m a (c_size a) m' /\
    task_fate (c_sync a) ev = (if c_sync a then Fine else Leaked).
Proof.
  intros m a K S. exists (copy_bytes m a (c_size a)), (if c_sync a then [Mark] else []).
  unfold cuda_memcpy. rewrite (raw_copy_sensible _ _ K S), (checked_sensible _ _ K S). pose proof S as (S0 & S1 & S2 & _).
  rewrite !(proj2 (N.eqb_neq _ _)) by lia. cbn [bind orb]. split; [reflexivity|]. split.
  - apply copy_bytes_copied; auto. apply K.
  - destruct (c_sync a); reflexivity.
Qed.
(** It refuses, by aborting the controller, a copy that starts inside its buffers but runs past an end. *)
Theorem C67_cuda_refuses : forall m a, copy_ok m a -> c_so a <= size m (c_src a) -> c_do a <= size m (c_dst a) ->
  size m (c_src a) < c_so a + c_size a \/ size m (c_dst a) < c_do a + c_size a -> cuda_memcpy m a = Abort /\ cl_memcpy m a = Abort.
Proof.
  intros m a K H1 H2 H3. unfold cuda_memcpy, cl_memcpy. destruct (_ || _); [auto|].
  replace (checked m a) with false; [auto|]. symmetry. unfold checked. destruct K as (_ & _ & _ & _ & _ & S).
  rewrite !sub64_small by (auto; lia). apply andb_false_iff.
  destruct H3; [right|left]; apply N.leb_gt; lia.
Qed.
(** But an offset beyond the end of its buffer makes the check wrap around: unless the size is larger
    than what is left up to 2^64, the copy is not refused and touches memory outside the buffer. *)
Theorem C67_cuda_offset_refuted : forall m a, copy_ok m a -> 0 < c_size a -> 0 < size m (c_src a) -> 0 < size m (c_dst a) ->
  size m (c_dst a) < c_do a -> c_do a + c_size a <= 2 ^ 64 ->
  c_so a + c_size a <= size m (c_src a) -> cuda_memcpy m a = UB.
Proof.
  intros m a K Z Z1 Z2 H1 H2 H3. unfold cuda_memcpy. rewrite !(proj2 (N.eqb_neq _ _)) by lia. cbn [orb].
  destruct K as (_ & _ & _ & K1 & _ & S).
  replace (checked m a) with true.
  - unfold raw_copy. rewrite (proj2 (N.leb_gt (c_do a + c_size a) _)) by lia. rewrite andb_false_r. reflexivity.
  - symmetry. unfold checked. rewrite sub64_wrap by auto. rewrite sub64_small by (auto; lia).
    change (2 ^ 64) with W in H2. apply andb_true_iff. split; apply N.leb_le; lia.
Qed.
Example C67_cuda_offset_example : exists m a, copy_ok m a /\ 0 < c_size a /\ 0 < size m (c_src a) /\ 0 < size m (c_dst a) /\
  size m (c_dst a) < c_do a /\ c_do a + c_size a <= 2 ^ 64 /\ c_so a + c_size a <= size m (c_src a).
Proof.
  exists [[1; 2; 3; 4]; [5; 6; 7; 8]], (mkcopy 0 0 1 5 true 4).
  unfold copy_ok. cbn. repeat split; try lia; try reflexivity. intros [|[|[|i]]]; reflexivity.
Qed.
(** A copy the client does not wait for leaks its task, with the references it holds. *)
Theorem C67_cuda_async_leaks_refuted : forall m a, copy_ok m a -> sensible m a -> c_sync a = false ->
  exists m' ev, cuda_memcpy m a = Ok (m', ev) /\ task_fate false ev = Leaked.
Proof.
  intros m a K S E. destruct (C67_cuda_copy m a K S) as (m' & ev & H1 & _ & H3). rewrite E in H3. eauto.
Qed.

Lemma via_int_small x : x < 2 ^ 31 -> via_int x = x.
Proof.
  intros H. unfold via_int. rewrite N.mod_small by (change (2 ^ 31) with 2147483648 in H; change (2 ^ 32) with 4294967296; lia).
  now rewrite (proj2 (N.ltb_lt _ _) H).
Qed.
Lemma via_int_big x : 2 ^ 31 <= x -> x < 2 ^ 32 -> via_int x = W - 2 ^ 32 + x.
Proof. intros H1 H2. unfold via_int. rewrite N.mod_small by auto. now rewrite (proj2 (N.ltb_ge _ _) H1). Qed.

(** OpenCL, buffers below 2 GB: a sensible copy is reported as completed, but what happens does not depend
    on the size asked for.  The whole source is copied if the copy starts at its beginning and the
    whole source fits into the destination from the offset on; otherwise nothing is copied. *)
Theorem C67_opencl_copy_exact : forall m a, copy_ok m a -> sensible m a ->
  size m (c_src a) < 2 ^ 31 -> size m (c_dst a) < 2 ^ 31 ->
  exists m' ev, cl_memcpy m a = Ok (m', ev) /\ task_fate (c_sync a) ev = Fine /\
    (c_so a = 0 /\ c_do a + size m (c_src a) <= size m (c_dst a) -> copied m a (size m (c_src a)) m') /\
    (~ (c_so a = 0 /\ c_do a + size m (c_src a) <= size m (c_dst a)) -> m' = m).
Proof.
  intros m a K S L1 L2. unfold cl_memcpy. rewrite (checked_sensible _ _ K S). pose proof S as (S0 & S1 & S2 & S3).
  rewrite !(proj2 (N.eqb_neq _ _)) by lia. cbn [orb]. rewrite !via_int_small by lia.
  eexists _, _. split; [reflexivity|]. split; [destruct (c_sync a); reflexivity|]. unfold cl_copy. cbn [c_src c_dst c_so c_do].
  split.
  - intros [Z1 Z2]. rewrite Z1. rewrite (proj2 (N.leb_le _ _)) by lia. rewrite (proj2 (N.leb_le _ _) Z2).
    rewrite (proj2 (N.ltb_lt _ _)) by lia. cbn [andb].
    assert (Hd : c_src a <> c_dst a). { intros E. destruct (S3 E) as [X|X]; [|lia]. rewrite E in *. lia. }
    unfold overlap. cbn [c_src c_dst]. rewrite (proj2 (Nat.eqb_neq _ _) Hd). cbn [andb negb].
    pose proof (copy_bytes_copied m (mkcopy (c_src a) 0 (c_dst a) (c_do a) (c_sync a) (size m (c_src a))) (size m (c_src a))) as C.
    cbn [c_src c_dst c_so c_do] in C. destruct C as (C1 & C2 & C3); [apply K|lia|lia|]. split; [exact C1|]. split; [exact C2|].
    intros i j. rewrite C3, Z1. reflexivity.
  - intros H. destruct (_ <=? _) eqn:E1 at 1; auto. destruct (_ <=? _) eqn:E2 at 1; auto. exfalso. apply H.
    apply N.leb_le in E1. apply N.leb_le in E2. lia.
Qed.
(** So a copy of the whole source is right; *)
Theorem C67_opencl_copy_partial : forall m a, copy_ok m a -> sensible m a ->
  size m (c_src a) < 2 ^ 31 -> size m (c_dst a) < 2 ^ 31 -> c_size a = size m (c_src a) ->
  exists m' ev, cl_memcpy m a = Ok (m', ev) /\ copied m a (c_size a) m' /\ task_fate (c_sync a) ev = Fine.
Proof.
  intros m a K S L1 L2 E. destruct (C67_opencl_copy_exact m a K S L1 L2) as (m' & ev & H1 & H2 & H3 & _).
  exists m', ev. split; [auto|]. split; [|auto]. rewrite E. apply H3. pose proof S as (S0 & S1 & S2 & _). lia.
Qed.
(** a copy of anything that does not start at the beginning of the source copies nothing and succeeds; *)
Theorem C67_opencl_offset_refuted : forall m a, copy_ok m a -> sensible m a ->
  size m (c_src a) < 2 ^ 31 -> size m (c_dst a) < 2 ^ 31 -> 0 < c_so a -> exists ev, cl_memcpy m a = Ok (m, ev).
Proof.
  intros m a K S L1 L2 Z. destruct (C67_opencl_copy_exact m a K S L1 L2) as (m' & ev & H1 & _ & _ & H4).
  exists ev. rewrite H1, H4; auto. lia.
Qed.
(** a copy of the first bytes of the source overwrites the destination behind them if there is room; *)
Theorem C67_opencl_prefix_refuted : forall m a, copy_ok m a -> sensible m a ->
  size m (c_src a) < 2 ^ 31 -> size m (c_dst a) < 2 ^ 31 -> c_so a = 0 -> c_size a < size m (c_src a) ->
  c_do a + size m (c_src a) <= size m (c_dst a) ->
  exists m' ev, cl_memcpy m a = Ok (m', ev) /\ byte m' (c_dst a) (c_do a + c_size a) = byte m (c_src a) (c_size a).
Proof.
  intros m a K S L1 L2 Z1 Z2 Z3. destruct (C67_opencl_copy_exact m a K S L1 L2) as (m' & ev & H1 & _ & H3 & _).
  exists m', ev. split; [auto|]. destruct (H3 (conj Z1 Z3)) as (_ & _ & C). rewrite C, Nat.eqb_refl.
  rewrite (proj2 (N.leb_le _ _)), (proj2 (N.ltb_lt _ _)) by lia. cbn [andb]. f_equal. lia.
Qed.
(** and a copy of a source of 2 GB or more, below 4 GB, copies nothing. *)
Theorem C67_opencl_big_refuted : forall m a, copy_ok m a -> sensible m a ->
  2 ^ 31 <= size m (c_src a) -> size m (c_src a) < 2 ^ 32 -> c_size a = size m (c_src a) ->
  exists ev, cl_memcpy m a = Ok (m, ev).
Proof.
  intros m a K S L1 L2 E. unfold cl_memcpy. rewrite (checked_sensible _ _ K S). pose proof S as (S0 & S1 & S2 & S3).
  rewrite !(proj2 (N.eqb_neq _ _)) by lia. cbn [orb]. eexists. f_equal. f_equal. rewrite (via_int_big (size m (c_src a))) by auto.
  unfold cl_copy. cbn [c_src c_dst]. rewrite (proj2 (N.leb_gt _ _)); [reflexivity|].
  change W with 18446744073709551616. change (2 ^ 32) with 4294967296 in *. lia.
Qed.

(** *** Fills *)

Lemma raw_fill_filled m b off v n : (b < length m)%nat -> off + n <= size m b ->
  exists m', raw_fill m b off v n = Ok m' /\ filled m b off n (fun _ => v mod 256) m'.
Proof.
  intros Hb H. unfold raw_fill. rewrite (proj2 (N.leb_le _ _) H). eexists. split; [reflexivity|].
  destruct (patched m b off (repeat (v mod 256) (N.to_nat n)) Hb) as (P1 & P2 & P3); rewrite repeat_length, N2Nat.id in *; [auto|].
  split; [exact P1|]. split; [exact P2|]. intros i j. rewrite P3.
  destruct (Nat.eqb i b && (off <=? j) && (j <? off + n)) eqn:T; auto.
  apply andb_true_iff in T. destruct T as [T T2]. apply andb_true_iff in T. destruct T as [_ T1].
  apply N.leb_le in T1. apply N.ltb_lt in T2. apply nth_error_repeat. lia.
Qed.
(** The CPU and CUDA fill exactly the bytes asked for if they lie inside the buffer; the task is left to a
    client that waits. *)
Theorem C67_fill : forall m a, (f_dst a < length m)%nat -> f_off a + f_size a <= size m (f_dst a) ->
  exists m' ev, cpu_memset m a = Ok (m', ev) /\ cuda_memset m a = Ok (m', ev) /\
    filled m (f_dst a) (f_off a) (f_size a) (fun _ => f_val a mod 256) m' /\ task_fate true ev = Fine.
Proof.
  intros m a Hb H. destruct (raw_fill_filled m (f_dst a) (f_off a) (f_val a) (f_size a) Hb H) as (m' & E & F).
  exists m', [Mark]. unfold cpu_memset, cuda_memset. rewrite E. cbn [bind]. split; [auto|]. split; [auto|]. split; [auto|]. reflexivity.
Qed.
(** They check nothing. *)
Theorem C67_fill_unchecked_refuted : forall m a, size m (f_dst a) < f_off a + f_size a ->
  cpu_memset m a = UB /\ cuda_memset m a = UB.
Proof. intros m a H. unfold cpu_memset, cuda_memset, raw_fill. rewrite (proj2 (N.leb_gt _ _) H). auto. Qed.

(** OpenCL, buffers below 2 GB: the size asked for is not used.  The whole buffer is filled with the four
    bytes of the value in turn if the offset is 0 and the size of the buffer a multiple of 4;
    otherwise nothing is filled.  The task is freed under a client that waits. *)
Theorem C67_opencl_fill_exact : forall m a, (f_dst a < length m)%nat -> 0 < size m (f_dst a) -> size m (f_dst a) < 2 ^ 31 ->
  f_off a < 2 ^ 31 ->
  exists m' ev, cl_memset m a = Ok (m', ev) /\ task_fate true ev = DoubleFree /\
    (f_off a = 0 /\ size m (f_dst a) mod 4 = 0 -> filled m (f_dst a) 0 (size m (f_dst a)) (pattern (f_val a)) m') /\
    (~ (f_off a = 0 /\ size m (f_dst a) mod 4 = 0) -> m' = m).
Proof.
  intros m a Hb Z L1 L2. unfold cl_memset. rewrite (proj2 (N.eqb_neq _ _)) by lia. rewrite !via_int_small by lia.
  eexists _, _. split; [reflexivity|]. split; [reflexivity|]. unfold cl_fill. split.
  - intros [E1 E2]. rewrite E1, E2. rewrite (proj2 (N.leb_le _ _)) by lia. change (0 mod 4 =? 0) with true. change (0 =? 0) with true. cbn [andb].
    assert (LX : length (map (pattern (f_val a)) (seq 0 (N.to_nat (size m (f_dst a))))) = N.to_nat (size m (f_dst a)))
      by (rewrite map_length, seq_length; reflexivity).
    destruct (patched m (f_dst a) 0 (map (pattern (f_val a)) (seq 0 (N.to_nat (size m (f_dst a))))) Hb) as (P1 & P2 & P3);
      rewrite LX, N2Nat.id in *; [lia|].
    split; [exact P1|]. split; [exact P2|]. intros i j. rewrite P3.
    destruct (Nat.eqb i (f_dst a) && (0 <=? j) && (j <? 0 + size m (f_dst a))) eqn:T; auto.
    apply andb_true_iff in T. destruct T as [_ T2]. apply N.ltb_lt in T2.
    erewrite map_nth_error; [reflexivity|]. rewrite (nth_error_nth' _ 0%nat) by (rewrite seq_length; lia).
    rewrite seq_nth by lia. reflexivity.
  - intros H. destruct (_ <=? _) eqn:E1; cbn [andb]; auto. apply N.leb_le in E1. assert (E0 : f_off a = 0) by lia. rewrite E0.
    change (0 mod 4 =? 0) with true. cbn [andb]. rewrite (proj2 (N.eqb_neq _ _)); [reflexivity|]. intros X. apply H. auto.
Qed.
(** So filling the whole of a buffer whose size is a multiple of 4 with a value whose bytes are all the same
    is right. *)
Theorem C67_opencl_fill_partial : forall m a, (f_dst a < length m)%nat -> 0 < size m (f_dst a) -> size m (f_dst a) < 2 ^ 31 ->
  f_off a = 0 -> f_size a = size m (f_dst a) -> size m (f_dst a) mod 4 = 0 -> (exists c, c < 256 /\ f_val a = c * 16843009) ->
  exists m' ev, cl_memset m a = Ok (m', ev) /\ filled m (f_dst a) (f_off a) (f_size a) (fun _ => f_val a mod 256) m'.
Proof.
  intros m a Hb Z L1 E1 E2 E3 (c & Hc & E4).
  destruct (C67_opencl_fill_exact m a Hb Z L1) as (m' & ev & H1 & _ & H3 & _).
  { rewrite E1. reflexivity. }
  exists m', ev. split; [auto|]. destruct (H3 (conj E1 E3)) as (F1 & F2 & F3). split; [auto|]. split; [auto|].
  intros i j. rewrite F3, E1, E2. destruct (_ && _); auto. f_equal. rewrite E4. unfold pattern.
  assert (P0 : c * 16843009 mod 256 = c).
  { replace (c * 16843009) with (c + (c * 65793) * 256) by lia. rewrite N.mod_add by discriminate. now apply N.mod_small. }
  assert (P1 : c * 16843009 / 256 = c * 65793).
  { symmetry. apply (N.div_unique _ _ _ c); lia. }
  assert (P2 : c * 16843009 / 65536 = c * 257).
  { symmetry. apply (N.div_unique _ _ _ (c * 257)); lia. }
  assert (P3 : c * 16843009 / 16777216 = c).
  { symmetry. apply (N.div_unique _ _ _ (c * 65793)); lia. }
  rewrite P0, P1, P2, P3.
  assert (Q1 : c * 65793 mod 256 = c).
  { replace (c * 65793) with (c + (c * 257) * 256) by lia. rewrite N.mod_add by discriminate. now apply N.mod_small. }
  assert (Q2 : c * 257 mod 256 = c).
  { replace (c * 257) with (c + c * 256) by lia. rewrite N.mod_add by discriminate. now apply N.mod_small. }
  rewrite Q1, Q2, (N.mod_small c) by auto. destruct ((N.to_nat (j - 0)) mod 4)%nat as [|[|[|]]]; reflexivity.
Qed.

(** No client can fill a buffer on every kind of device: one that waits is left with a destroyed task on
    OpenCL, one that does not leaks its task on the CPU and on CUDA. *)
Theorem C67_fill_task_refuted : forall waits m a, (f_dst a < length m)%nat -> 0 < size m (f_dst a) ->
  f_off a + f_size a <= size m (f_dst a) ->
  exists h m' ev, In h [cpu_memset; cuda_memset; cl_memset] /\ h m a = Ok (m', ev) /\ task_fate waits ev <> Fine.
Proof.
  intros waits m a Hb Z H. destruct waits.
  - exists cl_memset. unfold cl_memset. rewrite (proj2 (N.eqb_neq _ _)) by lia. eexists _, _. split; [cbn; auto|].
    split; [reflexivity|discriminate].
  - destruct (C67_fill m a Hb H) as (m' & ev & E & _). exists cpu_memset, m', [Mark]. split; [cbn; auto|].
    unfold cpu_memset in *. destruct (raw_fill m _ _ _ _); cbn [bind] in *; try discriminate.
    split; [congruence|discriminate].
Qed.

(** *** Concrete cases *)

Definition two : mem := [[1; 2; 3; 4]; [5; 6; 7; 8; 9; 10; 11; 12]].
Lemma two_ok a : (c_src a < 2)%nat -> (c_dst a < 2)%nat -> c_so a < W -> c_do a < W -> c_size a < W -> copy_ok two a.
Proof. intros. unfold copy_ok. repeat split; auto. intros [|[|[|i]]]; reflexivity. Qed.

(** A sensible copy in the middle of both buffers: exact on the CPU and on CUDA, nothing on OpenCL, and a copy
    of the first two bytes writes four there. *)
Example C67_copy_example :
  let a := mkcopy 0 1 1 5 true 2 in let b := mkcopy 0 0 1 2 true 2 in
  copy_ok two a /\ sensible two a /\
  cpu_memcpy two a = Ok ([[1; 2; 3; 4]; [5; 6; 7; 8; 9; 2; 3; 12]], [Mark]) /\
  cuda_memcpy two a = Ok ([[1; 2; 3; 4]; [5; 6; 7; 8; 9; 2; 3; 12]], [Mark]) /\
  cl_memcpy two a = Ok (two, [Mark]) /\
  cpu_memcpy two b = Ok ([[1; 2; 3; 4]; [5; 6; 1; 2; 9; 10; 11; 12]], [Mark]) /\
  cl_memcpy two b = Ok ([[1; 2; 3; 4]; [5; 6; 1; 2; 3; 4; 11; 12]], [Mark]).
Proof.
  cbv zeta. split; [apply two_ok; cbn; try lia; reflexivity|].
  split; [unfold sensible; cbn; repeat split; try lia; discriminate|].
  repeat split; vm_compute; reflexivity.
Qed.
(** A fill of three bytes: exact on the CPU, nothing on OpenCL; a fill of the whole buffer with 1 writes 1, 0, 0, 0. *)
Example C67_fill_example :
  cpu_memset two (mkfill 1 1 255 3) = Ok ([[1; 2; 3; 4]; [5; 255; 255; 255; 9; 10; 11; 12]], [Mark]) /\
  cl_memset two (mkfill 1 1 255 3) = Ok (two, [Mark; Free]) /\
  cpu_memset two (mkfill 0 0 1 4) = Ok ([[1; 1; 1; 1]; [5; 6; 7; 8; 9; 10; 11; 12]], [Mark]) /\
  cl_memset two (mkfill 0 0 1 4) = Ok ([[1; 0; 0; 0]; [5; 6; 7; 8; 9; 10; 11; 12]], [Mark; Free]) /\
  cl_memset two (mkfill 0 0 1 1) = Ok ([[1; 0; 0; 0]; [5; 6; 7; 8; 9; 10; 11; 12]], [Mark; Free]).
Proof. repeat split; vm_compute; reflexivity. Qed.
(** The hypotheses of the theorem on big sources can be met. *)
Example C67_big_example : exists m a, copy_ok m a /\ sensible m a /\ 2 ^ 31 <= size m (c_src a) /\
  size m (c_src a) < 2 ^ 32 /\ c_size a = size m (c_src a).
Proof.
  set (n := 2 ^ 31). set (l := repeat 7 (N.to_nat n)). set (l' := repeat 8 (N.to_nat n)).
  assert (L : N.of_nat (length l) = n) by (unfold l; rewrite repeat_length; apply N2Nat.id).
  assert (L' : N.of_nat (length l') = n) by (unfold l'; rewrite repeat_length; apply N2Nat.id).
  exists [l; l'], (mkcopy 0 0 1 0 true n).
  assert (S0 : size [l; l'] 0 = n) by exact L. assert (S1 : size [l; l'] 1 = n) by exact L'.
  assert (S2 : forall i, size [l; l'] i < W).
  { intros [|[|i]]; [rewrite S0; reflexivity|rewrite S1; reflexivity|]. unfold size, buf. cbn [nth]. destruct i; reflexivity. }
  split; [|split].
  - unfold copy_ok. cbn [c_src c_dst c_so c_do c_size length]. split; [lia|]. split; [lia|]. split; [reflexivity|]. split; [reflexivity|].
    split; [reflexivity|exact S2].
  - unfold sensible. cbn [c_src c_dst c_so c_do c_size]. rewrite S0, S1. split; [reflexivity|]. split; [lia|]. split; [lia|]. discriminate.
  - cbn [c_src c_size]. rewrite S0. split; [lia|]. split; reflexivity.
Qed.
