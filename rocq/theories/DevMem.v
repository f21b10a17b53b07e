(** * The memory a device reports as available (C66)

    A buffer gets memory on a device (its "remote") either explicitly, through
    arax_data_allocate_remote, or when the first task that uses it runs there.  The physical
    accelerator keeps one number, the memory still available, which is lowered and raised by hand
    at several places: by the calling process in arax_data_allocate_remote, by the worker before it
    executes a task, by the task handlers of the device, and by the handler of the "free" task that
    the destructor of a buffer issues.
    The model has the buffers, the queues of the virtual accelerators, the devices, and the calls
    of arax_data_allocate_remote that wait for their task.  *)
From Verif Require Import Base Sums.
Local Open Scope N_scope.

Arguments N.add : simpl never.
Arguments N.sub : simpl never.
Arguments N.mul : simpl never.
Arguments N.leb : simpl never.
Arguments N.ltb : simpl never.
Arguments N.eqb : simpl never.
Arguments N.modulo : simpl never.

(** ** The state *)

(** The device back-ends with handlers that compile at this commit: controller/src/Cuda,
    controller/src/OpenCL, controller/src/Cpu.  (controller/src/ROCm uses a flag, REMT_SYNC, that
    src/core/arax_data.h:47-50 no longer defines.)  All devices of a run are of one kind. *)
Inductive backend := Cuda | OpenCl | Cpu.

(** arax_data_s, src/core/arax_data.h:56-70: size, accel, remote (only whether it is set), phys,
    flags & OTHR_REMT.  [b_held]: a client still holds its reference.  [b_live]: not destroyed yet.
    [b_calls]: the calls of arax_data_allocate_remote that wait for this buffer, each with its
    virtual accelerator and whether its task was executed. *)
Record buf := mkbuf {
  b_size : N; b_held : bool; b_live : bool; b_acc : option nat;
  b_rem : bool; b_phys : option nat; b_othr : bool; b_calls : list (nat * bool) }.

(** Tasks in the queue of a virtual accelerator, src/core/arax_task.h:41-59: [TUser ins outs], a kernel
    (or memset, memcpy) with its inputs and outputs; [TSet b], arax_data_set, and [TGet b],
    arax_data_get, which both have the buffer as their only output (src/core/arax_data.c:66, 89);
    [TAlloc b], the alloc_data task of arax_data_allocate_remote (arax_data.c:181-182). *)
Inductive task := TUser (ins outs : list nat) | TSet (b : nat) | TGet (b : nat) | TAlloc (b : nat).

(** Buffers; queued tasks with their virtual accelerator, oldest first; the device of each virtual
    accelerator (arax_vaccel_s.phys, src/core/arax_vaccel.h:26-42); the throttle of each device
    (arax_accel_s.throttle, src/core/arax_accel.h:17-29); the queued "free" tasks of each device.
    Three history variables that no step reads: [extra p], the bytes that callers of
    arax_data_allocate_remote have charged to device [p] so far; [gift p], the bytes device [p]
    has allocated so far without anybody being charged; [lost p], the bytes charged to device [p]
    so far for allocations that then failed. *)
Record st := mkst {
  bufs : list buf; q : list (nat * task); asg : nat -> option nat;
  avail : nat -> N; frees : list (nat * N); extra : nat -> N; gift : nat -> N; lost : nat -> N }.

(** What a step of the program does: it continues, it aborts (an assertion or a fatal device error),
    or the step is not possible in this state. *)
Inductive res := Next (s : st) | Crash | Disabled.

(** The buffers a task refers to: task->io, src/core/arax_task.c:31-46. *)
Definition mentions (t : task) : list nat :=
  match t with TUser ins outs => ins ++ outs | TSet b => [b] | TGet b => [b] | TAlloc b => [b] end.
Definition outputs (t : task) : list nat :=
  match t with TUser ins outs => outs | TSet b => [b] | TGet b => [b] | TAlloc b => [b] end.

(** Adding to one entry of a table of numbers, no code of its own. *)
Definition add_at (f : nat -> N) (p : nat) (n : N) : nat -> N := fun x => if Nat.eqb x p then f x + n else f x.

(** Membership in task->io, no code of its own. *)
Definition mem (b : nat) (l : list nat) : bool := existsb (Nat.eqb b) l.

(** How many queued tasks hold a reference to buffer [b] (src/core/arax_data.c:230-249). *)
Definition cnt (b : nat) (l : list (nat * task)) : nat :=
  sumf (fun e => if mem b (mentions (snd e)) then 1%nat else 0%nat) l.

(** size_t arithmetic of arax_throttle_size_inc / _dec without ARAX_THROTTLE_ENFORCE (the default),
    src/core/arax_throttle.c:49-106. *)
Definition W : N := 2 ^ 64.
Definition t_inc (a sz : N) : N := (a + sz) mod W.
Definition t_dec (a sz : N) : N := (a + (W - sz mod W)) mod W.

Definition opt_eqb (a b : option nat) : bool :=
  match a, b with Some x, Some y => Nat.eqb x y | None, None => true | _, _ => false end.

(** Memory that device [p] really has given out: buffers resident on it that it allocated, and
    buffers already destroyed whose "free" task it has not executed yet.  (Specification; the
    device driver's view.) *)
Definition resident (p : nat) (b : buf) : N :=
  if b_live b && b_rem b && negb (b_othr b) && opt_eqb (b_phys b) (Some p) then b_size b else 0.
Definition to_free (p : nat) (f : nat * N) : N := if Nat.eqb (fst f) p then snd f else 0.
Definition device_bytes (s : st) (p : nat) : N := sumN (resident p) (bufs s) + sumN (to_free p) (frees s).

Section Run.
Variable k : backend.          (* the kind of the devices *)
Variable dev : nat -> N.       (* the memory of each device that was available at the start *)

(** arax_data_migrate_accel, src/core/arax_data.c:115-160. *)
Definition migrate (s : st) (v b : nat) : res :=
  match nth_error (bufs s) b with
  | None => Disabled
  | Some B =>
    let B' := mkbuf (b_size B) (b_held B) (b_live B) (Some v) (b_rem B) (b_phys B) (b_othr B) (b_calls B) in
    let s' := mkst (upd (bufs s) b B') (q s) (asg s) (avail s) (frees s) (extra s) (gift s) (lost s) in
    match b_acc B with
    | None => if b_rem B then Crash else Next s'
    | Some w => if Nat.eqb w v then Next s else if opt_eqb (asg s w) (asg s v) then Next s' else Crash
    end
  end.

(** arax_task_alloc's loop over the buffers, src/core/arax_task.c:31-46. *)
Fixpoint migrate_all (s : st) (v : nat) (bs : list nat) : res :=
  match bs with
  | [] => Next s
  | b :: r => match migrate s v b with Next s' => migrate_all s' v r | x => x end
  end.

(** arax_vaccel_add_task: the task joins the queue, src/core/arax_vaccel.c:28-39. *)
Definition enqueue (s : st) (v : nat) (t : task) : st :=
  mkst (bufs s) (q s ++ [(v, t)]) (asg s) (avail s) (frees s) (extra s) (gift s) (lost s).

(** Does the client hold all of these buffers?  (Using a buffer one does not hold is outside the
    API; no code of its own.) *)
Definition holds (s : st) (b : nat) : bool :=
  match nth_error (bufs s) b with Some B => b_live B && b_held B | None => false end.

(** arax_object_ref_dec on a buffer and, when that was the last reference, its destructor:
    src/core/arax_data.c:373-406.  References are held by the client and by queued tasks; the
    reference of a call of arax_data_allocate_remote is that of its task. *)
Definition drop (s : st) (b : nat) : res :=
  match nth_error (bufs s) b with
  | None => Next s
  | Some B =>
    if b_live B && negb (b_held B) && Nat.eqb (cnt b (q s)) 0 && Nat.eqb (length (b_calls B)) 0 then
      let B' := mkbuf (b_size B) false false (b_acc B) (b_rem B) (b_phys B) (b_othr B) (b_calls B) in
      if b_rem B && negb (b_othr B) then
        match b_phys B with
        | None => Crash
        | Some p => Next (mkst (upd (bufs s) b B') (q s) (asg s) (avail s) (frees s ++ [(p, b_size B)]) (extra s) (gift s) (lost s))
        end
      else Next (mkst (upd (bufs s) b B') (q s) (asg s) (avail s) (frees s) (extra s) (gift s) (lost s))
    else Next s
  end.
Fixpoint drop_all (s : st) (bs : list nat) : res :=
  match bs with
  | [] => Next s
  | b :: r => match drop s b with Next s' => drop_all s' r | x => x end
  end.

(** cudaMalloc / clCreateBuffer for buffer [b] when it is not resident yet:
    GPUaccelThread::alloc_remote (controller/src/Cuda/CUDAaccelThread.cpp:252-287),
    OpenCLaccelThread::alloc_remote (controller/src/OpenCL/OpenclaccelThread.cpp:349-377),
    cuda_alloc_no_throttle (CUDAaccelThread.cpp:382-398), alloc_no_throttle
    (controller/src/OpenCL/OpenclBuiltins.cpp:34-56).
    [charge]: lower the available memory of the device (CUDAaccelThread.cpp:267-268,
    OpenclaccelThread.cpp:364-365, OpenclBuiltins.cpp:45-46).  A request of no bytes gives a null
    pointer.  When the device has no room left, the allocations the worker makes for outputs abort
    ([must]: CUDAaccelThread.cpp:283-285, OpenclaccelThread.cpp:373-375); the others go on with a null
    pointer, since errors are checked only when built with ERROR_CHECKING
    (controller/src/Core/CMakeLists.txt:5, off by default; controller/include/CLHelper.h:35-49 and
    OpenclBuiltins.cpp:47-53, where the result is ignored).  A build that checks aborts there, which
    gives fewer executions. *)
Definition dev_alloc (must charge : bool) (s : st) (b : nat) : res :=
  match nth_error (bufs s) b with
  | None => Crash
  | Some B =>
    if b_rem B then Next s
    else match b_acc B with
    | None => Crash
    | Some v =>
      match asg s v with
      | None => Crash
      | Some p =>
        let ok := device_bytes s p + b_size B <=? dev p in
        if negb ok && must then Crash
        else
          Next (mkst (upd (bufs s) b
                  (mkbuf (b_size B) (b_held B) (b_live B) (b_acc B) (ok && (0 <? b_size B)) (Some p) (b_othr B) (b_calls B)))
                (q s) (asg s)
                (if charge then fun x => if Nat.eqb x p then t_dec (avail s p) (b_size B) else avail s x else avail s)
                (frees s) (extra s)
                (if ok && negb charge then add_at (gift s) p (b_size B) else gift s)
                (if negb ok && charge then add_at (lost s) p (b_size B) else lost s))
      end
    end
  end.
Fixpoint dev_alloc_all (must charge : bool) (s : st) (bs : list nat) : res :=
  match bs with
  | [] => Next s
  | b :: r => match dev_alloc must charge s b with Next s' => dev_alloc_all must charge s' r | x => x end
  end.

(** CPUaccelThread::alloc_remote, controller/src/Cpu/CPUaccelThread.cpp:74-82. *)
Definition cpu_alloc (s : st) (b : nat) : res :=
  match nth_error (bufs s) b with
  | None => Crash
  | Some B => match b_acc B with
              | None => Crash
              | Some v => match asg s v with
                | None => Crash
                | Some p => Next (mkst (upd (bufs s) b
                    (mkbuf (b_size B) (b_held B) (b_live B) (b_acc B) (b_rem B) (Some p) (b_othr B) (b_calls B)))
                    (q s) (asg s) (avail s) (frees s) (extra s) (gift s) (lost s))
                end
              end
  end.
Fixpoint cpu_alloc_all (s : st) (bs : list nat) : res :=
  match bs with
  | [] => Next s
  | b :: r => match cpu_alloc s b with Next s' => cpu_alloc_all s' r | x => x end
  end.

(** The worker makes the outputs of a task resident before it executes it:
    controller/src/Core/accelThread.cpp:403-409. *)
Definition prepare (s : st) (t : task) : res :=
  match k with Cpu => cpu_alloc_all s (outputs t) | _ => dev_alloc_all true true s (outputs t) end.

(** Is buffer [b] resident?  arax_assert(data->remote) in the handlers. *)
Definition has_remote (s : st) (b : nat) : bool :=
  match nth_error (bufs s) b with Some B => b_rem B | None => false end.

(** Mark the oldest waiting call of buffer record [B] on [v] as executed: arax_task_mark_done in the
    alloc_data handlers (CUDABuiltins.cu:106). *)
Fixpoint mark (v : nat) (l : list (nat * bool)) : list (nat * bool) :=
  match l with
  | [] => []
  | (w, x) :: r => if Nat.eqb w v && negb x then (w, true) :: r else (w, x) :: mark v r
  end.

Definition set_calls (s : st) (b : nat) (f : list (nat * bool) -> list (nat * bool)) : st :=
  match nth_error (bufs s) b with
  | None => s
  | Some B => mkst (upd (bufs s) b (mkbuf (b_size B) (b_held B) (b_live B) (b_acc B) (b_rem B) (b_phys B) (b_othr B) (f (b_calls B))))
                   (q s) (asg s) (avail s) (frees s) (extra s) (gift s) (lost s)
  end.

Definition remove_nth {A} (i : nat) (l : list A) : list A := firstn i l ++ skipn (S i) l.

(** The handlers: kernels allocate what is still missing, i.e. their inputs, on CUDA without charging
    (Host2GPU, controller/src/Cuda/CUDAaccelThread.cpp:182-209; memcpy and memset,
    controller/src/Cuda/CUDABuiltins.cu:129-216), on OpenCL with
    (controller/src/OpenCL/OpenclBuiltins.cpp:90-168); arax_data_set and arax_data_get
    assert that the buffer is resident (CUDABuiltins.cu:248-306, OpenclBuiltins.cpp:191-234);
    alloc_data finds the buffer resident and marks the task done (CUDABuiltins.cu:97-109), on OpenCL
    it asserts that it is (OpenclBuiltins.cpp:58-85).  The CPU has no remotes (CpuBuiltins.cpp:18-138). *)
Definition handle (s : st) (v : nat) (t : task) : res :=
  match k, t with
  | Cpu, _ => Next s
  | Cuda, TUser ins outs => dev_alloc_all false false s (ins ++ outs)
  | OpenCl, TUser ins outs => dev_alloc_all false true s (ins ++ outs)
  | _, TSet b => if has_remote s b then Next s else Crash
  | _, TGet b => if has_remote s b then Next s else Crash
  | Cuda, TAlloc b => Next (set_calls s b (mark v))
  | OpenCl, TAlloc b => if has_remote s b then Next (set_calls s b (mark v)) else Crash
  end.

(** One task, run by the device thread: controller/src/Core/accelThread.cpp:372-440.  [s] has the task
    removed from the queue; at the end its references are dropped (arax_object_ref_dec in workFunc
    and arax_task_free in the handler or by the client; simplification: in one step). *)
Definition execute (s : st) (v : nat) (t : task) : res :=
  match prepare s t with
  | Next s1 => match handle s1 v t with Next s2 => drop_all s2 (mentions t) | x => x end
  | x => x
  end.

(** What the processes and the devices do. *)
Inductive act :=
| ANew (sz : N)                  (* arax_data_init: src/core/arax_data.c:16-50 *)
| AIssue (v : nat) (ins outs : list nat)  (* arax_task_issue: src/arch/shm/impl.c:467-488 *)
| ASet (v b : nat)               (* arax_data_set: arax_data.c:74-92 *)
| AGet (v b : nat)               (* arax_data_get, up to the wait: arax_data.c:52-72 *)
| AAlloc (v b : nat)             (* arax_data_allocate_remote, up to the wait: arax_data.c:162-184 *)
| AEnd (b c : nat)               (* arax_data_allocate_remote, after the wait: arax_data.c:184-193 *)
| ASetRemote (v b : nat)         (* arax_data_set_remote: arax_data.c:206-218 *)
| ARelease (b : nat)             (* arax_data_free: arax_data.c:324-331 *)
| AAssign (v : nat) (p : nat)    (* a scheduler gives a virtual accelerator to a device: src/core/arax_accel.c:108-130 *)
| AExec (i : nat)                (* a device executes queued task number i, the oldest of its virtual accelerator *)
| AFree (i : nat).               (* a device executes the "free" task number i: CUDABuiltins.cu:218-238, OpenclBuiltins.cpp:170-183 *)

(** One step; citations at [act]. *)
Definition step (s : st) (a : act) : res :=
  match a with
  | ANew sz =>
      if sz <? W then
        Next (mkst (bufs s ++ [mkbuf sz true true None false None false []]) (q s) (asg s) (avail s) (frees s) (extra s) (gift s) (lost s))
      else Disabled
  | AIssue v ins outs =>
      if forallb (holds s) (ins ++ outs) then
        match migrate_all s v (ins ++ outs) with Next s' => Next (enqueue s' v (TUser ins outs)) | x => x end
      else Disabled
  | ASet v b =>
      if holds s b then
        match nth_error (bufs s) b with
        | Some B => if match b_acc B with Some w => Nat.eqb w v | None => true end
                    then Next (enqueue (mkst (upd (bufs s) b (mkbuf (b_size B) (b_held B) (b_live B) (Some v) (b_rem B) (b_phys B) (b_othr B) (b_calls B)))
                                  (q s) (asg s) (avail s) (frees s) (extra s) (gift s) (lost s)) v (TSet b))
                    else Crash
        | None => Disabled
        end
      else Disabled
  | AGet v b =>
      if holds s b then
        match nth_error (bufs s) b with
        | Some B => match b_acc B with
                    | Some w => if Nat.eqb w v then Next (enqueue s v (TGet b)) else Disabled
                    | None => Crash
                    end
        | None => Disabled
        end
      else Disabled
  | AAlloc v b =>
      if holds s b then
        match k, nth_error (bufs s) b with
        | Cpu, _ => Next s
        | _, Some B =>
            if b_rem B then match b_acc B with Some _ => Next s | None => Crash end
            else match migrate s v b with
                 | Next s' => Next (enqueue (set_calls s' b (fun l => l ++ [(v, false)])) v (TAlloc b))
                 | x => x
                 end
        | _, None => Disabled
        end
      else Disabled
  | AEnd b c =>
      match nth_error (bufs s) b with
      | None => Disabled
      | Some B =>
        match nth_error (b_calls B) c with
        | Some (v, true) =>
            if b_rem B && opt_eqb (b_acc B) (Some v) then
              match asg s v with
              | None => Crash
              | Some p =>
                let s' := set_calls s b (remove_nth c) in
                drop (mkst (bufs s') (q s') (asg s')
                        (fun x => if Nat.eqb x p then t_dec (avail s p) (b_size B) else avail s x) (frees s')
                        (add_at (extra s') p (b_size B)) (gift s') (lost s')) b
              end
            else Crash
        | _ => Disabled
        end
      end
  | ASetRemote v b =>
      if holds s b then
        match k, nth_error (bufs s) b with
        | Cpu, _ => Crash
        | _, Some B =>
            match b_acc B with
            | Some _ => Crash
            | None => if b_rem B then Crash else
                Next (mkst (upd (bufs s) b (mkbuf (b_size B) (b_held B) (b_live B) (Some v) true (b_phys B) true (b_calls B)))
                        (q s) (asg s) (avail s) (frees s) (extra s) (gift s) (lost s))
            end
        | _, None => Disabled
        end
      else Disabled
  | ARelease b =>
      match nth_error (bufs s) b with
      | Some B =>
        if b_live B && b_held B then
          drop (mkst (upd (bufs s) b (mkbuf (b_size B) false (b_live B) (b_acc B) (b_rem B) (b_phys B) (b_othr B) (b_calls B)))
                  (q s) (asg s) (avail s) (frees s) (extra s) (gift s) (lost s)) b
        else Disabled
      | None => Disabled
      end
  | AAssign v p => Next (mkst (bufs s) (q s) (fun x => if Nat.eqb x v then Some p else asg s x) (avail s) (frees s) (extra s) (gift s) (lost s))
  | AExec i =>
      match nth_error (q s) i with
      | None => Disabled
      | Some (v, t) =>
        if existsb (fun e => Nat.eqb (fst e) v) (firstn i (q s)) then Disabled
        else match asg s v with
        | None => Disabled
        | Some _ => execute (mkst (bufs s) (remove_nth i (q s)) (asg s) (avail s) (frees s) (extra s) (gift s) (lost s)) v t
        end
      end
  | AFree i =>
      match nth_error (frees s) i with
      | None => Disabled
      | Some (p, sz) =>
          Next (mkst (bufs s) (q s) (asg s) (fun x => if Nat.eqb x p then t_inc (avail s p) sz else avail s x)
                  (remove_nth i (frees s)) (extra s) (gift s) (lost s))
      end
  end.

(** At the start: no buffers, every device reports its memory (accelThread::workFunc start,
    controller/src/Core/accelThread.cpp:331-345, src/core/arax_accel.c:21). *)
Definition init : st := mkst [] [] (fun _ => None) dev [] (fun _ => 0) (fun _ => 0) (fun _ => 0).

(** Executions, no code of their own. *)
Inductive run : st -> list act -> st -> Prop :=
| run_nil s : run s [] s
| run_cons s a s1 l s2 : step s a = Next s1 -> run s1 l s2 -> run s (a :: l) s2.

End Run.

(** ** The law *)

Lemma sumN_remove {A} (f : A -> N) l i x : nth_error l i = Some x -> sumN f (remove_nth i l) + f x = sumN f l.
Proof.
  unfold remove_nth. revert i. induction l as [|y l IH]; intros [|i] E; cbn in *; try discriminate.
  - injection E as ->. lia.
  - specialize (IH _ E). lia.
Qed.
Lemma sumN_app {A} (f : A -> N) l m : sumN f (l ++ m) = sumN f l + sumN f m.
Proof. induction l as [|x l IH]; cbn; auto. rewrite IH. lia. Qed.

Lemma W_pos : W <> 0. Proof. discriminate. Qed.

(** Congruence modulo 2^64. *)
Definition eqm (a b : N) : Prop := a mod W = b mod W.
Lemma eqm_refl a : eqm a a. Proof. reflexivity. Qed.
Lemma eqm_dec a sz x y : eqm (a + x) y -> eqm (t_dec a sz + (x + sz)) y.
Proof.
  unfold eqm, t_dec. intros H. rewrite N.add_mod_idemp_l by apply W_pos.
  pose proof (N.div_mod sz W W_pos) as D. pose proof (N.mod_lt sz W W_pos) as L.
  replace (a + (W - sz mod W) + (x + sz)) with ((a + x) + (1 + sz / W) * W) by lia.
  rewrite N.mod_add by apply W_pos. exact H.
Qed.
Lemma eqm_inc a sz x y : eqm (a + (x + sz)) y -> eqm (t_inc a sz + x) y.
Proof.
  unfold eqm, t_inc. intros H. rewrite N.add_mod_idemp_l by apply W_pos.
  replace (a + sz + x) with (a + (x + sz)) by lia. exact H.
Qed.
Lemma eqm_add a b c : eqm a b -> eqm (a + c) (b + c).
Proof. unfold eqm. intros H. rewrite (N.add_mod a), (N.add_mod b) by apply W_pos. now rewrite H. Qed.
Lemma t_dec_lt a sz : t_dec a sz < W. Proof. apply N.mod_lt, W_pos. Qed.
Lemma t_inc_lt a sz : t_inc a sz < W. Proof. apply N.mod_lt, W_pos. Qed.

Section Proof.
Variable k : backend.
Variable dev : nat -> N.

Record inv (s : st) : Prop := mkinv {
  iv_law : forall p, eqm (avail s p + (device_bytes s p + (extra s p + lost s p))) (dev p + gift s p);
  iv_lt : forall p, avail s p < W;
  iv_cap : forall p, device_bytes s p <= dev p;
  iv_oth : forall i B, nth_error (bufs s) i = Some B -> b_othr B = true -> b_rem B = true }.

(** replacing one buffer by one that occupies the same memory *)
Lemma inv_upd s b B B' qq g : inv s -> nth_error (bufs s) b = Some B ->
  (forall p, resident p B' = resident p B) -> (b_othr B' = true -> b_rem B' = true) ->
  inv (mkst (upd (bufs s) b B') qq g (avail s) (frees s) (extra s) (gift s) (lost s)).
Proof.
  intros [I1 I2 I3 I4] E R O.
  assert (D : forall p, device_bytes (mkst (upd (bufs s) b B') qq g (avail s) (frees s) (extra s) (gift s) (lost s)) p = device_bytes s p).
  { intros p. unfold device_bytes. cbn. pose proof (sumN_upd (resident p) _ _ B' _ E) as S. rewrite R in S. lia. }
  split; cbn [bufs q asg avail frees extra gift lost]; auto.
  - intros p. rewrite D. apply I1.
  - intros p. rewrite D. apply I3.
  - intros i X HX. apply nth_upd_cases in HX. destruct HX as [(-> & -> & _)|[_ HX]]; eauto.
Qed.
Lemma inv_same s qq g : inv s -> inv (mkst (bufs s) qq g (avail s) (frees s) (extra s) (gift s) (lost s)).
Proof. intros [I1 I2 I3 I4]. split; auto. Qed.

Lemma migrate_inv s v b s' : inv s -> migrate s v b = Next s' -> inv s'.
Proof.
  intros I M. unfold migrate in M. destruct (nth_error (bufs s) b) as [B|] eqn:E; [|discriminate].
  set (B' := mkbuf (b_size B) (b_held B) (b_live B) (Some v) (b_rem B) (b_phys B) (b_othr B) (b_calls B)) in *.
  assert (G : inv (mkst (upd (bufs s) b B') (q s) (asg s) (avail s) (frees s) (extra s) (gift s) (lost s))).
  { eapply inv_upd; eauto. exact (iv_oth _ I _ _ E). }
  destruct (b_acc B) as [w|]; [destruct (Nat.eqb w v); [now injection M as <-|destruct (opt_eqb _ _); [|discriminate]]|
    destruct (b_rem B); [discriminate|]]; injection M as <-; exact G.
Qed.
Lemma migrate_all_inv bs : forall s v s', inv s -> migrate_all s v bs = Next s' -> inv s'.
Proof.
  induction bs as [|b r IH]; intros s v s' I M; cbn [migrate_all] in M; [now injection M as <-|].
  destruct (migrate s v b) as [s1| |] eqn:M1; try discriminate. eapply IH; [|eauto]. eapply migrate_inv; eauto.
Qed.

Lemma drop_inv s b s' : inv s -> drop s b = Next s' -> inv s'.
Proof.
  intros I D. unfold drop in D. destruct (nth_error (bufs s) b) as [B|] eqn:E; [|now injection D as <-].
  destruct (b_live B && negb (b_held B) && Nat.eqb (cnt b (q s)) 0 && Nat.eqb (length (b_calls B)) 0) eqn:T;
    [|now injection D as <-].
  apply andb_true_iff in T. destruct T as [T _]. apply andb_true_iff in T. destruct T as [T _].
  apply andb_true_iff in T. destruct T as [T1 _].
  set (B' := mkbuf (b_size B) false false (b_acc B) (b_rem B) (b_phys B) (b_othr B) (b_calls B)) in *.
  assert (R0 : forall p, resident p B' = 0) by (intros; reflexivity).
  destruct (b_rem B && negb (b_othr B)) eqn:R.
  - destruct (b_phys B) as [p0|] eqn:P; [|discriminate]. injection D as <-.
    destruct I as [I1 I2 I3 I4].
    assert (DB : forall p, device_bytes (mkst (upd (bufs s) b B') (q s) (asg s) (avail s) (frees s ++ [(p0, b_size B)]) (extra s) (gift s) (lost s)) p = device_bytes s p).
    { intros p. unfold device_bytes. cbn [bufs frees]. pose proof (sumN_upd (resident p) _ _ B' _ E) as S1. rewrite R0 in S1.
      rewrite sumN_app. cbn [sumN]. unfold to_free at 2. cbn [fst snd].
      assert (EQ : resident p B = if Nat.eqb p0 p then b_size B else 0).
      { unfold resident. apply andb_true_iff in R. destruct R as [R1 R2]. rewrite T1, R1, R2, P. reflexivity. }
      lia. }
    split; cbn [bufs q asg avail frees extra gift lost]; auto.
    + intros p. rewrite DB. apply I1.
    + intros p. rewrite DB. apply I3.
    + intros i X HX. apply nth_upd_cases in HX. destruct HX as [(-> & -> & _)|[_ HX]]; eauto. exact (I4 _ _ E).
  - injection D as <-. eapply inv_upd; eauto.
    + intros p. rewrite R0. unfold resident. rewrite T1. cbn [andb]. rewrite R. reflexivity.
    + exact (iv_oth _ I _ _ E).
Qed.
Lemma drop_all_inv bs : forall s s', inv s -> drop_all s bs = Next s' -> inv s'.
Proof.
  induction bs as [|b r IH]; intros s s' I D; cbn [drop_all] in D; [now injection D as <-|].
  destruct (drop s b) as [s1| |] eqn:D1; try discriminate. eapply IH; [|eauto]. eapply drop_inv; eauto.
Qed.

(** every queued task and every pending call refers to a buffer that still exists: needed so that
    an allocation always counts *)
Definition alive (s : st) (b : nat) : Prop := forall B, nth_error (bufs s) b = Some B -> b_live B = true.

Lemma dev_alloc_inv m c s b s' : inv s -> alive s b -> dev_alloc dev m c s b = Next s' ->
  inv s' /\ q s' = q s /\ (forall i, alive s i -> alive s' i).
Proof.
  intros I U D. unfold dev_alloc in D. destruct (nth_error (bufs s) b) as [B|] eqn:E; [|discriminate].
  pose proof (U _ E) as Lv. destruct (b_rem B) eqn:R; [injection D as <-; auto|].
  destruct (b_acc B) as [v|] eqn:Av; [|discriminate]. destruct (asg s v) as [p0|] eqn:Ag; [|discriminate].
  cbv zeta in D. remember (device_bytes s p0 + b_size B <=? dev p0) as ok eqn:F.
  destruct (negb ok && m); [discriminate|].
  apply (f_equal (fun r => match r with Next x => x | _ => s end)) in D. cbn beta iota in D. subst s'.
  set (B' := mkbuf (b_size B) (b_held B) (b_live B) (Some v) (ok && (0 <? b_size B)) (Some p0) (b_othr B) (b_calls B)) in *.
  assert (Ho : b_othr B = false).
  { destruct (b_othr B) eqn:O; auto. pose proof (iv_oth _ I _ _ E O). congruence. }
  assert (Rb : forall p, resident p B = 0). { intros p. unfold resident. rewrite R, andb_false_r. reflexivity. }
  assert (VB : forall p, resident p B' = if ok && Nat.eqb p p0 then b_size B else 0).
  { intros p. unfold resident, B'. cbn [b_live b_rem b_othr b_phys b_size opt_eqb]. rewrite Lv, Ho. cbn [andb negb].
    rewrite (Nat.eqb_sym p p0), andb_true_r. destruct ok; cbn [andb]; [|reflexivity]. destruct (0 <? b_size B) eqn:Z; cbn [andb]; auto.
    apply N.ltb_ge in Z. destruct (Nat.eqb p0 p); auto. lia. }
  destruct I as [I1 I2 I3 I4].
  split; [|split; [reflexivity|]].
  - match goal with |- inv ?X => set (s1 := X) end.
    assert (DB : forall p, device_bytes s1 p = device_bytes s p + if ok && Nat.eqb p p0 then b_size B else 0).
    { intros p. unfold device_bytes, s1. cbn [bufs frees]. pose proof (sumN_upd (resident p) _ _ B' _ E) as S1.
      rewrite Rb, VB in S1. lia. }
    split.
    + intros p. rewrite DB. unfold s1. cbn [avail extra gift lost]. specialize (I1 p).
      destruct c.
      * rewrite andb_false_r, andb_true_r. destruct (Nat.eqb_spec p p0) as [->|Np].
        -- rewrite andb_true_r. destruct ok; cbn [negb].
           ++ rewrite (N.add_comm (device_bytes s p0)), <- (N.add_assoc (b_size B)), (N.add_comm (b_size B)).
              apply eqm_dec. exact I1.
           ++ unfold add_at. rewrite Nat.eqb_refl, N.add_0_r, (N.add_assoc (extra s p0)), (N.add_assoc (device_bytes s p0)).
              apply eqm_dec. exact I1.
        -- rewrite andb_false_r, N.add_0_r. destruct ok; cbn [negb]; [exact I1|]. unfold add_at.
           rewrite (proj2 (Nat.eqb_neq _ _) Np). exact I1.
      * rewrite andb_true_r, andb_false_r. unfold add_at. destruct ok; cbn [andb]; [|rewrite N.add_0_r; exact I1].
        destruct (Nat.eqb p p0).
        -- apply (eqm_add _ _ (b_size B)) in I1.
           replace (avail s p + (device_bytes s p + b_size B + (extra s p + lost s p))) with (avail s p + (device_bytes s p + (extra s p + lost s p)) + b_size B) by lia.
           replace (dev p + (gift s p + b_size B)) with (dev p + gift s p + b_size B) by lia. exact I1.
        -- rewrite N.add_0_r. exact I1.
    + intros p. unfold s1. cbn [avail]. destruct c; auto. destruct (Nat.eqb p p0); auto. apply t_dec_lt.
    + intros p. rewrite DB. specialize (I3 p). destruct ok; cbn [andb]; [|lia]. symmetry in F. apply N.leb_le in F.
      destruct (Nat.eqb_spec p p0) as [->|]; lia.
    + intros i X HX. unfold s1 in HX. cbn [bufs] in HX. apply nth_upd_cases in HX. destruct HX as [(-> & -> & _)|[_ HX]]; eauto.
      unfold B'. cbn. congruence.
  - intros i Ui X HX. cbn [bufs] in HX. apply nth_upd_cases in HX. destruct HX as [(-> & -> & _)|[_ HX]]; auto.
Qed.
Lemma dev_alloc_all_inv m c bs : forall s s', inv s -> (forall b, In b bs -> alive s b) -> dev_alloc_all dev m c s bs = Next s' ->
  inv s' /\ q s' = q s /\ (forall i, alive s i -> alive s' i).
Proof.
  induction bs as [|b r IH]; intros s s' I U D; cbn [dev_alloc_all] in D; [injection D as <-; auto|].
  destruct (dev_alloc dev m c s b) as [s1| |] eqn:D1; try discriminate.
  destruct (dev_alloc_inv _ _ _ _ _ I (U b (or_introl eq_refl)) D1) as (I1 & Q1 & U1).
  destruct (IH _ _ I1 (fun x Hx => U1 _ (U _ (or_intror Hx))) D) as (I2 & Q2 & U2).
  split; [auto|]. split; [congruence|auto].
Qed.
Lemma cpu_alloc_inv s b s' : inv s -> cpu_alloc s b = Next s' -> (forall i B, nth_error (bufs s) i = Some B -> b_rem B = false) ->
  inv s' /\ q s' = q s /\ (forall i, alive s i -> alive s' i) /\ (forall i B, nth_error (bufs s') i = Some B -> b_rem B = false) /\
  avail s' = avail s /\ frees s' = frees s /\ extra s' = extra s /\ gift s' = gift s /\ lost s' = lost s.
Proof.
  intros I D H. unfold cpu_alloc in D. destruct (nth_error (bufs s) b) as [B|] eqn:E; [|discriminate].
  destruct (b_acc B) as [v|]; [|discriminate]. destruct (asg s v) as [p|]; [|discriminate]. injection D as <-.
  split; [|cbn [q bufs avail frees extra gift lost]; split; [auto|split; [|split; [|auto]]]].
  - eapply inv_upd; eauto.
    + intros x. unfold resident. cbn. rewrite (H _ _ E). now rewrite andb_false_r.
    + exact (iv_oth _ I _ _ E).
  - intros i Ui X HX. cbn [bufs] in HX. apply nth_upd_cases in HX. destruct HX as [(-> & -> & _)|[_ HX]]; auto. exact (Ui _ E).
  - intros i X HX. apply nth_upd_cases in HX. destruct HX as [(-> & -> & _)|[_ HX]]; eauto. cbn. eauto.
Qed.
Lemma cpu_alloc_all_inv bs : forall s s', inv s -> cpu_alloc_all s bs = Next s' -> (forall i B, nth_error (bufs s) i = Some B -> b_rem B = false) ->
  inv s' /\ q s' = q s /\ (forall i, alive s i -> alive s' i) /\ (forall i B, nth_error (bufs s') i = Some B -> b_rem B = false) /\
  avail s' = avail s /\ frees s' = frees s /\ extra s' = extra s /\ gift s' = gift s /\ lost s' = lost s.
Proof.
  induction bs as [|b r IH]; intros s s' I D H; cbn [cpu_alloc_all] in D; [injection D as <-; auto 10|].
  destruct (cpu_alloc s b) as [s1| |] eqn:D1; try discriminate.
  destruct (cpu_alloc_inv _ _ _ I D1 H) as (I1 & Q1 & U1 & H1 & E1 & E2 & E3 & E4 & E5).
  destruct (IH _ _ I1 D H1) as (I2 & Q2 & U2 & H2 & F1 & F2 & F3 & F4 & F5).
  split; [auto|]. split; [congruence|]. split; [auto|]. split; [exact H2|]. repeat split; congruence.
Qed.

(** On the CPU nothing is ever resident. *)
Definition cpuok (s : st) : Prop :=
  (forall i B, nth_error (bufs s) i = Some B -> b_rem B = false) /\
  (forall i B, nth_error (bufs s) i = Some B -> b_calls B = []) /\ frees s = [] /\ (forall p, extra s p = 0) /\ (forall p, gift s p = 0) /\ (forall p, lost s p = 0).
(** Buffers referred to by queued tasks exist. *)
Definition live_inv (s : st) : Prop := (forall i, (0 < cnt i (q s))%nat -> alive s i) /\ (k = Cpu -> cpuok s).
Definition keeps (s s' : st) : Prop :=
  q s' = q s /\ (forall i, (0 < cnt i (q s))%nat -> alive s i -> alive s' i) /\ (k = Cpu -> cpuok s -> cpuok s').

Lemma keeps_refl s : keeps s s. Proof. split; auto. Qed.
Lemma keeps_trans s1 s2 s3 : keeps s1 s2 -> keeps s2 s3 -> keeps s1 s3.
Proof.
  intros (A1 & A2 & A3) (B1 & B2 & B3). split; [congruence|]. split; [|auto].
  intros i C L. apply B2; [rewrite A1; auto|auto].
Qed.
Lemma keeps_live s s' : keeps s s' -> live_inv s -> live_inv s'.
Proof.
  intros (A1 & A2 & A3) (B1 & B2). split.
  - intros i C. rewrite A1 in C. auto.
  - auto.
Qed.
Lemma keeps_upd s b B B' : nth_error (bufs s) b = Some B ->
  (b_live B' = b_live B \/ cnt b (q s) = 0%nat) -> b_rem B' = b_rem B -> b_calls B' = b_calls B ->
  keeps s (mkst (upd (bufs s) b B') (q s) (asg s) (avail s) (frees s) (extra s) (gift s) (lost s)).
Proof.
  intros E L R C. split; [reflexivity|]. split.
  - intros i Ci A X HX. cbn [bufs] in HX. apply nth_upd_cases in HX. destruct HX as [(-> & -> & _)|[_ HX]]; auto.
    destruct L as [L|L]; [|lia]. rewrite L. auto.
  - intros _ (C1 & C2 & C3 & C4 & C5 & C6). split; [|split; [|auto]]; cbn [bufs].
    + intros i X HX. apply nth_upd_cases in HX. destruct HX as [(-> & -> & _)|[_ HX]]; [rewrite R; eauto|eauto].
    + intros i X HX. apply nth_upd_cases in HX. destruct HX as [(-> & -> & _)|[_ HX]]; [rewrite C; eauto|eauto].
Qed.
Lemma migrate_keeps s v b s' : migrate s v b = Next s' -> keeps s s'.
Proof.
  intros M. unfold migrate in M. destruct (nth_error (bufs s) b) as [B|] eqn:E; [|discriminate].
  destruct (b_acc B) as [w|]; [destruct (Nat.eqb w v); [injection M as <-; apply keeps_refl|destruct (opt_eqb _ _); [|discriminate]]|
    destruct (b_rem B) eqn:R; [discriminate|]]; injection M as <-; eapply keeps_upd; eauto.
Qed.
Lemma migrate_all_keeps bs : forall s v s', migrate_all s v bs = Next s' -> keeps s s'.
Proof.
  induction bs as [|b r IH]; intros s v s' M; cbn [migrate_all] in M; [injection M as <-; apply keeps_refl|].
  destruct (migrate s v b) as [s1| |] eqn:M1; try discriminate. eapply keeps_trans; eauto using migrate_keeps.
Qed.
Lemma drop_keeps s b s' : drop s b = Next s' -> keeps s s'.
Proof.
  intros D. unfold drop in D. destruct (nth_error (bufs s) b) as [B|] eqn:E; [|injection D as <-; apply keeps_refl].
  destruct (b_live B && negb (b_held B) && Nat.eqb (cnt b (q s)) 0 && Nat.eqb (length (b_calls B)) 0) eqn:T;
    [|injection D as <-; apply keeps_refl].
  apply andb_true_iff in T. destruct T as [T _]. apply andb_true_iff in T. destruct T as [_ T]. apply Nat.eqb_eq in T.
  set (B' := mkbuf (b_size B) false false (b_acc B) (b_rem B) (b_phys B) (b_othr B) (b_calls B)) in *.
  assert (G : keeps s (mkst (upd (bufs s) b B') (q s) (asg s) (avail s) (frees s) (extra s) (gift s) (lost s))) by (eapply keeps_upd; eauto).
  destruct (b_rem B) eqn:R.
  - destruct (negb (b_othr B)); cbn [andb] in D; [destruct (b_phys B) as [p|]; [|discriminate]|]; injection D as <-; auto.
    destruct G as (G1 & G2 & G3). split; [auto|]. split; [exact G2|]. intros Hk C. exfalso.
    destruct C as (C1 & _). specialize (C1 _ _ E). congruence.
  - cbn [andb] in D. injection D as <-. exact G.
Qed.
Lemma drop_all_keeps bs : forall s s', drop_all s bs = Next s' -> keeps s s'.
Proof.
  induction bs as [|b r IH]; intros s s' M; cbn [drop_all] in M; [injection M as <-; apply keeps_refl|].
  destruct (drop s b) as [s1| |] eqn:M1; try discriminate. eapply keeps_trans; eauto using drop_keeps.
Qed.

Lemma mem_In b l : mem b l = true <-> In b l.
Proof.
  unfold mem. rewrite existsb_exists. split.
  - intros (x & H1 & H2). apply Nat.eqb_eq in H2. now subst.
  - intros H. exists b. split; auto. apply Nat.eqb_refl.
Qed.
Lemma cnt_enq i qq v t : cnt i (qq ++ [(v, t)]) = (cnt i qq + if mem i (mentions t) then 1 else 0)%nat.
Proof. unfold cnt. induction qq as [|e qq IH]; cbn [app sumf snd]; [lia|]. rewrite IH. lia. Qed.
Lemma cnt_remove i qq n e : nth_error qq n = Some e ->
  (cnt i (remove_nth n qq) + (if mem i (mentions (snd e)) then 1 else 0) = cnt i qq)%nat.
Proof.
  unfold cnt, remove_nth. revert n. induction qq as [|y l IH]; intros [|n] E; cbn in *; try discriminate.
  - injection E as ->. lia.
  - specialize (IH _ E). lia.
Qed.
Lemma enqueue_ok s v t : inv s -> live_inv s -> (forall b, In b (mentions t) -> alive s b) -> inv (enqueue s v t) /\ live_inv (enqueue s v t).
Proof.
  intros I (L1 & L2) A. split.
  - exact (inv_same s _ _ I).
  - split; [|exact L2]. intros i C. cbn [enqueue q] in C. rewrite cnt_enq in C.
    destruct (mem i (mentions t)) eqn:M; [apply mem_In in M; exact (A i M)|]. apply (L1 i). lia.
Qed.
Lemma holds_alive s b : holds s b = true -> alive s b.
Proof. unfold holds, alive. intros H B E. rewrite E in H. now apply andb_true_iff in H. Qed.
Lemma migrate_alive s v b s' : migrate s v b = Next s' -> forall i, alive s i -> alive s' i.
Proof.
  intros M. unfold migrate in M. destruct (nth_error (bufs s) b) as [B|] eqn:E; [|discriminate].
  assert (G : forall i, alive s i -> alive (mkst (upd (bufs s) b (mkbuf (b_size B) (b_held B) (b_live B) (Some v) (b_rem B) (b_phys B) (b_othr B) (b_calls B))) (q s) (asg s) (avail s) (frees s) (extra s) (gift s) (lost s)) i).
  { intros i A X HX. cbn [bufs] in HX. apply nth_upd_cases in HX. destruct HX as [(-> & -> & _)|[_ HX]]; auto. exact (A _ E). }
  destruct (b_acc B) as [w|]; [destruct (Nat.eqb w v); [now injection M as <-|destruct (opt_eqb _ _); [|discriminate]]|
    destruct (b_rem B) eqn:R; [discriminate|]]; injection M as <-; exact G.
Qed.
Lemma migrate_all_alive bs : forall s v s', migrate_all s v bs = Next s' -> forall i, alive s i -> alive s' i.
Proof.
  induction bs as [|b r IH]; intros s v s' M i A; cbn [migrate_all] in M; [now injection M as <-|].
  destruct (migrate s v b) as [s1| |] eqn:M1; try discriminate. eapply IH; eauto. eapply migrate_alive; eauto.
Qed.
Lemma set_calls_inv s b f : inv s -> inv (set_calls s b f).
Proof.
  intros I. unfold set_calls. destruct (nth_error (bufs s) b) as [B|] eqn:E; auto.
  eapply inv_upd; eauto. exact (iv_oth _ I _ _ E).
Qed.
Lemma set_calls_alive s b f i : alive s i -> alive (set_calls s b f) i.
Proof.
  intros A. unfold set_calls. destruct (nth_error (bufs s) b) as [B|] eqn:E; auto.
  intros X HX. cbn [bufs] in HX. apply nth_upd_cases in HX. destruct HX as [(-> & -> & _)|[_ HX]]; auto. exact (A _ E).
Qed.
Lemma set_calls_q s b f : q (set_calls s b f) = q s.
Proof. unfold set_calls. now destruct (nth_error (bufs s) b). Qed.

Lemma outs_in t b : In b (outputs t) -> In b (mentions t).
Proof. destruct t; cbn; auto. intros. apply in_or_app. now right. Qed.

Lemma execute_ok s v t s' : inv s -> live_inv s -> (forall b, In b (mentions t) -> alive s b) ->
  execute k dev s v t = Next s' -> inv s' /\ live_inv s'.
Proof.
  intros I L A D. unfold execute in D. destruct (prepare k dev s t) as [s1| |] eqn:P; try discriminate.
  destruct (handle k dev s1 v t) as [s2| |] eqn:H; try discriminate.
  assert (G : inv s2 /\ live_inv s2).
  2:{ destruct G as [G1 G2]. split; [eapply drop_all_inv; eauto|]. eapply keeps_live; [eapply drop_all_keeps; eauto|auto]. }
  assert (Ao : forall b, In b (outputs t) -> alive s b) by (intros; apply A, outs_in; auto).
  unfold prepare in P. destruct L as [L1 L2].
  assert (K : (k = Cpu /\ cpu_alloc_all s (outputs t) = Next s1) \/ (k <> Cpu /\ dev_alloc_all dev true true s (outputs t) = Next s1)).
  { destruct k; [right|right|left]; split; auto; discriminate. }
  destruct K as [[Hk K]|[Hk K]].
  - destruct (L2 Hk) as (C1 & C2 & C3 & C4 & C5 & C6).
    destruct (cpu_alloc_all_inv _ _ _ I K C1) as (I1 & Q1 & U1 & R1 & E1 & E2 & E3 & E4 & E5).
    rewrite Hk in H. cbn in H. injection H as <-. split; [auto|]. split.
    + intros i Ci. rewrite Q1 in Ci. auto.
    + intros _. split; [exact R1|]. split; [|rewrite E2, E3, E4, E5; auto].
      clear - K C2. revert s s1 K C2. induction (outputs t) as [|b r IH]; intros s s1 K C2; cbn [cpu_alloc_all] in K; [injection K as <-; auto|].
      destruct (cpu_alloc s b) as [s3| |] eqn:E; try discriminate. eapply IH; eauto.
      unfold cpu_alloc in E. destruct (nth_error (bufs s) b) as [B|] eqn:EB; [|discriminate].
      destruct (b_acc B); [|discriminate]. destruct (asg s n); [|discriminate]. injection E as <-. cbn [bufs].
      intros i X HX. apply nth_upd_cases in HX. destruct HX as [(-> & -> & _)|[_ HX]]; eauto. cbn. eauto.
  - destruct (dev_alloc_all_inv _ _ _ _ _ I Ao K) as (I1 & Q1 & U1).
    assert (Am : forall b, In b (mentions t) -> alive s1 b) by auto.
    assert (G : forall s3, inv s3 -> q s3 = q s -> (forall i, alive s1 i -> alive s3 i) -> inv s3 /\ live_inv s3).
    { intros s3 I3 Q3 U3. split; auto. split; [|congruence]. intros i Ci. rewrite Q3 in Ci. auto. }
    destruct k, t as [ins outs|b|b|b]; cbn in H; try congruence.
    all: try (destruct (has_remote s1 b); [|discriminate]).
    all: try (injection H as <-; apply G; auto; fail).
    all: try (injection H as <-; apply G; [now apply set_calls_inv|now rewrite set_calls_q|now apply set_calls_alive]).
    all: destruct (dev_alloc_all_inv _ _ _ _ _ I1 Am H) as (I2 & Q2 & U2); apply G; auto; congruence.
Qed.

Theorem step_inv s a s' : inv s -> live_inv s -> step k dev s a = Next s' -> inv s' /\ live_inv s'.
Proof.
  intros I L D. destruct a as [sz|v ins outs|v b|v b|v b|b c|v b|b|v p|i|i]; cbn [step] in D.
  - (* ANew *) destruct (sz <? W) eqn:Hs; [|discriminate]. injection D as <-.
    set (B0 := mkbuf sz true true None false None false []).
    assert (N : forall i B, nth_error (bufs s ++ [B0]) i = Some B -> nth_error (bufs s) i = Some B \/ B = B0).
    { intros i B E. destruct (Nat.lt_ge_cases i (length (bufs s))) as [X|X];
        [rewrite nth_error_app1 in E by auto; auto|rewrite nth_error_app2 in E by auto].
      destruct (i - length (bufs s))%nat; [injection E as <-; auto|destruct n; discriminate]. }
    split.
    + destruct I as [I1 I2 I3 I4].
      assert (DB : forall p, device_bytes (mkst (bufs s ++ [B0]) (q s) (asg s) (avail s) (frees s) (extra s) (gift s) (lost s)) p = device_bytes s p).
      { intros p. unfold device_bytes. cbn [bufs frees]. rewrite sumN_app. cbn [sumN].
        replace (resident p B0) with 0 by reflexivity. lia. }
      split; cbn [bufs q asg avail frees extra gift lost]; auto.
      * intros p. rewrite DB. apply I1.
      * intros p. rewrite DB. apply I3.
      * intros i B E O. destruct (N _ _ E) as [E'| ->]; [eauto|discriminate].
    + destruct L as [L1 L2]. split; cbn [q].
      * intros i C B E. cbn [bufs] in E. destruct (N _ _ E) as [E'| ->]; auto. exact (L1 i C _ E').
      * intros Hk. destruct (L2 Hk) as (C1 & C2 & C3). split; [|split; [|exact C3]]; cbn [bufs];
          intros i B E; destruct (N _ _ E) as [E'| ->]; eauto.
  - (* AIssue *) destruct (forallb (holds s) (ins ++ outs)) eqn:H; [|discriminate].
    destruct (migrate_all s v (ins ++ outs)) as [s1| |] eqn:M; try discriminate. injection D as <-.
    rewrite forallb_forall in H. apply enqueue_ok.
    + eapply migrate_all_inv; eauto.
    + eapply keeps_live; eauto. eapply migrate_all_keeps; eauto.
    + intros b Hb. eapply migrate_all_alive; eauto. apply holds_alive, H, Hb.
  - (* ASet *) destruct (holds s b) eqn:H; [|discriminate]. destruct (nth_error (bufs s) b) as [B|] eqn:E; [|discriminate].
    destruct (match b_acc B with Some w => _ | None => _ end); [|discriminate]. injection D as <-. apply enqueue_ok.
    + eapply inv_upd; eauto. exact (iv_oth _ I _ _ E).
    + eapply keeps_live; [|eauto]. eapply keeps_upd; eauto.
    + intros x [<-|[]] X HX. cbn [bufs] in HX. apply nth_upd_cases in HX. destruct HX as [(_ & -> & _)|[_ HX]].
      * cbn. exact (holds_alive _ _ H _ E).
      * exact (holds_alive _ _ H _ HX).
  - (* AGet *) destruct (holds s b) eqn:H; [|discriminate]. destruct (nth_error (bufs s) b) as [B|] eqn:E; [|discriminate].
    destruct (b_acc B); [|discriminate]. destruct (Nat.eqb n v); [|discriminate]. injection D as <-. apply enqueue_ok; auto.
    intros x [<-|[]]. now apply holds_alive.
  - (* AAlloc *) destruct (holds s b) eqn:H; [|discriminate].
    destruct (nth_error (bufs s) b) as [B|] eqn:E; [|destruct k; try discriminate; injection D as <-; auto].
    assert (D' : k = Cpu /\ s' = s \/ k <> Cpu /\
       (if b_rem B then match b_acc B with Some _ => Next s | None => Crash end
        else match migrate s v b with
             | Next s' => Next (enqueue (set_calls s' b (fun l => l ++ [(v, false)])) v (TAlloc b))
             | x => x
             end) = Next s').
    { destruct k; [right|right|left]; split; try discriminate; auto. now injection D. }
    clear D. destruct D' as [[_ ->]|[Nk D]]; auto.
    destruct (b_rem B) eqn:R.
    { destruct (b_acc B); [|discriminate]. injection D as <-; auto. }
    destruct (migrate s v b) as [s1| |] eqn:M; try discriminate. injection D as <-.
    pose proof (migrate_inv _ _ _ _ I M) as I1. destruct (keeps_live _ _ (migrate_keeps _ _ _ _ M) L) as [L1 _].
    apply enqueue_ok.
    + now apply set_calls_inv.
    + split; [|congruence]. intros i C. rewrite set_calls_q in C. apply set_calls_alive. auto.
    + intros x [<-|[]]. apply set_calls_alive. eapply migrate_alive; eauto. now apply holds_alive.
  - (* AEnd *) destruct (nth_error (bufs s) b) as [B|] eqn:E; [|discriminate].
    destruct (nth_error (b_calls B) c) as [[v [|]]|] eqn:Ec; try discriminate.
    destruct (b_rem B && opt_eqb (b_acc B) (Some v)); [|discriminate].
    destruct (asg s v) as [p0|] eqn:Ag; [|discriminate].
    match type of D with drop ?X b = _ => set (s1 := X) in * end.
    assert (Nk : k <> Cpu).
    { intros Hk. destruct L as [_ L]. destruct (L Hk) as (_ & C & _). rewrite (C _ _ E) in Ec. destruct c; discriminate. }
    assert (I0 : inv (set_calls s b (remove_nth c))) by now apply set_calls_inv.
    set (s0 := set_calls s b (remove_nth c)) in *.
    assert (Ea : avail s0 = avail s). { unfold s0, set_calls. now rewrite E. }
    assert (G : inv s1 /\ live_inv s1).
    { destruct I0 as [I1 I2 I3 I4]. split.
      - assert (DB : forall p, device_bytes s1 p = device_bytes s0 p) by reflexivity.
        split; unfold s1; cbn [bufs q asg avail frees extra gift lost]; auto.
        + intros p. fold s1. rewrite DB. specialize (I1 p). unfold add_at. rewrite Ea in I1.
          destruct (Nat.eqb_spec p p0) as [->|]; auto.
          replace (device_bytes s0 p0 + (extra s0 p0 + b_size B + lost s0 p0)) with (device_bytes s0 p0 + (extra s0 p0 + lost s0 p0) + b_size B) by lia.
          apply eqm_dec. exact I1.
        + intros p. rewrite <- Ea. destruct (Nat.eqb p p0); [apply t_dec_lt|apply I2].
      - destruct L as [L1 _]. split; [|congruence]. intros i C. unfold s1 in C. cbn [q] in C. unfold s0 in C. rewrite set_calls_q in C.
        pose proof (set_calls_alive s b (remove_nth c) i (L1 i C)) as A. exact A. }
    destruct G as [G1 G2]. split; [eapply drop_inv; eauto|]. eapply keeps_live; [eapply drop_keeps; eauto|auto].
  - (* ASetRemote *) destruct (holds s b) eqn:H; [|discriminate].
    destruct (nth_error (bufs s) b) as [B|] eqn:E; [|destruct k; discriminate].
    destruct (b_acc B) eqn:Av; [destruct k; discriminate|]. destruct (b_rem B) eqn:R; [destruct k; discriminate|].
    assert (Nk : k <> Cpu) by (intros Hk; rewrite Hk in D; discriminate).
    assert (D' : s' = mkst (upd (bufs s) b (mkbuf (b_size B) (b_held B) (b_live B) (Some v) true (b_phys B) true (b_calls B)))
                        (q s) (asg s) (avail s) (frees s) (extra s) (gift s) (lost s)).
    { destruct k; try discriminate; now injection D. }
    subst s'. split.
    + eapply inv_upd; eauto. intros p. unfold resident. cbn. rewrite R, !andb_false_r. reflexivity.
    + destruct L as [L1 _]. split; [|congruence]. intros i C X HX. cbn [bufs] in HX. apply nth_upd_cases in HX.
      destruct HX as [(-> & -> & _)|[_ HX]]; [cbn; exact (L1 _ C _ E)|exact (L1 i C _ HX)].
  - (* ARelease *) destruct (nth_error (bufs s) b) as [B|] eqn:E; [|discriminate].
    destruct (b_live B && b_held B) eqn:H; [|discriminate].
    match type of D with drop ?X b = _ => set (s1 := X) in * end.
    assert (I1 : inv s1). { eapply inv_upd; eauto. exact (iv_oth _ I _ _ E). }
    assert (L1 : live_inv s1). { eapply keeps_live; [|eauto]. eapply keeps_upd; eauto. }
    split; [eapply drop_inv; eauto|]. eapply keeps_live; [eapply drop_keeps; eauto|auto].
  - (* AAssign *) injection D as <-. split; [now apply inv_same|]. exact L.
  - (* AExec *) destruct (nth_error (q s) i) as [[v t]|] eqn:E; [|discriminate].
    destruct (existsb _ _); [discriminate|]. destruct (asg s v); [|discriminate].
    eapply execute_ok; [| | |eauto].
    + now apply inv_same.
    + destruct L as [L1 L2]. split; [|exact L2]. intros j C. cbn [q] in C. apply (L1 j).
      pose proof (cnt_remove j _ _ _ E). lia.
    + intros b Hb. destruct L as [L1 _]. refine (L1 b _). pose proof (cnt_remove b _ _ _ E) as C. cbn [snd] in C.
      rewrite (proj2 (mem_In _ _) Hb) in C. lia.
  - (* AFree *) destruct (nth_error (frees s) i) as [[p0 sz]|] eqn:E; [|discriminate]. injection D as <-. split.
    + destruct I as [I1 I2 I3 I4].
      match goal with |- inv ?X => set (s1 := X) end.
      assert (DB : forall p, device_bytes s1 p + (if Nat.eqb p p0 then sz else 0) = device_bytes s p).
      { intros p. unfold device_bytes, s1. cbn [bufs frees]. pose proof (sumN_remove (to_free p) _ _ _ E) as S1.
        unfold to_free at 2 in S1. cbn [fst snd] in S1. rewrite (Nat.eqb_sym p0 p) in S1. lia. }
      split.
      * intros p. specialize (I1 p). pose proof (DB p) as X. unfold s1 at 1 3 4 5. cbn [avail extra gift lost].
        destruct (Nat.eqb_spec p p0) as [->|].
        -- apply eqm_inc. replace (device_bytes s1 p0 + (extra s p0 + lost s p0) + sz) with (device_bytes s p0 + (extra s p0 + lost s p0)) by lia. exact I1.
        -- replace (device_bytes s1 p) with (device_bytes s p) by lia. exact I1.
      * intros p. unfold s1. cbn [avail]. destruct (Nat.eqb p p0); auto. apply t_inc_lt.
      * intros p. specialize (DB p). specialize (I3 p). lia.
      * exact I4.
    + destruct L as [L1 L2]. split; [exact L1|]. intros Hk. destruct (L2 Hk) as (_ & _ & C & _). rewrite C in E. destruct i; discriminate.
Qed.

Lemma run_inv s l s' : run k dev s l s' -> inv s /\ live_inv s -> inv s' /\ live_inv s'.
Proof. induction 1; auto. intros [I L]. apply IHrun. eapply step_inv; eauto. Qed.
Lemma init_inv : (forall p, dev p < W) -> inv (init dev) /\ live_inv (init dev).
Proof.
  intros H. split; [split|split]; cbn; auto.
  - intros p. unfold device_bytes. cbn [bufs frees sumN init]. rewrite ?N.add_0_r. apply eqm_refl.
  - intros p. unfold device_bytes. cbn. lia.
  - intros [|i] B E; discriminate.
  - intros i C. unfold cnt in C. cbn in C. lia.
  - intros _. split; [|split; [|auto]]; intros [|i] B E; discriminate.
Qed.
End Proof.

(** ** The theorems *)

(** The exact value, in every execution: modulo 2^64, the number reported for a device is its memory
    minus what is resident on it, minus everything that callers of arax_data_allocate_remote have
    charged on top of what the device had charged itself, minus everything charged for allocations
    that failed, plus everything the device allocated without charging.  A device never hands out more than it has. *)
Theorem C66_law : forall k dev l s p, (forall p, dev p < 2 ^ 64) -> run k dev (init dev) l s ->
  (avail s p + device_bytes s p + (extra s p + lost s p)) mod 2 ^ 64 = (dev p + gift s p) mod 2 ^ 64 /\
  avail s p < 2 ^ 64 /\ device_bytes s p <= dev p.
Proof.
  intros k dev l s p H R. destruct (run_inv _ _ _ _ _ R (init_inv k dev H)) as [[I1 I2 I3 _] _].
  split; [|auto]. rewrite <- N.add_assoc. apply I1.
Qed.

(** What the three history variables count, stated on the steps: [extra] grows only when a call of
    arax_data_allocate_remote that had to wait returns, by the size of its buffer; *)
Definition charged_by (s : st) (a : act) (p : nat) : N :=
  match a with
  | AEnd b c => match nth_error (bufs s) b with
                | Some B => match nth_error (b_calls B) c with
                            | Some (v, _) => if opt_eqb (asg s v) (Some p) then b_size B else 0
                            | None => 0 end
                | None => 0 end
  | _ => 0
  end.
(** [gift] only when a CUDA device executes a task with an input that is not resident. *)
Definition uncharged_input (k : backend) (s : st) (a : act) : Prop :=
  match a with
  | AExec i => match nth_error (q s) i with
               | Some (_, TUser ins _) => k = Cuda /\ exists b, In b ins /\ has_remote s b = false
               | _ => False end
  | _ => False
  end.
(** [lost] only when an OpenCL device executes a task with an input that is not resident while some
    device has no room for all the buffers of the task. *)
Definition size_of (s : st) (b : nat) : N := match nth_error (bufs s) b with Some B => b_size B | None => 0 end.
Definition crowded_input (k : backend) (dev : nat -> N) (s : st) (a : act) : Prop :=
  match a with
  | AExec i => match nth_error (q s) i with
               | Some (_, TUser ins outs) => k = OpenCl /\ (exists b, In b ins /\ has_remote s b = false) /\
                   exists p, dev p < device_bytes s p + sumN (size_of s) (ins ++ outs)
               | _ => False end
  | _ => False
  end.

Lemma migrate_eg s v b s' : migrate s v b = Next s' -> extra s' = extra s /\ gift s' = gift s /\ lost s' = lost s.
Proof.
  intros M. unfold migrate in M. destruct (nth_error (bufs s) b) as [B|]; [|discriminate].
  destruct (b_acc B) as [w|]; [destruct (Nat.eqb w v); [injection M as <-; auto|destruct (opt_eqb _ _); [|discriminate]]|
    destruct (b_rem B); [discriminate|]]; injection M as <-; auto.
Qed.
Lemma migrate_all_eg bs : forall s v s', migrate_all s v bs = Next s' -> extra s' = extra s /\ gift s' = gift s /\ lost s' = lost s.
Proof.
  induction bs as [|b r IH]; intros s v s' M; cbn [migrate_all] in M; [injection M as <-; auto|].
  destruct (migrate s v b) as [s1| |] eqn:M1; try discriminate. apply migrate_eg in M1. apply IH in M. intuition congruence.
Qed.
Lemma drop_eg s b s' : drop s b = Next s' -> extra s' = extra s /\ gift s' = gift s /\ lost s' = lost s.
Proof.
  intros D. unfold drop in D. destruct (nth_error (bufs s) b) as [B|]; [|injection D as <-; auto].
  destruct (b_live B && _ && _ && _); [|injection D as <-; auto].
  destruct (b_rem B && _); [destruct (b_phys B); [|discriminate]|]; injection D as <-; auto.
Qed.
Lemma drop_all_eg bs : forall s s', drop_all s bs = Next s' -> extra s' = extra s /\ gift s' = gift s /\ lost s' = lost s.
Proof.
  induction bs as [|b r IH]; intros s s' M; cbn [drop_all] in M; [injection M as <-; auto|].
  destruct (drop s b) as [s1| |] eqn:M1; try discriminate. apply drop_eg in M1. apply IH in M. intuition congruence.
Qed.
Lemma set_calls_eg s b f : extra (set_calls s b f) = extra s /\ gift (set_calls s b f) = gift s /\ lost (set_calls s b f) = lost s.
Proof. unfold set_calls. destruct (nth_error (bufs s) b); auto. Qed.
(** not resident although not empty *)
Definition need (s : st) (b : nat) : bool :=
  match nth_error (bufs s) b with Some B => negb (b_rem B) && (0 <? b_size B) | None => false end.
Lemma dev_alloc_eg dev m c s b s' : dev_alloc dev m c s b = Next s' ->
  extra s' = extra s /\ (forall i, need s i = false -> need s' i = false) /\ (m = true -> need s' b = false) /\
  (c = true \/ need s b = false -> forall p, gift s' p = gift s p) /\
  (c = false \/ m = true \/ need s b = false \/ (forall p, device_bytes s p + size_of s b <= dev p) -> forall p, lost s' p = lost s p) /\
  (forall i, size_of s' i = size_of s i) /\ (forall p, device_bytes s' p <= device_bytes s p + size_of s b).
Proof.
  intros D. unfold dev_alloc in D. unfold need, size_of.
  destruct (nth_error (bufs s) b) as [B|] eqn:E; [|discriminate].
  destruct (b_rem B) eqn:R.
  { injection D as <-. rewrite E, R. split; auto. split; auto. split; auto. split; auto. split; auto. split; auto. intros p. lia. }
  destruct (b_acc B) as [v|]; [|discriminate]. destruct (asg s v) as [p0|]; [|discriminate].
  cbv zeta in D. remember (device_bytes s p0 + b_size B <=? dev p0) as ok eqn:F.
  destruct (negb ok && m) eqn:K; [discriminate|].
  apply (f_equal (fun r => match r with Next x => x | _ => s end)) in D. cbn beta iota in D.
  assert (L : (b < length (bufs s))%nat) by (eapply nth_error_lt; eauto).
  assert (Z : forall z, negb z && z = false) by (intros []; reflexivity).
  assert (KK : forall p0' z, (0 <? z) = false -> forall f p, add_at f p0' z p = f p).
  { intros p0' z Hz f p. apply N.ltb_ge in Hz. unfold add_at. destruct (Nat.eqb p p0'); lia. }
  subst s'. cbn [extra gift lost bufs].
  split; auto. split; [|split; [|split; [|split; [|split]]]].
  - intros i H. destruct (Nat.eq_dec i b) as [->|N].
    + rewrite E, R in H. cbn [negb andb] in H. rewrite nth_error_upd_eq by auto. cbn [b_rem b_size]. rewrite H. apply andb_false_r.
    + rewrite nth_error_upd_ne by auto. exact H.
  - intros ->. rewrite andb_true_r in K. destruct ok; [|discriminate]. rewrite nth_error_upd_eq by auto. cbn. apply Z.
  - intros [->|H] p; [now rewrite andb_false_r|]. cbn [negb andb] in H. destruct (ok && negb c); auto.
  - intros H p. destruct H as [->|[->|[H|H]]].
    + now rewrite andb_false_r.
    + rewrite andb_true_r in K. now rewrite K.
    + cbn [negb andb] in H. destruct (negb ok && c); auto.
    + specialize (H p0). apply N.leb_le in H. rewrite H in F. subst ok. reflexivity.
  - intros i. destruct (Nat.eq_dec i b) as [->|N].
    + rewrite nth_error_upd_eq by auto. now rewrite E.
    + rewrite nth_error_upd_ne by auto. reflexivity.
  - intros p. unfold device_bytes. cbn [bufs frees].
    match goal with |- sumN _ (upd _ _ ?X) + _ <= _ => pose proof (sumN_upd (resident p) _ _ X _ E) as S1;
      assert (Q : resident p X <= b_size B) by (unfold resident; cbn [b_size]; match goal with |- (if ?z then _ else _) <= _ => destruct z end; lia) end.
    lia.
Qed.
Lemma sumN_ext {A} (f g : A -> N) l : (forall x, f x = g x) -> sumN f l = sumN g l.
Proof. intros H. induction l as [|x l IH]; cbn; congruence. Qed.
Lemma dev_alloc_all_eg dev m c bs : forall s s', dev_alloc_all dev m c s bs = Next s' ->
  extra s' = extra s /\ (forall i, need s i = false -> need s' i = false) /\ (m = true -> forall b, In b bs -> need s' b = false) /\
  (c = true \/ (forall b, In b bs -> need s b = false) -> forall p, gift s' p = gift s p) /\
  (c = false \/ m = true \/ (forall b, In b bs -> need s b = false) \/
     (forall p, device_bytes s p + sumN (size_of s) bs <= dev p) -> forall p, lost s' p = lost s p) /\
  (forall i, size_of s' i = size_of s i) /\ (forall p, device_bytes s' p <= device_bytes s p + sumN (size_of s) bs).
Proof.
  induction bs as [|b r IH]; intros s s' D; cbn [dev_alloc_all sumN] in *.
  { injection D as <-. split; auto. split; auto. split; [intros _ ? []|]. split; auto. split; auto. split; auto. intros p. lia. }
  destruct (dev_alloc dev m c s b) as [s1| |] eqn:D1; try discriminate.
  destruct (dev_alloc_eg _ _ _ _ _ _ D1) as (E1 & M1 & N1 & G1 & L1 & S1 & B1). destruct (IH _ _ D) as (E2 & M2 & N2 & G2 & L2 & S2 & B2).
  pose proof (sumN_ext _ _ r S1) as SR.
  split; [congruence|]. split; [auto|]. split.
  { intros Hm x [<-|Hx]; auto. }
  split; [|split; [|split]].
  - intros [->|H] p.
    + rewrite G2, G1; auto.
    + rewrite G2, G1; auto.
      * right. apply H. now left.
      * right. intros x Hx. apply M1, H. now right.
  - intros H p. rewrite L2, L1; auto.
    + destruct H as [H|[H|[H|H]]]; auto.
      * right; right; left. apply H. now left.
      * right; right; right. intros x. specialize (H x). lia.
    + destruct H as [H|[H|[H|H]]]; auto.
      * right; right; left. intros x Hx. apply M1, H. now right.
      * right; right; right. intros x. specialize (H x). specialize (B1 x). lia.
  - congruence.
  - intros p. specialize (B1 p). specialize (B2 p). lia.
Qed.
Lemma dev_alloc_all_app dev m c xs : forall s ys, dev_alloc_all dev m c s (xs ++ ys) =
  match dev_alloc_all dev m c s xs with Next s1 => dev_alloc_all dev m c s1 ys | x => x end.
Proof.
  induction xs as [|x r IH]; intros s ys; cbn [dev_alloc_all app]; auto.
  destruct (dev_alloc dev m c s x); auto.
Qed.
Lemma cpu_alloc_all_eg bs : forall s s', cpu_alloc_all s bs = Next s' -> extra s' = extra s /\ gift s' = gift s /\ lost s' = lost s.
Proof.
  induction bs as [|b r IH]; intros s s' D; cbn [cpu_alloc_all] in D; [injection D as <-; auto|].
  destruct (cpu_alloc s b) as [s1| |] eqn:D1; try discriminate. apply IH in D. unfold cpu_alloc in D1.
  destruct (nth_error (bufs s) b) as [B|]; [|discriminate]. destruct (b_acc B); [|discriminate]. destruct (asg s n); [|discriminate].
  injection D1 as <-. exact D.
Qed.

Lemma execute_eg k dev s v t s' : execute k dev s v t = Next s' ->
  extra s' = extra s /\
  (k <> Cuda \/ match t with TUser ins _ => forall b, In b ins -> has_remote s b = true | _ => True end ->
   forall p, gift s' p = gift s p) /\
  (k <> OpenCl \/ match t with
     | TUser ins outs => (forall b, In b ins -> has_remote s b = true) \/ (forall p, device_bytes s p + sumN (size_of s) (ins ++ outs) <= dev p)
     | _ => True end ->
   forall p, lost s' p = lost s p).
Proof.
  intros D. unfold execute in D. destruct (prepare k dev s t) as [s1| |] eqn:P; try discriminate.
  destruct (handle k dev s1 v t) as [s2| |] eqn:H; try discriminate.
  apply drop_all_eg in D. destruct D as (D1 & D2 & D3). rewrite D1, D2, D3.
  assert (NR : forall b, has_remote s b = true -> need s b = false).
  { intros b. unfold has_remote, need. destruct (nth_error (bufs s) b); auto. intros ->. reflexivity. }
  destruct k; cbn [prepare] in P.
  3:{ apply cpu_alloc_all_eg in P. cbn in H. injection H as <-. destruct P as (-> & -> & ->). split; [auto|split; auto]. }
  1:{ destruct (dev_alloc_all_eg _ _ _ _ _ _ P) as (E1 & M1 & N1 & G1 & L1 & S1 & B1).
      destruct t as [ins outs|b|b|b]; cbn [handle] in H.
      2,3: destruct (has_remote s1 b); [|discriminate]; injection H as <-; (split; [auto|split; auto]).
      2:{ injection H as <-. destruct (set_calls_eg s1 b (mark v)) as (-> & -> & ->). split; [auto|split; auto]. }
      destruct (dev_alloc_all_eg _ _ _ _ _ _ H) as (E2 & M2 & N2 & G2 & L2 & S2 & B2). split; [congruence|]. split.
      - intros [X|X] p; [congruence|]. rewrite G2, G1; auto. right. intros b Hb. apply in_app_or in Hb. destruct Hb as [Hb|Hb]; auto.
      - intros _ p. rewrite L2, L1; auto. }
  destruct (dev_alloc_all_eg _ _ _ _ _ _ P) as (E1 & M1 & N1 & G1 & L1 & S1 & B1).
  destruct t as [ins outs|b|b|b]; cbn [handle] in H.
  2,3: destruct (has_remote s1 b); [|discriminate]; injection H as <-; (split; [auto|split; auto]).
  2:{ destruct (has_remote s1 b); [|discriminate]. injection H as <-. destruct (set_calls_eg s1 b (mark v)) as (-> & -> & ->). split; [auto|split; auto]. }
  rewrite dev_alloc_all_app in H. destruct (dev_alloc_all dev false true s1 ins) as [s3| |] eqn:H1; try discriminate.
  destruct (dev_alloc_all_eg _ _ _ _ _ _ H1) as (E2 & M2 & N2 & G2 & L2 & S2 & B2).
  destruct (dev_alloc_all_eg _ _ _ _ _ _ H) as (E3 & M3 & N3 & G3 & L3 & S3 & B3). split; [congruence|]. split.
  - intros _ p. rewrite G3, G2, G1; auto.
  - intros [X|X] p; [congruence|]. rewrite L3; [rewrite L2; [apply L1; auto|]|].
    + right; right. destruct X as [X|X]; [left; auto|]. right. intros x. specialize (X x). rewrite sumN_app in X.
      specialize (B1 x). cbn [outputs] in B1. rewrite (sumN_ext _ _ ins S1). lia.
    + right; right; left. intros b Hb. apply M2, N1; auto.
Qed.
(** everything but the execution of a task *)
Lemma step_eg k dev s a s' : step k dev s a = Next s' -> (forall i, a <> AExec i) ->
  gift s' = gift s /\ lost s' = lost s.
Proof.
  intros D NE. destruct a as [sz|v ins outs|v b|v b|v b|b c|v b|b|v p1|i|i]; cbn [step] in D.
  - destruct (sz <? W); [|discriminate]. now injection D as <-.
  - destruct (forallb _ _); [|discriminate]. destruct (migrate_all _ _ _) as [s1| |] eqn:M; try discriminate.
    injection D as <-. apply migrate_all_eg in M. apply M.
  - destruct (holds s b); [|discriminate]. destruct (nth_error (bufs s) b) as [B|]; [|discriminate].
    destruct (match b_acc B with Some w => _ | None => _ end); [|discriminate]. now injection D as <-.
  - destruct (holds s b); [|discriminate]. destruct (nth_error (bufs s) b) as [B|]; [|discriminate].
    destruct (b_acc B); [|discriminate]. destruct (Nat.eqb n v); [|discriminate]. now injection D as <-.
  - destruct (holds s b); [|discriminate].
    assert (X : forall B, (if b_rem B then match b_acc B with Some _ => Next s | None => Crash end
        else match migrate s v b with
             | Next s' => Next (enqueue (set_calls s' b (fun l => l ++ [(v, false)])) v (TAlloc b))
             | x => x end) = Next s' -> gift s' = gift s /\ lost s' = lost s).
    { intros B X. destruct (b_rem B); [destruct (b_acc B); [|discriminate]; now injection X as <-|].
      destruct (migrate s v b) as [s1| |] eqn:M; try discriminate. injection X as <-. cbn [enqueue gift lost].
      destruct (set_calls_eg s1 b (fun l => l ++ [(v, false)])) as (_ & -> & ->). apply (migrate_eg _ _ _ _ M). }
    destruct (nth_error (bufs s) b) as [B|]; destruct k; try discriminate; eauto; now injection D as <-.
  - destruct (nth_error (bufs s) b) as [B|] eqn:E; [|discriminate].
    destruct (nth_error (b_calls B) c) as [[v [|]]|]; try discriminate.
    destruct (b_rem B && _); [|discriminate]. destruct (asg s v) as [p0|]; [|discriminate].
    apply drop_eg in D. destruct D as (_ & -> & ->). cbn [gift lost]. apply set_calls_eg.
  - destruct (holds s b); [|discriminate].
    destruct (nth_error (bufs s) b) as [B|]; destruct k; try discriminate;
      (destruct (b_acc B); [discriminate|]; destruct (b_rem B); [discriminate|]; now injection D as <-).
  - destruct (nth_error (bufs s) b) as [B|]; [|discriminate]. destruct (b_live B && b_held B); [|discriminate].
    apply drop_eg in D. apply D.
  - now injection D as <-.
  - now destruct (NE i).
  - destruct (nth_error (frees s) i) as [[p0 sz]|]; [|discriminate]. now injection D as <-.
Qed.

Theorem C66_extra_is_the_callers_charge : forall k dev s a s' p, step k dev s a = Next s' ->
  extra s' p = extra s p + charged_by s a p.
Proof.
  intros k dev s a s' p D.
  assert (Z : charged_by s a p = 0 -> extra s' = extra s -> extra s' p = extra s p + charged_by s a p).
  { intros -> ->. lia. }
  destruct a as [sz|v ins outs|v b|v b|v b|b c|v b|b|v p1|i|i]; cbn [step] in D.
  - apply Z; auto. destruct (sz <? W); [|discriminate]. now injection D as <-.
  - apply Z; auto. destruct (forallb _ _); [|discriminate]. destruct (migrate_all _ _ _) as [s1| |] eqn:M; try discriminate.
    injection D as <-. apply migrate_all_eg in M. apply M.
  - apply Z; auto. destruct (holds s b); [|discriminate]. destruct (nth_error (bufs s) b) as [B|]; [|discriminate].
    destruct (match b_acc B with Some w => _ | None => _ end); [|discriminate]. now injection D as <-.
  - apply Z; auto. destruct (holds s b); [|discriminate]. destruct (nth_error (bufs s) b) as [B|]; [|discriminate].
    destruct (b_acc B); [|discriminate]. destruct (Nat.eqb n v); [|discriminate]. now injection D as <-.
  - apply Z; auto. destruct (holds s b); [|discriminate].
    assert (X : forall B, (if b_rem B then match b_acc B with Some _ => Next s | None => Crash end
        else match migrate s v b with
             | Next s' => Next (enqueue (set_calls s' b (fun l => l ++ [(v, false)])) v (TAlloc b))
             | x => x end) = Next s' -> extra s' = extra s).
    { intros B X. destruct (b_rem B); [destruct (b_acc B); [|discriminate]; now injection X as <-|].
      destruct (migrate s v b) as [s1| |] eqn:M; try discriminate. injection X as <-. cbn [enqueue extra].
      destruct (set_calls_eg s1 b (fun l => l ++ [(v, false)])) as (-> & _). apply (migrate_eg _ _ _ _ M). }
    destruct (nth_error (bufs s) b) as [B|]; destruct k; try discriminate; eauto; now injection D as <-.
  - unfold charged_by. destruct (nth_error (bufs s) b) as [B|] eqn:E; [|discriminate].
    destruct (nth_error (b_calls B) c) as [[v [|]]|]; try discriminate.
    destruct (b_rem B && _); [|discriminate]. destruct (asg s v) as [p0|]; [|discriminate].
    apply drop_eg in D. destruct D as (-> & _). cbn [extra]. destruct (set_calls_eg s b (remove_nth c)) as (-> & _).
    unfold add_at. cbn [opt_eqb]. rewrite (Nat.eqb_sym p0 p). destruct (Nat.eqb p p0); lia.
  - apply Z; auto. destruct (holds s b); [|discriminate].
    destruct (nth_error (bufs s) b) as [B|]; destruct k; try discriminate;
      (destruct (b_acc B); [discriminate|]; destruct (b_rem B); [discriminate|]; now injection D as <-).
  - apply Z; auto. destruct (nth_error (bufs s) b) as [B|]; [|discriminate]. destruct (b_live B && b_held B); [|discriminate].
    apply drop_eg in D. apply D.
  - apply Z; auto. now injection D as <-.
  - apply Z; auto. destruct (nth_error (q s) i) as [[v t]|]; [|discriminate]. destruct (existsb _ _); [discriminate|].
    destruct (asg s v); [|discriminate]. apply execute_eg in D. apply D.
  - apply Z; auto. destruct (nth_error (frees s) i) as [[p0 sz]|]; [|discriminate]. now injection D as <-.
Qed.
Theorem C66_gift_is_uncharged_input : forall k dev s a s' p, step k dev s a = Next s' ->
  ~ uncharged_input k s a -> gift s' p = gift s p.
Proof.
  intros k dev s a s' p D U.
  destruct a as [sz|v ins outs|v b|v b|v b|b c|v b|b|v p1|i|i];
    try (destruct (step_eg _ _ _ _ _ D) as [-> _]; [intros ?; discriminate|reflexivity]).
  cbn [step] in D; cbn [uncharged_input] in U.
  destruct (nth_error (q s) i) as [[v t]|]; [|discriminate]. destruct (existsb _ _); [discriminate|].
  destruct (asg s v); [|discriminate]. apply execute_eg in D. destruct D as (_ & D & _). apply D. clear D.
  destruct t as [ins outs|b|b|b]; auto. destruct k; [right|left; discriminate..].
  intros b Hb. destruct (has_remote _ b) eqn:R; auto. destruct U. split; auto. exists b. split; auto.
Qed.
Theorem C66_lost_is_crowded_input : forall k dev s a s' p, step k dev s a = Next s' ->
  ~ crowded_input k dev s a -> lost s' p = lost s p.
Proof.
  intros k dev s a s' p D U.
  destruct a as [sz|v ins outs|v b|v b|v b|b c|v b|b|v p1|i|i];
    try (destruct (step_eg _ _ _ _ _ D) as [_ ->]; [intros ?; discriminate|reflexivity]).
  cbn [step] in D; cbn [crowded_input] in U.
  destruct (nth_error (q s) i) as [[v t]|]; [|discriminate]. destruct (existsb _ _); [discriminate|].
  destruct (asg s v); [|discriminate]. apply execute_eg in D. destruct D as (_ & _ & D). apply D. clear D.
  destruct t as [ins outs|b|b|b]; auto. destruct k; [left; discriminate|right|left; discriminate].
  assert (X : (exists b, In b ins /\ has_remote s b = false) \/ forall b, In b ins -> has_remote s b = true).
  { clear. induction ins as [|b r IH]; [right; intros ? []|]. destruct (has_remote s b) eqn:R.
    - destruct IH as [(x & Hx & Rx)|IH]; [left; exists x; split; [now right|auto]|right]. intros x [<-|Hx]; auto.
    - left. exists b. split; [now left|auto]. }
  destruct X as [X|X]; [right|left; auto].
  intros x. apply N.nlt_ge. intros Hx. apply U. split; auto. split; auto. exists x. exact Hx.
Qed.

(** An execution in which no call of arax_data_allocate_remote that had to wait returns and no task is
    executed with an input that is not resident, on CUDA, or not resident and without room, on OpenCL. *)
Definition no_wait (a : act) : Prop := match a with AEnd _ _ => False | _ => True end.
Inductive exact_run (k : backend) (dev : nat -> N) : st -> list act -> st -> Prop :=
| ex_nil s : exact_run k dev s [] s
| ex_cons s a s1 l s2 : no_wait a -> ~ uncharged_input k s a -> ~ crowded_input k dev s a -> step k dev s a = Next s1 -> exact_run k dev s1 l s2 ->
    exact_run k dev s (a :: l) s2.
Lemma exact_is_run k dev s l s' : exact_run k dev s l s' -> run k dev s l s'.
Proof. induction 1; econstructor; eauto. Qed.

(** In such an execution the number is exact: what the device has minus what it has given out. *)
Theorem C66_exact_partial : forall k dev l s p, (forall p, dev p < 2 ^ 64) -> exact_run k dev (init dev) l s ->
  avail s p = dev p - device_bytes s p /\ device_bytes s p <= dev p.
Proof.
  intros k dev l s p H R. destruct (C66_law k dev l s p H (exact_is_run _ _ _ _ _ R)) as (L1 & L2 & L3).
  assert (Z : extra s p = 0 /\ gift s p = 0 /\ lost s p = 0).
  { clear L1 L2 L3. assert (G : forall s0, exact_run k dev s0 l s -> extra s0 p = 0 /\ gift s0 p = 0 /\ lost s0 p = 0 ->
      extra s p = 0 /\ gift s p = 0 /\ lost s p = 0).
    { clear R. intros s0 R. induction R as [s0|s0 a s1 l s2 Na U V S R IH]; auto. intros (E & G & F). apply IH.
      rewrite (C66_extra_is_the_callers_charge _ _ _ _ _ p S), (C66_gift_is_uncharged_input _ _ _ _ _ p S U),
        (C66_lost_is_crowded_input _ _ _ _ _ p S V), E, G, F.
      split; auto. destruct a; auto. destruct Na. }
    apply (G _ R). split; [|split]; reflexivity. }
  destruct Z as (Z1 & Z2 & Z3). rewrite Z1, Z2, Z3, !N.add_0_r in L1. specialize (H p).
  rewrite (N.mod_small (dev p)) in L1 by auto. split; auto.
  assert (P : 2 ^ 64 <> 0) by discriminate.
  pose proof (N.div_mod (avail s p + device_bytes s p) (2 ^ 64) P) as D. rewrite L1 in D.
  destruct ((avail s p + device_bytes s p) / 2 ^ 64) as [|[c|c|]]; lia.
Qed.

(** Everything is over: all buffers destroyed, nothing queued. *)
Definition quiet (s : st) : Prop :=
  (forall b B, nth_error (bufs s) b = Some B -> b_live B = false) /\ q s = [] /\ frees s = [].
Lemma quiet_bytes s p : quiet s -> device_bytes s p = 0.
Proof.
  intros (A & _ & C). unfold device_bytes. rewrite C. cbn [sumN]. rewrite N.add_0_r. apply sumN_zero.
  intros i x E. unfold resident. now rewrite (A _ _ E).
Qed.
(** Then, in every execution, the number has drifted from what the device has by exactly the three sums. *)
Theorem C66_drift : forall k dev l s p, (forall p, dev p < 2 ^ 64) -> run k dev (init dev) l s -> quiet s ->
  (avail s p + (extra s p + lost s p)) mod 2 ^ 64 = (dev p + gift s p) mod 2 ^ 64.
Proof.
  intros k dev l s p H R Q. destruct (C66_law k dev l s p H R) as (L1 & _). rewrite (quiet_bytes _ _ Q), N.add_0_r in L1. exact L1.
Qed.

(** Devices without memory of their own never see their number change, whatever clients do. *)
Theorem C66_cpu : forall dev l s p, (forall p, dev p < 2 ^ 64) -> run Cpu dev (init dev) l s -> avail s p = dev p.
Proof.
  intros dev l s p H R. destruct (C66_law Cpu dev l s p H R) as (L1 & L2 & L3).
  destruct (run_inv _ _ _ _ _ R (init_inv Cpu dev H)) as [_ [_ L]]. destruct (L eq_refl) as (C1 & C2 & C3 & C4 & C5 & C6).
  assert (D : device_bytes s p = 0).
  { unfold device_bytes. rewrite C3. cbn [sumN]. rewrite N.add_0_r. apply sumN_zero.
    intros i x E. unfold resident. rewrite (C1 _ _ E), andb_false_r. reflexivity. }
  rewrite D, C4, C5, C6, !N.add_0_r, !N.mod_small in L1; auto.
Qed.

(** *** Concrete runs *)

(** The run of a list of steps, for examples; no code of its own. *)
Fixpoint exec (k : backend) (dev : nat -> N) (s : st) (l : list act) : res :=
  match l with [] => Next s | a :: r => match step k dev s a with Next s' => exec k dev s' r | x => x end end.
Lemma exec_run k dev l : forall s s', exec k dev s l = Next s' -> run k dev s l s'.
Proof.
  induction l as [|a r IH]; intros s s' E; cbn [exec] in E; [injection E as <-; constructor|].
  destruct (step k dev s a) as [s1| |] eqn:S; try discriminate. econstructor; eauto.
Qed.
Definition gb : nat -> N := fun _ => 2 ^ 30.
Definition the (k : backend) (l : list act) : st := match exec k gb (init gb) l with Next s => s | _ => init gb end.
Definition fine (k : backend) (l : list act) : bool := match exec k gb (init gb) l with Next _ => true | _ => false end.
Lemma the_run k l : fine k l = true -> run k gb (init gb) l (the k l).
Proof. unfold fine, the. intros H. apply exec_run. destruct (exec k gb (init gb) l); auto; discriminate. Qed.
Lemma quiet_dec s : forallb (fun B => negb (b_live B)) (bufs s) = true -> q s = [] -> frees s = [] -> quiet s.
Proof.
  intros H. split; auto. intros b B E. rewrite forallb_forall in H. apply nth_error_In in E. apply H in E. now destruct (b_live B).
Qed.

(** arax_data_allocate_remote followed by arax_data_free loses the size of the buffer for ever, on both
    kinds of device with memory: the worker charges when it makes the buffer resident, the caller
    charges again when it returns, the free gives back once. *)
Definition reserve : list act := [ANew 4096; AAssign 0 0; AAlloc 0 0; AExec 0; AEnd 0 0; ARelease 0; AFree 0].
Theorem C66_allocate_charged_twice_refuted : forall k, k = Cuda \/ k = OpenCl ->
  exists dev l s, (forall p, dev p < 2 ^ 64) /\ run k dev (init dev) l s /\ quiet s /\
  avail s 0%nat = dev 0%nat - 4096.
Proof.
  intros k Hk. exists gb, reserve, (the k reserve). split; [intros; reflexivity|].
  destruct Hk as [-> | ->]; (split; [apply the_run; vm_compute; reflexivity|
    split; [apply quiet_dec; vm_compute; reflexivity|vm_compute; reflexivity]]).
Qed.
(** Repeated, the number falls below zero and wraps: the device reports almost 2^64 bytes. *)
Fixpoint again (n : nat) (b : nat) : list act :=
  match n with
  | O => []
  | S n => [ANew (2 ^ 29); AAlloc 0 b; AExec 0; AEnd b 0; ARelease b; AFree 0] ++ again n (S b)
  end.
Theorem C66_wraps_refuted : forall k, k = Cuda \/ k = OpenCl ->
  exists dev l s, (forall p, dev p < 2 ^ 64) /\ run k dev (init dev) l s /\ quiet s /\
  dev 0%nat = 2 ^ 30 /\ avail s 0%nat = 2 ^ 64 - 2 ^ 29.
Proof.
  intros k Hk. exists gb, (AAssign 0 0 :: again 3 0), (the k (AAssign 0 0 :: again 3 0)). split; [intros; reflexivity|].
  destruct Hk as [-> | ->]; (split; [apply the_run; vm_compute; reflexivity|
    split; [apply quiet_dec; vm_compute; reflexivity|split; vm_compute; reflexivity]]).
Qed.

(** CUDA: a kernel that only reads a buffer nobody wrote makes it resident without charging; its free
    is credited all the same, and the device reports more memory than it has. *)
Definition read_only : list act := [ANew 4096; AAssign 0 0; AIssue 0 [0%nat] []; AExec 0; ARelease 0; AFree 0].
Theorem C66_cuda_input_refuted : exists dev l s, (forall p, dev p < 2 ^ 64) /\ run Cuda dev (init dev) l s /\ quiet s /\
  avail s 0%nat = dev 0%nat + 4096.
Proof.
  exists gb, read_only, (the Cuda read_only). split; [intros; reflexivity|]. split; [apply the_run; vm_compute; reflexivity|].
  split; [apply quiet_dec; vm_compute; reflexivity|vm_compute; reflexivity].
Qed.

(** OpenCL, when the device is full: a kernel that reads a buffer nobody wrote is executed although
    there is no memory for the buffer, the buffer is charged at every use, and never given back. *)
Definition crowded : list act :=
  [ANew (2 ^ 30); ANew 4096; AAssign 0 0; ASet 0 0; AExec 0; AIssue 0 [1%nat] []; AExec 0; AIssue 0 [1%nat] []; AExec 0;
   ARelease 0; ARelease 1; AFree 0].
Theorem C66_opencl_full_refuted : exists dev l s, (forall p, dev p < 2 ^ 64) /\ run OpenCl dev (init dev) l s /\ quiet s /\
  avail s 0%nat = dev 0%nat - 8192.
Proof.
  exists gb, crowded, (the OpenCl crowded). split; [intros; reflexivity|]. split; [apply the_run; vm_compute; reflexivity|].
  split; [apply quiet_dec; vm_compute; reflexivity|vm_compute; reflexivity].
Qed.

(** The virtual accelerator is moved between the execution of the allocation and the caller's
    charge: another device pays the second time. *)
Definition moved : list act :=
  [ANew 4096; AAssign 0 0; AAlloc 0 0; AExec 0; AAssign 0 1; AEnd 0 0; ARelease 0; AFree 0].
Theorem C66_moved_refuted : forall k, k = Cuda \/ k = OpenCl ->
  exists dev l s, (forall p, dev p < 2 ^ 64) /\ run k dev (init dev) l s /\ quiet s /\
  avail s 0%nat = dev 0%nat /\ avail s 1%nat = dev 1%nat - 4096.
Proof.
  intros k Hk. exists gb, moved, (the k moved). split; [intros; reflexivity|].
  destruct Hk as [-> | ->]; (split; [apply the_run; vm_compute; reflexivity|
    split; [apply quiet_dec; vm_compute; reflexivity|split; vm_compute; reflexivity]]).
Qed.

(** A buffer of size 0 cannot be given device memory: the caller of arax_data_allocate_remote aborts
    on CUDA, the controller on OpenCL; writing one aborts both kinds of controller; and reading a
    buffer nobody has used aborts the reader. *)
Theorem C66_empty_buffer_refuted :
  fine Cuda [ANew 0; AAssign 0 0; AAlloc 0 0; AExec 0] = true /\
  exec Cuda gb (init gb) [ANew 0; AAssign 0 0; AAlloc 0 0; AExec 0; AEnd 0 0] = Crash /\
  exec OpenCl gb (init gb) [ANew 0; AAssign 0 0; AAlloc 0 0; AExec 0] = Crash /\
  (forall k, k <> Cpu -> exec k gb (init gb) [ANew 0; AAssign 0 0; ASet 0 0; AExec 0] = Crash) /\
  (forall k v, exec k gb (init gb) [ANew 16; AGet v 0] = Crash).
Proof.
  split; [vm_compute; reflexivity|]. split; [vm_compute; reflexivity|]. split; [vm_compute; reflexivity|]. split.
  - intros k Hk. destruct k; [vm_compute; reflexivity|vm_compute; reflexivity|congruence].
  - intros k v. destruct k; vm_compute; reflexivity.
Qed.

(** *** An exact run: two buffers written, a kernel on both and on a third it writes, a read, one
    released, a foreign one adopted and released *)
Definition nice : list act :=
  [ANew 4096; ANew 100; ANew 50; AAssign 0 0; AAssign 1 0; ASet 0 0; ASet 1 1; AExec 0; AExec 0;
   AIssue 0 [0%nat; 1%nat] [2%nat]; AGet 0 0; AExec 0; AExec 0; AAssign 0 1; ANew 7; ASetRemote 1 3; ARelease 0; ARelease 3].
(** Decision procedure, no code of its own. *)
Definition okb (k : backend) (s : st) (a : act) : bool :=
  match a with
  | AEnd _ _ => false
  | AExec i => match nth_error (q s) i with
               | Some (_, TUser ins _) => forallb (has_remote s) ins
               | _ => true end
  | _ => true
  end.
Lemma okb_ok k dev s a : okb k s a = true -> no_wait a /\ ~ uncharged_input k s a /\ ~ crowded_input k dev s a.
Proof.
  destruct a; cbn; auto; try discriminate. intros H. split; auto.
  destruct (nth_error (q s) i) as [[v [ins outs|b|b|b]]|]; auto. rewrite forallb_forall in H. split.
  - intros (-> & b & Hb & R). apply H in Hb. congruence.
  - intros (-> & (b & Hb & R) & _). apply H in Hb. congruence.
Qed.
Fixpoint pexec (k : backend) (dev : nat -> N) (s : st) (l : list act) : res :=
  match l with
  | [] => Next s
  | a :: r => if okb k s a then match step k dev s a with Next s' => pexec k dev s' r | x => x end else Disabled
  end.
Lemma pexec_run k dev l : forall s s', pexec k dev s l = Next s' -> exact_run k dev s l s'.
Proof.
  induction l as [|a r IH]; intros s s' E; cbn [pexec] in E; [injection E as <-; constructor|].
  destruct (okb k s a) eqn:P; [|discriminate]. apply (okb_ok k dev) in P. destruct P as (P1 & P2 & P3).
  destruct (step k dev s a) as [s1| |] eqn:S; try discriminate. econstructor; eauto.
Qed.
Definition pthe (k : backend) (l : list act) : st := match pexec k gb (init gb) l with Next s => s | _ => init gb end.
Definition pfine (k : backend) (l : list act) : bool := match pexec k gb (init gb) l with Next _ => true | _ => false end.
Lemma pthe_run k l : pfine k l = true -> exact_run k gb (init gb) l (pthe k l).
Proof. unfold pfine, pthe. intros H. apply pexec_run. destruct (pexec k gb (init gb) l); auto; discriminate. Qed.

(** After it: 150 bytes resident on device 0, 4096 waiting for their "free" task, a foreign buffer
    not counted, and the number says so; after the rest is freed everything is back. *)
Example C66_example : forall k, k = Cuda \/ k = OpenCl ->
  exact_run k gb (init gb) nice (pthe k nice) /\
  frees (pthe k nice) = [(0%nat, 4096)] /\
  device_bytes (pthe k nice) 0 = 4246 /\ avail (pthe k nice) 0%nat = 2 ^ 30 - 4246 /\
  avail (the k (nice ++ [AFree 0; ARelease 1; ARelease 2; AFree 0; AFree 0])) 0%nat = 2 ^ 30.
Proof.
  intros k Hk. split; [apply pthe_run; destruct Hk as [-> | ->]; vm_compute; reflexivity|].
  destruct Hk as [-> | ->]; (split; [vm_compute; reflexivity|split; [vm_compute; reflexivity|split; vm_compute; reflexivity]]).
Qed.
Example C66_cpu_example : fine Cpu [ANew 4096; AAssign 0 0; ASet 0 0; AAlloc 0 0; AExec 0; AIssue 0 [0%nat] [0%nat]; AExec 0; AGet 0 0; ARelease 0; AExec 0] = true /\
  quiet (the Cpu [ANew 4096; AAssign 0 0; ASet 0 0; AAlloc 0 0; AExec 0; AIssue 0 [0%nat] [0%nat]; AExec 0; AGet 0 0; ARelease 0; AExec 0]).
Proof. split; [vm_compute; reflexivity|apply quiet_dec; vm_compute; reflexivity]. Qed.
