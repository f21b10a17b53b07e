(** Submitting work, handing virtual accelerators to devices, and the device's worker thread, with all the
    interleavings of any number of threads.  Properties C22 (concurrent form), C24, C42.
    Models src/core/arax_vaccel.c:32-39 (arax_vaccel_add_task), src/core/arax_accel.c:26-44 and 108-178,
    controller/src/Core/accelThread.cpp:351-367 and 477-490 (one iteration of the worker), and the scan of the
    schedulers' selectTask (RoundRobinScheduler.cpp:28-57) with an arbitrary order of the virtual accelerators.
    Both back-ends of the condition (src/async/spin/async.c:44-84, src/async/mutex/async.c:69-87). *)
From Verif Require Import Base Sums Throttle.
Local Open Scope Z_scope.
Arguments Nat.eqb : simpl never.

(** a physical accelerator: its condition's mutex, its pending counter, the spin semaphore (arax_accel.h:13-26) *)
Record acc := mkacc { afree : bool; tasks : Z; sem : nat }.
(** a virtual accelerator: its spinlock, its queue (C06-C08: a bounded FIFO), where it is assigned (arax_vaccel.h) *)
Record vac := mkvac { vfree : bool; vq : list nat; phys : option nat }.

Inductive pc :=
| Out
(* arax_vaccel_add_task, arax_vaccel.c:32-39; the second argument of P2 (ghost) is phys at the time of the push *)
| P0 (v t : nat)      (* 34: taking the virtual accelerator's lock *)
| P1 (v t : nat)      (* 35: pushing *)
| P2 (v : nat) (p : option nat)   (* 36: testing accel->phys *)
| P3 (v a : nat)      (* arax_accel.c:40 *)
| P4 (v a : nat)      (* 41 *)
| P5 (v a : nat)      (* 42 *)
| P6 (v a : nat)      (* 43 *)
| P7 (v : nat)        (* arax_vaccel.c:38 *)
(* arax_accel_add_vaccel, arax_accel.c:108-141, after line 116 *)
| A0 (v a : nat)      (* 120 *)
| A1 (v a : nat)      (* 122 *)
| A2 (v a : nat)      (* 123 *)
| A3 (v a : nat)      (* 125-134 *)
| A4 (v a : nat)      (* 131 *)
| A5 (v a : nat)      (* 136 *)
| A6 (v : nat)        (* 140 *)
(* arax_accel_del_vaccel, arax_accel.c:156-178, after line 161; [k] is where the caller continues:
   None: out; Some r: the calling worker goes on scanning [r] (HeterogeneousScheduler.cpp:150-158) *)
| R0 (v a : nat) (k : option (list nat))  (* 163 *)
| R1 (v a : nat) (k : option (list nat))  (* 164 *)
| R2 (v a : nat) (k : option (list nat))  (* 166-173 *)
| R3 (v a : nat) (k : option (list nat))  (* 170 *)
| R4 (v a : nat) (k : option (list nat))  (* 175 *)
| R5 (v : nat) (k : option (list nat))    (* 177 *)
(* arax_accel_wait_for_task, arax_accel.c:26-36; thread [a] is the worker of accelerator [a] *)
| W0                  (* 28 *)
| W1                  (* 30 *)
| W2                  (* 31: about to release the mutex *)
| W3                  (* 31: spin: reading the semaphore; pthread: asleep *)
| W4 (x : nat)        (* 31: spin: compare-and-swap x -> x-1 *)
| W5                  (* 31: taking the mutex again *)
| W6                  (* 33 *)
| W7                  (* 35 *)
| WG                  (* accelThread.cpp:480-486: about to take the snapshot of assigned virtual accelerators *)
| WS (r : list nat).  (* selectTask: still to look at [r] *)

(** [th]: the threads; [ran] (ghost): per accelerator, the tasks its worker took; [empty] (ghost): how many times
    a worker that was granted work found none *)
(** src/core/arax_accel.h:14-27, arax_vaccel.h:24-41 and the threads. *)
Record st := mkst { ac : nat -> acc; va : nat -> vac; th : list pc; ran : nat -> list nat; empty : nat -> nat }.
(** everything free and empty, [n] threads; the spin/mutex condition is initialised unlocked *)
(** src/core/arax_accel.c:5-24, src/core/arax_vaccel.c:3-30. *)
Definition init (n : nat) : st := mkst (fun _ => mkacc true 0 0) (fun _ => mkvac true [] None) (repeat Out n) (fun _ => []) (fun _ => 0%nat).

(** Calls of arax_vaccel.c:32-39, arax_accel.c:26-44 and 108-178, accelThread.cpp:351-367. *)
Inductive act := Submit (v t : nat) | Assign (v a : nat) | Remove (v a : nat) | Wait | Pick (v : nat) | Go | Spur.

Definition goto (s : st) (i : nat) (p : pc) : st := mkst (ac s) (va s) (upd (th s) i p) (ran s) (empty s).
Definition setac (s : st) (a : nat) (x : acc) : st := mkst (fupd (ac s) a x) (va s) (th s) (ran s) (empty s).
Definition setva (s : st) (v : nat) (x : vac) : st := mkst (ac s) (fupd (va s) v x) (th s) (ran s) (empty s).
Definition lockv (s : st) (i v : nat) (p : pc) : st :=
  if vfree (va s v) then goto (setva s v (mkvac false (vq (va s v)) (phys (va s v)))) i p else s.
Definition unlockv (s : st) (i v : nat) (p : pc) : st := goto (setva s v (mkvac true (vq (va s v)) (phys (va s v)))) i p.
Definition locka (s : st) (i a : nat) (p : pc) : st :=
  if afree (ac s a) then goto (setac s a (mkacc false (tasks (ac s a)) (sem (ac s a)))) i p else s.
Definition unlocka (s : st) (i a : nat) (p : pc) : st := goto (setac s a (mkacc true (tasks (ac s a)) (sem (ac s a)))) i p.
Definition addt (s : st) (a : nat) (d : Z) : st := setac s a (mkacc (afree (ac s a)) (tasks (ac s a) + d) (sem (ac s a))).
(** async_condition_notify: spin: one more token; pthread: everybody asleep on the condition of [a] (only its
    worker can be) wakes up *)
Definition notify (be : backend) (s : st) (a : nat) : st :=
  match be with
  | Spin => setac s a (mkacc (afree (ac s a)) (tasks (ac s a)) (S (sem (ac s a))))
  | Mutex => match nth_error (th s) a with Some W3 => goto s a W5 | _ => s end
  end.
Definition ret (i : nat) (k : option (list nat)) : pc := match k with None => Out | Some r => WS r end.
Definition vlen (s : st) (v : nat) : Z := Z.of_nat (length (vq (va s v))).
Fixpoint drop1 (v : nat) (l : list nat) : list nat := match l with [] => [] | x :: r => if Nat.eqb x v then r else x :: drop1 v r end.
(** arax_accel_get_assigned_vaccels, arax_accel.c:143-154: here the virtual accelerators are numbered below [nv] *)
Definition assigned (nv : nat) (s : st) (a : nat) : list nat := filter (fun v => match phys (va s v) with Some b => Nat.eqb b a | None => false end) (seq 0 nv).

(** One scheduler choice.  [cap]: capacity of the queues; [nv]: number of virtual accelerators.
    Simplifications: in A3 and R2 the update of the counter, of the list and of phys (all under both locks) are one
    step; the list of an accelerator is the set of virtual accelerators whose phys is that accelerator; the orphan
    list is left out (C42 in Orphans.v); a counter is an unbounded integer (it is a size_t). *)
Definition step (be : backend) (cap nv : nat) (s : st) (x : nat * act) : outcome st :=
  let '(i, a) := x in
  match nth_error (th s) i with
  | None => Ok s
  | Some p =>
    match a, p with
    | Submit v t, Out => if (v <? nv)%nat then Ok (goto s i (P0 v t)) else Ok s
    | Assign v b, Out =>
      if (v <? nv)%nat then
        match phys (va s v) with                                     (* arax_accel.c:113-116 *)
        | None => Ok (goto s i (A0 v b))
        | Some c => if Nat.eqb c b then Ok s else Abort
        end
      else Ok s
    | Remove v b, Out =>
      if (v <? nv)%nat then
        match phys (va s v) with Some c => if Nat.eqb c b then Ok (goto s i (R0 v b None)) else Abort | None => Abort end  (* 161 *)
      else Ok s
    | Remove v b, WS r =>                                            (* HeterogeneousScheduler.cpp:150-158 *)
      if existsb (Nat.eqb v) r && Nat.eqb b i then
        match phys (va s v) with Some c => if Nat.eqb c b then Ok (goto s i (R0 v b (Some (drop1 v r)))) else Abort | None => Abort end
      else Ok s
    | Wait, Out => Ok (goto s i W0)
    | Pick v, WS r =>
      if existsb (Nat.eqb v) r then
        match vq (va s v) with
        | [] => Ok (goto s i (WS (drop1 v r)))
        | t :: q => let s1 := setva s v (mkvac (vfree (va s v)) q (phys (va s v))) in
                    Ok (mkst (ac s1) (va s1) (upd (th s1) i Out) (fupd (ran s1) i (ran s1 i ++ [t])) (empty s1))
        end
      else Ok s
    | Go, P0 v t => Ok (lockv s i v (P1 v t))
    | Go, P1 v t => if (length (vq (va s v)) <? cap)%nat
                    then Ok (goto (setva s v (mkvac (vfree (va s v)) (vq (va s v) ++ [t]) (phys (va s v)))) i (P2 v (phys (va s v))))
                    else Ok s
    | Go, P2 v _ => match phys (va s v) with Some b => Ok (goto s i (P3 v b)) | None => Ok (goto s i (P7 v)) end
    | Go, P3 v b => Ok (locka s i b (P4 v b))
    | Go, P4 v b => Ok (goto (addt s b 1) i (P5 v b))
    | Go, P5 v b => Ok (goto (notify be s b) i (P6 v b))
    | Go, P6 v b => Ok (unlocka s i b (P7 v))
    | Go, P7 v => Ok (unlockv s i v Out)
    | Go, A0 v b => Ok (lockv s i v (A1 v b))
    | Go, A1 v b => match phys (va s v) with
                    | None => Ok (goto s i (A2 v b))
                    | Some c => if Nat.eqb c b then Ok (goto s i (A6 v)) else UB   (* 125: the node is linked in another list *)
                    end
    | Go, A2 v b => Ok (locka s i b (A3 v b))
    | Go, A3 v b => let n := vlen s v in
                    let s1 := setva (addt s b n) v (mkvac (vfree (va s v)) (vq (va s v)) (Some b)) in
                    Ok (goto s1 i (if n =? 0 then A5 v b else A4 v b))
    | Go, A4 v b => Ok (goto (notify be s b) i (A5 v b))
    | Go, A5 v b => Ok (unlocka s i b (A6 v))
    | Go, A6 v => Ok (unlockv s i v Out)
    | Go, R0 v b k => Ok (lockv s i v (R1 v b k))
    | Go, R1 v b k => Ok (locka s i b (R2 v b k))
    | Go, R2 v b k => match phys (va s v) with
                      | Some c => if Nat.eqb c b then
                          let n := vlen s v in
                          let s1 := setva (if n =? 0 then s else addt s b (- (n - 1))) v (mkvac (vfree (va s v)) (vq (va s v)) None) in
                          Ok (goto s1 i (if n =? 0 then R4 v b k else R3 v b k))
                        else UB
                      | None => UB                                   (* 172: the node is not in the list *)
                      end
    | Go, R3 v b k => Ok (goto (notify be s b) i (R4 v b k))
    | Go, R4 v b k => Ok (unlocka s i b (R5 v k))
    | Go, R5 v k => Ok (unlockv s i v (ret i k))
    | Go, W0 => Ok (locka s i i W1)
    | Go, W1 => Ok (goto s i (if tasks (ac s i) =? 0 then W2 else W6))
    | Go, W2 => Ok (unlocka s i i W3)
    | Go, W3 => match be with Spin => if (1 <=? sem (ac s i))%nat then Ok (goto s i (W4 (sem (ac s i)))) else Ok s | Mutex => Ok s end
    | Spur, W3 => match be with Mutex => Ok (goto s i W5) | Spin => Ok s end
    | Go, W4 x => if Nat.eqb (sem (ac s i)) x
                  then Ok (goto (setac s i (mkacc (afree (ac s i)) (tasks (ac s i)) (sem (ac s i) - 1))) i W5)
                  else Ok (goto s i W3)
    | Go, W5 => Ok (locka s i i W1)
    | Go, W6 => Ok (goto (addt s i (-1)) i W7)
    | Go, W7 => Ok (unlocka s i i WG)
    | Go, WG => if afree (ac s i) then Ok (goto s i (WS (assigned nv s i))) else Ok s   (* lock, copy, unlock *)
    | Go, WS [] => Ok (mkst (ac s) (va s) (upd (th s) i Out) (ran s) (fupd (empty s) i (S (empty s i))))
    | _, _ => Ok s
    end
  end.
Fixpoint run (be : backend) (cap nv : nat) (s : st) (l : list (nat * act)) : outcome st :=
  match l with [] => Ok s | x :: r => do s' <- step be cap nv s x; run be cap nv s' r end.
