(** The object layer: reference counted objects in typed registries, virtual and physical accelerators,
    buffers and tasks.  Models src/core/arax_object.c, arax_accel.c, arax_vaccel.c, arax_proc.c, arax_task.c,
    the orphan and lookup functions of arax_pipe.c, the reference handling of arax_data.c and the API entry
    points of src/arch/shm/impl.c, at the granularity of one API call per step (each call runs under the
    locks of the objects it touches; interleavings inside calls are the subject of Spinlock.v, QueueConc.v,
    Throttle.v, Async.v, TaskWait.v and Worker.v).

    General simplifications.
    - An object is named by an identifier that is never reused; touching an object whose memory was returned
      is [UB].  Allocation always succeeds (the allocator aborts the process when the segment is exhausted).
    - A virtual accelerator's queue is the bounded FIFO of QueueModel.v (C06); a submitter that finds it full
      spins until there is room, so [issue] is only taken when there is room.
    - Buffers have no device copy ([remote] = 0), as on CPU accelerators.
    - Intrusive lists are the sequences of ListModel.v (C10): adding puts the element first, adding a node
      that is linked somewhere is [UB], deleting removes exactly that element. *)
From Verif Require Import Base.

(** size_t of src/core/arax_throttle.h:12-21. *)
Definition M64 : N := 2 ^ 64.

(** arax_object_type_e, arax_object.h:14-22 *)
Inductive otype := TPhys | TVirt | TProc | TData | TTask.
Definition otype_eqb (a b : otype) : bool :=
  match a, b with TPhys, TPhys | TVirt, TVirt | TProc, TProc | TData, TData | TTask, TTask => true | _, _ => false end.
Lemma otype_eqb_spec a b : reflect (a = b) (otype_eqb a b).
Proof. destruct a, b; constructor; congruence. Qed.

(** Accelerator types are numbers, 0 is ANY (include/arax_types.h:82-94). *)
Definition atype := nat.

(** arax_accel_s, arax_accel.h:13-26 *)
Record physr := mkphys { ptype : atype; ptasks : Z; pvacs : list nat; pfvaq : option nat; prev : nat }.
(** arax_vaccel_s, arax_vaccel.h *)
Record virtr := mkvirt { vtype : atype; vphys : option nat; vq : list nat }.
(** arax_proc_s, arax_proc.h *)
Record procr := mkproc { pfun : nat -> option nat; canrun : N }.
(** arax_data_s, arax_data.h *)
Record datar := mkdata { dacc : option nat; dsize : N }.
(** arax_task_msg_s, arax_task.h:9-23; [tsub] (ghost): arax_task_submit was called *)
Record taskr := mktask { tacc : nat; tproc : nat; tio : list nat; tsub : bool }.
Inductive kind := KPhys (p : physr) | KVirt (v : virtr) | KProc (p : procr) | KData (d : datar) | KTask (t : taskr).
Definition otype_of (k : kind) : otype :=
  match k with KPhys _ => TPhys | KVirt _ => TVirt | KProc _ => TProc | KData _ => TData | KTask _ => TTask end.

(** arax_object_s, arax_object.h:41-49; [dying] (ghost): the destructor was started *)
Record obj := mkobj { rc : nat; osz : N; onm : nat; dying : bool; knd : kind }.

(** The shared segment: objects, registries (arax_object_repo_s), the shared memory throttle's [available]
    (arax_pipe_s.throttle), the orphan list (arax_pipe_s.orphan_vacs).  [next] (ghost): next identifier. *)
(** src/core/arax_object.h:27-35 (repo), include/arax_pipe.h:24-47. *)
Record st := mkst { heap : nat -> option obj; next : nat; reg : otype -> list nat; avail : N; orph : list nat }.
(** src/core/arax_pipe.c:5-56 after arax_object_repo_init. *)
Definition st0 (init : N) : st := mkst (fun _ => None) 0 (fun _ => []) init [].

(** Dereferencing an object pointer (src/core/arax_object.h:40-48). *)
Definition get (s : st) (x : nat) : outcome obj := match heap s x with Some o => Ok o | None => UB end.
(** Writing an object (src/core/arax_object.h:40-48). *)
Definition seto (s : st) (x : nat) (o : obj) : st := mkst (fupd (heap s) x (Some o)) (next s) (reg s) (avail s) (orph s).
(** Writing the fields after the arax_object_s header (src/core/arax_object.h:40-48). *)
Definition with_knd (o : obj) (k : kind) : obj := mkobj (rc o) (osz o) (onm o) (dying o) k.
(** Writing ref_count, src/core/arax_object.h:46. *)
Definition with_rc (o : obj) (r : nat) : obj := mkobj r (osz o) (onm o) (dying o) (knd o).
(** Writing repo[type].list, src/core/arax_object.h:30-34. *)
Definition regset (s : st) (ty : otype) (l : list nat) : st :=
  mkst (heap s) (next s) (fun t => if otype_eqb t ty then l else reg s t) (avail s) (orph s).
(** Writing orphan_vacs, include/arax_pipe.h:24-47. *)
Definition setorph (s : st) (l : list nat) : st := mkst (heap s) (next s) (reg s) (avail s) l.
(** Membership in a list, no code of its own. *)
Definition mem (x : nat) (l : list nat) : bool := existsb (Nat.eqb x) l.

(** Cast to arax_accel_s, src/core/arax_accel.h:14-27. *)
Definition get_phys s x : outcome (obj * physr) := do o <- get s x; match knd o with KPhys p => Ok (o, p) | _ => UB end.
(** Cast to arax_vaccel_s, src/core/arax_vaccel.h:24-41. *)
Definition get_virt s x : outcome (obj * virtr) := do o <- get s x; match knd o with KVirt v => Ok (o, v) | _ => UB end.
(** Cast to arax_data_s, src/core/arax_data.h:36-51. *)
Definition get_data s x : outcome (obj * datar) := do o <- get s x; match knd o with KData d => Ok (o, d) | _ => UB end.
(** Cast to arax_task_msg_s, src/core/arax_task.h:9-23. *)
Definition get_task s x : outcome (obj * taskr) := do o <- get s x; match knd o with KTask t => Ok (o, t) | _ => UB end.
(** Cast to arax_proc_s, src/core/arax_proc.h:15-21. *)
Definition get_proc s x : outcome (obj * procr) := do o <- get s x; match knd o with KProc t => Ok (o, t) | _ => UB end.

(** arax_object_register, arax_object.c:98-126: account the size, allocate, put first in the registry.
    (arax_pipe_size_dec: arax_throttle.c:76-104; with enforcement the call waits first.) *)
Definition register (s : st) (k : kind) (name : nat) (size : N) : st * nat :=
  let x := next s in
  let s1 := mkst (fupd (heap s) x (Some (mkobj 1 size name false k))) (S x) (reg s)
                 ((avail s + M64 - size mod M64) mod M64) (orph s) in
  (regset s1 (otype_of k) (x :: reg s (otype_of k)), x).

(** arax_object_ref_inc, 149-163 *)
Definition ref_inc (s : st) (x : nat) : outcome st :=
  do o <- get s x; Ok (seto s x (with_rc o (S (rc o)))).

(** utils_list_node_linked: the [vaccels] node of virtual accelerator [v] is on some list *)
(** src/utils/list.c:81-84. *)
Definition linked (s : st) (v : nat) : bool :=
  mem v (orph s) ||
  existsb (fun p => match heap s p with Some o => match knd o with KPhys r => mem v (pvacs r) | _ => false end | None => false end)
          (seq 0 (next s)).

(** arax_pipe_add_orphan_vaccel, arax_pipe.c:63-71 *)
Definition add_orphan (s : st) (v : nat) : outcome st :=
  do (o, w) <- get_virt s v;
  do _ <- assert_ (match vphys w with None => true | _ => false end);
  if linked s v then UB else Ok (setorph s (v :: orph s)).

(** arax_pipe_remove_orphan_vaccel, 100-107: delete the node from the orphan list if it is linked *)
Definition remove_orphan (s : st) (v : nat) : outcome st :=
  do _ <- get_virt s v;
  if linked s v then (if mem v (orph s) then Ok (setorph s (remove Nat.eq_dec v (orph s))) else UB) else Ok s.

(** arax_pipe_get_orphan_vaccel, 78-98, when the list is not empty *)
Definition get_orphan (s : st) : outcome (st * option nat) :=
  match orph s with
  | [] => Ok (s, None)
  | v :: r => do (o, w) <- get_virt s v;
              do _ <- assert_ (match vphys w with None => true | _ => false end);
              Ok (setorph s r, Some v)
  end.

(** Writing an arax_accel_s, src/core/arax_accel.h:14-27. *)
Definition set_phys s p (o : obj) (r : physr) : st := seto s p (with_knd o (KPhys r)).
(** Writing an arax_vaccel_s, src/core/arax_vaccel.h:24-41. *)
Definition set_virt s v (o : obj) (w : virtr) : st := seto s v (with_knd o (KVirt w)).

(** arax_accel_add_vaccel, arax_accel.c:108-141 *)
Definition add_vaccel (s : st) (p v : nat) : outcome st :=
  do (ov, w) <- get_virt s v;
  match vphys w with
  | Some p' => if p' =? p then Ok s else Abort
  | None =>
    do s1 <- remove_orphan s v;
    do (op, r) <- get_phys s1 p;
    if linked s1 v then UB else
    let n := length (vq w) in
    let s2 := set_phys s1 p op (mkphys (ptype r) (ptasks r + Z.of_nat n) (v :: pvacs r) (pfvaq r) (S (prev r))) in
    Ok (set_virt s2 v ov (mkvirt (vtype w) (Some p) (vq w)))
  end.

(** arax_accel_del_vaccel, 156-178 *)
Definition del_vaccel (s : st) (p v : nat) : outcome st :=
  do (ov, w) <- get_virt s v;
  do _ <- assert_ (match vphys w with Some p' => p' =? p | None => false end);
  do (op, r) <- get_phys s p;
  let n := length (vq w) in
  let t := if n =? 0 then ptasks r else (ptasks r - (Z.of_nat n - 1))%Z in
  if mem v (pvacs r) then
    let s2 := set_phys s p op (mkphys (ptype r) t (remove Nat.eq_dec v (pvacs r)) (pfvaq r) (S (prev r))) in
    Ok (set_virt s2 v ov (mkvirt (vtype w) None (vq w)))
  else UB.

(** arax_object_ref_dec, arax_object.c:161-209 (and _pre_locked, 216-239, which does the same), with the
    destructors: arax_task.c:89-103, arax_data.c:373-403, arax_vaccel.c:112-123, arax_accel.c:180-194,
    arax_proc.c:41-42.  [fuel] bounds the nesting of destructors (task -> buffer -> virtual accelerator;
    physical -> virtual accelerator): 3 is always enough (CoreProof.v). *)
Fixpoint iter_dec (dec : st -> nat -> outcome (st * nat)) (s : st) (l : list nat) : outcome st :=
  match l with [] => Ok s | y :: r => do (s1, _) <- dec s y; iter_dec dec s1 r end.

(** utils_list_del in src/core/arax_object.c:161-235. *)
Definition unregister (s : st) (x : nat) (ty : otype) : st := regset s ty (remove Nat.eq_dec x (reg s ty)).
(** arch_alloc_free and the throttle, src/core/arax_object.c:161-209. *)
Definition release_mem (s : st) (x : nat) (size : N) : st :=
  mkst (fun y => if y =? x then None else heap s y) (next s) (reg s) ((avail s + size) mod M64) (orph s).

(** src/core/arax_object.c:161-209 with the destructors of arax_accel.c, arax_vaccel.c, arax_data.c:373-403, arax_task.c. *)
Fixpoint ref_dec (fuel : nat) (s : st) (x : nat) : outcome (st * nat) :=
  match fuel with
  | O => UB
  | S f =>
    do o <- get s x;
    do _ <- assert_ (0 <? rc o);
    if rc o =? 1 then
      let s1 := unregister (seto s x (mkobj 0 (osz o) (onm o) true (knd o))) x (otype_of (knd o)) in
      do s2 <- match knd o with
               | KTask t => do s2 <- iter_dec (ref_dec f) s1 (tio t); do (s3, _) <- ref_dec f s2 (tacc t); Ok s3
               | KData d => match dacc d with
                            | Some a => do ao <- get s1 a; do _ <- assert_ (otype_eqb (otype_of (knd ao)) TVirt);
                                        do (s2, _) <- ref_dec f s1 a; Ok s2
                            | None => Ok s1
                            end
               | KVirt w => match vphys w with Some p => del_vaccel s1 p x | None => remove_orphan s1 x end
               | KPhys p => match pfvaq p with
                            | Some v => do (s2, _) <- ref_dec f s1 v; Ok s2
                            | None => UB
                            end
               | KProc _ => Ok s1
               end;
      Ok (release_mem s2 x (osz o), 0)
    else Ok (seto s x (with_rc o (rc o - 1)), rc o - 1)
  end.
(** Depth of the destructor nesting (task, virtual accelerator, physical accelerator); no code of its own. *)
Definition FUEL := 3.

(** sizeof() of the objects' structures and the capacity of a queue *)
(** src/core/arax_accel.h:14-27, arax_vaccel.h:24-41, arax_proc.h:15-21, arax_data.h:36-51, arax_task.h:9-23, utils/queue.h:15-28. *)
Record cfg := mkcfg { sPhys : N; sVirt : N; sProc : N; sData : N; sTask : N; qcap : nat }.

(** arax_vaccel_init, arax_vaccel.c:3-30 *)
Definition vaccel_init (c : cfg) (s : st) (name : nat) (ty : atype) (accel : option nat) : outcome (st * nat) :=
  let '(s1, v) := register s (KVirt (mkvirt ty None [])) name (sVirt c) in
  match accel with
  | Some p => do s2 <- add_vaccel s1 p v; Ok (s2, v)
  | None => do s2 <- add_orphan s1 v; Ok (s2, v)
  end.

(** arax_accel_init, arax_accel.c:5-24.  The accelerator's own throttle is Throttle.v. *)
Definition accel_init (c : cfg) (s : st) (name : nat) (ty : atype) : outcome (st * nat) :=
  let '(s1, p) := register s (KPhys (mkphys ty 0 [] None 0)) name (sPhys c) in
  do (s2, v) <- vaccel_init c s1 name ty (Some p);
  do (o, r) <- get_phys s2 p;
  Ok (set_phys s2 p o (mkphys (ptype r) (ptasks r) (pvacs r) (Some v) (prev r)), p).

(** arax_accel_acquire_phys / _type, impl.c:335-364; [name_fill] is "FILL" *)
Definition name_fill : nat := 0.
Definition acquire_phys (c : cfg) (s : st) (p : nat) : outcome (st * option nat) :=
  do o <- get s p;
  match knd o with
  | KPhys r => do (s1, v) <- vaccel_init c s name_fill (ptype r) (Some p); Ok (s1, Some v)
  | _ => Ok (s, None)
  end.
Definition acquire_type (c : cfg) (s : st) (ty : atype) : outcome (st * nat) := vaccel_init c s name_fill ty None.

(** arax_accel_release, impl.c:366-382 *)
Definition accel_release (s : st) (x : nat) : outcome st :=
  do o <- get s x;
  match knd o with
  | KPhys _ | KVirt _ => do (s1, _) <- ref_dec FUEL s x; Ok s1
  | _ => Abort
  end.

(** arax_accel_set_physical, impl.c:209-217 *)
Definition set_physical (s : st) (v p : nat) : outcome st := add_vaccel s p v.

(** arax_pipe_find_proc, arax_pipe.c:219-236: first registered procedure with that name *)
Definition named (s : st) (name : nat) (x : nat) : bool := match heap s x with Some o => onm o =? name | None => false end.
Definition find_proc (s : st) (name : nat) : option nat := find (named s name) (reg s TProc).
(** arax_proc_init, arax_proc.c:4-14 *)
Definition proc_init (c : cfg) (s : st) (name : nat) : st * nat :=
  register s (KProc (mkproc (fun _ => None) 0)) name (sProc c).
(** arax_proc_register, impl.c:384-398 *)
Definition proc_register (c : cfg) (s : st) (name : nat) : st * nat :=
  match find_proc s name with Some x => (s, x) | None => proc_init c s name end.
(** arax_proc_get, impl.c:400-411 *)
Definition proc_get (s : st) (name : nat) : outcome (st * option nat) :=
  match find_proc s name with
  | Some x => do s1 <- ref_inc s x; Ok (s1, Some x)
  | None => Ok (s, None)
  end.
(** arax_proc_put, impl.c:413-420 *)
Definition proc_put (s : st) (x : nat) : outcome (st * nat) := ref_dec FUEL s x.

(** arax_data_init_aligned, arax_data.c:21-50 (layout: DataLayout.v); 8 = sizeof(size_t* ) *)
Definition data_init (c : cfg) (s : st) (size align : N) : outcome (st * nat) :=
  do _ <- assert_ (negb (align =? 0)%N);
  Ok (register s (KData (mkdata None size)) 1 (sData c + (size + align + 8))%N).
(** arax_data_free, 325-332 *)
Definition data_free (s : st) (x : nat) : outcome st := do (s1, _) <- ref_dec FUEL s x; Ok s1.

(** arax_data_migrate_accel, 117-160 *)
Definition migrate (s : st) (d a : nat) : outcome st :=
  do (o, dr) <- get_data s d;
  match dacc dr with
  | None => do s1 <- ref_inc s a; do (o1, dr1) <- get_data s1 d; Ok (seto s1 d (with_knd o1 (KData (mkdata (Some a) (dsize dr1)))))
  | Some b =>
    if b =? a then Ok s else
    do bo <- get s b; do ao <- get s a;
    match knd bo, knd ao with
    | KVirt bw, KVirt aw =>
      if match vphys bw, vphys aw with None, None => true | Some p, Some q => p =? q | _, _ => false end then
        do (s1, _) <- ref_dec FUEL s b;
        do s2 <- ref_inc s1 a;
        do (o2, dr2) <- get_data s2 d;
        Ok (seto s2 d (with_knd o2 (KData (mkdata (Some a) (dsize dr2)))))
      else Abort
    | _, _ => Abort
    end
  end.
(** arax_data_set_accel, 195-204: the reference on the previous accelerator is not dropped *)
Definition data_set_accel (s : st) (d a : nat) : outcome st :=
  do (o, dr) <- get_data s d;
  if match dacc dr with Some b => b =? a | None => false end then Ok s else
  ref_inc (seto s d (with_knd o (KData (mkdata (Some a) (dsize dr))))) a.

(** check_semantics, impl.c:422-465: every argument is a non-null buffer object (the duplicate loop tests the
    same two conditions again).  Arguments are pointers: [None] is NULL. *)
Fixpoint check_semantics (s : st) (args : list (option nat)) : outcome bool :=
  match args with
  | [] => Ok true
  | None :: _ => Ok false
  | Some x :: r => do o <- get s x; if otype_eqb (otype_of (knd o)) TData then check_semantics s r else Ok false
  end.

(** arax_data_input_init / _output_init, arax_data.c:229-249, for the task's io[cnt] = d *)
Definition arg_init (s : st) (t d a : nat) : outcome st :=
  do (o, tr) <- get_task s t;
  let s1 := seto s t (with_knd o (KTask (mktask (tacc tr) (tproc tr) (tio tr ++ [d]) (tsub tr)))) in
  do s2 <- ref_inc s1 d;
  migrate s2 d a.
Fixpoint args_init (s : st) (t a : nat) (l : list nat) : outcome st :=
  match l with [] => Ok s | d :: r => do s1 <- arg_init s t d a; args_init s1 t a r end.

(** arax_task_alloc, arax_task.c:7-49 *)
Definition task_alloc (c : cfg) (s : st) (a p : nat) (host : N) (io : list nat) : outcome (st * nat) :=
  let '(s1, t) := register s (KTask (mktask a p [] false)) 2 (sTask c + 8 * N.of_nat (length io) + host)%N in
  do s2 <- args_init s1 t a io;
  Ok (s2, t).

(** arax_vaccel_add_task, arax_vaccel.c:32-39, and arax_accel_add_task, arax_accel.c:38-44 *)
Definition add_task (s : st) (v t : nat) : outcome st :=
  do (ov, w) <- get_virt s v;
  let s1 := set_virt s v ov (mkvirt (vtype w) (vphys w) (vq w ++ [t])) in
  match vphys w with
  | None => Ok s1
  | Some p => do (op, r) <- get_phys s1 p;
              Ok (set_phys s1 p op (mkphys (ptype r) (ptasks r + 1) (pvacs r) (pfvaq r) (prev r)))
  end.

(** arax_task_submit, arax_task.c:64-75 *)
Definition task_submit (s : st) (t : nat) : outcome st :=
  do (o, tr) <- get_task s t;
  do s1 <- ref_inc s (tacc tr);
  do (o1, tr1) <- get_task s1 t;
  let s2 := seto s1 t (with_knd o1 (KTask (mktask (tacc tr1) (tproc tr1) (tio tr1) true))) in
  add_task s2 (tacc tr) t.

(** arax_task_issue, impl.c:467-488 *)
Definition strip (args : list (option nat)) : list nat := flat_map (fun a => match a with Some x => [x] | None => [] end) args.
Definition task_issue (c : cfg) (s : st) (a p : nat) (host : N) (args : list (option nat)) : outcome (st * nat) :=
  do ok <- check_semantics s args;
  do _ <- assert_ ok;
  do (s1, t) <- task_alloc c s a p host (strip args);
  do s2 <- task_submit s1 t;
  Ok (s2, t).

(** arax_task_free, impl.c:524-529 *)
Definition task_free (s : st) (t : nat) : outcome st := do (s1, _) <- ref_dec FUEL s t; Ok s1.

(** arax_accel_wait_for_task, arax_accel.c:26-36: [None] while there is nothing to do *)
Definition wait_for_task (s : st) (p : nat) : outcome (st * bool) :=
  do (o, r) <- get_phys s p;
  if (ptasks r =? 0)%Z then Ok (s, false)
  else Ok (set_phys s p o (mkphys (ptype r) (ptasks r - 1) (pvacs r) (pfvaq r) (prev r)), true).

(** utils_queue_pop on the accelerator's queue (schedulers' selectTask), then arax_object_ref_inc of the task
    (accelThread.cpp:373) *)
Definition pop_task (s : st) (v : nat) : outcome (st * option nat) :=
  do (o, w) <- get_virt s v;
  match vq w with
  | [] => Ok (s, None)
  | t :: r => do s1 <- ref_inc (set_virt s v o (mkvirt (vtype w) (vphys w) r)) t; Ok (s1, Some t)
  end.

(** arax_accel_list, impl.c:221-281: matching registered accelerators of the kind, in registry order; [want]
    tells whether the array is wanted. *)
Definition match_type (s : st) (ty : atype) (x : nat) : bool :=
  (ty =? 0) ||
  match heap s x with
  | Some o => match knd o with KPhys r => ptype r =? ty | KVirt w => vtype w =? ty | _ => false end
  | None => false end.
Fixpoint incs (s : st) (l : list nat) : outcome st :=
  match l with [] => Ok s | x :: r => do s1 <- ref_inc s x; incs s1 r end.
Definition accel_list (s : st) (ty : atype) (physical : bool) (want : bool) : outcome (st * (nat * option (list nat))) :=
  let l := filter (match_type s ty) (reg s (if physical then TPhys else TVirt)) in
  if want then do s1 <- incs s l; Ok (s1, (length l, Some l)) else Ok (s, (length l, None)).
(** arax_accel_list_free, 283-292 *)
Definition accel_list_free (s : st) (l : list nat) : outcome st := iter_dec (ref_dec FUEL) s l.

(** arax_pipe_find_accel, arax_pipe.c:194-217; [None] for name: any *)
Definition find_accel (s : st) (name : option nat) (ty : atype) : option nat :=
  find (fun x => match_type s ty x && match name with None => true | Some n => named s n x end) (reg s TPhys).
(** arax_pipe_delete_accel, 175-192 *)
Definition delete_accel (s : st) (x : nat) : outcome (st * nat) :=
  if mem x (reg s TPhys) then do (s1, _) <- ref_dec FUEL s x; Ok (s1, 0) else Ok (s, 1).
(** arax_object_repo_exit, arax_object.c:72-89 *)
Definition repo_exit (s : st) : nat :=
  length (reg s TPhys) + length (reg s TVirt) + length (reg s TProc) + length (reg s TData) + length (reg s TTask).
