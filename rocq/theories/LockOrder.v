(** * Calls of the library never wait for each other's locks in a circle (C74)

    Code modelled: what each function does to the locks, in the order of its source
    - [src/utils/spinlock.h:32-54]            a spinlock: taken when free, released by its owner
    - [src/async/spin/async.c:64-84]          the lock of a condition; waiting releases it, sleeps and takes it again ([src/async/mutex/async.c:69-87] likewise)
    - [src/alloc/dlmalloc/alloc.c:62-161]     the shared heap: its lock, and the bitmap's within it (src/utils/bitmap.c:219-296)
    - [src/core/arax_throttle.c:49-105]       the throttles
    - [src/core/arax_object.c:98-258]         register, reference counts, the five registries
    - [src/core/arax_task.c:3-103]            tasks
    - [src/core/arax_data.c:16-404]           buffers
    - [src/core/arax_accel.c:4-194]           physical accelerators
    - [src/core/arax_vaccel.c:3-123]          virtual accelerators
    - [src/core/arax_pipe.c:63-236]           the list of orphans, the table of processes, the searches
    - [src/arch/shm/impl.c:108-530]           the calls of the application
    - [src/utils/Kv.c:10-48]                  the tables

    Simplified: only the lock operations and the places where a function waits for something else (room in a queue, a notification, the end of a task) are kept; every branch and every number of
    iterations is allowed.  Attempts to push into a full queue are one wait for room.  Locks that belong to one process (malloc, stdio) and those of the GPU back-ends are not modelled. *)
From Verif Require Import Base.
From Coq Require Import Lia.
Local Open Scope nat_scope.

(** ** The model *)
(** The five registries, src/core/arax_object.h:14-22. *)
Inductive kind := Phys | Virt | Task | Data | Proc.
(** The locks: of a registry, of the orphans, of a virtual accelerator and of its queue, of a physical accelerator, of the heap, of the bitmap, of a throttle ([None]: of the segment), of the table of
    processes, of a table, of "the controller is ready".  include/arax_pipe.h:24-47, src/core/arax_accel.h:15-27, src/core/arax_vaccel.h:22-41. *)
Inductive lock := LRepo (k : kind) | LOrphan | LVac (v : nat) | LQueue (v : nat) | LAcc (a : nat) | LHeap | LBmp | LThr (a : option nat) | LPids | LKv (n : nat) | LReady.
(** What a function waits for besides locks: room in the queue of [v], a notification of the condition of [l], the end of a task.  src/core/arax_vaccel.c:35, src/async/spin/async.c:72, src/core/arax_task.c:80. *)
Inductive what := Room (v : nat) | Notified (l : lock) | Done.
Inductive op := Lock (l : lock) | Unlock (l : lock) | Await (w : what).
(** The functions. *)
Inductive fn :=
| Heap | ThrInc (t : option nat) | ThrDec (t : option nat)
| Register (k : kind) | RefDec (k : kind) | PreDec (k : kind) | Dtor (k : kind)
| AddOrphan | RemoveOrphan | GetOrphan
| AddTask (v : nat) | AddVaccel | DelVaccel | VaccelInit | AccelInit | WaitForTask (a : nat) | GetAssigned (a : nat)
| FindAccel | FindProc | RefOffset | DeleteAccel | Pids | Kv (n : nat) | WaitReady
| ProcGet | ProcRegister | Migrate | TaskAlloc | Issue | TaskWait | IssueSync | DataGet | DataSet | AllocRemote | AccelList (k : kind) (old : list kind) | ListFree (l : list kind).
(** What a function does: operations on locks, and calls. *)
Inductive item := Op (o : op) | Call (f : fn).
Definition section (l : lock) (b : list item) : list item := Op (Lock l) :: b ++ [Op (Unlock l)].
(** async_condition_wait, src/async/spin/async.c:69-74. *)
Definition sleep (l : lock) : list item := [Op (Unlock l); Op (Await (Notified l)); Op (Lock l)].
Fixpoint times (n : nat) (b : list item) : list item := match n with 0 => [] | S n => b ++ times n b end.
(** What frees an object that is no longer referenced: src/core/arax_object.c:195-203. *)
Definition finish (k : kind) : list item := [Call (Dtor k); Call Heap; Call Heap; Call (ThrInc None)].
Inductive body : fn -> list item -> Prop :=
(* mspace_malloc, mspace_free: [n] calls of arax_mmap or arax_ummap; src/alloc/dlmalloc/alloc.c:62-161 *)
| b_heap n : body Heap (section LHeap (times n (section LBmp [])))
(* src/core/arax_throttle.c:49-74, 77-105 *)
| b_inc t : body (ThrInc t) (section (LThr t) [])
| b_inc0 t : body (ThrInc t) []
| b_dec t n : body (ThrDec t) (section (LThr t) (times n (sleep (LThr t))))
| b_dec0 t : body (ThrDec t) []
(* src/core/arax_object.c:98-126 *)
| b_register k : body (Register k) ([Call (ThrDec None); Call Heap; Call Heap] ++ section (LRepo k) [])
(* src/core/arax_object.c:161-209 *)
| b_refdec k : body (RefDec k) (section (LRepo k) [])
| b_refdec_last k : body (RefDec k) (section (LRepo k) [] ++ finish k)
(* src/core/arax_object.c:211-235 *)
| b_predec k : body (PreDec k) []
| b_predec_last k : body (PreDec k) (finish k)
(* the destructors: src/core/arax_task.c:89-103 *)
| b_task n : body (Dtor Task) (times n [Call (RefDec Data)] ++ [Call (RefDec Virt)])
(* src/core/arax_data.c:373-404: with memory on a device, without, never used *)
| b_data_remote : body (Dtor Data) [Call ProcGet; Call Issue; Call (RefDec Virt)]
| b_data : body (Dtor Data) [Call (RefDec Virt)]
| b_data0 : body (Dtor Data) []
(* src/core/arax_proc.c:41-42 *)
| b_proc : body (Dtor Proc) []
(* src/core/arax_accel.c:180-194 *)
| b_phys a : body (Dtor Phys) (section (LAcc a) [] ++ [Call (RefDec Virt)])
(* src/core/arax_vaccel.c:113-123 *)
| b_virt : body (Dtor Virt) [Call DelVaccel]
| b_virt0 : body (Dtor Virt) [Call RemoveOrphan]
(* src/core/arax_pipe.c:63-71, 78-98, 100-107 *)
| b_add_orphan : body AddOrphan (section LOrphan [])
| b_remove_orphan : body RemoveOrphan (section LOrphan [])
| b_get_orphan n : body GetOrphan (section LOrphan (times n (sleep LOrphan)))
(* src/core/arax_vaccel.c:32-39, src/core/arax_accel.c:38-44, src/utils/queue.c:88-124 *)
| b_add_task v : body (AddTask v) (section (LVac v) (Op (Await (Room v)) :: section (LQueue v) []))
| b_add_task_phys v a : body (AddTask v) (section (LVac v) (Op (Await (Room v)) :: section (LQueue v) [] ++ section (LAcc a) []))
(* src/core/arax_accel.c:108-141: assigned already; not *)
| b_add_vaccel0 : body AddVaccel []
| b_add_vaccel v a : body AddVaccel (Call RemoveOrphan :: section (LVac v) (section (LAcc a) []))
(* src/core/arax_accel.c:156-178 *)
| b_del_vaccel v a : body DelVaccel (section (LVac v) (section (LAcc a) []))
(* src/core/arax_vaccel.c:3-30 *)
| b_vaccel_init : body VaccelInit [Call (Register Virt); Call AddVaccel]
| b_vaccel_init0 : body VaccelInit [Call (Register Virt); Call AddOrphan]
(* src/core/arax_accel.c:4-24 *)
| b_accel_init : body AccelInit [Call (Register Phys); Call VaccelInit]
(* src/core/arax_accel.c:26-36, 143-154 *)
| b_wait_for_task a n : body (WaitForTask a) (section (LAcc a) (times n (sleep (LAcc a))))
| b_get_assigned a : body (GetAssigned a) (section (LAcc a) [])
(* src/core/arax_pipe.c:194-217, 219-236, src/core/arax_data.c:295-323 *)
| b_find_accel : body FindAccel (section (LRepo Phys) [])
| b_find_proc : body FindProc (section (LRepo Proc) [])
| b_ref_offset : body RefOffset (section (LRepo Data) [])
(* src/core/arax_pipe.c:175-192 *)
| b_delete_accel : body DeleteAccel (section (LRepo Phys) [] ++ [Call (RefDec Phys)])
| b_delete_accel0 : body DeleteAccel (section (LRepo Phys) [])
(* src/core/arax_pipe.c:126-163, src/utils/Kv.c:10-48 *)
| b_pids : body Pids (section LPids [])
| b_kv n : body (Kv n) (section (LKv n) [])
(* src/arch/shm/impl.c:116-121 *)
| b_wait_ready n : body WaitReady (section LReady (times n (sleep LReady)))
(* src/arch/shm/impl.c:384-411 *)
| b_proc_get : body ProcGet [Call FindProc]
| b_proc_register : body ProcRegister [Call FindProc]
| b_proc_register_new : body ProcRegister [Call FindProc; Call (Register Proc)]
(* src/core/arax_data.c:115-160 *)
| b_migrate : body Migrate [Call (RefDec Virt)]
| b_migrate0 : body Migrate []
(* src/core/arax_task.c:3-50 *)
| b_task_alloc n : body TaskAlloc (Call (Register Task) :: times n [Call Migrate])
(* src/arch/shm/impl.c:467-488, src/core/arax_task.c:64-75 *)
| b_issue v : body Issue [Call TaskAlloc; Call (AddTask v)]
(* src/arch/shm/impl.c:515-522, 490-500 *)
| b_task_wait : body TaskWait [Op (Await Done)]
| b_issue_sync : body IssueSync [Call Issue; Call TaskWait; Call (RefDec Task)]
(* src/core/arax_data.c:52-72, 74-92, 162-193 *)
| b_data_get : body DataGet [Call ProcGet; Call Issue; Call TaskWait; Call (RefDec Task); Call (RefDec Proc)]
| b_data_set : body DataSet [Call ProcGet; Call Issue; Call (RefDec Proc)]
| b_alloc_remote a : body AllocRemote [Call ProcGet; Call Issue; Call TaskWait; Call (RefDec Task); Call (ThrDec (Some a))]
(* src/arch/shm/impl.c:221-281, 294-303: [k] the registry listed, [old] the accelerators in the list handed in *)
| b_accel_list k old : body (AccelList k old) (section (LRepo k) (map (fun k' => Call (PreDec k')) old))
(* src/arch/shm/impl.c:283-292 *)
| b_list_free l : body (ListFree l) (map (fun k => Call (RefDec k)) l).
(** The operations of a sequence of calls, one after the other.  (How C executes, no code of its own.) *)
Inductive does : list item -> list op -> Prop :=
| d_nil : does [] []
| d_op o r l : does r l -> does (Op o :: r) (o :: l)
| d_call f b r l1 l2 : body f b -> does b l1 -> does r l2 -> does (Call f :: r) (l1 ++ l2).

(** Threads of any processes: who owns each lock, and what each thread has left to do.  A thread that waits for something else than a lock goes on at any time. *)
(** src/utils/spinlock.h:32-54. *)
Record st := mks { own : lock -> option nat; todo : nat -> list op }.
Definition lock_eq (a b : lock) : {a = b} + {a <> b}.
Proof. repeat decide equality. Defined.
Definition lupd (f : lock -> option nat) (l : lock) (x : option nat) : lock -> option nat := fun y => if lock_eq y l then x else f y.
(** One operation of thread [i]; [None]: it cannot go on now (src/utils/spinlock.h:32-54). *)
Definition step (s : st) (i : nat) : option st :=
  match todo s i with
  | [] => None
  | Lock l :: r => match own s l with None => Some (mks (lupd (own s) l (Some i)) (fupd (todo s) i r)) | Some _ => None end
  | Unlock l :: r => Some (mks (lupd (own s) l None) (fupd (todo s) i r))
  | Await _ :: r => Some (mks (own s) (fupd (todo s) i r))
  end.
(** Any schedule. *)
Fixpoint run (s : st) (l : list nat) : option st := match l with [] => Some s | i :: l' => match step s i with Some s' => run s' l' | None => None end end.

(** ** Specification *)
(** Calls that the application may make: a list handed to arax_accel_list to be refilled with virtual accelerators holds virtual accelerators, and lists hold accelerators. *)
Definition good (f : fn) : Prop :=
  match f with
  | AccelList k old => (k = Phys /\ forall x, In x old -> x = Phys \/ x = Virt) \/ (k = Virt /\ forall x, In x old -> x = Virt)
  | ListFree l => forall x, In x l -> x = Phys \/ x = Virt
  | PreDec _ | Dtor _ => False
  | _ => True end.
(** [n] threads, each with any calls to make, one after the other; no lock is owned. *)
Definition starts (n : nat) (s : st) : Prop :=
  (forall l, own s l = None) /\ (forall i, n <= i -> todo s i = []) /\ forall i, exists fs, Forall good fs /\ does (map Call fs) (todo s i).
Definition reach (n : nat) (s : st) : Prop := exists s0 l, starts n s0 /\ run s0 l = Some s.

(** ** Proofs *)
Definition rank (l : lock) : nat :=
  match l with LRepo Phys => 0 | LRepo _ => 1 | LOrphan | LVac _ => 2 | LQueue _ | LAcc _ => 3 | LHeap => 4 | LBmp => 5 | LThr _ => 6 | LPids | LKv _ | LReady => 0 end.
Lemma rank_le l : rank l <= 6.
Proof. destruct l as [[]| | | | | | | | | |]; simpl; lia. Qed.
(** the lowest lock a function takes, and whether it waits for anything but locks *)
Definition low (f : fn) : nat :=
  match f with
  | Heap => 4 | ThrInc _ | ThrDec _ => 6 | RefDec Virt => 1 | PreDec Phys | Dtor Phys => 1 | PreDec Virt | Dtor Virt | DelVaccel | RemoveOrphan | AddOrphan => 2 | _ => 0 end.
Definition waits (f : fn) : bool :=
  match f with Heap | ThrInc _ | RefDec Virt | RefDec Phys | PreDec Phys | PreDec Virt | Dtor Phys | Dtor Virt | DelVaccel | RemoveOrphan | AddOrphan => false | _ => true end.
Definition above (n : nat) (h : list lock) : Prop := forall x, In x h -> rank x < n.
(** [ok h l]: with the locks [h] held, newest first, the operations [l] take locks upwards only, release the newest first and all in the end, and wait for other things with no lock held, or for room
    with the accelerator's *)
Fixpoint ok (h : list lock) (l : list op) (h' : list lock) : Prop :=
  match l with
  | [] => h = h'
  | Lock x :: r => above (rank x) h /\ ok (x :: h) r h'
  | Unlock x :: r => exists t, h = x :: t /\ ok t r h'
  | Await (Room v) :: r => h = [LVac v] /\ ok h r h'
  | Await _ :: r => h = [] /\ ok h r h' end.
Fixpoint okb (h : list lock) (l : list item) (h' : list lock) : Prop :=
  match l with
  | [] => h = h'
  | Op (Lock x) :: r => above (rank x) h /\ okb (x :: h) r h'
  | Op (Unlock x) :: r => exists t, h = x :: t /\ okb t r h'
  | Op (Await (Room v)) :: r => h = [LVac v] /\ okb h r h'
  | Op (Await _) :: r => h = [] /\ okb h r h'
  | Call f :: r => (above (low f) h /\ (waits f = true -> h = []) /\ match f with AccelList _ _ | ListFree _ => good f | PreDec k | Dtor k => waits f = true \/ k = Phys \/ k = Virt | _ => True end) /\ okb h r h' end.
Lemma ok_app l1 : forall l2 h h' h'', ok h l1 h' -> ok h' l2 h'' -> ok h (l1 ++ l2) h''.
Proof.
  induction l1 as [|o l1 IH]; intros l2 h h' h'' A B; simpl in *; [now subst|].
  destruct o as [x|x|[v|y|]]; [destruct A; split; eauto|destruct A as (t & -> & A); exists t; eauto|destruct A; split; eauto|destruct A; split; eauto|destruct A; split; eauto].
Qed.
Lemma okb_app l1 : forall l2 h h' h'', okb h l1 h' -> okb h' l2 h'' -> okb h (l1 ++ l2) h''.
Proof.
  induction l1 as [|o l1 IH]; intros l2 h h' h'' A B; simpl in *; [now subst|].
  destruct o as [[x|x|[v|y|]]|f]; [destruct A; split; eauto|destruct A as (t & -> & A); exists t; eauto|destruct A; split; eauto|destruct A; split; eauto|destruct A; split; eauto|destruct A; split; eauto].
Qed.
Lemma okb_times n b h : okb h b h -> okb h (times n b) h.
Proof. induction n; simpl; auto. intros. eapply okb_app; eauto. Qed.
Lemma okb_section l b h : above (rank l) h -> okb (l :: h) b (l :: h) -> okb h (section l b) h.
Proof. intros A B. unfold section. simpl. split; auto. eapply okb_app; eauto. simpl. eauto. Qed.
Lemma above_nil n : above n [].
Proof. intros x []. Qed.
Lemma above_le n m h : above n h -> n <= m -> above m h.
Proof. intros A L x X. specialize (A x X). lia. Qed.
Lemma above_cons n l h : rank l < n -> above n h -> above n (l :: h).
Proof. intros A B x [<-|X]; auto. Qed.

Lemma okb_map (F : kind -> fn) l h : (forall k, In k l -> okb h [Call (F k)] h) -> okb h (map (fun k => Call (F k)) l) h.
Proof.
  induction l as [|k l IH]; intros H; simpl; auto. destruct (H k ltac:(simpl; auto)) as [A _]. split; auto. apply IH. intros k' X. apply H. simpl. auto.
Qed.
(** each function keeps to the order, from whatever is held below its own locks *)
Lemma body_ok f b h : body f b -> above (low f) h -> (waits f = true -> h = []) -> match f with AccelList _ _ | ListFree _ => good f | _ => True end -> okb h b h.
Proof.
  intros B A W G. destruct B; cbn [low waits] in A, W; try (rewrite (W eq_refl) in *; clear A W h);
    try (simpl; auto; fail);
    try (unfold finish; cbn [okb app section low waits]; repeat split; eauto using above_nil; try (intros x []); try discriminate; eauto; fail).
  - apply okb_section; [exact A|]. apply okb_times. apply okb_section; [apply above_cons; simpl; [lia|eapply above_le; eauto]|reflexivity].
  - apply okb_section; [apply above_nil|]. apply okb_times. simpl. repeat (eexists || split); auto using above_nil.
  - apply okb_section; [|reflexivity]. destruct k; cbn [low waits] in *; try (rewrite (W eq_refl); apply above_nil); auto.
  - apply okb_app with h; [apply okb_section; [destruct k; cbn [low waits] in *; try (rewrite (W eq_refl); apply above_nil); auto|reflexivity]|].
    destruct k; cbn [low waits] in *; unfold finish; cbn [okb low waits]; try (rewrite (W eq_refl)); repeat split; auto using above_nil; try discriminate; (eapply above_le; [eauto|simpl; lia]).
  - destruct k; cbn [low waits] in *; unfold finish; cbn [okb low waits]; try (rewrite (W eq_refl)); repeat split; auto using above_nil; try discriminate; (eapply above_le; [eauto|simpl; lia]).
  - apply okb_app with []; [apply okb_times|]; cbn [okb low waits]; repeat split; auto using above_nil; discriminate.
  - apply okb_app with h; [apply okb_section; [eapply above_le; eauto; simpl; lia|reflexivity]|]. cbn [okb low waits]. repeat split; auto.
  - apply okb_section; [apply above_nil|]. apply okb_times. simpl. repeat (eexists || split); auto using above_nil.
  - apply okb_section; [apply above_nil|]. cbn [okb]. split; auto. apply okb_section; [|reflexivity]. apply above_cons; simpl; auto using above_nil.
  - apply okb_section; [apply above_nil|]. cbn [okb]. split; auto. apply okb_app with [LVac v]; (apply okb_section; [|reflexivity]; apply above_cons; simpl; auto using above_nil).
  - cbn [okb low waits]. split; [repeat split; auto using above_nil|]. apply okb_section; [apply above_nil|]. apply okb_section; [|reflexivity]. apply above_cons; simpl; auto using above_nil.
  - apply okb_section; [exact A|]. apply okb_section; [|reflexivity]. apply above_cons; [simpl; lia|eapply above_le; [exact A|simpl; lia]].
  - apply okb_section; [apply above_nil|]. apply okb_times. simpl. repeat (eexists || split); auto using above_nil.
  - apply okb_app with []; [apply okb_section; [apply above_nil|reflexivity]|]. cbn [okb low waits]. repeat split; auto using above_nil.
  - apply okb_section; [apply above_nil|]. apply okb_times. simpl. repeat (eexists || split); auto using above_nil.
  - cbn [okb low waits]. split; [repeat split; auto using above_nil|]. apply okb_times. cbn [okb low waits]. repeat split; auto using above_nil.
  - apply okb_section; [apply above_nil|]. apply (okb_map PreDec). intros k' X. simpl in G. cbn [okb]. split; auto.
    destruct G as [[-> G]|[-> G]]; specialize (G k' X); [destruct G as [-> | ->]|rewrite G]; cbn [low waits]; repeat split; auto; try discriminate; apply above_cons; simpl; auto using above_nil; lia.
  - apply (okb_map RefDec). intros k' X. cbn [okb]. repeat split; auto using above_nil.
Qed.
Lemma does_ok b l : does b l -> forall h h', okb h b h' -> ok h l h'.
Proof.
  induction 1 as [|o r l D IH|f b r l1 l2 B D1 IH1 D2 IH2]; intros h h' O; simpl in *; auto.
  - destruct o as [x|x|[v|y|]]; [destruct O; split; auto|destruct O as (t & -> & O); eauto|destruct O; split; auto|destruct O; split; auto|destruct O; split; auto].
  - destruct O as [(A & W & G) O]. apply ok_app with h; auto. apply IH1. apply (body_ok f); auto. destruct f; auto.
Qed.
Lemma program_ok fs l : Forall good fs -> does (map Call fs) l -> ok [] l [].
Proof.
  intros G D. apply (does_ok _ _ D). clear D l. induction G as [|f fs G _ IH]; simpl; auto. split; auto. split; [apply above_nil|]. split; auto. destruct f; simpl in *; auto; contradiction.
Qed.

(** the locks of the threads *)
Definition inv (n : nat) (s : st) : Prop := exists h : nat -> list lock,
  (forall i, n <= i -> todo s i = []) /\ (forall i, ok (h i) (todo s i) []) /\ (forall i, NoDup (h i)) /\ forall l i, own s l = Some i <-> In l (h i).
Lemma lupd_eq f l x : lupd f l x l = x.
Proof. unfold lupd. now destruct (lock_eq l l). Qed.
Lemma lupd_ne f l x y : y <> l -> lupd f l x y = f y.
Proof. unfold lupd. now destruct (lock_eq y l). Qed.
Lemma starts_inv n s : starts n s -> inv n s.
Proof.
  intros (A & B & C). exists (fun _ => []). split; auto. split; [|split; [constructor|intros l i; rewrite A; simpl; split; [discriminate|tauto]]].
  intros i. destruct (C i) as (fs & G & D). eapply program_ok; eauto.
Qed.
Lemma inv_step n s i s' : inv n s -> step s i = Some s' -> inv n s'.
Proof.
  intros (h & A & B & C & D) E. unfold step in E. pose proof (B i) as Bi. destruct (todo s i) as [|o r] eqn:T; [discriminate|].
  assert (Li : i < n) by (destruct (Nat.lt_ge_cases i n) as [|H]; auto; rewrite (A i H) in T; discriminate).
  assert (A' : forall j, n <= j -> fupd (todo s) i r j = []) by (intros j H; rewrite fupd_ne by lia; auto).
  destruct o as [l|l|w].
  - destruct (own s l) eqn:O; [discriminate|]. injection E as <-. simpl in Bi. destruct Bi as [Ab Bi].
    assert (N : forall j, ~ In l (h j)) by (intros j X; apply D in X; congruence).
    exists (fupd h i (l :: h i)). cbn [todo own]. split; auto. split; [|split].
    + intros j. unfold fupd. destruct (Nat.eqb_spec j i) as [Ej|]; auto.
    + intros j. unfold fupd. destruct (Nat.eqb_spec j i) as [Ej|]; auto. constructor; auto.
    + intros y j. destruct (lock_eq y l) as [->|Ny].
      * rewrite lupd_eq. unfold fupd. destruct (Nat.eqb_spec j i) as [->|Nj]; [simpl; split; auto|]. split; [congruence|]. intros X. now apply N in X.
      * rewrite lupd_ne by auto. rewrite D. unfold fupd. destruct (Nat.eqb_spec j i) as [->|Nj]; [|tauto]. simpl. split; auto. intros [X|X]; [congruence|auto].
  - injection E as <-. simpl in Bi. destruct Bi as (t & Hi & Bi). pose proof (C i) as Ci. rewrite Hi in Ci. inversion Ci as [|? ? N1 N2 E0]; subst.
    exists (fupd h i t). cbn [todo own]. split; auto. split; [|split].
    + intros j. unfold fupd. destruct (Nat.eqb_spec j i) as [Ej|]; auto.
    + intros j. unfold fupd. destruct (Nat.eqb_spec j i) as [Ej|]; auto.
    + intros y j. destruct (lock_eq y l) as [->|Ny].
      * rewrite lupd_eq. split; [discriminate|]. intros X. exfalso. unfold fupd in X. destruct (Nat.eqb_spec j i) as [Ej|Nj]; [auto|].
        apply D in X. assert (Y : own s l = Some i) by (apply D; rewrite Hi; simpl; auto). congruence.
      * rewrite lupd_ne by auto. rewrite D. unfold fupd. destruct (Nat.eqb_spec j i) as [->|Nj]; [|tauto]. rewrite Hi. simpl. split; auto. intros [X|X]; [congruence|auto].
  - injection E as <-. exists h. cbn [todo own]. split; auto. split; auto. intros j. unfold fupd. destruct (Nat.eqb_spec j i) as [->|]; auto. simpl in Bi. destruct w; tauto.
Qed.
Lemma inv_run n l : forall s s', inv n s -> run s l = Some s' -> inv n s'.
Proof. induction l as [|i l IH]; intros s s' I R; simpl in R; [now injection R as <-|]. destruct (step s i) as [s1|] eqn:E; try discriminate. apply (IH s1); auto. apply (inv_step n s i); auto. Qed.
Lemma reach_inv n s : reach n s -> inv n s.
Proof. intros (s0 & l & S & R). eapply inv_run; eauto. now apply starts_inv. Qed.
(** whoever is held up by a lock is held up by somebody who can go on *)
Lemma follow n s : inv n s -> forall k l, 6 - rank l <= k -> forall i, own s l = Some i -> exists j s', step s j = Some s'.
Proof.
  intros (h & A & B & C & D). induction k as [|k IH]; intros l K i O.
  all: pose proof (proj1 (D l i) O) as X; pose proof (B i) as Bi; destruct (todo s i) as [|o r] eqn:T; [simpl in Bi; rewrite Bi in X; contradiction|].
  all: destruct o as [y|y|w]; [|exists i; unfold step; rewrite T; eauto|exists i; unfold step; rewrite T; eauto].
  all: simpl in Bi; destruct Bi as [Ab _]; specialize (Ab l X); pose proof (rank_le y).
  - lia.
  - destruct (own s y) as [j|] eqn:Oy; [apply (IH y ltac:(lia) j Oy)|exists i; unfold step; rewrite T, Oy; eauto].
Qed.

(** ** Theorems *)
(** As long as a thread has not returned from all its calls, some thread can go on: no schedule of any calls by any threads ends in a deadlock. *)
Theorem C74_somebody_goes_on n s i : reach n s -> todo s i <> [] -> exists j s', step s j = Some s'.
Proof.
  intros R T. pose proof (reach_inv n s R) as I. destruct (todo s i) as [|o r] eqn:E; [congruence|]. destruct o as [l|l|w]; [|exists i; unfold step; rewrite E; eauto|exists i; unfold step; rewrite E; eauto].
  destruct (own s l) as [j|] eqn:O; [eapply (follow n s I _ l (le_n _) j O)|exists i; unfold step; rewrite E, O; eauto].
Qed.
(** From every state that any schedule leads to, there is a way on in which all calls of all threads return; then no lock is owned. *)
Fixpoint total (n : nat) (s : st) : nat := match n with 0 => 0 | S m => length (todo s m) + total m s end.
Lemma total_step s i s' : step s i = Some s' -> length (todo s i) = S (length (todo s' i)) /\ forall j, j <> i -> todo s' j = todo s j.
Proof.
  unfold step. destruct (todo s i) as [|o r]; [discriminate|]. intros E.
  assert (X : todo s' = fupd (todo s) i r) by (destruct o; [destruct (own s l); [discriminate|]| |]; injection E as <-; reflexivity).
  rewrite X, fupd_eq. split; [reflexivity|]. intros j N. now apply fupd_ne.
Qed.
Lemma total_lt n s i s' : step s i = Some s' -> i < n -> total n s' < total n s.
Proof.
  intros E. destruct (total_step s i s' E) as [A B].
  assert (G : forall m, (m <= i -> total m s' = total m s) /\ (i < m -> total m s' < total m s)).
  { induction m as [|m [IH1 IH2]]; [split; intros; simpl; lia|]. simpl. split; intros H.
    - rewrite IH1, B by lia. lia.
    - destruct (Nat.eq_dec m i) as [->|N]; [rewrite IH1 by lia; lia|]. rewrite B by auto. assert (total m s' < total m s) by (apply IH2; lia). lia. }
  apply G.
Qed.
Theorem C74_all_calls_return n s : reach n s -> exists l s', run s l = Some s' /\ (forall i, todo s' i = []) /\ forall x, own s' x = None.
Proof.
  remember (total n s) as m eqn:M. revert s M. induction m as [m IH] using lt_wf_ind. intros s M R.
  assert (F : (forall i, todo s i = []) \/ exists i, todo s i <> []).
  { destruct (reach_inv n s R) as (h & A & _). assert (G : forall k, (forall i, i < k -> todo s i = []) \/ exists i, todo s i <> []).
    { induction k as [|k [IHk|IHk]]; [left; lia| |auto]. destruct (todo s k) eqn:E; [left|right; exists k; congruence]. intros i H. destruct (Nat.eq_dec i k) as [->|]; auto. apply IHk. lia. }
    destruct (G n) as [H|H]; auto. left. intros i. destruct (Nat.lt_ge_cases i n); auto. }
  destruct F as [F|[i F]].
  - exists [], s. split; auto. split; auto. intros x. destruct (own s x) as [i|] eqn:O; auto. destruct (reach_inv n s R) as (h & _ & B & _ & D). specialize (B i). rewrite F in B. simpl in B.
    apply D in O. rewrite B in O. contradiction.
  - destruct (C74_somebody_goes_on n s i R F) as (j & s1 & E). assert (R1 : reach n s1) by (destruct R as (s0 & l0 & S0 & R0); exists s0, (l0 ++ [j]); split; auto;
      clear - R0 E; revert s0 R0; induction l0 as [|k l0 IHl]; intros s0 R0; simpl in *; [injection R0 as <-; now rewrite E|destruct (step s0 k); [auto|discriminate]]).
    assert (Lj : j < n). { destruct (reach_inv n s R) as (h & A & _). destruct (Nat.lt_ge_cases j n); auto. unfold step in E. rewrite A in E by auto. discriminate. }
    destruct (IH (total n s1) ltac:(subst m; eapply total_lt; eauto) s1 eq_refl R1) as (l & s' & R' & F'). exists (j :: l), s'. split; auto. simpl. now rewrite E.
Qed.
(** A thread that owns a lock is inside a call, and a thread that sleeps or waits for a task owns none; one that waits for room in a queue owns the lock of that virtual accelerator and no other. *)
Theorem C74_released n s i l : reach n s -> own s l = Some i ->
  todo s i <> [] /\ match todo s i with Await (Room v) :: _ => l = LVac v | Await _ :: _ => False | _ => True end.
Proof.
  intros R O. destruct (reach_inv n s R) as (h & A & B & C & D). apply D in O. specialize (B i). destruct (todo s i) as [|o r]; simpl in B; [rewrite B in O; contradiction|].
  split; [discriminate|]. destruct o as [y|y|[v|y|]]; auto; destruct B as [B _]; rewrite B in O; simpl in O; intuition.
Qed.
(** Only its owner releases a lock. *)
Theorem C74_owner_releases n s i l r : reach n s -> todo s i = Unlock l :: r -> own s l = Some i.
Proof. intros R T. destruct (reach_inv n s R) as (h & A & B & C & D). specialize (B i). rewrite T in B. simpl in B. destruct B as (t & E & _). apply D. rewrite E. simpl. auto. Qed.

(** Refuted: arax_accel_list asked for virtual accelerators, with the list of physical ones of an earlier call to be released, one of them no longer referenced otherwise: the destructor of the physical
    accelerator releases its own virtual accelerator, for which it waits for the registry that the same thread has locked. *)
Definition selfdead : list op := [Lock (LRepo Virt); Lock (LAcc 0); Unlock (LAcc 0); Lock (LRepo Virt); Unlock (LRepo Virt); Lock LHeap; Unlock LHeap; Lock LHeap; Unlock LHeap; Unlock (LRepo Virt)].
Theorem C74_list_other_kind_refuted : does [Call (AccelList Virt [Phys])] selfdead /\
  exists s, run (mks (fun _ => None) (fun i => if i =? 0 then selfdead else [])) [0; 0; 0] = Some s /\ todo s 0 <> [] /\ forall j, step s j = None.
Proof.
  split.
  - change selfdead with (selfdead ++ []). eapply d_call; [apply b_accel_list| |constructor]. unfold section, selfdead. cbn [map app]. apply d_op.
    change [Lock (LAcc 0); Unlock (LAcc 0); Lock (LRepo Virt); Unlock (LRepo Virt); Lock LHeap; Unlock LHeap; Lock LHeap; Unlock LHeap; Unlock (LRepo Virt)] with
      ([Lock (LAcc 0); Unlock (LAcc 0); Lock (LRepo Virt); Unlock (LRepo Virt); Lock LHeap; Unlock LHeap; Lock LHeap; Unlock LHeap] ++ [Unlock (LRepo Virt)]).
    eapply d_call; [apply b_predec_last| |apply d_op; constructor]. unfold finish.
    change [Lock (LAcc 0); Unlock (LAcc 0); Lock (LRepo Virt); Unlock (LRepo Virt); Lock LHeap; Unlock LHeap; Lock LHeap; Unlock LHeap] with
      ([Lock (LAcc 0); Unlock (LAcc 0); Lock (LRepo Virt); Unlock (LRepo Virt)] ++ [Lock LHeap; Unlock LHeap] ++ [Lock LHeap; Unlock LHeap] ++ [] ++ []).
    eapply d_call; [apply (b_phys 0)| |eapply d_call; [apply (b_heap 0)| |eapply d_call; [apply (b_heap 0)| |eapply d_call; [apply b_inc0|constructor|constructor]]]]; unfold section; simpl; repeat apply d_op; try constructor.
    change [Lock (LRepo Virt); Unlock (LRepo Virt)] with ([Lock (LRepo Virt); Unlock (LRepo Virt)] ++ []). eapply d_call; [apply b_refdec| |constructor]. unfold section. simpl. repeat apply d_op. constructor.
  - eexists. split; [vm_compute; reflexivity|]. split; [vm_compute; discriminate|]. intros j. unfold step. cbn [todo own]. unfold fupd. destruct j; reflexivity.
Qed.
(** Two threads that need the same locks: one lists the physical accelerators and releases the last reference to one, with its virtual accelerator; the other issues a task there. *)
Definition c74_list : list op := [Lock (LRepo Phys); Lock (LAcc 0); Unlock (LAcc 0); Lock (LRepo Virt); Unlock (LRepo Virt); Lock LHeap; Unlock LHeap; Lock LHeap; Unlock LHeap; Unlock (LRepo Phys)].
Definition c74_submit : list op := [Lock (LVac 0); Await (Room 0); Lock (LQueue 0); Unlock (LQueue 0); Lock (LAcc 0); Unlock (LAcc 0); Unlock (LVac 0)].
Theorem C74_case : starts 2 (mks (fun _ => None) (fun i => match i with 0 => c74_list | 1 => c74_submit | _ => [] end)) /\
  exists s, run (mks (fun _ => None) (fun i => match i with 0 => c74_list | 1 => c74_submit | _ => [] end)) [1; 1; 0; 1; 1; 0] = Some s /\ own s (LAcc 0) = Some 0 /\ own s (LVac 0) = Some 1 /\ step s 1 = None.
Proof.
  split.
  - split; [reflexivity|]. split; [intros [|[|i]] H; auto; lia|]. intros [|[|i]].
    + exists [AccelList Phys [Phys]]. split; [constructor; [left; split; [reflexivity|intros x [<-|[]]; auto]|constructor]|]. cbn [map].
      change c74_list with (c74_list ++ []). eapply d_call; [apply b_accel_list| |constructor]. unfold section, c74_list. cbn [map app]. apply d_op.
      change [Lock (LAcc 0); Unlock (LAcc 0); Lock (LRepo Virt); Unlock (LRepo Virt); Lock LHeap; Unlock LHeap; Lock LHeap; Unlock LHeap; Unlock (LRepo Phys)] with
        ([Lock (LAcc 0); Unlock (LAcc 0); Lock (LRepo Virt); Unlock (LRepo Virt); Lock LHeap; Unlock LHeap; Lock LHeap; Unlock LHeap] ++ [Unlock (LRepo Phys)]).
      eapply d_call; [apply b_predec_last| |apply d_op; constructor]. unfold finish.
      change [Lock (LAcc 0); Unlock (LAcc 0); Lock (LRepo Virt); Unlock (LRepo Virt); Lock LHeap; Unlock LHeap; Lock LHeap; Unlock LHeap] with
        ([Lock (LAcc 0); Unlock (LAcc 0); Lock (LRepo Virt); Unlock (LRepo Virt)] ++ [Lock LHeap; Unlock LHeap] ++ [Lock LHeap; Unlock LHeap] ++ [] ++ []).
      eapply d_call; [apply (b_phys 0)| |eapply d_call; [apply (b_heap 0)| |eapply d_call; [apply (b_heap 0)| |eapply d_call; [apply b_inc0|constructor|constructor]]]]; unfold section; simpl; repeat apply d_op; try constructor.
      change [Lock (LRepo Virt); Unlock (LRepo Virt)] with ([Lock (LRepo Virt); Unlock (LRepo Virt)] ++ []). eapply d_call; [apply b_refdec| |constructor]. unfold section. simpl. repeat apply d_op. constructor.
    + exists [AddTask 0]. split; [repeat constructor|]. change c74_submit with (c74_submit ++ []). eapply d_call; [apply (b_add_task_phys 0 0)| |constructor]. unfold section. simpl. repeat apply d_op. constructor.
    + exists []. split; [constructor|constructor].
  - eexists. split; [vm_compute; reflexivity|]. vm_compute. auto.
Qed.
