(** Releasing a virtual accelerator while the controller runs (C76): clients create, use and drop virtual
    accelerators, the balancer hands new ones to devices, and the workers of the devices walk over the virtual
    accelerators they found assigned, with all interleavings of any number of threads.
    Models src/core/arax_vaccel.c:3-39 and 113-123 (creation, submission, destructor), src/core/arax_accel.c:26-44
    and 108-178, src/core/arax_pipe.c:63-107 (the list of unassigned virtual accelerators),
    src/core/arax_task.c:64-75 and 88-103 (a task holds a reference to its virtual accelerator),
    src/arch/shm/impl.c:354-382, controller/src/Core/accelThread.cpp:363-437 and 477-490, the scan of
    RoundRobinScheduler.cpp:28-57 in any order, VacBalancerThread.cpp:12-24. *)
From Verif Require Import Base Sums.
Arguments Nat.eqb : simpl never.
Arguments Nat.sub : simpl never.

(** Where the list node of a virtual accelerator is (arax_vaccel.h:32-35): linked among the unassigned ones; taken
    from there by thread [i] and not yet assigned ([i] is ghost); assigned to device [a] (phys = a, linked in its
    list); nowhere, after the destructor unlinked it. *)
Inductive place := Orphan | Held (i : nat) | At (a : nat) | Gone.
(** Its memory: in use; being destroyed by thread [i] (ghost); freed (arax_object.c:161-209). *)
Inductive life := Live | Dying (i : nat) | Dead.

(** A virtual accelerator (arax_vaccel.h:24-41): its reference count, its spinlock ([Some i]: held, the holder is
    ghost), the number of tasks in its queue.  Ghosts: [own], the references clients hold and are not using in a
    call; [fin], tasks that were executed and not yet freed. *)
Record vac := mkv { rc : nat; lk : option nat; vq : nat; pl : place; lf : life; own : nat; fin : nat }.

(** Threads between two accesses to shared memory. *)
Inductive pc :=
| Out
(* arax_task_submit and arax_vaccel_add_task, arax_task.c:64-75, arax_vaccel.c:32-39 *)
| S1 (v : nat)                    (* 34: taking the lock *)
| S2 (v : nat)                    (* 35: pushing *)
| S3 (v : nat) (p : option nat)   (* 36-37: counting; [p] (ghost): phys when the task was pushed *)
| S4 (v : nat)                    (* 38: unlocking *)
(* VacBalancerThread.cpp:15-21, arax_accel_add_vaccel, arax_accel.c:108-141 *)
| B1 (v : nat)                    (* the scheduler was handed v *)
| B2 (v a : nat)                  (* 120 *)
| B3 (v a : nat)                  (* 122-137 *)
| B4 (v : nat)                    (* 140 *)
(* the destructor, arax_vaccel.c:113-123, arax_accel_del_vaccel, arax_accel.c:156-178, arax_object.c:195-203 *)
| D1 (v : nat)                    (* arax_vaccel.c:119 *)
| D2 (v a : nat)                  (* 161-163 *)
| D3 (v a : nat)                  (* 164-175 *)
| D5 (v : nat)                    (* 177 *)
| D6 (v : nat)                    (* the memory is freed *)
(* the worker of device a, accelThread.cpp:363-437 *)
| WG (a : nat)                    (* was granted a task, 480 *)
| WS (a : nat) (r : list nat)     (* selectTask: still to look at the queues of r *)
| WX (v : nat).                   (* executes a task of v *)

(** arax_accel.h:14-27: [tok] the pending counter of a device. *)
Record st := mkst { va : list vac; tok : nat -> nat; th : list pc }.
(** Nothing created yet, [n] threads (arax_pipe.c:33-56, arax_accel.c:5-24). *)
Definition init (n : nat) : st := mkst [] (fun _ => 0) (repeat Out n).

(** What a thread may do next: arax_accel_acquire_type, arax_accel_acquire_phys (also the free_vaq of a device),
    arax_task_issue, arax_accel_release, taking another reference, arax_task_free, arax_pipe_get_orphan_vaccel,
    the scheduler's choice of a device, arax_accel_wait_for_task, the next queue of the scan, going on in a call. *)
Inductive act := New | NewAt (a : nat) | Submit (v : nat) | Drop (v : nat) | Dup (v : nat) | FreeTask (v : nat) | Take (v : nat)
               | AssignTo (a : nat) | Wait (a : nat) | Pick (v : nat) | Go.

(** the device a virtual accelerator is assigned to, arax_vaccel.h:37 *)
Definition phys (x : vac) : option nat := match pl x with At a => Some a | _ => None end.
(** Stores to a virtual accelerator, to the position of a thread, to the counter of a device (arax_accel.h:14-27, arax_vaccel.h:24-41). *)
Definition sv (s : st) (v : nat) (x : vac) : st := mkst (upd (va s) v x) (tok s) (th s).
Definition sp (s : st) (i : nat) (p : pc) : st := mkst (va s) (tok s) (upd (th s) i p).
Definition stok (s : st) (a n : nat) : st := mkst (va s) (fupd (tok s) a n) (th s).
(** An access to the memory of [v]: undefined once it was freed. *)
Definition acc (s : st) (v : nat) (f : vac -> outcome st) : outcome st :=
  match nth_error (va s) v with
  | None => Ok s
  | Some x => match lf x with Dead => UB | _ => f x end
  end.
(** arax_object_ref_dec, arax_object.c:161-209: the last one starts the destructor in the calling thread; [x] has
    the other fields already changed. *)
Definition decr (s : st) (i v : nat) (x : vac) : outcome st :=
  match rc x with
  | 0 => Abort                                                               (* arax_object.c:174 *)
  | 1 => Ok (sp (sv s v (mkv 0 (lk x) (vq x) (pl x) (Dying i) (own x) (fin x))) i (D1 v))
  | S n => Ok (sv s v (mkv n (lk x) (vq x) (pl x) (lf x) (own x) (fin x)))
  end.
(** utils_spinlock_lock (src/utils/spinlock.h:32-40): spins while held *)
Definition lock (s : st) (i v : nat) (x : vac) (p : pc) : outcome st :=
  match lk x with
  | Some _ => Ok s
  | None => Ok (sp (sv s v (mkv (rc x) (Some i) (vq x) (pl x) (lf x) (own x) (fin x))) i p)
  end.
(** utils_spinlock_unlock, src/utils/spinlock.h:47-54 *)
Definition unlock (s : st) (i v : nat) (x : vac) (p : pc) : outcome st :=
  Ok (sp (sv s v (mkv (rc x) None (vq x) (pl x) (lf x) (own x) (fin x))) i p).
(** arax_accel_get_assigned_vaccels, arax_accel.c:143-154 *)
Definition assigned (s : st) (a : nat) : list nat :=
  filter (fun v => match nth_error (va s) v with Some x => match pl x with At b => Nat.eqb b a | _ => false end | None => false end) (seq 0 (length (va s))).
(** the rest of the scan, RoundRobinScheduler.cpp:41-51 *)
Fixpoint drop1 (v : nat) (l : list nat) : list nat := match l with [] => [] | x :: r => if Nat.eqb x v then r else x :: drop1 v r end.

(** One step of thread [i].  A client only uses references it has ([own]).  Simplifications: what happens under
    both locks (counter, list, phys) is one step, so the condition of the device needs no lock of its own; the last
    reference is found and dropped at once (C49); queues are as long as needed (C44). *)
Definition step (s : st) (i : nat) (a : act) : outcome st :=
  match nth_error (th s) i with
  | None => Ok s
  | Some p =>
    match a, p with
    | New, Out => Ok (mkst (va s ++ [mkv 1 None 0 Orphan Live 1 0]) (tok s) (th s))
    | NewAt d, Out => Ok (mkst (va s ++ [mkv 1 None 0 (At d) Live 1 0]) (tok s) (th s))
    | Submit v, Out =>
        match nth_error (va s) v with
        | Some x => match own x with
                    | 0 => Ok s
                    | S o => acc s v (fun x => Ok (sp (sv s v (mkv (S (rc x)) (lk x) (vq x) (pl x) (lf x) o (fin x))) i (S1 v)))  (* arax_task.c:70 *)
                    end
        | None => Ok s
        end
    | Dup v, Out =>
        match nth_error (va s) v with
        | Some x => match own x with
                    | 0 => Ok s
                    | S o => acc s v (fun x => Ok (sv s v (mkv (S (rc x)) (lk x) (vq x) (pl x) (lf x) (S (own x)) (fin x))))
                    end
        | None => Ok s
        end
    | Drop v, Out =>
        match nth_error (va s) v with
        | Some x => match own x with
                    | 0 => Ok s
                    | S o => acc s v (fun x => decr s i v (mkv (rc x) (lk x) (vq x) (pl x) (lf x) o (fin x)))
                    end
        | None => Ok s
        end
    | FreeTask v, Out =>
        match nth_error (va s) v with
        | Some x => match fin x with
                    | 0 => Ok s
                    | S f => acc s v (fun x => decr s i v (mkv (rc x) (lk x) (vq x) (pl x) (lf x) (own x) f))      (* arax_task.c:99-100 *)
                    end
        | None => Ok s
        end
    | Take v, Out =>                                                         (* arax_pipe.c:78-98 *)
        match nth_error (va s) v with
        | Some x => match pl x with
                    | Orphan => acc s v (fun x => Ok (sp (sv s v (mkv (rc x) (lk x) (vq x) (Held i) (lf x) (own x) (fin x))) i (B1 v)))
                    | _ => Ok s
                    end
        | None => Ok s
        end
    | AssignTo d, B1 v =>                                                    (* arax_accel.c:113-118 *)
        acc s v (fun x => match pl x with
                          | At b => if Nat.eqb b d then Ok (sp s i Out) else Abort
                          | Orphan => Ok (sp (sv s v (mkv (rc x) (lk x) (vq x) (Held i) (lf x) (own x) (fin x))) i (B2 v d))
                          | _ => Ok (sp s i (B2 v d))
                          end)
    | Wait d, Out => match tok s d with 0 => Ok s | S n => Ok (sp (stok s d n) i (WG d)) end    (* arax_accel.c:26-36 *)
    | Pick v, WS d r =>                                                      (* RoundRobinScheduler.cpp:41-51 *)
        if existsb (Nat.eqb v) r then
          acc s v (fun x => match vq x with
                            | 0 => Ok (sp s i (WS d (drop1 v r)))
                            | S q => Ok (sp (sv s v (mkv (rc x) (lk x) q (pl x) (lf x) (own x) (fin x))) i (WX v))
                            end)
        else Ok s
    | Go, S1 v => acc s v (fun x => lock s i v x (S2 v))
    | Go, S2 v => acc s v (fun x => Ok (sp (sv s v (mkv (rc x) (lk x) (S (vq x)) (pl x) (lf x) (own x) (fin x))) i (S3 v (phys x))))
    | Go, S3 v _ => acc s v (fun x => match phys x with
                                      | Some d => Ok (sp (stok s d (S (tok s d))) i (S4 v))
                                      | None => Ok (sp s i (S4 v))
                                      end)
    | Go, S4 v => acc s v (fun x => unlock s i v (mkv (rc x) (lk x) (vq x) (pl x) (lf x) (S (own x)) (fin x)) Out)
    | Go, B2 v d => acc s v (fun x => lock s i v x (B3 v d))
    | Go, B3 v d =>                                                          (* 122-137 *)
        acc s v (fun x => if match pl x with At b => Nat.eqb b d | _ => false end then Ok (sp s i (B4 v))
                          else Ok (sp (stok (sv s v (mkv (rc x) (lk x) (vq x) (At d) (lf x) (own x) (fin x))) d (tok s d + vq x)) i (B4 v)))
    | Go, B4 v => acc s v (fun x => unlock s i v x Out)
    | Go, D1 v =>                                                            (* arax_vaccel.c:119-122, arax_pipe.c:104-105 *)
        acc s v (fun x => match pl x with
                          | At d => Ok (sp s i (D2 v d))
                          | Orphan => Ok (sp (sv s v (mkv (rc x) (lk x) (vq x) Gone (lf x) (own x) (fin x))) i (D6 v))
                          | _ => Ok (sp s i (D6 v))
                          end)
    | Go, D2 v d => acc s v (fun x => lock s i v x (D3 v d))
    | Go, D3 v d =>                                                          (* 166-173 *)
        acc s v (fun x => Ok (sp (stok (sv s v (mkv (rc x) (lk x) (vq x) Gone (lf x) (own x) (fin x))) d
                                       (match vq x with 0 => tok s d | S q => tok s d - q end)) i (D5 v)))
    | Go, D5 v => acc s v (fun x => unlock s i v x (D6 v))
    | Go, D6 v => acc s v (fun x => Ok (sp (sv s v (mkv (rc x) (lk x) (vq x) (pl x) Dead (own x) (fin x))) i Out))
    | Go, WG d => Ok (sp s i (WS d (assigned s d)))
    | Go, WS d [] => Ok (sp s i Out)
    | Go, WX v => acc s v (fun x => Ok (sp (sv s v (mkv (rc x) (lk x) (vq x) (pl x) (lf x) (own x) (S (fin x)))) i Out))
    | _, _ => Ok s
    end
  end.

(** an execution: which thread does what *)
Fixpoint run (s : st) (l : list (nat * act)) : outcome st :=
  match l with [] => Ok s | (i, a) :: r => do s' <- step s i a; run s' r end.

(** * Specification *)
(** The last reference to a virtual accelerator is dropped only after it was assigned, and when it is taken off its
    device no task waits on that device: neither its own (there are none) nor those of other virtual accelerators,
    the one for releasing buffers included. *)
Definition quiet (s : st) (d : nat) : Prop := forall w x, nth_error (va s) w = Some x -> pl x = At d -> vq x = 0.
Definition last_drop (s : st) (v : nat) : Prop := forall x, nth_error (va s) v = Some x -> rc x = 1 -> exists d, pl x = At d.
Definition careful (s : st) (i : nat) (a : act) : Prop :=
  match a with
  | Drop v | FreeTask v => nth_error (th s) i = Some Out -> last_drop s v
  | Go => forall v d, nth_error (th s) i = Some (D3 v d) -> quiet s d
  | _ => True
  end.
Fixpoint careful_run (s : st) (l : list (nat * act)) : Prop :=
  match l with
  | [] => True
  | (i, a) :: r => careful s i a /\ forall s', step s i a = Ok s' -> careful_run s' r
  end.

(** * The invariant *)
Definition holds (v : nat) (p : pc) : nat :=
  match p with
  | S1 w | S2 w => if Nat.eqb w v then 2 else 0
  | S3 w _ | S4 w | WX w => if Nat.eqb w v then 1 else 0
  | _ => 0
  end.
Definition scan (d : nat) (p : pc) : nat := match p with WG b | WS b _ => if Nat.eqb b d then 1 else 0 | _ => 0 end.
Definition unc (d : nat) (p : pc) : nat := match p with S3 _ (Some b) => if Nat.eqb b d then 1 else 0 | _ => 0 end.
Definition queued (d : nat) (x : vac) : nat := match pl x with At b => if Nat.eqb b d then vq x else 0 | _ => 0 end.

Definition vsat (V : list vac) (v : nat) (P : vac -> Prop) : Prop := exists x, nth_error V v = Some x /\ P x.
Definition okpc (V : list vac) (i : nat) (p : pc) : Prop :=
  match p with
  | Out | WG _ => True
  | S1 v | WX v => vsat V v (fun _ => True)
  | S2 v | S4 v => vsat V v (fun x => lk x = Some i)
  | S3 v q => vsat V v (fun x => lk x = Some i /\ phys x = q)
  | B1 v | B2 v _ => vsat V v (fun x => pl x = Held i)
  | B3 v _ => vsat V v (fun x => pl x = Held i /\ lk x = Some i)
  | B4 v => vsat V v (fun x => (exists a, pl x = At a) /\ lk x = Some i)
  | D1 v => vsat V v (fun x => lf x = Dying i /\ exists a, pl x = At a)
  | D2 v a => vsat V v (fun x => lf x = Dying i /\ pl x = At a)
  | D3 v a => vsat V v (fun x => lf x = Dying i /\ pl x = At a /\ lk x = Some i)
  | D5 v => vsat V v (fun x => lf x = Dying i /\ pl x = Gone /\ lk x = Some i)
  | D6 v => vsat V v (fun x => lf x = Dying i /\ pl x = Gone)
  | WS a r => forall v, In v r -> vsat V v (fun x => pl x = At a)
  end.
Definition okv (x : vac) : Prop :=
  match lf x with
  | Live => 0 < rc x
  | Dying _ => rc x = 0 /\ ((exists a, pl x = At a) \/ pl x = Gone)
  | Dead => rc x = 0 /\ pl x = Gone
  end.
Definition dpc (v : nat) (p : pc) : Prop :=
  match p with D1 w | D2 w _ | D3 w _ | D5 w | D6 w => w = v | _ => False end.
Record Inv (s : st) : Prop := {
  irc : forall v x, nth_error (va s) v = Some x -> rc x = own x + vq x + fin x + sumf (holds v) (th s);
  itok : forall d, tok s d + sumf (scan d) (th s) + sumf (unc d) (th s) <= sumf (queued d) (va s);
  iok : forall i p, nth_error (th s) i = Some p -> okpc (va s) i p;
  iv : forall v x, nth_error (va s) v = Some x -> okv x;
  ihold : forall v p i, nth_error (th s) i = Some p -> 0 < holds v p -> v < length (va s);
  idy : forall v x j, nth_error (va s) v = Some x -> lf x = Dying j -> exists p, nth_error (th s) j = Some p /\ dpc v p
}.

(** what a step of thread [i] may change in a virtual accelerator without disturbing the others *)
Definition chg (i : nat) (x x' : vac) : Prop :=
  (forall j, j <> i -> lk x = Some j -> lk x' = Some j /\ phys x' = phys x) /\
  (forall j, j <> i -> pl x = Held j -> pl x' = Held j) /\
  (forall a, pl x = At a -> pl x' = At a) /\
  (pl x = Gone -> pl x' = Gone) /\
  (forall j, j <> i -> lf x = Dying j -> lf x' = Dying j).

Lemma vsat_upd (V : list vac) v x x' w (P : vac -> Prop) : nth_error V v = Some x -> (P x -> P x') -> vsat V w P -> vsat (upd V v x') w P.
Proof.
  intros E H (y & Ey & Py). destruct (Nat.eq_dec w v) as [->|N].
  - rewrite E in Ey. injection Ey as <-. exists x'. split; [apply nth_error_upd_eq; eapply nth_error_lt; eauto|auto].
  - exists y. split; [rewrite nth_error_upd_ne; auto|auto].
Qed.

Lemma chg_ok (V : list vac) v x x' i j q : nth_error V v = Some x -> chg i x x' -> j <> i -> okpc V j q -> okpc (upd V v x') j q.
Proof.
  intros E (C1 & C2 & C3 & C4 & C5) N. destruct q; simpl; auto; intros H;
    try (eapply vsat_upd; eauto; simpl; fail);
    try (eapply vsat_upd; [exact E| |exact H]; simpl; auto).
  - intros L. apply (C1 j N L).
  - intros [L P]. destruct (C1 j N L). split; congruence.
  - intros L. apply (C1 j N L).
  - intros [P L]. split; auto. apply (C1 j N L).
  - intros [(a & P) L]. split; [exists a; auto|apply (C1 j N L)].
  - intros [L (a & P)]. split; eauto.
  - intros [L P]. split; eauto.
  - intros (L & P & K). repeat split; eauto. apply (C1 j N K).
  - intros (L & P & K). repeat split; eauto. apply (C1 j N K).
  - intros (L & P). split; eauto.
  - intros w I. eapply vsat_upd; [exact E| |exact (H w I)]. simpl. auto.
Qed.

Lemma pres (s : st) i p p' v x x' T' : Inv s -> nth_error (th s) i = Some p -> nth_error (va s) v = Some x ->
  (forall j q, j <> i -> nth_error (th s) j = Some q -> okpc (va s) j q -> okpc (upd (va s) v x') j q) ->
  okv x' -> okpc (upd (va s) v x') i p' ->
  rc x' + own x + vq x + fin x + holds v p = rc x + own x' + vq x' + fin x' + holds v p' ->
  (forall w, w <> v -> holds w p' = holds w p) ->
  (forall d, T' d + scan d p' + unc d p' + queued d x <= tok s d + scan d p + unc d p + queued d x') ->
  (forall w, w <> v -> dpc w p -> dpc w p') ->
  (forall j, lf x' = Dying j -> (j = i /\ dpc v p') \/ (lf x = Dying j /\ (dpc v p -> dpc v p'))) ->
  Inv (mkst (upd (va s) v x') T' (upd (th s) i p')).
Proof.
  intros I Ti Vx O V' P' R HH TT DW DV. pose proof (nth_error_lt _ _ _ Vx) as Lv. pose proof (nth_error_lt _ _ _ Ti) as Li. constructor; simpl.
  - intros w y Ey. pose proof (sumf_upd (holds w) (th s) i p' p Ti) as U. apply nth_upd_cases in Ey. destruct Ey as [(-> & -> & _)|[N Ey]].
    + pose proof (irc s I v x Vx). lia.
    + pose proof (irc s I w y Ey). pose proof (HH w N). lia.
  - intros d. pose proof (sumf_upd (scan d) (th s) i p' p Ti). pose proof (sumf_upd (unc d) (th s) i p' p Ti).
    pose proof (sumf_upd (queued d) (va s) v x' x Vx). pose proof (itok s I d). pose proof (TT d). lia.
  - intros j q Ej. apply nth_upd_cases in Ej. destruct Ej as [(-> & -> & _)|[N Ej]]; auto. apply O; auto. apply (iok s I j q Ej).
  - intros w y Ey. apply nth_upd_cases in Ey. destruct Ey as [(-> & -> & _)|[N Ey]]; auto. exact (iv s I w y Ey).
  - intros w q j Ej Hq. rewrite upd_length. apply nth_upd_cases in Ej. destruct Ej as [(-> & -> & _)|[N Ej]].
    + destruct (Nat.eq_dec w v) as [->|Nw]; auto. rewrite (HH w Nw) in Hq. exact (ihold s I w p i Ti Hq).
    + exact (ihold s I w q j Ej Hq).
  - intros w y j Ey L. apply nth_upd_cases in Ey. destruct Ey as [(-> & -> & _)|[N Ey]].
    + destruct (DV j L) as [[-> D]|[L0 D]]; [exists p'; split; auto; apply nth_error_upd_eq; auto|].
      destruct (idy s I v x j Vx L0) as (q & Eq & Dq). destruct (Nat.eq_dec j i) as [->|Nj].
      * exists p'. split; [apply nth_error_upd_eq; auto|]. apply D. congruence.
      * exists q. rewrite nth_error_upd_ne; auto.
    + destruct (idy s I w y j Ey L) as (q & Eq & Dq). destruct (Nat.eq_dec j i) as [->|Nj].
      * exists p'. split; [apply nth_error_upd_eq; auto|]. apply DW; auto. congruence.
      * exists q. rewrite nth_error_upd_ne; auto.
Qed.

Lemma pres0 (s : st) i p p' T' : Inv s -> nth_error (th s) i = Some p -> okpc (va s) i p' -> (forall w, holds w p' = holds w p) ->
  (forall d, T' d + scan d p' + unc d p' <= tok s d + scan d p + unc d p) ->
  (forall w, dpc w p -> dpc w p') -> Inv (mkst (va s) T' (upd (th s) i p')).
Proof.
  intros I Ti P' HH TT DW. constructor; simpl.
  - intros w y Ey. pose proof (sumf_upd (holds w) (th s) i p' p Ti) as U. pose proof (irc s I w y Ey). pose proof (HH w). lia.
  - intros d. pose proof (sumf_upd (scan d) (th s) i p' p Ti). pose proof (sumf_upd (unc d) (th s) i p' p Ti). pose proof (itok s I d). pose proof (TT d). lia.
  - intros j q Ej. apply nth_upd_cases in Ej. destruct Ej as [(-> & -> & _)|[N Ej]]; auto. apply (iok s I j q Ej).
  - apply (iv s I).
  - intros w q j Ej Hq. apply nth_upd_cases in Ej. destruct Ej as [(-> & -> & _)|[N Ej]]; [rewrite HH in Hq; exact (ihold s I w p i Ti Hq)|exact (ihold s I w q j Ej Hq)].
  - intros w y j Ey L. destruct (idy s I w y j Ey L) as (q & Eq & Dq). destruct (Nat.eq_dec j i) as [->|Nj].
    + exists p'. split; [apply nth_error_upd_eq; eapply nth_error_lt; eauto|]. apply DW. congruence.
    + exists q. rewrite nth_error_upd_ne; auto.
Qed.

Lemma vsat_at (V : list vac) v x P : nth_error V v = Some x -> vsat V v P -> P x.
Proof. intros E (y & Ey & H). congruence. Qed.
Lemma vsat_new (V : list vac) v x' (P : vac -> Prop) : v < length V -> P x' -> vsat (upd V v x') v P.
Proof. intros L H. exists x'. split; auto. apply nth_error_upd_eq; auto. Qed.

(** a thread inside a submission or executing a task keeps the virtual accelerator alive *)
Lemma held_live (s : st) i p v x : Inv s -> nth_error (th s) i = Some p -> 0 < holds v p -> nth_error (va s) v = Some x -> lf x = Live.
Proof.
  intros I Ti H Vx. pose proof (irc s I v x Vx). pose proof (sumf_in (holds v) (th s) i p Ti). pose proof (iv s I v x Vx) as O. unfold okv in O.
  destruct (lf x); auto; destruct O; lia.
Qed.

Lemma upd_same {A} (l : list A) i x : nth_error l i = Some x -> upd l i x = l.
Proof. revert i. induction l as [|y l IH]; intros [|i] E; simpl in *; try discriminate; f_equal; auto. congruence. Qed.

Lemma assigned_in (s : st) d v : In v (assigned s d) -> vsat (va s) v (fun x => pl x = At d).
Proof.
  unfold assigned. rewrite filter_In. intros [_ H]. destruct (nth_error (va s) v) as [x|] eqn:E; [|discriminate].
  destruct (pl x) eqn:P; try discriminate. apply Nat.eqb_eq in H. subst. exists x; auto.
Qed.
Lemma drop1_in v w l : In w (drop1 v l) -> In w l.
Proof. induction l as [|y l IH]; simpl; auto. destruct (Nat.eqb y v); simpl; intuition. Qed.

Lemma quiet_sum (s : st) d : quiet s d -> sumf (queued d) (va s) = 0.
Proof.
  intros Q. apply sumf_zero. intros w x E. unfold queued. destruct (pl x) eqn:P; auto. destruct (Nat.eqb_spec a d); auto. subst. eapply Q; eauto.
Qed.

Lemma Inv_init n : Inv (init n).
Proof.
  assert (R : forall i p, nth_error (repeat Out n) i = Some p -> p = Out) by (intros i p E; apply nth_error_In in E; apply repeat_spec in E; auto).
  constructor; simpl.
  - intros v x E. destruct v; discriminate.
  - intros d. rewrite !sumf_repeat by reflexivity. auto.
  - intros i p E. rewrite (R _ _ E). exact I.
  - intros v x E. destruct v; discriminate.
  - intros v p i E H. rewrite (R _ _ E) in H. simpl in H. lia.
  - intros v x j E. destruct v; discriminate.
Qed.

Ltac chg_tac := unfold chg, phys; simpl; split; [|split; [|split; [|split]]]; intros;
  try split; repeat match goal with H : pl ?a = _ |- context [pl ?a] => rewrite H end; auto; try congruence.
Ltac others x i := let j := fresh in let q := fresh in let N := fresh in let Ej := fresh in
  intros j q N Ej; eapply (chg_ok _ _ x _ i); [assumption| |exact N]; chg_tac.

Lemma acc_ok (s : st) v x f : nth_error (va s) v = Some x -> lf x <> Dead -> acc s v f = f x.
Proof. intros E N. unfold acc. rewrite E. destruct (lf x); auto. congruence. Qed.

Lemma Inv_push (s : st) x : Inv s -> rc x = 1 -> own x = 1 -> vq x = 0 -> fin x = 0 -> lf x = Live ->
  Inv (mkst (va s ++ [x]) (tok s) (th s)).
Proof.
  intros I R O Q F L.
  assert (Z : forall v, length (va s) <= v -> sumf (holds v) (th s) = 0).
  { intros v H. apply sumf_zero. intros j q E. destruct (holds v q) eqn:Hq; auto. pose proof (ihold s I v q j E ltac:(lia)). lia. }
  assert (SS : forall (f : vac -> nat) l y, sumf f (l ++ [y]) = sumf f l + f y) by (intros f l y; induction l; simpl; lia).
  assert (M : forall v P, vsat (va s) v P -> vsat (va s ++ [x]) v P).
  { intros v P (y & E & H). exists y. split; auto. rewrite nth_error_app1; auto. eapply nth_error_lt; eauto. }
  constructor; simpl.
  - intros v y E. destruct (Nat.lt_ge_cases v (length (va s))) as [H|H].
    + rewrite nth_error_app1 in E by auto. apply (irc s I v y E).
    + rewrite nth_error_app2 in E by auto. destruct (v - length (va s)) as [|k]; simpl in E; [|destruct k; discriminate]. injection E as <-. rewrite Z by auto. lia.
  - intros d. rewrite SS. pose proof (itok s I d). lia.
  - intros i p E. pose proof (iok s I i p E) as H. destruct p; simpl in *; auto.
  - intros v y E. destruct (Nat.lt_ge_cases v (length (va s))) as [H|H].
    + rewrite nth_error_app1 in E by auto. apply (iv s I v y E).
    + rewrite nth_error_app2 in E by auto. destruct (v - length (va s)) as [|k]; simpl in E; [|destruct k; discriminate]. injection E as <-. unfold okv. rewrite L. lia.
  - intros v p i E H. rewrite app_length. pose proof (ihold s I v p i E H). lia.
  - intros v y j E D. destruct (Nat.lt_ge_cases v (length (va s))) as [H|H].
    + rewrite nth_error_app1 in E by auto. apply (idy s I v y j E D).
    + rewrite nth_error_app2 in E by auto. destruct (v - length (va s)) as [|k]; simpl in E; [|destruct k; discriminate]. injection E as <-. congruence.
Qed.

Ltac dyt := try (match goal with
  | |- forall w, w <> _ -> dpc _ _ -> dpc _ _ => let w := fresh in let N := fresh in let D := fresh in intros w N D; simpl in *; first [contradiction|congruence]
  | |- forall w, dpc _ _ -> dpc _ _ => let w := fresh in let D := fresh in intros w D; simpl in *; first [contradiction|congruence]
  | |- forall j, lf _ = Dying _ -> _ => let j := fresh in let D := fresh in intros j D; simpl in *;
      first [congruence|left; split; congruence|right; split; [congruence|tauto]]
  end).
Ltac alive := match goal with I : Inv ?s, V : nth_error (va ?s) ?v = Some ?x, LL : lf ?x = Live |- _ =>
  pose proof (iv s I v x V) as QL; unfold okv in QL; rewrite LL in QL; simpl; lia end.

(** the two ways to drop a reference *)
Lemma decr_ok (s : st) i v x x' : Inv s -> nth_error (th s) i = Some Out -> nth_error (va s) v = Some x ->
  rc x' = rc x -> lk x' = lk x -> vq x' = vq x -> pl x' = pl x -> lf x' = lf x -> own x' + fin x' + 1 = own x + fin x ->
  last_drop s v -> exists s', acc s v (fun _ => decr s i v x') = Ok s' /\ Inv s'.
Proof.
  intros I Ti Vx R K Q P L O LD. pose proof (irc s I v x Vx) as RC. pose proof (iv s I v x Vx) as OV. pose proof (nth_error_lt _ _ _ Vx) as Lv.
  assert (LL : lf x = Live) by (unfold okv in OV; destruct (lf x); auto; destruct OV; lia).
  unfold acc. rewrite Vx, LL. unfold decr. rewrite R. destruct (rc x) as [|[|n]] eqn:E; [lia| |]; eexists; (split; [reflexivity|]).
  - destruct (LD x Vx E) as [d Pd]. unfold sp, sv; simpl. eapply pres; eauto; dyt; simpl; try (rewrite ?E, ?R, ?Q; lia); auto.
    + others x i.
    + unfold okv; simpl. split; auto. left. exists d. congruence.
    + apply vsat_new; auto. simpl. split; auto. exists d. congruence.
    + intros d'. unfold queued; simpl. rewrite P, Q. lia.
  - unfold sv. rewrite <- (upd_same (th s) i Out Ti) at 1. eapply pres; eauto; dyt; simpl; try (rewrite ?E, ?R, ?Q; lia); auto.
    + others x i.
    + unfold okv; simpl. rewrite L, LL. lia.
    + intros d'. unfold queued; simpl. rewrite P, Q. lia.
Qed.

Lemma step_ok (s : st) i a : Inv s -> careful s i a -> exists s', step s i a = Ok s' /\ Inv s'.
Proof.
  intros I CF. unfold step. destruct (nth_error (th s) i) as [p|] eqn:Ti; [|eauto].
  pose proof (iok s I i p Ti) as OK.
  destruct a as [|d|v|v|v|v|v|d|d|v|]; destruct p as [|v1|v1|v1 q1|v1|v1|v1 a1|v1 a1|v1|v1|v1 a1|v1 a1|v1|v1|a1|a1 r1|v1]; simpl in OK; eauto.
  - (* New *) eexists; split; [reflexivity|]. apply Inv_push; auto.
  - (* NewAt *) eexists; split; [reflexivity|]. apply Inv_push; auto.
  - (* Submit *) destruct (nth_error (va s) v) as [x|] eqn:Vx; [|eauto]. destruct (own x) as [|o] eqn:O; [eauto|].
    pose proof (irc s I v x Vx) as RC. pose proof (iv s I v x Vx) as OV. pose proof (nth_error_lt _ _ _ Vx) as Lv.
    assert (LL : lf x = Live) by (unfold okv in OV; destruct (lf x); auto; destruct OV; lia).
    rewrite (acc_ok s v x) by (auto; congruence). eexists; split; [reflexivity|]. unfold sp, sv; simpl.
    eapply pres; eauto; dyt; simpl; try lia; auto.
    + others x i.
    + unfold okv; simpl. rewrite LL. alive.
    + apply vsat_new; auto.
    + rewrite Nat.eqb_refl. lia.
    + intros w N. destruct (Nat.eqb_spec v w); congruence.
  - (* Drop *) destruct (nth_error (va s) v) as [x|] eqn:Vx; [|eauto]. destruct (own x) as [|o] eqn:O; [eauto|].
    unfold careful in CF. pose proof (CF Ti) as LD.
    destruct (decr_ok s i v x (mkv (rc x) (lk x) (vq x) (pl x) (lf x) o (fin x)) I Ti Vx) as (s' & E & I'); simpl; auto; [lia|].
    exists s'. split; auto. unfold acc in *. rewrite Vx in *. exact E.
  - (* Dup *) destruct (nth_error (va s) v) as [x|] eqn:Vx; [|eauto]. destruct (own x) as [|o] eqn:O; [eauto|].
    pose proof (irc s I v x Vx) as RC. pose proof (iv s I v x Vx) as OV. pose proof (nth_error_lt _ _ _ Vx) as Lv.
    assert (LL : lf x = Live) by (unfold okv in OV; destruct (lf x); auto; destruct OV; lia).
    rewrite (acc_ok s v x) by (auto; congruence). eexists; split; [reflexivity|]. unfold sv; simpl. rewrite <- (upd_same (th s) i Out Ti) at 1.
    eapply pres; eauto; dyt; simpl; try lia; auto; [others x i|].
    unfold okv; simpl. rewrite LL. alive.
  - (* FreeTask *) destruct (nth_error (va s) v) as [x|] eqn:Vx; [|eauto]. destruct (fin x) as [|o] eqn:O; [eauto|].
    unfold careful in CF. pose proof (CF Ti) as LD.
    destruct (decr_ok s i v x (mkv (rc x) (lk x) (vq x) (pl x) (lf x) (own x) o) I Ti Vx) as (s' & E & I'); simpl; auto; [lia|].
    exists s'. split; auto. unfold acc in *. rewrite Vx in *. exact E.
  - (* Take *) destruct (nth_error (va s) v) as [x|] eqn:Vx; [|eauto]. destruct (pl x) eqn:P; eauto.
    pose proof (iv s I v x Vx) as OV. pose proof (nth_error_lt _ _ _ Vx) as Lv.
    assert (LL : lf x = Live) by (unfold okv in OV; destruct (lf x); auto; [destruct OV as (_ & [[? ?]|?])|destruct OV]; congruence).
    rewrite (acc_ok s v x) by (auto; congruence). eexists; split; [reflexivity|]. unfold sp, sv; simpl.
    eapply pres; eauto; dyt; simpl; try lia; auto.
    + others x i.
    + unfold okv; simpl. rewrite LL. alive.
    + apply vsat_new; auto.
    + intros d. unfold queued; simpl. rewrite P. lia.
  - (* AssignTo *) destruct OK as (x & Vx & P). pose proof (iv s I v1 x Vx) as OV. pose proof (nth_error_lt _ _ _ Vx) as Lv.
    assert (LL : lf x = Live) by (unfold okv in OV; destruct (lf x); auto; [destruct OV as (_ & [[? ?]|?])|destruct OV]; congruence).
    rewrite (acc_ok s v1 x) by (auto; congruence). rewrite P. eexists; split; [reflexivity|]. unfold sp. eapply pres0; eauto; dyt; simpl; auto.
    exists x; auto.
  - (* Wait *) destruct (tok s d) as [|n] eqn:T; [eauto|]. eexists; split; [reflexivity|]. unfold sp, stok; simpl. eapply pres0; eauto; dyt; simpl; auto.
    intros d'. unfold fupd. destruct (Nat.eqb_spec d' d) as [->|N]; [rewrite Nat.eqb_refl; lia|]. destruct (Nat.eqb_spec d d'); [congruence|lia].
  - (* Pick *) destruct (existsb (Nat.eqb v) r1) eqn:EX; [|eauto]. apply existsb_exists in EX. destruct EX as (w & Iw & Ew). apply Nat.eqb_eq in Ew. subst w.
    destruct (OK v Iw) as (x & Vx & P). pose proof (iv s I v x Vx) as OV. pose proof (nth_error_lt _ _ _ Vx) as Lv.
    assert (ND : lf x <> Dead) by (intros L; unfold okv in OV; rewrite L in OV; destruct OV; congruence).
    rewrite (acc_ok s v x) by auto. destruct (vq x) as [|q] eqn:Q; eexists; (split; [reflexivity|]).
    + unfold sp. eapply pres0; eauto; dyt; simpl; auto. intros w Hw. apply OK. eapply drop1_in; eauto.
    + unfold sp, sv; simpl. eapply pres; eauto; dyt; simpl; try lia.
      * others x i.
      * apply vsat_new; auto.
      * rewrite Nat.eqb_refl. lia.
      * intros w N. destruct (Nat.eqb_spec v w); congruence.
      * intros d. unfold queued; simpl. rewrite P, Q. destruct (Nat.eqb a1 d); lia.
  - (* S1 *) destruct OK as (x & Vx & _). pose proof (nth_error_lt _ _ _ Vx) as Lv.
    assert (LL : lf x = Live) by (eapply (held_live s i (S1 v1)); eauto; simpl; rewrite Nat.eqb_refl; lia).
    rewrite (acc_ok s v1 x) by (auto; congruence). unfold lock. destruct (lk x) eqn:K; [eauto|]. eexists; split; [reflexivity|]. unfold sp, sv; simpl.
    eapply pres; eauto; dyt; simpl; try lia; auto.
    + others x i.
    + unfold okv; simpl. rewrite LL. alive.
    + apply vsat_new; auto.
  - (* S2 *) destruct OK as (x & Vx & K). pose proof (nth_error_lt _ _ _ Vx) as Lv.
    assert (LL : lf x = Live) by (eapply (held_live s i (S2 v1)); eauto; simpl; rewrite Nat.eqb_refl; lia).
    rewrite (acc_ok s v1 x) by (auto; congruence). eexists; split; [reflexivity|]. unfold sp, sv; simpl.
    eapply pres; eauto; dyt; simpl; try lia; auto.
    + others x i.
    + unfold okv; simpl. rewrite LL. alive.
    + apply vsat_new; auto.
    + rewrite Nat.eqb_refl. lia.
    + intros w N. destruct (Nat.eqb_spec v1 w); congruence.
    + intros d. unfold queued, phys; simpl. destruct (pl x); try lia. destruct (Nat.eqb a d); lia.
  - (* S3 *) destruct OK as (x & Vx & K & P). pose proof (nth_error_lt _ _ _ Vx) as Lv.
    assert (LL : lf x = Live) by (eapply (held_live s i (S3 v1 q1)); eauto; simpl; rewrite Nat.eqb_refl; lia).
    rewrite (acc_ok s v1 x) by (auto; congruence). subst q1. destruct (phys x) as [d|] eqn:P; eexists; (split; [reflexivity|]); unfold sp, stok; simpl; eapply pres0; eauto; dyt; simpl; auto.
    + exists x; auto.
    + intros d'. unfold fupd. destruct (Nat.eqb_spec d' d) as [->|N]; [rewrite Nat.eqb_refl; lia|]. destruct (Nat.eqb_spec d d'); [congruence|lia].
    + exists x; auto.
  - (* S4 *) destruct OK as (x & Vx & K). pose proof (nth_error_lt _ _ _ Vx) as Lv.
    assert (LL : lf x = Live) by (eapply (held_live s i (S4 v1)); eauto; simpl; rewrite Nat.eqb_refl; lia).
    rewrite (acc_ok s v1 x) by (auto; congruence). eexists; split; [reflexivity|]. unfold sp, sv; simpl.
    eapply pres; eauto; dyt; simpl; try lia; auto.
    + others x i.
    + unfold okv; simpl. rewrite LL. alive.
    + rewrite Nat.eqb_refl. lia.
    + intros w N. destruct (Nat.eqb_spec v1 w); congruence.
  - (* B2 *) destruct OK as (x & Vx & P). pose proof (iv s I v1 x Vx) as OV. pose proof (nth_error_lt _ _ _ Vx) as Lv.
    assert (LL : lf x = Live) by (unfold okv in OV; destruct (lf x); auto; [destruct OV as (_ & [[? ?]|?])|destruct OV]; congruence).
    rewrite (acc_ok s v1 x) by (auto; congruence). unfold lock. destruct (lk x) eqn:K; [eauto|]. eexists; split; [reflexivity|]. unfold sp, sv; simpl.
    eapply pres; eauto; dyt; simpl; try lia; auto.
    + others x i.
    + apply vsat_new; auto.
  - (* B3 *) destruct OK as (x & Vx & P & K). pose proof (iv s I v1 x Vx) as OV. pose proof (nth_error_lt _ _ _ Vx) as Lv.
    assert (LL : lf x = Live) by (unfold okv in OV; destruct (lf x); auto; [destruct OV as (_ & [[? ?]|?])|destruct OV]; congruence).
    rewrite (acc_ok s v1 x) by (auto; congruence). rewrite P. eexists; split; [reflexivity|]. unfold sp, sv, stok; simpl.
    eapply pres; eauto; dyt; simpl; try lia; auto.
    + others x i.
    + unfold okv; simpl. rewrite LL. alive.
    + apply vsat_new; auto. simpl. split; eauto.
    + intros d. unfold queued, fupd; simpl. rewrite P. destruct (Nat.eqb_spec d a1) as [->|N]; [rewrite Nat.eqb_refl; lia|]. destruct (Nat.eqb_spec a1 d); [congruence|lia].
  - (* B4 *) destruct OK as (x & Vx & (a & P) & K). pose proof (iv s I v1 x Vx) as OV. pose proof (nth_error_lt _ _ _ Vx) as Lv.
    assert (ND : lf x <> Dead) by (intros L; unfold okv in OV; rewrite L in OV; destruct OV; congruence).
    rewrite (acc_ok s v1 x) by auto. eexists; split; [reflexivity|]. unfold sp, sv; simpl.
    eapply pres; eauto; dyt; simpl; try lia; auto. others x i.
  - (* D1 *) destruct OK as (x & Vx & L & (a & P)). rewrite (acc_ok s v1 x) by (auto; congruence). rewrite P. eexists; split; [reflexivity|].
    unfold sp. eapply pres0; eauto; dyt; simpl; auto. exists x; auto.
  - (* D2 *) destruct OK as (x & Vx & L & P). pose proof (iv s I v1 x Vx) as OV. pose proof (nth_error_lt _ _ _ Vx) as Lv.
    rewrite (acc_ok s v1 x) by (auto; congruence). unfold lock. destruct (lk x) eqn:K; [eauto|]. eexists; split; [reflexivity|]. unfold sp, sv; simpl.
    eapply pres; eauto; dyt; simpl; try lia; auto.
    + others x i.
    + apply vsat_new; auto.
  - (* D3 *) destruct OK as (x & Vx & L & P & K). pose proof (iv s I v1 x Vx) as OV. pose proof (nth_error_lt _ _ _ Vx) as Lv.
    pose proof (CF v1 a1 Ti) as Q. pose proof (Q v1 x Vx P) as Q0. pose proof (quiet_sum s a1 Q) as QS.
    rewrite (acc_ok s v1 x) by (auto; congruence). rewrite Q0. eexists; split; [reflexivity|]. unfold sp, sv, stok; simpl.
    eapply pres; eauto; dyt; simpl; try lia; auto.
    + intros j q N Ej OKj. destruct q; simpl in *; auto;
        try (eapply vsat_upd; [exact Vx| |exact OKj]; simpl; auto; fail);
        try (eapply vsat_upd; [exact Vx| |exact OKj]; simpl; intros; exfalso; repeat match goal with H : _ /\ _ |- _ => destruct H end; congruence).
      * intros w Iw. pose proof (OKj w Iw) as (y & Ey & Py).
        assert (0 < scan a (WS a r)) by (simpl; rewrite Nat.eqb_refl; lia). destruct (Nat.eq_dec a a1) as [->|Na].
        -- exfalso. pose proof (sumf_in (scan a1) (th s) j _ Ej). pose proof (itok s I a1). lia.
        -- exists y. split; auto. rewrite nth_error_upd_ne; auto. intros ->. congruence.
    + unfold okv in *; simpl. rewrite L in *. intuition.
    + apply vsat_new; auto.
    + intros d. unfold queued, fupd; simpl. rewrite P, Q0. destruct (Nat.eqb_spec d a1) as [->|N]; destruct (Nat.eqb a1 _); lia.
  - (* D5 *) destruct OK as (x & Vx & L & P & K). pose proof (iv s I v1 x Vx) as OV. pose proof (nth_error_lt _ _ _ Vx) as Lv.
    rewrite (acc_ok s v1 x) by (auto; congruence). eexists; split; [reflexivity|]. unfold sp, sv; simpl.
    eapply pres; eauto; dyt; simpl; try lia; auto.
    + others x i.
    + apply vsat_new; auto.
  - (* D6 *) destruct OK as (x & Vx & L & P). pose proof (iv s I v1 x Vx) as OV. pose proof (nth_error_lt _ _ _ Vx) as Lv.
    rewrite (acc_ok s v1 x) by (auto; congruence). eexists; split; [reflexivity|]. unfold sp, sv; simpl.
    eapply pres; eauto; dyt; simpl; try lia; auto.
    + others x i.
    + unfold okv in *; simpl. rewrite L in OV. intuition.
  - (* WG *) eexists; split; [reflexivity|]. unfold sp. eapply pres0; eauto; dyt; simpl; auto. intros v Hv. apply assigned_in; auto.
  - (* WS *) destruct r1; [|eauto]. eexists; split; [reflexivity|]. unfold sp. eapply pres0; eauto; dyt; simpl; auto. intros d. lia.
  - (* WX *) destruct OK as (x & Vx & _). pose proof (nth_error_lt _ _ _ Vx) as Lv.
    assert (LL : lf x = Live) by (eapply (held_live s i (WX v1)); eauto; simpl; rewrite Nat.eqb_refl; lia).
    rewrite (acc_ok s v1 x) by (auto; congruence). eexists; split; [reflexivity|]. unfold sp, sv; simpl.
    eapply pres; eauto; dyt; simpl; try lia; auto.
    + others x i.
    + unfold okv; simpl. rewrite LL. alive.
    + rewrite Nat.eqb_refl. lia.
    + intros w N. destruct (Nat.eqb_spec v1 w); congruence.
Qed.

(** * C76 *)
Lemma run_inv s l : Inv s -> careful_run s l -> exists s', run s l = Ok s' /\ Inv s'.
Proof.
  revert s. induction l as [|[i a] l IH]; intros s I C; simpl in *; [eauto|]. destruct C as [C1 C2].
  destruct (step_ok s i a I C1) as (s' & E & I'). rewrite E. simpl. apply IH; auto.
Qed.

(** Any number of clients, workers and balancers, any interleaving in which releases are careful: no thread ever
    touches a virtual accelerator after its memory was freed, and nothing aborts. *)
Theorem C76_safe n l : careful_run (init n) l -> exists s, run (init n) l = Ok s.
Proof. intros C. destruct (run_inv _ _ (Inv_init n) C) as (s & E & _). eauto. Qed.

(** At every moment: one that was freed is on no device and not among the unassigned ones, so no worker and no
    balancer can find it any more; nobody holds a reference to it and none of its tasks is unfinished. *)
Theorem C76_gone n l s v x : careful_run (init n) l -> run (init n) l = Ok s -> nth_error (va s) v = Some x -> lf x = Dead ->
  (forall d, ~ In v (assigned s d)) /\ pl x <> Orphan /\ own x = 0 /\ vq x = 0 /\ fin x = 0.
Proof.
  intros C E Vx L. destruct (run_inv _ _ (Inv_init n) C) as (s' & E' & I). rewrite E in E'. injection E' as <-.
  pose proof (iv s I v x Vx) as O. unfold okv in O. rewrite L in O. destruct O as [O1 O2]. pose proof (irc s I v x Vx).
  split; [|split; [congruence|lia]]. intros d H'. apply assigned_in in H'. pose proof (vsat_at _ _ _ _ Vx H') as P. simpl in P. congruence.
Qed.

(** While somebody holds a reference or a task of it is unfinished it is there. *)
Theorem C76_lives n l s v x : careful_run (init n) l -> run (init n) l = Ok s -> nth_error (va s) v = Some x ->
  0 < own x + vq x + fin x -> lf x = Live.
Proof.
  intros C E Vx H. destruct (run_inv _ _ (Inv_init n) C) as (s' & E' & I). rewrite E in E'. injection E' as <-.
  pose proof (iv s I v x Vx) as O. unfold okv in O. pose proof (irc s I v x Vx). destruct (lf x); auto; destruct O; lia.
Qed.

(** And it does not stay longer: when all calls have returned, what nobody refers to is freed. *)
Theorem C76_freed n l s v x : careful_run (init n) l -> run (init n) l = Ok s -> (forall i p, nth_error (th s) i = Some p -> p = Out) ->
  nth_error (va s) v = Some x -> own x + vq x + fin x = 0 -> lf x = Dead.
Proof.
  intros C E Q Vx H. destruct (run_inv _ _ (Inv_init n) C) as (s' & E' & I). rewrite E in E'. injection E' as <-.
  pose proof (iv s I v x Vx) as O. unfold okv in O. pose proof (irc s I v x Vx) as R.
  assert (Z : sumf (holds v) (th s) = 0) by (apply sumf_zero; intros i p Ep; rewrite (Q i p Ep); reflexivity).
  destruct (lf x) as [|j|] eqn:L; auto; [lia|]. destruct (idy s I v x j Vx L) as (p & Ep & D). rewrite (Q j p Ep) in D. destruct D.
Qed.

(** Thread 0: a client; 1: the worker of device 0; 2: the balancer.  Virtual accelerator 0 is the one of device 0
    for releasing buffers (arax_accel.c:22), 1 is the client's: assigned, one task issued, executed, freed. *)
Definition served : list (nat * act) :=
  [(2, NewAt 0); (0, New); (2, Take 1); (2, AssignTo 0); (2, Go); (2, Go); (2, Go);
   (0, Submit 1); (0, Go); (0, Go); (0, Go); (0, Go);
   (1, Wait 0); (1, Go); (1, Pick 0); (1, Pick 1); (1, Go); (0, FreeTask 1)].
(** arax_data_free of a buffer on the device queues a task for the device (destructor of the buffer, arax_data.c:385-390) and wakes the worker *)
Definition buffer_freed : list (nat * act) := [(0, Submit 0); (0, Go); (0, Go); (0, Go); (0, Go); (1, Wait 0); (1, Go)].
(** arax_accel_release, to its end *)
Definition released : list (nat * act) := [(0, Drop 1); (0, Go); (0, Go); (0, Go); (0, Go); (0, Go)].

(** One client that uses the library as documented (it waited for its task and freed it, then it freed its buffer
    and released its virtual accelerator) makes the worker read freed memory. *)
Theorem C76_free_then_release_refuted : exists s x, run (init 3) (served ++ buffer_freed) = Ok s /\
  nth_error (va s) 1 = Some x /\ lf x = Live /\ pl x = At 0 /\ rc x = 1 /\ own x = 1 /\ vq x = 0 /\ fin x = 0 /\
  run s (released ++ [(1, Pick 1)]) = UB.
Proof. eexists; eexists. vm_compute. repeat split; reflexivity. Qed.

(** A virtual accelerator released before the balancer assigned it. *)
Theorem C76_release_unassigned_refuted : run (init 3) [(0, New); (2, Take 0); (0, Drop 0); (0, Go); (0, Go); (2, AssignTo 0)] = UB.
Proof. reflexivity. Qed.

(** The same client is safe when the release comes after the worker took the task that frees the buffer; and so is
    one that never frees a buffer. *)
Definition case_run : list (nat * act) := served ++ buffer_freed ++ [(1, Pick 1); (1, Pick 0); (1, Go)] ++ released ++
  [(0, Submit 0); (0, Go); (0, Go); (0, Go); (0, Go); (1, Wait 0); (1, Go); (1, Pick 0); (1, Go)].
(** a decision procedure for [careful] *)
Definition quietb (s : st) (d : nat) : bool := forallb (fun x => match pl x with At b => negb (Nat.eqb b d) || Nat.eqb (vq x) 0 | _ => true end) (va s).
Definition carefulb (s : st) (i : nat) (a : act) : bool :=
  match a with
  | Drop v | FreeTask v => match nth_error (va s) v with Some x => negb (Nat.eqb (rc x) 1) || match pl x with At _ => true | _ => false end | None => true end
  | Go => match nth_error (th s) i with Some (D3 _ d) => quietb s d | _ => true end
  | _ => true
  end.
Fixpoint carefulb_run (s : st) (l : list (nat * act)) : bool :=
  match l with [] => true | (i, a) :: r => carefulb s i a && match step s i a with Ok s' => carefulb_run s' r | _ => true end end.
Lemma carefulb_ok s i a : carefulb s i a = true -> careful s i a.
Proof.
  destruct a; simpl; auto; intros H.
  - intros _ x E R. rewrite E, R, Nat.eqb_refl in H. simpl in H. destruct (pl x); try discriminate. eauto.
  - intros _ x E R. rewrite E, R, Nat.eqb_refl in H. simpl in H. destruct (pl x); try discriminate. eauto.
  - intros v d E. rewrite E in H. unfold quietb in H. rewrite forallb_forall in H. intros w x Ex P. specialize (H x (nth_error_In _ _ Ex)).
    rewrite P, Nat.eqb_refl in H. simpl in H. apply Nat.eqb_eq. auto.
Qed.
Lemma carefulb_run_ok s l : carefulb_run s l = true -> careful_run s l.
Proof.
  revert s. induction l as [|[i a] l IH]; intros s H; simpl in *; auto. apply andb_true_iff in H. destruct H as [H1 H2].
  split; [apply carefulb_ok; auto|]. intros s' E. rewrite E in H2. auto.
Qed.
Theorem C76_case : careful_run (init 3) case_run /\ exists s x, run (init 3) case_run = Ok s /\ nth_error (va s) 1 = Some x /\ lf x = Dead /\
  assigned s 0 = [0] /\ (forall i p, nth_error (th s) i = Some p -> p = Out).
Proof.
  split; [apply carefulb_run_ok; vm_compute; reflexivity|]. eexists; eexists. split; [vm_compute; reflexivity|]. repeat split.
  intros [|[|[|i]]] p; simpl; intros E; try (injection E as <-; reflexivity). destruct i; discriminate.
Qed.
