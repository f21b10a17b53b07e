(** Choosing the device of a virtual accelerator from several threads (C77): arax_accel_set_physical of clients,
    the balancer that takes unassigned virtual accelerators and assigns them, schedulers that take them off a device
    and put them back; all interleavings of any number of threads, at the level of list nodes and list lengths.
    Models src/core/arax_accel.c:108-141 (arax_accel_add_vaccel) and 156-178 (arax_accel_del_vaccel),
    src/core/arax_pipe.c:63-107, src/arch/shm/impl.c:209-217, src/utils/list.c:20-45 and 81-84,
    VacBalancerThread.cpp:12-24, HeterogeneousScheduler.cpp:150-158. *)
From Verif Require Import Base Sums.
Local Open Scope Z_scope.
Arguments Nat.eqb : simpl never.

(** The list node of a virtual accelerator (list.h:10-15): linked to itself, or in the list of the unassigned ones,
    or in the list of device [a]. *)
Inductive nd := Un | InO | InD (a : nat).
(** arax_vaccel.h:24-41: the device it is assigned to, the node, the spinlock. *)
Record vac := mkv { phys : option nat; node : nd; locked : bool }.

(** Threads between two accesses. *)
Inductive pc :=
| Out
| T1 (v : nat)      (* VacBalancerThread.cpp:21: has taken v *)
| A1 (v a : nat)    (* arax_accel.c:116 *)
| A2 (v a : nat)    (* 118 *)
| A3 (v a : nat)    (* 120 *)
| A4 (v a : nat)    (* 122-137 *)
| A5 (v a : nat)    (* 140 *)
| R1 (v a : nat)    (* 163 *)
| R2 (v a : nat)    (* 164-175 *)
| R3 (v : nat).     (* 177 *)

(** [ol], [dl]: the length fields of the lists (list.h:16-20; size_t, here integers: a negative one stands for a
    length that wrapped). *)
Record st := mkst { va : list vac; ol : Z; dl : nat -> Z; th : list pc }.
(** [k] virtual accelerators just created and unassigned, [n] threads (arax_vaccel.c:3-30, arax_pipe.c:63-71). *)
Definition init (k n : nat) : st := mkst (repeat (mkv None InO false) k) (Z.of_nat k) (fun _ => 0) (repeat Out n).

(** arax_accel_set_physical or the scheduler's assignVac; arax_pipe_get_orphan_vaccel; arax_accel_del_vaccel;
    arax_pipe_add_orphan_vaccel; going on in a call. *)
Inductive act := Assign (v a : nat) | Take (v : nat) | Remove (v a : nat) | Requeue (v : nat) | Go.

(** stores to arax_vaccel.h:24-41 *)
Definition sv (s : st) (v : nat) (x : vac) : st := mkst (upd (va s) v x) (ol s) (dl s) (th s).
(** the position of a thread; the lengths of the lists (list.c:20-34) *)
Definition sp (s : st) (i : nat) (p : pc) : st := mkst (va s) (ol s) (dl s) (upd (th s) i p).
Definition so (s : st) (d : Z) : st := mkst (va s) (ol s + d) (dl s) (th s).
Definition sd (s : st) (a : nat) (d : Z) : st := mkst (va s) (ol s) (fupd (dl s) a (dl s a + d)) (th s).
(** vaccel->phys == accel, arax_accel.c:113, 122, 161 *)
Definition is_phys (x : vac) (a : nat) : bool := match phys x with Some b => Nat.eqb b a | None => false end.

(** One step of thread [i].  What happens under the locks of 120-140 and 163-177 is one step. *)
Definition step (s : st) (i : nat) (c : act) : outcome st :=
  match nth_error (th s) i with
  | None => Ok s
  | Some p =>
    let on v f := match nth_error (va s) v with Some x => f x | None => Ok s end in
    match c, p with
    | Assign v a, Out => on v (fun x => if is_phys x a then Ok s else Ok (sp s i (A1 v a)))            (* 113 *)
    | Assign w a, T1 v => on v (fun x => if is_phys x a then Ok (sp s i Out) else Ok (sp s i (A1 v a)))
    | Take v, Out => on v (fun x => match node x with                                                   (* arax_pipe.c:78-98 *)
                                    | InO => Ok (sp (so (sv s v (mkv (phys x) Un (locked x))) (-1)) i (T1 v))
                                    | _ => Ok s
                                    end)
    | Remove v a, Out => on v (fun x => if is_phys x a then Ok (sp s i (R1 v a)) else Abort)            (* 161 *)
    | Requeue v, Out => on v (fun x => match node x with                                                (* arax_pipe.c:63-71 *)
                                       | Un => Ok (so (sv s v (mkv (phys x) InO (locked x))) 1)
                                       | _ => UB                                                        (* a linked node is linked again *)
                                       end)
    | Go, A1 v a => on v (fun x => match phys x with None => Ok (sp s i (A2 v a)) | Some _ => Abort end)    (* 116 *)
    | Go, A2 v a => on v (fun x => match node x with                                                    (* arax_pipe.c:100-107 *)
                                   | Un => Ok (sp s i (A3 v a))
                                   | _ => Ok (sp (so (sv s v (mkv (phys x) Un (locked x))) (-1)) i (A3 v a))
                                   end)
    | Go, A3 v a => on v (fun x => if locked x then Ok s else Ok (sp (sv s v (mkv (phys x) (node x) true)) i (A4 v a)))
    | Go, A4 v a => on v (fun x => if is_phys x a then Ok (sp s i (A5 v a))                             (* 122 *)
                                   else match node x with
                                        | Un => Ok (sp (sd (sv s v (mkv (Some a) (InD a) (locked x))) a 1) i (A5 v a))
                                        | _ => UB                                                       (* a linked node is linked again *)
                                        end)
    | Go, A5 v a => on v (fun x => Ok (sp (sv s v (mkv (phys x) (node x) false)) i Out))
    | Go, R1 v a => on v (fun x => if locked x then Ok s else Ok (sp (sv s v (mkv (phys x) (node x) true)) i (R2 v a)))
    | Go, R2 v a => on v (fun x => Ok (sp (sd (sv s v (mkv None Un (locked x))) a (-1)) i (R3 v)))       (* 172-173 *)
    | Go, R3 v => on v (fun x => Ok (sp (sv s v (mkv (phys x) (node x) false)) i Out))
    | _, _ => Ok s
    end
  end.
(** an execution *)
Fixpoint run (s : st) (l : list (nat * act)) : outcome st :=
  match l with [] => Ok s | (i, c) :: r => do s' <- step s i c; run s' r end.

(** * Specification *)
(** the virtual accelerator a thread is busy with *)
Definition about (p : pc) : option nat :=
  match p with Out => None | T1 v | A1 v _ | A2 v _ | A3 v _ | A4 v _ | A5 v _ | R1 v _ | R2 v _ | R3 v => Some v end.
Definition alone (s : st) (v : nat) : Prop := forall j p, nth_error (th s) j = Some p -> about p <> Some v.
(** No two threads are busy with the same virtual accelerator, one that is assigned is not assigned elsewhere, only
    an assigned one is removed, only a removed one is put back among the unassigned. *)
Definition careful (s : st) (i : nat) (c : act) : Prop :=
  nth_error (th s) i = Some Out -> forall x,
  match c with
  | Assign v a => nth_error (va s) v = Some x -> alone s v /\ (phys x = None \/ phys x = Some a)
  | Take v => nth_error (va s) v = Some x -> alone s v
  | Remove v a => nth_error (va s) v = Some x -> alone s v /\ phys x = Some a
  | Requeue v => nth_error (va s) v = Some x -> alone s v /\ phys x = None /\ node x = Un
  | Go => True
  end.
Fixpoint careful_run (s : st) (l : list (nat * act)) : Prop :=
  match l with
  | [] => True
  | (i, c) :: r => careful s i c /\ forall s', step s i c = Ok s' -> careful_run s' r
  end.
(** how many nodes are in a list *)
Definition in_o (x : vac) : nat := match node x with InO => 1%nat | _ => 0%nat end.
Definition in_d (a : nat) (x : vac) : nat := match node x with InD b => if Nat.eqb b a then 1%nat else 0%nat | _ => 0%nat end.
(** Every virtual accelerator is in the list of the device it is assigned to and in no other, and the lengths of the
    lists are the numbers of their nodes. *)
Definition consistent (s : st) : Prop :=
  (forall v x, nth_error (va s) v = Some x -> forall a, phys x = Some a <-> node x = InD a) /\
  ol s = Z.of_nat (sumf in_o (va s)) /\ forall a, dl s a = Z.of_nat (sumf (in_d a) (va s)).

(** * The invariant *)
Definition okpc (V : list vac) (p : pc) : Prop :=
  match p with
  | Out => True
  | T1 v => exists x, nth_error V v = Some x /\ phys x = None /\ node x = Un /\ locked x = false
  | A1 v a | A2 v a => exists x, nth_error V v = Some x /\ phys x = None /\ locked x = false
  | A3 v a => exists x, nth_error V v = Some x /\ phys x = None /\ node x = Un /\ locked x = false
  | A4 v a => exists x, nth_error V v = Some x /\ phys x = None /\ node x = Un
  | A5 v a => exists x, nth_error V v = Some x /\ phys x = Some a
  | R1 v a => exists x, nth_error V v = Some x /\ phys x = Some a /\ locked x = false
  | R2 v a => exists x, nth_error V v = Some x /\ phys x = Some a
  | R3 v => exists x, nth_error V v = Some x /\ phys x = None
  end.
Record Inv (s : st) : Prop := {
  ic : consistent s;
  iok : forall i p, nth_error (th s) i = Some p -> okpc (va s) p;
  iun : forall i j p q v, nth_error (th s) i = Some p -> nth_error (th s) j = Some q -> about p = Some v -> about q = Some v -> i = j;
  ifr : forall v x, nth_error (va s) v = Some x -> alone s v -> locked x = false
}.

Lemma okpc_other V v x p : about p <> Some v -> okpc V p -> okpc (upd V v x) p.
Proof. intros N. destruct p; simpl in *; auto; intros (y & E & H); exists y; (rewrite nth_error_upd_ne by congruence); auto. Qed.

(** a thread that works on [v] alone *)
Lemma pres (s : st) i p p' v x x' o' d' : Inv s -> nth_error (th s) i = Some p -> nth_error (va s) v = Some x ->
  (about p = Some v \/ (about p = None /\ alone s v)) -> (about p' = Some v \/ (about p' = None /\ locked x' = false)) ->
  okpc (upd (va s) v x') p' -> (forall a, phys x' = Some a <-> node x' = InD a) ->
  o' + Z.of_nat (in_o x) = ol s + Z.of_nat (in_o x') -> (forall a, d' a + Z.of_nat (in_d a x) = dl s a + Z.of_nat (in_d a x')) ->
  Inv (mkst (upd (va s) v x') o' d' (upd (th s) i p')).
Proof.
  intros I Ti Vx AB AB' OK C EO ED. pose proof (nth_error_lt _ _ _ Vx) as Lv. pose proof (nth_error_lt _ _ _ Ti) as Li.
  destruct (ic s I) as (C1 & C2 & C3).
  assert (OT : forall j q, j <> i -> nth_error (th s) j = Some q -> about q <> Some v).
  { intros j q N Ej A. destruct AB as [AB|[_ AB]]; [|exact (AB j q Ej A)]. apply N. exact (iun s I j i q p v Ej Ti A AB). }
  constructor; simpl.
  - split; [|split]; simpl.
    + intros w y Ey. apply nth_upd_cases in Ey. destruct Ey as [(-> & -> & _)|[N Ey]]; auto. apply (C1 w y Ey).
    + pose proof (sumf_upd in_o (va s) v x' x Vx). lia.
    + intros a. pose proof (sumf_upd (in_d a) (va s) v x' x Vx). pose proof (ED a). rewrite (C3 a) in *. lia.
  - intros j q Ej. apply nth_upd_cases in Ej. destruct Ej as [(-> & -> & _)|[N Ej]]; auto. apply okpc_other; [exact (OT j q N Ej)|apply (iok s I j q Ej)].
  - intros j1 j2 q1 q2 w E1 E2 A1 A2. apply nth_upd_cases in E1. apply nth_upd_cases in E2.
    destruct E1 as [(-> & -> & _)|[N1 E1]]; destruct E2 as [(-> & -> & _)|[N2 E2]]; auto.
    + exfalso. destruct AB' as [B|[B _]]; [|congruence]. apply (OT j2 q2 N2 E2). congruence.
    + exfalso. destruct AB' as [B|[B _]]; [|congruence]. apply (OT j1 q1 N1 E1). congruence.
    + eapply (iun s I); eauto.
  - intros w y Ey AL. apply nth_upd_cases in Ey. destruct Ey as [(-> & -> & _)|[N Ey]].
    + destruct AB' as [B|[_ B]]; auto. exfalso. apply (AL i p'); auto. apply nth_error_upd_eq; auto.
    + apply (ifr s I w y Ey). intros j q Ej A. destruct (Nat.eq_dec j i) as [->|Nj].
      * assert (q = p) by congruence. subst q. destruct AB as [B|[B _]]; congruence.
      * apply (AL j q); auto. simpl. rewrite nth_error_upd_ne; auto.
Qed.

Lemma upd_same {A} (l : list A) i x : nth_error l i = Some x -> upd l i x = l.
Proof. revert i. induction l as [|y l IH]; intros [|i] E; simpl in *; try discriminate; f_equal; auto. congruence. Qed.
Lemma pres0 (s : st) i p p' v x : Inv s -> nth_error (th s) i = Some p -> nth_error (va s) v = Some x ->
  (about p = Some v \/ (about p = None /\ alone s v)) -> (about p' = Some v \/ (about p' = None /\ locked x = false)) ->
  okpc (va s) p' -> Inv (sp s i p').
Proof.
  intros I Ti Vx AB AB' OK. unfold sp. rewrite <- (upd_same (va s) v x Vx) at 1. eapply pres; eauto.
  - rewrite (upd_same (va s) v x Vx). auto.
  - intros a. destruct (ic s I) as (C1 & _). apply (C1 v x Vx).
Qed.

Lemma Inv_init k n : Inv (init k n).
Proof.
  assert (R : forall i p, nth_error (repeat Out n) i = Some p -> p = Out) by (intros i p E; apply nth_error_In in E; apply repeat_spec in E; auto).
  assert (RV : forall i p, nth_error (repeat (mkv None InO false) k) i = Some p -> p = mkv None InO false) by (intros i p E; apply nth_error_In in E; apply repeat_spec in E; auto).
  constructor; simpl.
  - split; [|split]; simpl.
    + intros v x E a. rewrite (RV _ _ E). simpl. split; discriminate.
    + f_equal. induction k; simpl; auto. f_equal. apply IHk. intros i p E. apply (RV (S i) p E).
    + intros a. rewrite sumf_repeat; reflexivity.
  - intros i p E. rewrite (R _ _ E). exact I.
  - intros i j p q v E1 E2 A1. rewrite (R _ _ E1) in A1. discriminate.
  - intros v x E _. rewrite (RV _ _ E). reflexivity.
Qed.

Lemma step_ok (s : st) i c : Inv s -> careful s i c -> exists s', step s i c = Ok s' /\ Inv s'.
Proof.
  intros I CF. unfold step. destruct (nth_error (th s) i) as [p|] eqn:Ti; [|eauto].
  pose proof (iok s I i p Ti) as OK. destruct (ic s I) as (C1 & C2 & C3). unfold careful in CF.
  assert (NU : forall v x, nth_error (va s) v = Some x -> phys x = None -> node x = Un \/ node x = InO).
  { intros v x Vx P. destruct (node x) as [| |b] eqn:N; auto. apply (C1 v x Vx) in N. congruence. }
  assert (FD : forall a b d, fupd (dl s) a (dl s a + d) b = dl s b + (if Nat.eqb b a then d else 0)).
  { intros a b d. unfold fupd. destruct (Nat.eqb_spec b a) as [E|E]; [rewrite E|]; lia. }
  destruct c as [v a|v|v a|v|]; destruct p as [|w|w b|w b|w b|w b|w b|w b|w b|w]; eauto; simpl in OK.
  - (* Assign *) destruct (nth_error (va s) v) as [x|] eqn:Vx; [|eauto]. destruct (CF Ti x eq_refl) as (AL & P).
    unfold is_phys. destruct P as [P|P]; rewrite P; [|rewrite Nat.eqb_refl; eauto]. eexists; split; [reflexivity|].
    eapply pres0; eauto; simpl; auto. exists x. split; auto. split; auto. apply (ifr s I v x Vx AL).
  - (* Assign, balancer *) destruct OK as (x & Vx & P & N & L). rewrite Vx. unfold is_phys. rewrite P. eexists; split; [reflexivity|].
    eapply pres0; eauto; simpl; auto. exists x. auto.
  - (* Take *) destruct (nth_error (va s) v) as [x|] eqn:Vx; [|eauto]. pose proof (CF Ti x eq_refl) as AL.
    pose proof (nth_error_lt _ _ _ Vx) as Lv. destruct (node x) eqn:N; eauto. eexists; split; [reflexivity|]. unfold sp, so, sv; simpl.
    assert (P : phys x = None) by (destruct (phys x) as [a|] eqn:P; auto; apply (C1 v x Vx) in P; congruence).
    eapply pres; eauto; simpl; auto.
    + eexists. split; [apply nth_error_upd_eq; auto|]. simpl. repeat split; auto. apply (ifr s I v x Vx AL).
    + intros a. rewrite P. split; discriminate.
    + unfold in_o; simpl. rewrite N. lia.
    + intros a. unfold in_d; simpl. rewrite N. lia.
  - (* Remove *) destruct (nth_error (va s) v) as [x|] eqn:Vx; [|eauto]. destruct (CF Ti x eq_refl) as (AL & P).
    unfold is_phys. rewrite P, Nat.eqb_refl. eexists; split; [reflexivity|]. eapply pres0; eauto; simpl; auto.
    exists x. repeat split; auto. apply (ifr s I v x Vx AL).
  - (* Requeue *) destruct (nth_error (va s) v) as [x|] eqn:Vx; [|eauto]. destruct (CF Ti x eq_refl) as (AL & P & N).
    rewrite N. eexists; split; [reflexivity|]. unfold so, sv; simpl. rewrite <- (upd_same (th s) i Out Ti). eapply pres; eauto; simpl; auto.
    + right. split; auto. apply (ifr s I v x Vx AL).
    + intros a. rewrite P. split; discriminate.
    + unfold in_o; simpl. rewrite N. lia.
    + intros a. unfold in_d; simpl. rewrite N. lia.
  - (* A1 *) destruct OK as (x & Vx & P & L). rewrite Vx, P. eexists; split; [reflexivity|]. eapply pres0; eauto; simpl; auto. exists x; auto.
  - (* A2 *) destruct OK as (x & Vx & P & L). rewrite Vx. pose proof (nth_error_lt _ _ _ Vx) as Lv. destruct (NU w x Vx P) as [N|N]; rewrite N; (eexists; split; [reflexivity|]).
    + eapply pres0; eauto; simpl; auto. exists x; auto.
    + unfold sp, so, sv; simpl. eapply pres; eauto; simpl; auto.
      * eexists. split; [apply nth_error_upd_eq; auto|]. simpl. auto.
      * intros a. rewrite P. split; discriminate.
      * unfold in_o; simpl. rewrite N. lia.
      * intros a. unfold in_d; simpl. rewrite N. lia.
  - (* A3 *) destruct OK as (x & Vx & P & N & L). rewrite Vx, L. pose proof (nth_error_lt _ _ _ Vx) as Lv. eexists; split; [reflexivity|].
    unfold sp, sv; simpl. eapply pres; eauto; simpl; auto.
    + eexists. split; [apply nth_error_upd_eq; auto|]. simpl. auto.
    + apply (C1 w x Vx).
  - (* A4 *) destruct OK as (x & Vx & P & N). rewrite Vx. unfold is_phys. rewrite P, N. pose proof (nth_error_lt _ _ _ Vx) as Lv. eexists; split; [reflexivity|].
    unfold sp, sd, sv; simpl. eapply pres; eauto; simpl; auto.
    + eexists. split; [apply nth_error_upd_eq; auto|]. reflexivity.
    + intros a. split; intros H; injection H as <-; reflexivity.
    + unfold in_o; simpl. rewrite N. lia.
    + intros a. rewrite FD. unfold in_d; simpl. rewrite N. rewrite (Nat.eqb_sym a b). destruct (Nat.eqb b a); lia.
  - (* A5 *) destruct OK as (x & Vx & P). rewrite Vx. pose proof (nth_error_lt _ _ _ Vx) as Lv. eexists; split; [reflexivity|].
    unfold sp, sv; simpl. eapply pres; eauto; simpl; auto. apply (C1 w x Vx).
  - (* R1 *) destruct OK as (x & Vx & P & L). rewrite Vx, L. pose proof (nth_error_lt _ _ _ Vx) as Lv. eexists; split; [reflexivity|].
    unfold sp, sv; simpl. eapply pres; eauto; simpl; auto.
    + eexists. split; [apply nth_error_upd_eq; auto|]. simpl. auto.
    + apply (C1 w x Vx).
  - (* R2 *) destruct OK as (x & Vx & P). rewrite Vx. pose proof (nth_error_lt _ _ _ Vx) as Lv. assert (N : node x = InD b) by (apply (C1 w x Vx); auto).
    eexists; split; [reflexivity|]. unfold sp, sd, sv; simpl. eapply pres; eauto; simpl; auto.
    + eexists. split; [apply nth_error_upd_eq; auto|]. reflexivity.
    + intros a. split; discriminate.
    + unfold in_o; simpl. rewrite N. lia.
    + intros a. rewrite FD. unfold in_d; simpl. rewrite N. rewrite (Nat.eqb_sym a b). destruct (Nat.eqb b a); lia.
  - (* R3 *) destruct OK as (x & Vx & P). rewrite Vx. pose proof (nth_error_lt _ _ _ Vx) as Lv. eexists; split; [reflexivity|].
    unfold sp, sv; simpl. eapply pres; eauto; simpl; auto. apply (C1 w x Vx).
Qed.

(** * C77 *)
Lemma run_inv s l : Inv s -> careful_run s l -> exists s', run s l = Ok s' /\ Inv s'.
Proof.
  revert s. induction l as [|[i c] l IH]; intros s I C; simpl in *; [eauto|]. destruct C as [D1 D2].
  destruct (step_ok s i c I D1) as (s' & E & I'). rewrite E. simpl. apply IH; auto.
Qed.

(** Any number of threads and virtual accelerators, all interleavings of calls about different virtual
    accelerators: nothing aborts, and at every moment each is in the list of its device and in no other, and the
    lengths of the lists are right. *)
Theorem C77_one_place k n l : careful_run (init k n) l -> exists s, run (init k n) l = Ok s /\ consistent s.
Proof. intros C. destruct (run_inv _ _ (Inv_init k n) C) as (s & E & I). exists s. split; auto. apply (ic s I). Qed.

Lemma step_other s j c s' i : step s j c = Ok s' -> j <> i -> nth_error (th s') i = nth_error (th s) i.
Proof.
  intros E N. unfold step in E. destruct (nth_error (th s) j) as [p|]; [|injection E as <-; auto].
  destruct c as [v a|v|v a|v|]; destruct p as [|w|w b|w b|w b|w b|w b|w b|w b|w]; try (injection E as <-; auto; fail);
    match type of E with context [nth_error (va s) ?u] => destruct (nth_error (va s) u) as [x|]; [|injection E as <-; auto] end;
    repeat match type of E with context [if ?b then _ else _] => destruct b | context [match ?o with _ => _ end] => destruct o end;
    try discriminate E; injection E as <-; simpl; auto; apply nth_error_upd_ne; auto.
Qed.

(** thread [i] is between the start and the return of the assignment of [v] to [a] *)
Definition placing (v a : nat) (p : pc) : Prop := p = A1 v a \/ p = A2 v a \/ p = A3 v a \/ p = A4 v a \/ p = A5 v a.
Lemma placing_go s i v a p s' : nth_error (th s) i = Some p -> placing v a p -> step s i Go = Ok s' ->
  exists p', nth_error (th s') i = Some p' /\ (placing v a p' \/ (p' = Out /\ p = A5 v a) \/ nth_error (va s) v = None).
Proof.
  intros T P E. pose proof (nth_error_lt _ _ _ T) as L. unfold step in E. rewrite T in E. unfold placing in *.
  destruct P as [->|[->|[->|[->| ->]]]]; simpl in E; (destruct (nth_error (va s) v) as [x|]; [|injection E as <-; eauto 10]);
    repeat match type of E with context [if ?b then _ else _] => destruct b | context [match ?o with _ => _ end] => destruct o end;
    try discriminate E; injection E as <-; simpl; rewrite ?nth_error_upd_eq by auto; eauto 12.
Qed.

Lemma placing_run s l s' i v a : (forall c, In (i, c) l -> c = Go) -> (exists p, nth_error (th s) i = Some p /\ (placing v a p \/ p = Out)) ->
  Inv s -> careful_run s l -> run s l = Ok s' -> exists p, nth_error (th s') i = Some p /\ (placing v a p \/ p = Out).
Proof.
  revert s. induction l as [|[j c] l IH]; intros s G (p & T & P) I C E; simpl in *; [injection E as <-; eauto|].
  destruct C as [D1 D2]. destruct (step_ok s j c I D1) as (s1 & E1 & I1). rewrite E1 in E. simpl in E.
  refine (IH s1 _ _ I1 (D2 s1 E1) E); [intros c' H; apply G; auto|].
  destruct (Nat.eq_dec j i) as [->|N]; [|rewrite (step_other s j c s1 i E1 N); eauto].
  rewrite (G c (or_introl eq_refl)) in E1. destruct P as [P| ->].
  - destruct (placing_go s i v a p s1 T P E1) as (p' & T' & [Q|[[Q _]|Q]]); eauto.
    exfalso. pose proof (iok s I i p T) as O. destruct P as [->|[->|[->|[->| ->]]]]; destruct O as (x & Vx & _); congruence.
  - exists Out. split; auto. unfold step in E1. rewrite T in E1. injection E1 as <-. auto.
Qed.

Lemma careful_app s l1 l2 s1 : careful_run s (l1 ++ l2) -> run s l1 = Ok s1 -> careful_run s1 l2.
Proof.
  revert s. induction l1 as [|[i c] l1 IH]; intros s C E; simpl in *; [injection E as <-; auto|].
  destruct C as [_ C]. destruct (step s i c) as [s'| |] eqn:E1; try discriminate. simpl in E. apply (IH s'); auto.
Qed.
Lemma careful_pre s l1 l2 : careful_run s (l1 ++ l2) -> careful_run s l1.
Proof. revert s. induction l1 as [|[i c] l1 IH]; intros s C; simpl in *; auto. destruct C as [C1 C2]. split; auto. Qed.

(** From the call to the return: thread [i] assigns [v] to [a] (a client's arax_accel_set_physical, or the balancer
    with the one it took); whatever the others do meanwhile, when the call returns [v] is on [a] and in its list. *)
Theorem C77_assigned k n l1 i v a l2 s1 s2 s3 :
  careful_run (init k n) (l1 ++ (i, Assign v a) :: l2) -> run (init k n) l1 = Ok s1 ->
  (nth_error (th s1) i = Some Out \/ nth_error (th s1) i = Some (T1 v)) -> (v < length (va s1))%nat ->
  (forall c, In (i, c) l2 -> c = Go) -> run s1 ((i, Assign v a) :: l2) = Ok s2 ->
  nth_error (th s2) i <> Some Out -> step s2 i Go = Ok s3 -> nth_error (th s3) i = Some Out ->
  exists x, nth_error (va s3) v = Some x /\ phys x = Some a /\ node x = InD a /\ locked x = false.
Proof.
  intros C E1 T1' Lv G E2 NO E3 O3.
  destruct (run_inv _ _ (Inv_init k n) (careful_pre _ _ _ C)) as (q & Eq & I1). rewrite E1 in Eq. injection Eq as <-.
  pose proof (careful_app _ _ _ _ C E1) as C1. destruct (run_inv _ _ I1 C1) as (q & Eq & I2). rewrite E2 in Eq. injection Eq as <-.
  simpl in C1, E2. destruct C1 as [C1 C2]. destruct (step_ok s1 i (Assign v a) I1 C1) as (t & Et & It). rewrite Et in E2. simpl in E2.
  assert (ST : exists p, nth_error (th t) i = Some p /\ (placing v a p \/ p = Out)).
  { apply nth_error_Some in Lv. unfold step in Et. destruct T1' as [T|T]; rewrite T in Et; (destruct (nth_error (va s1) v) as [x|]; [|congruence]);
      destruct (is_phys x a); injection Et as <-; simpl; rewrite ?nth_error_upd_eq by (eapply nth_error_lt; eauto); unfold placing; eauto 10. }
  destruct (placing_run t l2 s2 i v a G ST It (C2 t Et) E2) as (p & T & [P|P]); [|congruence].
  pose proof (iok s2 I2 i p T) as OK.
  destruct (placing_go s2 i v a p s3 T P E3) as (p' & T' & [Q|[[_ Q]|Q]]).
  - exfalso. rewrite O3 in T'. injection T' as <-. unfold placing in Q. intuition discriminate.
  - subst p. destruct OK as (x & Vx & Px). destruct (ic s2 I2) as (D1 & _). pose proof (nth_error_lt _ _ _ Vx).
    unfold step in E3. rewrite T, Vx in E3. injection E3 as <-. eexists. simpl. split; [apply nth_error_upd_eq; auto|]. simpl. repeat split; auto. apply (D1 v x Vx). auto.
  - exfalso. destruct P as [->|[->|[->|[->| ->]]]]; destruct OK as (x & Vx & _); congruence.
Qed.

(** and a call that returns at once found it there already *)
Theorem C77_already k n l s i v a s' : careful_run (init k n) (l ++ [(i, Assign v a)]) -> run (init k n) l = Ok s -> nth_error (th s) i = Some Out -> (v < length (va s))%nat ->
  step s i (Assign v a) = Ok s' -> nth_error (th s') i = Some Out -> exists x, nth_error (va s') v = Some x /\ phys x = Some a /\ node x = InD a.
Proof.
  intros C E T L E1 O. destruct (run_inv _ _ (Inv_init k n) (careful_pre _ _ _ C)) as (q & Eq & I). rewrite E in Eq. injection Eq as <-.
  apply nth_error_Some in L. unfold step in E1. rewrite T in E1. destruct (nth_error (va s) v) as [x|] eqn:Vx; [|congruence].
  destruct (is_phys x a) eqn:P; injection E1 as <-; simpl in *; [|rewrite nth_error_upd_eq in O by (eapply nth_error_lt; eauto); discriminate].
  exists x. unfold is_phys in P. destruct (phys x) as [b|] eqn:Px; [|discriminate]. apply Nat.eqb_eq in P. subst b. repeat split; auto.
  destruct (ic s I) as (D1 & _). apply (D1 v x Vx). auto.
Qed.

(** A client creates a virtual accelerator and chooses device 0 for it, as arax.h offers, while the balancer (thread
    1) assigns it to the same device: one of them aborts. *)
Theorem C77_abort_refuted : run (init 1 2)
  [(0%nat, Assign 0 0); (1%nat, Take 0); (1%nat, Assign 0 0); (1%nat, Go); (1%nat, Go); (1%nat, Go); (1%nat, Go); (1%nat, Go); (0%nat, Go)] = Abort.
Proof. reflexivity. Qed.

(** Or the virtual accelerator says it is on device 0 and is in no list, so no worker ever finds its tasks, and the
    length of the list of unassigned ones has wrapped below zero. *)
Theorem C77_lost_refuted : exists s, run (init 1 2)
  ([(0%nat, Assign 0 0); (0%nat, Go); (1%nat, Take 0); (1%nat, Assign 0 0); (1%nat, Go); (1%nat, Go); (1%nat, Go); (1%nat, Go); (1%nat, Go)] ++
   [(0%nat, Go); (0%nat, Go); (0%nat, Go); (0%nat, Go)]) = Ok s /\
  (forall i p, nth_error (th s) i = Some p -> p = Out) /\ nth_error (va s) 0 = Some (mkv (Some 0%nat) Un false) /\ ol s = -1 /\ dl s 0%nat = 1.
Proof.
  eexists. split; [vm_compute; reflexivity|]. repeat split; try reflexivity. intros [|[|i]] p; simpl; intros E; try (injection E as <-; reflexivity). destruct i; discriminate.
Qed.

(** With two different devices its node is linked into the second list while it is in the first, which destroys both. *)
Theorem C77_two_devices_refuted : run (init 1 2)
  [(0%nat, Assign 0 1); (0%nat, Go); (0%nat, Go); (1%nat, Assign 0 0); (1%nat, Go); (1%nat, Go); (1%nat, Go); (1%nat, Go); (1%nat, Go); (0%nat, Go); (0%nat, Go)] = UB.
Proof. reflexivity. Qed.

(** Two removals at once count the same virtual accelerator twice. *)
Theorem C77_two_removals_refuted : exists s, run (init 1 2)
  [(0%nat, Assign 0 0); (0%nat, Go); (0%nat, Go); (0%nat, Go); (0%nat, Go); (0%nat, Go); (0%nat, Remove 0 0); (1%nat, Remove 0 0);
   (0%nat, Go); (0%nat, Go); (0%nat, Go); (1%nat, Go); (1%nat, Go); (1%nat, Go)] = Ok s /\
  (forall i p, nth_error (th s) i = Some p -> p = Out) /\ dl s 0%nat = -1.
Proof.
  eexists. split; [vm_compute; reflexivity|]. split; [|reflexivity]. intros [|[|i]] p; simpl; intros E; try (injection E as <-; reflexivity). destruct i; discriminate.
Qed.

(** Two virtual accelerators at the same time: a client places 0 on device 1 while the balancer takes 1, assigns it to
    device 0, moves it off, and it is put back and assigned to device 1. *)
Definition case_run : list (nat * act) :=
  [(0%nat, Assign 0 1); (1%nat, Take 1); (0%nat, Go); (1%nat, Assign 1 0); (1%nat, Go); (0%nat, Go); (1%nat, Go); (1%nat, Go); (0%nat, Go); (1%nat, Go); (0%nat, Go);
   (1%nat, Go); (0%nat, Go); (2%nat, Remove 1 0); (2%nat, Go); (2%nat, Go); (2%nat, Go); (2%nat, Requeue 1); (1%nat, Take 1); (1%nat, Assign 1 1);
   (1%nat, Go); (1%nat, Go); (1%nat, Go); (1%nat, Go); (1%nat, Go)].
Lemma alone3 s v : (forall p, In p (th s) -> about p <> Some v) -> alone s v.
Proof. intros H j p E. apply H. eapply nth_error_In; eauto. Qed.
Theorem C77_case : careful_run (init 2 3) case_run /\ exists s, run (init 2 3) case_run = Ok s /\
  va s = [mkv (Some 1%nat) (InD 1) false; mkv (Some 1%nat) (InD 1) false] /\ dl s 1%nat = 2 /\ dl s 0%nat = 0 /\ ol s = 0.
Proof.
  split; [|eexists; split; [vm_compute; reflexivity|repeat split]].
  unfold case_run, init. simpl repeat.
  repeat (split; [unfold careful; simpl; intros H x; try exact Logic.I; try discriminate H; intros E; injection E as <-;
    repeat split; auto; apply alone3; simpl; intuition (subst; discriminate)|]; let s' := fresh in let Es := fresh in intros s' Es; vm_compute in Es; injection Es as <-).
  exact Logic.I.
Qed.
