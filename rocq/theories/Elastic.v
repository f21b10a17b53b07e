(** The elastic scheduler's balancer (C78): every new virtual accelerator is put on the next device, and one of
    those the device had goes to the device after it.  Which ones it had is read from the list the device's worker made
    when it last woke up.  Models controller/src/Schedulers/ElasticScheduler.cpp:12-91 (assignVac),
    controller/src/Core/accelThread.cpp:477-490 (the worker's list), src/core/arax_accel.c:108-178,
    src/core/arax_vaccel.c:113-123.
    Simplifications: the n devices of one type; the static iterator paccel_rr is an index (that it points into a
    vector that no longer exists is C45); a call of the balancer is one step (its interleaving with other
    placements is C77, with releases C76, the reading of a vector that the worker is resizing is left out); queues and
    counters are left out (C22, C24). *)
From Verif Require Import Base.
Arguments Nat.eqb : simpl never.

(** the virtual accelerator of device [d] for releasing buffers (arax_accel.c:22), or one of a client *)
Inductive vac := Fr (d : nat) | Cl (v : nat).
Definition veqb (x y : vac) : bool := match x, y with Fr a, Fr b | Cl a, Cl b => Nat.eqb a b | _, _ => false end.
Lemma veqb_spec x y : reflect (x = y) (veqb x y).
Proof. destruct x as [a|a], y as [b|b]; simpl; try (constructor; congruence); destruct (Nat.eqb_spec a b); constructor; congruence. Qed.

(** [pl]: vaccel->phys; [gone]: its memory was freed; [ls]: accel->vaccels, newest first; [sn]: assignedVACs of the
    worker (accelThread.h:35); [rr]: paccel_rr, n being the end (ElasticScheduler.cpp:21-28). *)
Record st := mkst { pl : vac -> option nat; gone : vac -> bool; ls : nat -> list vac; sn : nat -> list vac; rr : nat }.
(** a store to a function of virtual accelerators, arax_vaccel.h:37 *)
Definition vupd {A} (f : vac -> A) (x : vac) (a : A) : vac -> A := fun y => if veqb y x then a else f y.
(** every device with its own virtual accelerator, nobody woken yet (arax_accel.c:5-24) *)
Definition init : st := mkst (fun x => match x with Fr d => Some d | Cl _ => None end) (fun _ => false) (fun d => [Fr d]) (fun _ => []) 0.

(** utils_list_del, list.c:26-34 *)
Definition del1 (x : vac) (l : list vac) : list vac := filter (fun y => negb (veqb y x)) l.
(** arax_accel_add_vaccel, arax_accel.c:108-141 *)
Definition add (s : st) (d : nat) (x : vac) : outcome st :=
  if gone s x then UB else
  match pl s x with
  | Some e => if Nat.eqb e d then Ok s else Abort
  | None => Ok (mkst (vupd (pl s) x (Some d)) (gone s) (fupd (ls s) d (x :: ls s d)) (sn s) (rr s))
  end.
(** arax_accel_del_vaccel, arax_accel.c:156-178 *)
Definition del (s : st) (d : nat) (x : vac) : outcome st :=
  if gone s x then UB else
  match pl s x with
  | Some e => if Nat.eqb e d then Ok (mkst (vupd (pl s) x None) (gone s) (fupd (ls s) d (del1 x (ls s d))) (sn s) (rr s)) else Abort
  | None => Abort
  end.
(** the device after [d], ElasticScheduler.cpp:47-53 *)
Definition next (n d : nat) : nat := if Nat.eqb (S d) n then 0 else S d.
(** the device whose turn it is, 26-28 *)
Definition turn (n : nat) (s : st) : nat := if Nat.eqb (rr s) n then 0 else rr s.
Definition setrr (s : st) (r : nat) : st := mkst (pl s) (gone s) (ls s) (sn s) r.   (* 83, 89 *)
(** ElasticScheduler::assignVac, 12-91 *)
Definition assign (n : nat) (s : st) (x : vac) : outcome st :=
  let d := turn n s in
  match sn s d with
  | [] => do s1 <- add s d x; Ok (setrr s1 (S d))                                                (* 84-90 *)
  | _ =>
    let t := next n d in
    do s2 <- (match find (fun m => negb (veqb m (Fr t)) && negb (veqb m (Fr d))) (sn s d) with   (* 55-73 *)
              | Some m => do s1 <- del s d m; add s1 t m
              | None => Ok s
              end);
    do s3 <- add s2 d x; Ok (setrr s3 (S d))                                                     (* 79-81 *)
  end.

(** A client's new virtual accelerator reaches the balancer; the worker of [d] wakes up and makes its list; the last
    reference to a virtual accelerator is dropped (arax_vaccel.c:113-123). *)
Inductive act := Arrive (v : nat) | Wake (d : nat) | Leave (v : nat).
Definition step (n : nat) (s : st) (c : act) : outcome st :=   (* VacBalancerThread.cpp:12-24, accelThread.cpp:477-490 *)
  match c with
  | Arrive v => assign n s (Cl v)
  | Wake d => Ok (mkst (pl s) (gone s) (ls s) (fupd (sn s) d (ls s d)) (rr s))
  | Leave v => match pl s (Cl v) with
               | Some d => do s1 <- del s d (Cl v); Ok (mkst (pl s1) (vupd (gone s1) (Cl v) true) (ls s1) (sn s1) (rr s1))
               | None => Ok s
               end
  end.
(** a history *)
Fixpoint run (n : nat) (s : st) (l : list act) : outcome st :=
  match l with [] => Ok s | c :: r => do s' <- step n s c; run n s' r end.

(** * Specification *)
(** a virtual accelerator that arrives is new, and the list of the device whose turn it is has only virtual
    accelerators that are on it now *)
Definition careful (n : nat) (s : st) (c : act) : Prop :=
  match c with
  | Arrive v => pl s (Cl v) = None /\ gone s (Cl v) = false /\ forall m, In m (sn s (turn n s)) -> pl s m = Some (turn n s)
  | _ => True
  end.
Fixpoint careful_run (n : nat) (s : st) (l : list act) : Prop :=
  match l with [] => True | c :: r => careful n s c /\ forall s', step n s c = Ok s' -> careful_run n s' r end.
(** Each is in the list of the device it says and in no other, at most once; the devices keep their own. *)
Definition placed (s : st) : Prop :=
  (forall x d, pl s x = Some d <-> In x (ls s d)) /\ (forall d, NoDup (ls s d)) /\ (forall d, pl s (Fr d) = Some d).
(** how many have arrived *)
Fixpoint arrivals (l : list act) : nat := match l with [] => 0 | Arrive _ :: r => S (arrivals r) | _ :: r => arrivals r end.

Definition Inv (n : nat) (s : st) : Prop := placed s /\ (forall x, gone s x = true -> pl s x = None) /\ rr s <= n.

Lemma vupd_eq {A} (f : vac -> A) x a : vupd f x a x = a.
Proof. unfold vupd. destruct (veqb_spec x x); congruence. Qed.
Lemma vupd_ne {A} (f : vac -> A) x y a : y <> x -> vupd f x a y = f y.
Proof. intros N. unfold vupd. destruct (veqb_spec y x); congruence. Qed.
Lemma del1_in x y l : In y (del1 x l) <-> In y l /\ y <> x.
Proof. unfold del1. rewrite filter_In. destruct (veqb_spec y x); simpl; intuition congruence. Qed.
Lemma del1_nodup x l : NoDup l -> NoDup (del1 x l).
Proof. apply NoDup_filter. Qed.

(** the part of [placed] without the devices' own ones *)
Definition lists (s : st) : Prop := (forall x d, pl s x = Some d <-> In x (ls s d)) /\ (forall d, NoDup (ls s d)).

Lemma add_ok s d x : lists s -> gone s x = false -> pl s x = None -> exists s', add s d x = Ok s' /\ lists s' /\
  pl s' x = Some d /\ (forall y, y <> x -> pl s' y = pl s y) /\ gone s' = gone s /\ sn s' = sn s /\ rr s' = rr s.
Proof.
  intros (L1 & L2) G P. unfold add. rewrite G, P. eexists. split; [reflexivity|]. simpl. rewrite vupd_eq. split; [|repeat split; auto; intros; apply vupd_ne; auto].
  split; simpl.
  - intros y e. destruct (veqb_spec y x) as [->|N].
    + rewrite vupd_eq. unfold fupd. destruct (Nat.eqb_spec e d) as [->|Ne]; simpl; [intuition|]. split; [intros E; congruence|]. intros H. apply L1 in H. congruence.
    + rewrite vupd_ne by auto. rewrite L1. unfold fupd. destruct (Nat.eqb_spec e d) as [->|Ne]; simpl; [|tauto]. intuition congruence.
  - intros e. unfold fupd. destruct (Nat.eqb_spec e d) as [->|Ne]; auto. constructor; auto. intros H. apply L1 in H. congruence.
Qed.
Lemma del_ok s d x : lists s -> gone s x = false -> pl s x = Some d -> exists s', del s d x = Ok s' /\ lists s' /\
  pl s' x = None /\ (forall y, y <> x -> pl s' y = pl s y) /\ gone s' = gone s /\ sn s' = sn s /\ rr s' = rr s.
Proof.
  intros (L1 & L2) G P. unfold del. rewrite G, P, Nat.eqb_refl. eexists. split; [reflexivity|]. simpl. rewrite vupd_eq. split; [|repeat split; auto; intros; apply vupd_ne; auto].
  split; simpl.
  - intros y e. destruct (veqb_spec y x) as [->|N].
    + rewrite vupd_eq. unfold fupd. destruct (Nat.eqb_spec e d) as [->|Ne]; simpl; [rewrite del1_in; intuition congruence|]. split; [discriminate|]. intros H. apply L1 in H. congruence.
    + rewrite vupd_ne by auto. rewrite L1. unfold fupd. destruct (Nat.eqb_spec e d) as [->|Ne]; simpl; [|tauto]. rewrite del1_in. tauto.
  - intros e. unfold fupd. destruct (Nat.eqb_spec e d) as [->|Ne]; auto. apply del1_nodup; auto.
Qed.

(** What an arrival changes. *)
Lemma arrive_ok n s v : 0 < n -> Inv n s -> careful n s (Arrive v) -> exists s', assign n s (Cl v) = Ok s' /\ Inv n s' /\
  gone s' = gone s /\ rr s' = S (turn n s) /\
  pl s' (Cl v) = Some (turn n s) /\
  ((forall m, m <> Cl v -> pl s' m = pl s m) \/
   exists w, w <> v /\ In (Cl w) (sn s (turn n s)) /\ pl s (Cl w) = Some (turn n s) /\ pl s' (Cl w) = Some (next n (turn n s)) /\
             forall m, m <> Cl v -> m <> Cl w -> pl s' m = pl s m).
Proof.
  intros N ((PL1 & PL2 & PL3) & G & R) (P & GV & CU).
  assert (TL : turn n s < n) by (unfold turn; destruct (Nat.eqb_spec (rr s) n); lia).
  set (d := turn n s) in *.
  assert (KEEP : forall s1, lists s1 -> pl s1 (Cl v) = None -> gone s1 = gone s -> (forall m, gone s m = true -> pl s1 m = None) ->
     (forall e, pl s1 (Fr e) = Some e) -> exists s', (do s3 <- add s1 d (Cl v); Ok (setrr s3 (S d))) = Ok s' /\ Inv n s' /\
     gone s' = gone s /\ rr s' = S d /\ pl s' (Cl v) = Some d /\ forall m, m <> Cl v -> pl s' m = pl s1 m).
  { intros s1 L1 Pv G1 K F. destruct (add_ok s1 d (Cl v) L1) as (s3 & E3 & L3 & P3 & O3 & G3 & S3 & R3); auto; [congruence|].
    rewrite E3. simpl. eexists. split; [reflexivity|]. simpl. split; [|repeat split; auto; congruence]. split; [|split].
    - destruct L3 as (A & B). split; [exact A|split; [exact B|]]. intros e. simpl. rewrite O3 by discriminate. auto.
    - simpl. intros x Gx. rewrite G3, G1 in Gx. destruct (veqb_spec x (Cl v)) as [->|Nx]; [congruence|]. rewrite O3 by auto. auto.
    - simpl. lia. }
  assert (STAY : exists s', (do s3 <- add s d (Cl v); Ok (setrr s3 (S d))) = Ok s' /\ Inv n s' /\
     gone s' = gone s /\ rr s' = S d /\ pl s' (Cl v) = Some d /\ forall m, m <> Cl v -> pl s' m = pl s m) by (apply KEEP; auto; split; auto).
  assert (FIN : forall r, r = (do s3 <- add s d (Cl v); Ok (setrr s3 (S d))) -> exists s', r = Ok s' /\ Inv n s' /\
     gone s' = gone s /\ rr s' = S d /\ pl s' (Cl v) = Some d /\
     ((forall m, m <> Cl v -> pl s' m = pl s m) \/ exists w, w <> v /\ In (Cl w) (sn s d) /\ pl s (Cl w) = Some d /\ pl s' (Cl w) = Some (next n d) /\
             forall m, m <> Cl v -> m <> Cl w -> pl s' m = pl s m)).
  { intros r ->. destruct STAY as (s' & A & B & C & D & E & F). exists s'. repeat split; auto; apply B. }
  unfold assign. fold d. destruct (sn s d) as [|m0 ml] eqn:SN; [apply FIN; reflexivity|].
  rewrite <- SN in *. destruct (find _ (sn s d)) as [m|] eqn:FD; [|apply FIN; reflexivity].
  apply find_some in FD. destruct FD as [IM NM]. apply andb_true_iff in NM. destruct NM as [_ NM]. apply negb_true_iff in NM.
  pose proof (CU m IM) as PM. destruct (veqb_spec m (Fr d)) as [|NF]; [discriminate|]. clear NM.
  assert (MC : exists w, m = Cl w) by (destruct m as [e|w]; [rewrite PL3 in PM; congruence|eauto]). destruct MC as (w & ->).
  assert (NW : w <> v) by congruence. assert (GM : gone s (Cl w) = false) by (destruct (gone s (Cl w)) eqn:E; auto; apply G in E; congruence).
  destruct (del_ok s d (Cl w)) as (s1 & E1 & L1 & P1 & O1 & G1 & S1 & R1); auto; [split; auto|].
  destruct (add_ok s1 (next n d) (Cl w)) as (s2 & E2 & L2 & P2 & O2 & G2 & S2 & R2); auto; [congruence|].
  rewrite E1. simpl. rewrite E2. simpl.
  destruct (KEEP s2 L2) as (s' & A & B & C & D & E & F).
  - rewrite O2, O1 by congruence. auto.
  - congruence.
  - intros m Gm. rewrite O2 by (intros ->; congruence). rewrite O1 by (intros ->; congruence). auto.
  - intros e. rewrite O2, O1 by discriminate. auto.
  - exists s'. rewrite A. split; auto. split; auto. repeat split; auto. right. exists w. repeat split; auto.
    + rewrite F by congruence. auto.
    + intros m N1 N2. rewrite F, O2, O1 by auto. auto.
Qed.

Lemma step_ok n s c : 0 < n -> Inv n s -> careful n s c -> exists s', step n s c = Ok s' /\ Inv n s'.
Proof.
  intros N I C. destruct c as [v|d|v]; simpl.
  - destruct (arrive_ok n s v N I C) as (s' & E & I' & _). eauto.
  - eexists. split; [reflexivity|]. exact I.
  - destruct (pl s (Cl v)) as [d|] eqn:P; [|eauto]. destruct I as ((A & B & F) & G & R).
    assert (GV : gone s (Cl v) = false) by (destruct (gone s (Cl v)) eqn:E; auto; apply G in E; congruence).
    destruct (del_ok s d (Cl v)) as (s1 & E1 & L1 & P1 & O1 & G1 & S1 & R1); auto; [split; auto|]. rewrite E1. simpl. eexists. split; [reflexivity|].
    split; [|split]; simpl.
    + destruct L1 as (A1 & B1). split; [exact A1|split; [exact B1|]]. intros e. simpl. rewrite O1 by discriminate. auto.
    + intros x Gx. destruct (veqb_spec x (Cl v)) as [->|Nx]; auto. rewrite vupd_ne in Gx by auto. rewrite O1 by auto. rewrite G1 in Gx. auto.
    + lia.
Qed.
Lemma Inv_init n : Inv n init.
Proof.
  split; [|split]; simpl; [|discriminate|lia]. split; [|split]; simpl; auto.
  - intros [e|v] d; simpl; split; intros H; try (injection H as ->; auto); try discriminate; destruct H as [H|[]]; congruence.
  - intros d. constructor; [intros []|constructor].
Qed.
Lemma run_inv n s l : 0 < n -> Inv n s -> careful_run n s l -> exists s', run n s l = Ok s' /\ Inv n s'.
Proof.
  intros N. revert s. induction l as [|c l IH]; intros s I C; simpl in *; [eauto|]. destruct C as [C1 C2].
  destruct (step_ok n s c N I C1) as (s' & E & I'). rewrite E. simpl. auto.
Qed.
Lemma careful_app n s l1 l2 s1 : careful_run n s (l1 ++ l2) -> run n s l1 = Ok s1 -> careful_run n s1 l2.
Proof.
  revert s. induction l1 as [|c l1 IH]; intros s C E; simpl in *; [injection E as <-; auto|].
  destruct C as [_ C]. destruct (step n s c) as [s'| |] eqn:E1; try discriminate. simpl in E. apply (IH s'); auto.
Qed.
Lemma careful_pre n s l1 l2 : careful_run n s (l1 ++ l2) -> careful_run n s l1.
Proof. revert s. induction l1 as [|c l1 IH]; intros s C; simpl in *; auto. destruct C as [C1 C2]. split; auto. Qed.

(** * C78 *)
(** Nothing aborts, nothing that was freed is used, and every virtual accelerator is on one device. *)
Theorem C78_one_device n l : 0 < n -> careful_run n init l -> exists s, run n init l = Ok s /\ placed s.
Proof. intros N C. destruct (run_inv n init l N (Inv_init n) C) as (s & E & I & _). eauto. Qed.

(** The turns of the devices. *)
Lemma turn_rr n l s : 0 < n -> careful_run n init l -> run n init l = Ok s -> rr s mod n = arrivals l mod n.
Proof.
  intros N. assert (GEN : forall l s0 s, Inv n s0 -> careful_run n s0 l -> run n s0 l = Ok s -> rr s mod n = (rr s0 + arrivals l) mod n).
  { intros l'. induction l' as [|c l' IH]; intros s0 s' I C E; simpl in *; [injection E as <-; now rewrite Nat.add_0_r|].
    destruct C as [C1 C2]. destruct (step_ok n s0 c N I C1) as (s1 & E1 & I1). rewrite E1 in E. simpl in E. rewrite (IH s1 s' I1 (C2 s1 E1) E).
    destruct c as [v|d|v]; simpl in E1.
    - destruct (arrive_ok n s0 v N I C1) as (q & Eq & _ & _ & Rq & _). rewrite E1 in Eq. injection Eq as <-. rewrite Rq. unfold turn.
      destruct (Nat.eqb_spec (rr s0) n) as [Q|Q]; [|f_equal; lia]. rewrite Q. replace (n + S (arrivals l')) with (1 + arrivals l' + 1 * n) by lia. rewrite Nat.mod_add by lia. reflexivity.
    - injection E1 as <-. reflexivity.
    - destruct (pl s0 (Cl v)) as [d|]; [|injection E1 as <-; reflexivity]. unfold del in E1.
      destruct (gone s0 (Cl v)); [discriminate|]. destruct (pl s0 (Cl v)) as [e|]; [|discriminate]. destruct (Nat.eqb e d); [|discriminate]. injection E1 as <-. reflexivity. }
  intros C E. apply (GEN l init s (Inv_init n) C E).
Qed.
Lemma turn_mod n s : 0 < n -> rr s <= n -> turn n s = rr s mod n.
Proof. intros N R. unfold turn. destruct (Nat.eqb_spec (rr s) n) as [->|Q]; [rewrite Nat.mod_same; lia|rewrite Nat.mod_small; lia]. Qed.

(** The k-th virtual accelerator that arrives is put on device k modulo the number of devices; at most one other is
    moved, a client's, from that device to the next one; all others stay where they are, the devices' own included. *)
Theorem C78_arrival n l v s s' : 0 < n -> careful_run n init (l ++ [Arrive v]) -> run n init l = Ok s -> step n s (Arrive v) = Ok s' ->
  let d := arrivals l mod n in
  pl s' (Cl v) = Some d /\
  ((forall m, m <> Cl v -> pl s' m = pl s m) \/
   exists w, w <> v /\ pl s (Cl w) = Some d /\ pl s' (Cl w) = Some (S d mod n) /\ forall m, m <> Cl v -> m <> Cl w -> pl s' m = pl s m).
Proof.
  intros N C E E1 d. pose proof (careful_pre _ _ _ _ C) as Cl'. destruct (run_inv n init l N (Inv_init n) Cl') as (q & Eq & I). rewrite E in Eq. injection Eq as <-.
  pose proof (careful_app _ _ _ _ _ C E) as [CA _]. destruct (arrive_ok n s v N I CA) as (q & Eq & _ & _ & _ & P & H). simpl in E1. rewrite E1 in Eq. injection Eq as <-.
  assert (T : turn n s = d) by (rewrite turn_mod; [apply (turn_rr n l s N Cl' E)|exact N|apply I]). rewrite T in *. split; auto.
  destruct H as [H|(w & H1 & _ & H2 & H3 & H4)]; auto. right. exists w. repeat split; auto. rewrite H3. f_equal. unfold next.
  assert (d < n) by (apply Nat.mod_upper_bound; lia). destruct (Nat.eqb_spec (S d) n) as [Q|Q]; [rewrite Q, Nat.mod_same; lia|rewrite Nat.mod_small; lia].
Qed.

(** Two devices.  Virtual accelerator 0 is on device 0, whose worker has seen it; 2 arrives and 0 is moved to device 1;
    if the worker of device 0 does not wake up before the next one for device 0 arrives, the controller aborts. *)
Theorem C78_stale_list_refuted : run 2 init [Arrive 0; Wake 0; Arrive 1; Arrive 2; Arrive 3; Arrive 4] = Abort.
Proof. reflexivity. Qed.
(** And if 0 was released meanwhile, the balancer uses freed memory. *)
Theorem C78_released_refuted : run 2 init [Arrive 0; Wake 0; Leave 0; Arrive 1; Arrive 2] = UB.
Proof. reflexivity. Qed.

(** The same with workers that wake up: 0 goes to device 1 and back. *)
Theorem C78_case : let l := [Arrive 0; Wake 0; Arrive 1; Wake 1; Arrive 2; Wake 0; Wake 1; Arrive 3; Wake 0; Wake 1; Leave 2; Wake 0; Arrive 4] in
  careful_run 2 init l /\ exists s, run 2 init l = Ok s /\ ls s 0 = [Cl 4; Fr 0] /\ ls s 1 = [Cl 0; Cl 3; Cl 1; Fr 1].
Proof.
  split; [|eexists; vm_compute; repeat split; reflexivity].
  repeat (split; [simpl; try exact Logic.I; (split; [reflexivity|split; [reflexivity|]]); intros m H; vm_compute in H; intuition (subst; reflexivity)|
    let q := fresh in let E := fresh in intros q E; simpl in E; vm_compute in E; injection E as <-]). exact Logic.I.
Qed.
