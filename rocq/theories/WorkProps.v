(** Properties C24 and C44, and the concurrent form of C22. *)
From Verif Require Import Base Sums Throttle WorkModel WorkProof WorkInv.
Local Open Scope Z_scope.
Arguments Nat.eqb : simpl never.

(** * Specification vocabulary *)
(** tasks waiting in the virtual accelerators assigned to accelerator [a] *)
Definition waiting (nv : nat) (s : st) (a : nat) : Z :=
  sumZ (fun v => match phys (va s v) with Some b => if Nat.eqb b a then Z.of_nat (length (vq (va s v))) else 0 | None => 0 end) (seq 0 nv).
(** not inside submit, assign or unassign, or in such a call before it changed anything (waiting for the virtual
    accelerator's lock, or for room in its queue) or after its last effect *)
Definition calm (p : pc) : bool :=
  match p with Out | W0 | W1 | W2 | W3 | W4 _ | W5 | W6 | W7 | WG | WS _ | P0 _ _ | P1 _ _ | P7 _ | A0 _ _ | A1 _ _ | A2 _ _ | A6 _ | R0 _ _ None | R1 _ _ None | R5 _ None => true | _ => false end.
(** not inside submit, assign or unassign *)
Definition idle (p : pc) : bool :=
  match p with Out | W0 | W1 | W2 | W3 | W4 _ | W5 | W6 | W7 | WG | WS _ => true | _ => false end.
(** not granted a task either *)
Definition asleep_or_out (p : pc) : bool := match p with Out | W0 | W1 | W2 | W3 | W4 _ | W5 | W6 => true | _ => false end.
Definition reachable (be : backend) (cap nv n : nat) (s : st) : Prop := exists l, legal be cap nv (init n) l /\ run be cap nv (init n) l = Ok s.

(** * C24/C22: a worker that was granted work never comes back empty-handed (legal schedules) *)
Theorem C24_granted_finds_work_partial be cap nv n s : reachable be cap nv n s -> forall a, empty s a = 0%nat.
Proof. intros (l & L & R). pose proof (inv_run _ _ _ _ _ _ (inv_init be nv n) L R) as I. apply I. Qed.

(** * C22 between the calls: the counter is the number of waiting tasks *)
Lemma unc_zero s v a : (forall i p, nth_error (th s) i = Some p -> calm p = true) -> sumf (uncf v a) (th s) = 0%nat.
Proof. intros H. apply sumf_zero. intros i p E. specialize (H i p E). destruct p; try discriminate; try reflexivity; destruct k; try discriminate; reflexivity. Qed.
Theorem C22_concurrent_exact_partial be cap nv n s : reachable be cap nv n s -> (forall i p, nth_error (th s) i = Some p -> asleep_or_out p = true) ->
  forall a, tasks (ac s a) = waiting nv s a.
Proof.
  intros (l & L & R) Q a. pose proof (inv_run _ _ _ _ _ _ (inv_init be nv n) L R) as I. pose proof (ac_eq _ _ (i_ac _ _ _ I) a) as E.
  assert (P : perm s a = 0). { unfold perm. destruct (nth_error (th s) a) as [p|] eqn:Ea; auto. specialize (Q _ _ Ea). destruct p; try discriminate; reflexivity. }
  rewrite P, Z.add_0_r in E. rewrite E. apply sumZ_ext. intros v _. unfold credit. rewrite unc_zero; [unfold held, vlen; lia|]. intros i p Ei. specialize (Q _ _ Ei). destruct p; try discriminate; reflexivity.
Qed.
(** the same with granted workers: counter + granted permits = waiting tasks *)
Definition has_permit (p : pc) : bool := match p with W7 | WG | WS _ => true | _ => false end.
Theorem C22_concurrent_permits_partial be cap nv n s : reachable be cap nv n s -> (forall i p, nth_error (th s) i = Some p -> idle p = true) ->
  forall a, tasks (ac s a) + (match nth_error (th s) a with Some p => if has_permit p then 1 else 0 | None => 0 end) = waiting nv s a /\ 0 <= tasks (ac s a).
Proof.
  intros (l & L & R) Q a. pose proof (inv_run _ _ _ _ _ _ (inv_init be nv n) L R) as I. pose proof (ac_eq _ _ (i_ac _ _ _ I) a) as E. split; [|apply I].
  assert (P : perm s a = match nth_error (th s) a with Some p => if has_permit p then 1 else 0 | None => 0 end).
  { unfold perm. destruct (nth_error (th s) a) as [p|] eqn:Ea; auto. specialize (Q _ _ Ea). destruct p; try discriminate; reflexivity. }
  rewrite <- P, E. apply sumZ_ext. intros v _. unfold credit. rewrite unc_zero; [unfold held, vlen; lia|]. intros i p Ei. specialize (Q _ _ Ei). destruct p; try discriminate; reflexivity.
Qed.

(** * C24: with work waiting and nobody in the middle of a call, the worker on its own reaches a task *)
Definition can_run_task (be : backend) (cap nv : nat) (s : st) (a : nat) : Prop :=
  exists l s' t, Forall (fun x => fst x = a) l /\ legal be cap nv s l /\ run be cap nv s l = Ok s' /\ ran s' a = ran s a ++ [t].

Lemma can_step be cap nv s a x s1 : step be cap nv s (a, x) = Ok s1 -> legal1 s (a, x) -> ran s1 a = ran s a -> can_run_task be cap nv s1 a -> can_run_task be cap nv s a.
Proof.
  intros H L E (l & s' & t & F & L' & R & Q). exists ((a, x) :: l), s', t. split; [constructor; auto|]. split; [cbn [legal]; rewrite H; auto|]. split; [cbn [run]; rewrite H; auto|]. now rewrite Q, E.
Qed.
Record ready (be : backend) (nv : nat) (a : nat) (s : st) : Prop := {
  rd_inv : inv be nv s;
  rd_idle : forall i p, nth_error (th s) i = Some p -> calm p = true;
  rd_work : exists v, (v < nv)%nat /\ phys (va s v) = Some a /\ vq (va s v) <> []
}.
Lemma ready_waiting be nv a s : ready be nv a s -> 1 <= tasks (ac s a) + perm s a.
Proof.
  intros [I ID (v & Lv & P & Q)]. rewrite (ac_eq _ _ (i_ac _ _ _ I) a).
  assert (C : forall w, credit s a w = held s a w) by (intros w; unfold credit; rewrite unc_zero by auto; lia).
  rewrite (sumZ_ext _ (held s a)) by auto. assert (IN : In v (seq 0 nv)) by (apply in_seq; lia).
  assert (HV : 1 <= held s a v). { unfold held, vlen. rewrite P, Nat.eqb_refl. destruct (vq (va s v)); [easy|cbn [length]; lia]. }
  apply in_split in IN. destruct IN as (l1 & l2 & ->). rewrite (sumZ_perm _ _ (v :: l1 ++ l2)) by (symmetry; apply Permutation.Permutation_middle). cbn.
  pose proof (sumZ_nonneg (held s a) (l1 ++ l2) (fun w _ => held_nonneg s a w)). lia.
Qed.
Lemma ready_lock be nv a s p : ready be nv a s -> nth_error (th s) a = Some p -> hA a p = None -> afree (ac s a) = true.
Proof.
  intros [I ID _] E N. destruct (afree (ac s a)) eqn:F; auto. exfalso. destruct (i_locks _ _ _ I) as [LA _]. destruct (l_held _ _ _ LA a F) as (j & q & Ej & Hj).
  specialize (ID _ _ Ej). assert (j = a). { destruct q; try discriminate; cbn in Hj; try congruence; destruct k; discriminate. } subst. rewrite E in Ej. inversion Ej; subst. congruence.
Qed.
(** a worker's own step keeps [ready] *)
Lemma ready_step be cap nv a s x s1 p' : ready be nv a s -> legal1 s (a, x) -> step be cap nv s (a, x) = Ok s1 -> th s1 = upd (th s) a p' -> calm p' = true -> va s1 = va s -> ready be nv a s1.
Proof.
  intros [I ID W] L H T IP V. constructor.
  - eapply inv_step; eauto.
  - intros i p E. rewrite T in E. apply nth_upd_cases in E. destruct E as [(_ & -> & _)|(_ & E)]; eauto.
  - rewrite V. exact W.
Qed.

Section Progress.
Variables (be : backend) (cap nv a : nat).
Lemma p_scan s r : ready be nv a s -> nth_error (th s) a = Some (WS r) -> can_run_task be cap nv s a.
Proof using.
  intros RD E. pose proof (ac_scan _ _ (i_ac _ _ _ (rd_inv _ _ _ _ RD)) _ _ r E eq_refl) as S.
  assert (X : exists v, In v r /\ phys (va s v) = Some a /\ vq (va s v) <> []).
  { clear E. revert S. assert (C : forall w, credit s a w = held s a w) by (intros w; unfold credit; rewrite unc_zero by apply RD; lia). induction r as [|v r IH]; cbn; [lia|]. intros S.
    destruct (phys (va s v)) as [b|] eqn:P; [destruct (Nat.eq_dec b a) as [->|Nb]; [destruct (vq (va s v)) as [|t q] eqn:Q|]|].
    - assert (held s a v = 0) by (unfold held, vlen; rewrite P, Nat.eqb_refl, Q; reflexivity). destruct IH as (w & I1 & I2); [rewrite C in S; lia|]. exists w. auto.
    - exists v. rewrite P, Q. split; [auto|split; [auto|discriminate]].
    - assert (held s a v = 0) by (unfold held; rewrite P; apply Nat.eqb_neq in Nb; now rewrite Nb). destruct IH as (w & I1 & I2); [rewrite C in S; lia|]. exists w. auto.
    - assert (held s a v = 0) by (unfold held; now rewrite P). destruct IH as (w & I1 & I2); [rewrite C in S; lia|]. exists w. auto. }
  destruct X as (v & IN & P & Q). destruct (vq (va s v)) as [|t q] eqn:VQ; [easy|].
  exists [(a, Pick v)]. unfold run, step. rewrite E, (existsb_true v r IN), VQ. eexists. exists t. split; [constructor; auto|]. split; [cbn; rewrite E; split; auto; destruct (existsb _ _); [destruct (vq (va s v))|]; auto|]. split; [reflexivity|]. cbn. now rewrite fupd_eq.
Qed.
Ltac adv x Hth := eapply can_step with (x := x); [unfold step; rewrite Hth; reflexivity|unfold legal1; cbn; rewrite Hth; exact I|reflexivity|].
Lemma nth_self s p p' : nth_error (th s) a = Some p -> nth_error (upd (th s) a p') a = Some p'.
Proof using. intros E. apply nth_error_upd_eq. eapply nth_error_lt; eauto. Qed.
Lemma p_wg s : ready be nv a s -> nth_error (th s) a = Some WG -> can_run_task be cap nv s a.
Proof using.
  intros RD E. pose proof (ready_lock _ _ _ _ _ RD E eq_refl) as F.
  assert (H : step be cap nv s (a, Go) = Ok (goto s a (WS (assigned nv s a)))) by (unfold step; rewrite E, F; reflexivity).
  assert (L : legal1 s (a, Go)) by (unfold legal1; cbn; rewrite E; exact I).
  eapply can_step; [exact H|exact L|reflexivity|]. eapply p_scan; [|cbn; eapply nth_self; eauto]. eapply ready_step; eauto; reflexivity.
Qed.
Lemma p_w7 s : ready be nv a s -> nth_error (th s) a = Some W7 -> can_run_task be cap nv s a.
Proof using.
  intros RD E. assert (H : step be cap nv s (a, Go) = Ok (unlocka s a a WG)) by (unfold step; rewrite E; reflexivity).
  assert (L : legal1 s (a, Go)) by (unfold legal1; cbn; rewrite E; exact I).
  eapply can_step; [exact H|exact L|reflexivity|]. eapply p_wg; [|cbn; eapply nth_self; eauto]. eapply ready_step; eauto; reflexivity.
Qed.
Lemma p_w6 s : ready be nv a s -> nth_error (th s) a = Some W6 -> can_run_task be cap nv s a.
Proof using.
  intros RD E. assert (H : step be cap nv s (a, Go) = Ok (goto (addt s a (-1)) a W7)) by (unfold step; rewrite E; reflexivity).
  assert (L : legal1 s (a, Go)) by (unfold legal1; cbn; rewrite E; exact I).
  eapply can_step; [exact H|exact L|reflexivity|]. eapply p_w7; [|cbn; eapply nth_self; eauto]. eapply ready_step; eauto; reflexivity.
Qed.
Lemma tasks_pos s p : ready be nv a s -> nth_error (th s) a = Some p -> granted p = 0 -> 1 <= tasks (ac s a).
Proof using. intros RD E G. pose proof (ready_waiting _ _ _ _ RD) as Q. unfold perm in Q. rewrite E, G in Q. lia. Qed.
Lemma p_w1 s : ready be nv a s -> nth_error (th s) a = Some W1 -> can_run_task be cap nv s a.
Proof using.
  intros RD E. pose proof (tasks_pos _ _ RD E eq_refl) as T. assert (H : step be cap nv s (a, Go) = Ok (goto s a W6)).
  { unfold step. rewrite E. destruct (Z.eqb_spec (tasks (ac s a)) 0); [lia|reflexivity]. }
  assert (L : legal1 s (a, Go)) by (unfold legal1; cbn; rewrite E; exact I).
  eapply can_step; [exact H|exact L|reflexivity|]. eapply p_w6; [|cbn; eapply nth_self; eauto]. eapply ready_step; eauto; reflexivity.
Qed.
Lemma p_lock s p : ready be nv a s -> (p = W0 \/ p = W5) -> nth_error (th s) a = Some p -> can_run_task be cap nv s a.
Proof using.
  intros RD PP E. assert (HA : hA a p = None) by (destruct PP; subst; reflexivity). pose proof (ready_lock _ _ _ _ _ RD E HA) as F.
  assert (H : step be cap nv s (a, Go) = Ok (goto (setac s a (mkacc false (tasks (ac s a)) (sem (ac s a)))) a W1)) by (unfold step, locka; rewrite E; destruct PP; subst; rewrite F; reflexivity).
  assert (L : legal1 s (a, Go)) by (unfold legal1; cbn; rewrite E; destruct PP; subst; exact I).
  eapply can_step; [exact H|exact L|reflexivity|]. eapply p_w1; [|cbn; eapply nth_self; eauto]. eapply ready_step; eauto; reflexivity.
Qed.
Lemma sleeping s p : ready be nv a s -> (p = W3 \/ exists x, p = W4 x) -> nth_error (th s) a = Some p -> be = Spin /\ (1 <= sem (ac s a))%nat.
Proof using.
  intros RD PP E. assert (G : granted p = 0) by (destruct PP as [->|[x ->]]; reflexivity). pose proof (tasks_pos _ _ RD E G) as T.
  destruct (rd_inv _ _ _ _ RD) as [_ _ _ W _ _]. destruct W as [W1 W2]. assert (WK : wake s a). { apply W1. destruct PP as [->|[x ->]]; eauto. }
  destruct WK as [Q|[Q|(k & q & Ek & N)]]; [lia| |exfalso; pose proof (rd_idle _ _ _ _ RD _ _ Ek) as QI; destruct q; try discriminate; destruct k0; discriminate].
  destruct be; auto. specialize (W2 eq_refl a). lia.
Qed.
Lemma p_w3 s : ready be nv a s -> nth_error (th s) a = Some W3 -> can_run_task be cap nv s a.
Proof using.
  intros RD E. destruct (sleeping _ _ RD (or_introl eq_refl) E) as [B S].
  assert (H : step be cap nv s (a, Go) = Ok (goto s a (W4 (sem (ac s a))))). { unfold step. rewrite E, B. apply Nat.leb_le in S. now rewrite S. }
  assert (L : legal1 s (a, Go)) by (unfold legal1; cbn; rewrite E; exact I).
  eapply can_step; [exact H|exact L|reflexivity|]. set (s1 := goto s a (W4 (sem (ac s a)))) in *.
  assert (E1 : nth_error (th s1) a = Some (W4 (sem (ac s1 a)))) by (cbn; eapply nth_self; eauto).
  assert (RD1 : ready be nv a s1) by (eapply ready_step; eauto; reflexivity).
  assert (H1 : step be cap nv s1 (a, Go) = Ok (goto (setac s1 a (mkacc (afree (ac s1 a)) (tasks (ac s1 a)) (sem (ac s1 a) - 1))) a W5)) by (unfold step; rewrite E1, Nat.eqb_refl; reflexivity).
  assert (L1 : legal1 s1 (a, Go)) by (unfold legal1; cbn [fst snd]; rewrite E1; exact I).
  eapply can_step; [exact H1|exact L1|reflexivity|]. eapply p_lock with (p := W5); [|auto|cbn [goto setac th]; eapply nth_self; eauto]. eapply ready_step; eauto; reflexivity.
Qed.
Lemma p_w4 s x : ready be nv a s -> nth_error (th s) a = Some (W4 x) -> can_run_task be cap nv s a.
Proof using.
  intros RD E. assert (L : legal1 s (a, Go)) by (unfold legal1; cbn; rewrite E; exact I). destruct (Nat.eqb (sem (ac s a)) x) eqn:Q.
  - assert (H : step be cap nv s (a, Go) = Ok (goto (setac s a (mkacc (afree (ac s a)) (tasks (ac s a)) (sem (ac s a) - 1))) a W5)) by (unfold step; rewrite E, Q; reflexivity).
    eapply can_step; [exact H|exact L|reflexivity|]. eapply p_lock with (p := W5); [|auto|cbn; eapply nth_self; eauto]. eapply ready_step; eauto; reflexivity.
  - assert (H : step be cap nv s (a, Go) = Ok (goto s a W3)) by (unfold step; rewrite E, Q; reflexivity).
    eapply can_step; [exact H|exact L|reflexivity|]. eapply p_w3; [|cbn; eapply nth_self; eauto]. eapply ready_step; eauto; reflexivity.
Qed.
Lemma progress s p : ready be nv a s -> nth_error (th s) a = Some p -> idle p = true -> can_run_task be cap nv s a.
Proof using.
  intros RD E ID. destruct p; try discriminate; eauto using p_scan, p_wg, p_w7, p_w6, p_w1, p_lock, p_w3, p_w4.
  - assert (H : step be cap nv s (a, Wait) = Ok (goto s a W0)) by (unfold step; rewrite E; reflexivity).
    assert (L : legal1 s (a, Wait)) by exact I.
    eapply can_step; [exact H|exact L|reflexivity|]. eapply p_lock with (p := W0); [|auto|cbn; eapply nth_self; eauto]. eapply ready_step with (p' := W0); eauto; reflexivity.
  - pose proof (tasks_pos _ _ RD E eq_refl). pose proof (i_t _ _ _ (rd_inv _ _ _ _ RD) _ _ E) as T. cbn in T. lia.
Qed.
End Progress.

(** If work waits in a virtual accelerator assigned to [a] and nobody is in the middle of a submit/assign/unassign
    (callers waiting for a lock or for room in a full queue do not count),
    then the worker of [a], wherever it is, gets a task by its own steps alone (nobody has to submit anything). *)
Theorem C24_worker_gets_work_partial be cap nv n s a : reachable be cap nv n s -> (a < n)%nat ->
  (forall p, nth_error (th s) a = Some p -> idle p = true) -> (forall i p, nth_error (th s) i = Some p -> calm p = true) ->
  (exists v, (v < nv)%nat /\ phys (va s v) = Some a /\ vq (va s v) <> []) -> can_run_task be cap nv s a.
Proof.
  intros (l & L & R) La IDA ID W. pose proof (inv_run _ _ _ _ _ _ (inv_init be nv n) L R) as I.
  assert (LEN : forall l s0 s', run be cap nv s0 l = Ok s' -> length (th s') = length (th s0)).
  { clear. induction l as [|[i x] l IH]; intros s0 s'; cbn [run]; intros R; [inversion R; auto|]. apply bind_ok in R. destruct R as (s1 & R1 & R2). rewrite (IH _ _ R2). clear R2 IH.
    destruct (nth_error (th s0) i) as [p|] eqn:E; [|unfold step in R1; rewrite E in R1; inversion R1; auto].
    destruct (step_change _ _ _ _ _ _ _ _ E R1) as [->|(p' & [M|(_ & b & _ & _ & _ & M)] & _)]; auto; rewrite M, ?upd_length; auto. }
  destruct (nth_error (th s) a) as [p|] eqn:E.
  - eapply progress; eauto. constructor; auto.
  - exfalso. apply nth_error_None in E. rewrite (LEN _ _ _ R) in E. cbn in E. rewrite repeat_length in E. lia.
Qed.
(** ... in particular it is not asleep without a wake-up on its way *)
Theorem C24_not_asleep_partial be cap nv n s a : reachable be cap nv n s -> 
  (forall i p, nth_error (th s) i = Some p -> calm p = true) ->
  (exists v, (v < nv)%nat /\ phys (va s v) = Some a /\ vq (va s v) <> []) -> nth_error (th s) a = Some W3 -> be = Spin /\ (1 <= sem (ac s a))%nat.
Proof.
  intros (l & L & R) ID W E. pose proof (inv_run _ _ _ _ _ _ (inv_init be nv n) L R) as I. eapply (sleeping be nv a s W3); auto. constructor; auto.
Qed.

(** * A concrete case: two accelerators, three virtual accelerators, assignments before and after submissions *)
Definition gos (i n : nat) : list (nat * act) := repeat (i, Go) n.
Definition submit (i v t : nat) := (i, Submit v t) :: gos i 8.
Definition assign (i v a : nat) := (i, Assign v a) :: gos i 8.
Definition remove (i v a : nat) := (i, Remove v a) :: gos i 8.
(** the worker waits, is granted a task and takes its snapshot *)
Definition grant (i : nat) := (i, Wait) :: gos i 5.
Definition demo : list (nat * act) :=
  submit 2 0 10 ++ assign 2 0 0 ++ assign 3 1 0 ++ assign 3 2 1 ++ submit 3 1 11 ++ submit 2 2 12 ++ grant 0 ++ [(0%nat, Pick 1)] ++ (1%nat, Wait) :: gos 1 3 ++ submit 2 1 13.
Definition is_ok {A} (x : outcome A) : bool := match x with Ok _ => true | _ => false end.
Definition final be cap nv n l : st := match run be cap nv (init n) l with Ok s => s | _ => init 0 end.
Lemma final_run be cap nv n l : is_ok (run be cap nv (init n) l) = true -> run be cap nv (init n) l = Ok (final be cap nv n l).
Proof. unfold final. destruct (run _ _ _ _ _); cbn; congruence. Qed.
Example demo_ok be : let s := final be 4 3 4 demo in
  reachable be 4 3 4 s /\ forallb idle (th s) = true /\ phys (va s 0) = Some 0%nat /\ vq (va s 0) = [10%nat] /\ vq (va s 1) = [13%nat] /\ vq (va s 2) = [12%nat] /\ tasks (ac s 0) = 2 /\ ran s 0%nat = [11%nat].
Proof.
  cbv zeta. split; [exists demo; split; [|apply final_run; destruct be; vm_compute; reflexivity]|destruct be; vm_compute; auto 20].
  destruct be; vm_compute; repeat split.
Qed.

(** * Both restrictions on the schedules are needed *)
(** only the first restriction: workers look only at virtual accelerators assigned to them *)
Definition fresh1 (s : st) (x : nat * act) : Prop :=
  match snd x, nth_error (th s) (fst x) with Pick v, Some (WS _) => phys (va s v) = Some (fst x) | _, _ => True end.
Fixpoint fresh (be : backend) (cap nv : nat) (s : st) (l : list (nat * act)) : Prop :=
  match l with [] => True | x :: r => fresh1 s x /\ match step be cap nv s x with Ok s' => fresh be cap nv s' r | _ => True end end.
(** only the second one: a virtual accelerator is taken away only when it is empty *)
Definition drained1 (s : st) (x : nat * act) : Prop :=
  match snd x, nth_error (th s) (fst x) with Go, Some (R2 v _ _) => vq (va s v) = [] | _, _ => True end.
Fixpoint drained (be : backend) (cap nv : nat) (s : st) (l : list (nat * act)) : Prop :=
  match l with [] => True | x :: r => drained1 s x /\ match step be cap nv s x with Ok s' => drained be cap nv s' r | _ => True end end.

(** worker on its own: it will never run anything *)
Definition own (x : nat * act) : Prop := match snd x with Go | Spur | Pick _ => True | _ => False end.
Lemma stuck_forever be cap nv a s : tasks (ac s a) = 0 -> (forall i p, nth_error (th s) i = Some p -> if Nat.eqb i a then match p with W1 | W2 | W3 | W4 _ | W5 => True | _ => False end else p = Out) ->
  forall l s', Forall own l -> run be cap nv s l = Ok s' -> ran s' = ran s.
Proof.
  intros T0 S0 l. revert s T0 S0. induction l as [|[i x] l IH]; intros s T S s' F R; cbn [run] in R; [inversion R; auto|].
  apply bind_ok in R. destruct R as (s1 & R1 & R2). inversion F as [|? ? O F']; subst. cbn in O.
  enough (Q : ran s1 = ran s /\ tasks (ac s1 a) = 0 /\ (forall i p, nth_error (th s1) i = Some p -> if Nat.eqb i a then match p with W1 | W2 | W3 | W4 _ | W5 => True | _ => False end else p = Out)).
  { destruct Q as (Q1 & Q2 & Q3). rewrite <- Q1. exact (IH s1 Q2 Q3 _ F' R2). }
  unfold step in R1. destruct (nth_error (th s) i) as [p|] eqn:E; [|inversion R1; subst; auto]. pose proof (S _ _ E) as Si.
  assert (UP : forall p' j q, i = a -> match p' with W1 | W2 | W3 | W4 _ | W5 => True | _ => False end -> nth_error (upd (th s) i p') j = Some q -> if Nat.eqb j a then match q with W1 | W2 | W3 | W4 _ | W5 => True | _ => False end else q = Out).
  { intros p' j q Ei P' H. apply nth_upd_cases in H. destruct H as [(-> & -> & _)|(_ & H)]; [rewrite Ei, Nat.eqb_refl; auto|exact (S _ _ H)]. }
  destruct (Nat.eqb_spec i a) as [->|Ni]; [|subst p; destruct x; try contradiction; inversion R1; subst; auto].
  destruct p; try contradiction; destruct x; try contradiction; try (inversion R1; subst; auto; fail).
  - rewrite T in R1. cbn in R1. inversion R1; subst. split; [reflexivity|split; [exact T|]]. intros j q. apply UP; auto.
  - inversion R1; subst. split; [reflexivity|split; [cbn; rewrite fupd_eq; exact T|]]. intros j q. apply UP; auto.
  - destruct be; [|inversion R1; subst; auto]. destruct (1 <=? _)%nat; inversion R1; subst; auto. split; [reflexivity|split; [exact T|]]. intros j q. apply UP; auto.
  - destruct be; inversion R1; subst; auto. split; [reflexivity|split; [exact T|]]. intros j q. apply UP; auto.
  - destruct (Nat.eqb _ _); inversion R1; subst; (split; [reflexivity|split; [cbn; rewrite ?fupd_eq; exact T|]]); intros j q; apply UP; auto.
  - unfold locka in R1. destruct (afree (ac s a)); inversion R1; subst; auto. split; [reflexivity|split; [cbn; rewrite fupd_eq; exact T|]]. intros j q. apply UP; auto.
Qed.

(** Taking away a virtual accelerator with waiting tasks (as HeterogeneousScheduler.cpp:150-158 does when the head
    task has no implementation) while somebody is in the middle of a submission: one task is then forgotten.
    Accelerator 0; virtual accelerators 0 (two tasks) and 1.  Thread 1 has pushed task 20 on virtual accelerator 1 but not yet counted it. *)
Definition bad_removal : list (nat * act) :=
  assign 2 0 0 ++ assign 2 1 0 ++ submit 2 0 10 ++ submit 2 0 11
  ++ [(1%nat, Submit 1 20)] ++ gos 1 2                       (* pushed, not counted *)
  ++ grant 0 ++ [(0%nat, Pick 1)]                            (* worker: runs 20 *)
  ++ grant 0 ++ [(0%nat, Remove 0 0)] ++ gos 0 6             (* worker: granted, gives virtual accelerator 0 back *)
  ++ [(0%nat, Pick 1)] ++ gos 0 1                            (* finds nothing; counter is -1 (a huge size_t) *)
  ++ grant 0 ++ [(0%nat, Pick 1)] ++ gos 0 1                 (* granted again, nothing; counter -2 *)
  ++ gos 1 8                                                 (* thread 1 counts its task: -1 *)
  ++ submit 2 1 30                                           (* a new task: counter 0 *)
  ++ [(0%nat, Wait)] ++ gos 0 3.                             (* the worker goes to sleep *)
Theorem C24_nonempty_removal_refuted be : exists l s, fresh be 8 2 (init 3) l /\ run be 8 2 (init 3) l = Ok s /\
  forallb idle (th s) = true /\ phys (va s 1) = Some 0%nat /\ vq (va s 1) = [30%nat] /\
  (forall l' s', Forall own l' -> run be 8 2 s l' = Ok s' -> ran s' = ran s).
Proof.
  exists bad_removal, (final be 8 2 3 bad_removal). split; [destruct be; vm_compute; repeat split|]. split; [apply final_run; destruct be; vm_compute; reflexivity|].
  split; [destruct be; vm_compute; reflexivity|]. split; [destruct be; vm_compute; reflexivity|]. split; [destruct be; vm_compute; reflexivity|].
  apply (stuck_forever be 8 2 0). destruct be; vm_compute; reflexivity.
  intros i p E. assert (L : (i < 3)%nat). { apply nth_error_lt in E. destruct be; vm_compute in E; lia. }
  destruct i as [|[|[|i]]]; try lia; destruct be; vm_compute in E; inversion E; subst; vm_compute; auto.
Qed.

(** A worker that uses a stale snapshot (ElasticScheduler.cpp:66-69 moves virtual accelerators from another thread):
    it takes the task of another accelerator, whose worker is then granted work that is not there. *)
Definition stale_pick : list (nat * act) :=
  assign 2 0 0 ++ assign 2 1 0 ++ submit 2 1 11 ++ (* work on virtual accelerator 1 *)
  grant 0 ++                                       (* worker 0: snapshot [0; 1] *)
  remove 2 0 0 ++ assign 2 0 1 ++ submit 2 0 10 ++ (* virtual accelerator 0 (empty) moves to accelerator 1 and gets a task *)
  [(0%nat, Pick 0)] ++                             (* worker 0 takes it *)
  grant 1 ++ [(1%nat, Pick 0)] ++ gos 1 1 ++       (* worker 1 is granted work, finds nothing *)
  [(0%nat, Wait)] ++ gos 0 3.                      (* worker 0 goes to sleep although 11 waits *)
Theorem C24_stale_snapshot_refuted be : exists l s, drained be 8 2 (init 3) l /\ run be 8 2 (init 3) l = Ok s /\
  forallb idle (th s) = true /\ ran s 0%nat = [10%nat] /\ phys (va s 0) = Some 1%nat /\ empty s 1%nat = 1%nat /\
  phys (va s 1) = Some 0%nat /\ vq (va s 1) = [11%nat] /\
  (forall l' s', Forall own l' -> run be 8 2 s l' = Ok s' -> ran s' = ran s).
Proof.
  exists stale_pick, (final be 8 2 3 stale_pick). split; [destruct be; vm_compute; repeat split|]. split; [apply final_run; destruct be; vm_compute; reflexivity|].
  split; [destruct be; vm_compute; reflexivity|]. split; [destruct be; vm_compute; reflexivity|]. split; [destruct be; vm_compute; reflexivity|]. split; [destruct be; vm_compute; reflexivity|].
  split; [destruct be; vm_compute; reflexivity|]. split; [destruct be; vm_compute; reflexivity|].
  apply (stuck_forever be 8 2 0). destruct be; vm_compute; reflexivity.
  intros i p E. assert (L : (i < 3)%nat). { apply nth_error_lt in E. destruct be; vm_compute in E; lia. }
  destruct i as [|[|[|i]]]; try lia; destruct be; vm_compute in E; inversion E; subst; vm_compute; auto.
Qed.

(** * C44: submitting to a full, unassigned virtual accelerator *)
(** The submitter retries the push while holding the virtual accelerator's lock (arax_vaccel.c:34-38), which assigning
    needs (arax_accel.c:120).  [wedged]: thread [i] is submitting [t] to [v], whose queue is full, and nobody serves [v]. *)
Definition wedged (cap : nat) (s : st) (i v t : nat) : Prop := nth_error (th s) i = Some (P1 v t) /\ length (vq (va s v)) = cap /\ phys (va s v) = None.
Lemma wedge_step be cap nv s x s' i v t : locks s -> fresh1 s x -> wedged cap s i v t -> step be cap nv s x = Ok s' -> wedged cap s' i v t.
Proof.
  intros [LA LV] FR (E & Q & P) H. destruct x as [j a]. destruct (nth_error (th s) j) as [p|] eqn:Ej; [|unfold step in H; rewrite Ej in H; inversion H; subst; split; auto].
  destruct (Nat.eq_dec j i) as [->|Nj].
  - rewrite E in Ej. inversion Ej; subst p. unfold step in H. rewrite E in H. destruct a; try (inversion H; subst; split; auto; fail). rewrite Q, Nat.ltb_irrefl in H. inversion H; subst. split; auto.
  - destruct (step_change be cap nv s j a p s' Ej H) as [->|(p' & M & C)]; [split; auto|].
    assert (NV : hV j p <> Some v). { intros HV. apply Nj. eapply (l_one _ _ _ LV); eauto. }
    split; [eapply moved_back; eauto; discriminate|].
    destruct C as [p p' H1 H2 N N1 N2 N3 N4 N5 HM|w u A V _|w c A V|p p' c N V TT SP MU HM|w c n Hn A V|w c k n Hn PH A V|A V|y A V _|r w u q A IN VQ V].
    + rewrite (proj1 (H2 v)), (proj2 (H2 v)). auto.
    + rewrite V. rewrite fupd_ne; auto. cbn in NV. congruence.
    + rewrite V. auto.
    + rewrite V. auto.
    + rewrite V. rewrite fupd_ne; auto. cbn in NV. congruence.
    + rewrite V. rewrite fupd_ne; auto. cbn in NV. congruence.
    + rewrite V. auto.
    + rewrite V. auto.
    + destruct (Nat.eq_dec w v) as [->|Nw]; [|rewrite V, fupd_ne by auto; auto]. exfalso.
      unfold fresh1 in FR. cbn in FR. rewrite Ej in FR. unfold step in H. rewrite Ej in H.
      assert (QQ : vq (va s' v) <> vq (va s v)) by (rewrite V, fupd_eq, VQ; cbn; intros Z; apply (f_equal (@length nat)) in Z; cbn in Z; lia).
      destruct a; try (inversion H; subst; auto; fail).
      * destruct (_ && _); [|inversion H; subst; auto]. destruct (phys (va s v0)) as [c|]; [|discriminate]. destruct (Nat.eqb c a); [|discriminate]. inversion H; subst; auto.
      * destruct (Nat.eq_dec v0 v) as [->|Nv]; [congruence|]. apply QQ. destruct (existsb (Nat.eqb v0) r); [|inversion H; subst; auto]. destruct (vq (va s v0)); inversion H; subst; cbn; auto. now rewrite fupd_ne by auto.
      * destruct r; inversion H; subst; auto.
Qed.
(** once wedged, wedged for ever: the submission never ends and no assignment of [v] ever takes effect *)
Theorem C44_wedged_forever_refuted be cap nv n l0 s0 : run be cap nv (init n) l0 = Ok s0 ->
  forall i v t l s, wedged cap s0 i v t -> fresh be cap nv s0 l -> run be cap nv s0 l = Ok s -> wedged cap s i v t.
Proof.
  intros R0 i v t l. assert (LK : locks s0).
  { clear -R0. assert (I0 : locks (init n)) by apply (inv_init be nv n). revert I0 R0. generalize (init n). induction l0 as [|x l0 IH]; cbn [run]; intros s L R; [inversion R; now subst|].
    apply bind_ok in R. destruct R as (s1 & R1 & R2). eapply IH; [|exact R2]. eapply step_locks; eauto. }
  clear R0. revert s0 LK. induction l as [|x l IH]; intros s0 LK s W F R; cbn [run] in R; [inversion R; now subst|]. destruct F as [F1 F2]. apply bind_ok in R. destruct R as (s1 & R1 & R2). rewrite R1 in F2.
  eapply (IH s1); eauto using step_locks, wedge_step.
Qed.
(** reachable for every capacity: submit [cap]+1 tasks to a virtual accelerator nobody serves yet *)
Lemma run_cons be cap nv s x l s1 r : step be cap nv s x = Ok s1 -> run be cap nv s1 l = r -> run be cap nv s (x :: l) = r.
Proof. intros H R. cbn [run]. now rewrite H. Qed.
Lemma submit_run be cap s t : (th s = [Out; Out]) -> vfree (va s 0) = true -> phys (va s 0) = None -> (length (vq (va s 0)) < cap)%nat ->
  exists s', run be cap 1 s (submit 0 0 t) = Ok s' /\ th s' = [Out; Out] /\ vfree (va s' 0) = true /\ phys (va s' 0) = None /\ vq (va s' 0) = vq (va s 0) ++ [t].
Proof.
  intros T F P L. apply Nat.ltb_lt in L. destruct s as [A V T0 R E]. cbn [th va] in T, F, P, L. subst T0.
  unfold submit, gos. cbn [repeat]. eexists. split.
  - eapply run_cons; [unfold step; cbn [th nth_error]; reflexivity|].
    eapply run_cons; [unfold step; cbn [th goto nth_error upd]; unfold lockv; cbn [va goto]; rewrite F; reflexivity|].
    eapply run_cons; [unfold step; cbn [th goto nth_error upd setva va]; rewrite !fupd_eq; cbn [vq]; rewrite L; reflexivity|].
    eapply run_cons; [unfold step; cbn [th goto nth_error upd setva va]; rewrite !fupd_eq; cbn [phys]; rewrite P; reflexivity|].
    eapply run_cons; [unfold step; cbn [th goto nth_error upd setva va]; reflexivity|].
    reflexivity.
  - unfold fupd. cbn. change (0 =? 0)%nat with true. cbn. change (0 =? 0)%nat with true. cbn. auto.
Qed.
Lemma fill_run be cap k : forall s, (th s = [Out; Out]) -> vfree (va s 0) = true -> phys (va s 0) = None -> (length (vq (va s 0)) + k <= cap)%nat ->
  exists l s', run be cap 1 s l = Ok s' /\ th s' = [Out; Out] /\ vfree (va s' 0) = true /\ phys (va s' 0) = None /\ (length (vq (va s' 0)) = length (vq (va s 0)) + k)%nat.
Proof.
  induction k as [|k IH]; intros s T F P L; [exists [], s; cbn; rewrite Nat.add_0_r; auto|].
  destruct (submit_run be cap s 7%nat T F P ltac:(lia)) as (s1 & R1 & T1 & F1 & P1' & Q1). destruct (IH s1 T1 F1 P1') as (l & s' & R & T' & F' & P' & Q'); [rewrite Q1, app_length; cbn; lia|].
  exists (submit 0 0 7 ++ l), s'. split; [|split; [auto|split; [auto|split; [auto|rewrite Q', Q1, app_length; cbn; lia]]]].
  clear -R1 R. revert s R1. generalize (submit 0 0 7). induction l0 as [|x l0 IHl]; cbn [app run]; intros s R1; [inversion R1; now subst|].
  apply bind_ok in R1. destruct R1 as (s2 & Q1 & Q2). rewrite Q1. cbn [bind]. eauto.
Qed.
Theorem C44_reachable_refuted be cap t : exists l s, run be cap 1 (init 2) l = Ok s /\ wedged cap s 0 0 t.
Proof.
  destruct (fill_run be cap cap (init 2) eq_refl eq_refl eq_refl ltac:(cbn; lia)) as (l & s & R & T & F & P & Q). cbn in Q.
  destruct s as [A V T0 RR E]. cbn [th va] in T, F, P, Q. subst T0. exists (l ++ [(0%nat, Submit 0 t); (0%nat, Go)]).
  eexists. split.
  - assert (APP : forall l1 l2 s0 s1, run be cap 1 s0 l1 = Ok s1 -> run be cap 1 s0 (l1 ++ l2) = run be cap 1 s1 l2).
    { clear. induction l1 as [|x l1 IH]; cbn [app run]; intros l2 s0 s1 R; [inversion R; now subst|]. apply bind_ok in R. destruct R as (s2 & Q1 & Q2). rewrite Q1. cbn [bind]. eauto. }
    rewrite (APP _ _ _ _ R).
    eapply run_cons; [unfold step; cbn [th nth_error]; reflexivity|].
    eapply run_cons; [unfold step; cbn [th goto nth_error upd]; unfold lockv; cbn [va goto]; rewrite F; reflexivity|].
    reflexivity.
  - split; [reflexivity|]. cbn. rewrite fupd_eq. cbn. auto.
Qed.
