(** Property C65: everything submitted is eventually taken by a worker.  Fair executions of the system of [WorkModel]: any number of
    clients in the middle of submitting, one worker per physical accelerator, both condition back-ends.

    Code modelled: that of [WorkModel], of which this is a scheduler:
    - [src/core/arax_vaccel.c:32-39]                    arax_vaccel_add_task
    - [src/core/arax_accel.c:26-44]                     arax_accel_wait_for_task, arax_accel_add_task
    - [controller/src/Core/accelThread.cpp:351-367, 477-490]  the worker's loop
    - [src/async/spin/async.c:44-84], [src/async/mutex/async.c:69-87]  the conditions *)
From Verif Require Import Base Sums Throttle WorkModel WorkProof WorkInv WorkProps.
From Coq Require Import Lia.
Arguments Nat.eqb : simpl never. Arguments Nat.ltb : simpl never. Arguments Nat.leb : simpl never. Arguments Nat.mul : simpl never. Arguments Nat.modulo : simpl never.

(** ** Schedules *)
(** [Turn i k]: thread [i] makes its next step; a worker that looks for work looks next at number [k] (modulo how many are left) of
    the virtual accelerators it has not looked at.  [Spurious i]: a spurious wake-up, if thread [i] sleeps (pthread_cond_wait). *)
Inductive turn := Turn (i k : nat) | Spurious (i : nat).
(** The next step of thread [i]: a worker ([i < nw]) that has nothing to do waits for work, accelThread.cpp:351-367; a client that is not
    in a call does nothing. *)
Definition next (nw : nat) (s : st) (i k : nat) : option act :=
  match nth_error (th s) i with
  | None => None
  | Some Out => if (i <? nw)%nat then Some Wait else None
  | Some (WS (v :: r)) => Some (Pick (nth (k mod length (v :: r)) (v :: r) v))
  | Some _ => Some Go
  end.
(** one turn, accelThread.cpp:351-367 and arax_vaccel.c:32-39 *)
Definition take (be : backend) (cap nv nw : nat) (s : st) (x : turn) : outcome st :=
  match x with
  | Turn i k => match next nw s i k with Some a => step be cap nv s (i, a) | None => Ok s end
  | Spurious i => step be cap nv s (i, Spur)
  end.
(** a sequence of turns; no code of its own, accelThread.cpp:351-367 *)
Fixpoint turns (be : backend) (cap nv nw : nat) (s : st) (l : list turn) : outcome st :=
  match l with [] => Ok s | x :: r => do s' <- take be cap nv nw s x; turns be cap nv nw s' r end.

(** ** Specification *)
(** In a round everybody has at least one turn. *)
Definition fair (n : nat) (r : list turn) : Prop := forall i, (i < n)%nat -> exists k, In (Turn i k) r.
Definition spurious (l : list turn) : nat := length (filter (fun x => match x with Spurious _ => true | _ => false end) l).
(** The assignments are made: every virtual accelerator is assigned to an accelerator that has a worker, no thread is assigning or
    unassigning, the workers are the threads below [nw], the others are clients that submit, and a worker that is looking for work looks at what is assigned to it. *)
Definition at_ok (nw : nat) (s : st) (i : nat) (p : pc) : Prop :=
  match p with
  | Out => True
  | P0 _ _ | P1 _ _ | P2 _ _ | P3 _ _ | P4 _ _ | P5 _ _ | P6 _ _ | P7 _ => (nw <= i)%nat
  | W0 | W1 | W2 | W3 | W4 _ | W5 | W6 | W7 | WG => (i < nw)%nat
  | WS r => (i < nw)%nat /\ forall v, In v r -> phys (va s v) = Some i
  | _ => False
  end.
Definition settled (nw nv : nat) (s : st) : Prop :=
  (forall v, (v < nv)%nat -> exists b, (b < nw)%nat /\ phys (va s v) = Some b) /\ forall i p, nth_error (th s) i = Some p -> at_ok nw s i p.
(** Task [t] was submitted to [v] and not yet taken: it is in the queue, or its submitter has not yet put it there. *)
Definition pending (s : st) (v t : nat) : Prop :=
  In t (vq (va s v)) \/ exists i, nth_error (th s) i = Some (P0 v t) \/ nth_error (th s) i = Some (P1 v t).
Definition submitting (p : pc) : bool := match p with P0 _ _ | P1 _ _ | P2 _ _ | P3 _ _ | P4 _ _ | P5 _ _ | P6 _ _ | P7 _ => true | _ => false end.
(** Nothing waits and nobody is submitting. *)
Definition drained_ (nv : nat) (s : st) : Prop := (forall v, (v < nv)%nat -> vq (va s v) = []) /\ forall i p, nth_error (th s) i = Some p -> submitting p = false.

(** ** The measure *)
Fixpoint sums (f : nat -> nat) (n : nat) : nat := match n with O => 0 | S k => sums f k + f k end%nat.
Lemma sums_ext f g n : (forall i, (i < n)%nat -> f i = g i) -> sums f n = sums g n.
Proof. induction n as [|n IH]; cbn [sums]; intros H; [reflexivity|]. rewrite IH, H by auto with arith. reflexivity. Qed.
Lemma sums_one f g n i : (i < n)%nat -> (forall j, j <> i -> f j = g j) -> (sums f n + g i = sums g n + f i)%nat.
Proof.
  induction n as [|n IH]; intros L H; [lia|]. cbn [sums]. destruct (Nat.eq_dec i n) as [->|N].
  - rewrite (sums_ext f g n); [lia|]. intros j J. apply H. lia.
  - specialize (IH ltac:(lia) H). rewrite (H n) by auto. lia.
Qed.
Section Measure.
Variables (be : backend) (cap nv nw : nat).
Definition Y : nat := (nv + 9)%nat.
Definition Tq : nat := (nv + 8)%nat.
Definition outw (i : nat) : nat := if (i <? nw)%nat then (nv + 7)%nat else 0%nat.
Definition rank (i : nat) (p : pc) : nat :=
  match p with
  | Out => outw i
  | P0 _ _ => outw i + Tq + Y + 13 | P1 _ _ => outw i + Tq + Y + 12 | P2 _ _ => outw i + Y + 11 | P3 _ _ => outw i + Y + 10 | P4 _ _ => outw i + Y + 9
  | P5 _ _ => outw i + Y + 8 | P6 _ _ => outw i + 2 | P7 _ => outw i + 1
  | W0 | W5 => nv + 6 | W1 => nv + 5 | W2 => 1 | W6 => nv + 4 | W7 => nv + 3 | WG => nv + 2 | WS r => 1 + length r
  | _ => 0
  end%nat.
Definition wt (i : nat) (p : pc) (k : nat) : nat :=
  match p with W4 x => if Nat.eqb k x then Y * (k - 1) + nv + 8 else Y * k + 1 | _ => Y * k + rank i p end%nat.
Definition wof (s : st) (i : nat) : nat := match nth_error (th s) i with Some p => wt i p (sem (ac s i)) | None => 0%nat end.
Definition qof (s : st) (v : nat) : nat := length (vq (va s v)).
Definition m (s : st) : nat := (sums (wof s) (length (th s)) + Tq * sums (qof s) nv)%nat.
Lemma m_goto s i p p' : nth_error (th s) i = Some p -> (m (goto s i p') + wt i p (sem (ac s i)) = m s + wt i p' (sem (ac s i)))%nat.
Proof.
  intros E. pose proof (nth_error_lt _ _ _ E) as L. unfold m. cbn [goto th va]. rewrite upd_length.
  change (qof (goto s i p')) with (qof s). pose proof (sums_one (wof (goto s i p')) (wof s) (length (th s)) i L) as H.
  assert (H1 : wof (goto s i p') i = wt i p' (sem (ac s i))) by (unfold wof; cbn [goto th ac]; rewrite nth_error_upd_eq by exact L; reflexivity).
  assert (H2 : wof s i = wt i p (sem (ac s i))) by (unfold wof; rewrite E; reflexivity). rewrite H1, H2 in H.
  assert (H3 : forall j, j <> i -> wof (goto s i p') j = wof s j) by (intros j N; unfold wof; cbn [goto th ac]; rewrite nth_error_upd_ne by auto; reflexivity).
  specialize (H H3). lia.
Qed.
Lemma m_setac s a x : sem x = sem (ac s a) -> m (setac s a x) = m s.
Proof.
  intros E. unfold m. cbn [setac th va]. change (qof (setac s a x)) with (qof s). f_equal. apply sums_ext. intros i _. unfold wof. cbn [setac th ac].
  destruct (nth_error (th s) i); [|reflexivity]. f_equal. unfold fupd. destruct (Nat.eqb_spec i a) as [->|]; [exact E | reflexivity].
Qed.
Lemma m_setva s v x : (v < nv)%nat -> (m (setva s v x) + Tq * length (vq (va s v)) = m s + Tq * length (vq x))%nat.
Proof.
  intros L. unfold m. cbn [setva th]. change (wof (setva s v x)) with (wof s). pose proof (sums_one (qof (setva s v x)) (qof s) nv v L) as H.
  assert (H1 : qof (setva s v x) v = length (vq x)) by (unfold qof; cbn [setva va]; rewrite fupd_eq; reflexivity). rewrite H1 in H. change (qof s v) with (length (vq (va s v))) in H.
  assert (H3 : forall j, j <> v -> qof (setva s v x) j = qof s j) by (intros j N; unfold qof; cbn [setva va]; rewrite fupd_ne by auto; reflexivity). specialize (H H3).
  nia.
Qed.
Lemma m_setva_same s v x : vq x = vq (va s v) -> m (setva s v x) = m s.
Proof.
  intros E. unfold m. cbn [setva th]. change (wof (setva s v x)) with (wof s). do 2 f_equal. apply sums_ext. intros w _. unfold qof. cbn [setva va]. unfold fupd. destruct (Nat.eqb_spec w v) as [->|]; [now rewrite E | reflexivity].
Qed.
Lemma m_notify s b : (m (notify be s b) <= m s + Y + 2)%nat.
Proof.
  unfold notify. destruct be.
  - destruct (Nat.lt_ge_cases b (length (th s))) as [L|L].
    + unfold m. cbn [setac th va]. set (s' := setac s b _). change (qof s') with (qof s).
      pose proof (sums_one (wof s') (wof s) (length (th s)) b L) as H.
      assert (H3 : forall j, j <> b -> wof s' j = wof s j) by (intros j N; unfold wof; cbn [s' setac th ac]; rewrite fupd_ne by auto; reflexivity). specialize (H H3).
      assert (H4 : (wof s' b <= wof s b + Y + 2)%nat); [|lia]. unfold wof. cbn [s' setac th ac]. rewrite fupd_eq. cbn [sem]. destruct (nth_error (th s) b) as [p|]; [|lia].
      set (k := sem (ac s b)). destruct p; cbn [wt]; unfold Y; try nia. destruct (Nat.eqb_spec (S k) x), (Nat.eqb_spec k x); try lia; destruct k; nia.
    + assert (E : m (setac s b (mkacc (afree (ac s b)) (tasks (ac s b)) (S (sem (ac s b))))) = m s); [|lia].
      unfold m. cbn [setac th va]. set (s' := setac s b _). change (qof s') with (qof s). f_equal. apply sums_ext. intros i I. unfold wof. cbn [s' setac th ac]. rewrite fupd_ne by lia. reflexivity.
  - destruct (nth_error (th s) b) as [[]|] eqn:E; try lia. pose proof (m_goto s b _ W5 E) as H. cbn [wt rank] in H. unfold Y in *. lia.
Qed.
End Measure.

(** ** One turn *)
Section OneTurn.
Variables (be : backend) (cap nv nw : nat).
Definition kept (s s' : st) : Prop := (forall v, phys (va s' v) = phys (va s v)) /\
  forall v t b, phys (va s v) = Some b -> pending s v t \/ In t (ran s b) -> pending s' v t \/ In t (ran s' b).
Lemma kept_refl s : kept s s.
Proof. split; auto. Qed.
Lemma kept_trans s s1 s2 : kept s s1 -> kept s1 s2 -> kept s s2.
Proof. intros (A & B) (C & D). split; [intros v; rewrite C, A; reflexivity|]. intros v t b P H. apply D; [rewrite A; exact P | apply B; assumption]. Qed.
Lemma kept_goto s i p p' : nth_error (th s) i = Some p -> (match p with P0 _ _ | P1 _ _ => False | _ => True end) -> kept s (goto s i p').
Proof.
  intros E H. split; [reflexivity|]. intros v t b _ [[K | (j & K)] | K]; [left; left; exact K | | right; exact K]. left. right. exists j. cbn [goto th].
  assert (N : j <> i) by (intros ->; rewrite E in K; destruct K as [K | K]; injection K as ->; exact H). rewrite nth_error_upd_ne by auto. exact K.
Qed.
Lemma kept_setac s a x : kept s (setac s a x).
Proof. split; [reflexivity|]. intros v t b _ H. exact H. Qed.
Lemma kept_setva s v x : vq x = vq (va s v) -> phys x = phys (va s v) -> kept s (setva s v x).
Proof.
  intros E1 E2. split; [intros w; cbn [setva va]; unfold fupd; destruct (Nat.eqb_spec w v) as [->|]; auto|].
  intros w t b _ [[K | K] | K]; [| left; right; exact K | right; exact K]. left. left. cbn [setva va]. unfold fupd. destruct (Nat.eqb_spec w v) as [->|]; [rewrite E1; exact K | exact K].
Qed.
Lemma kept_notify s b : kept s (notify be s b).
Proof. unfold notify. destruct be; [apply kept_setac|]. destruct (nth_error (th s) b) as [[]|] eqn:E; try apply kept_refl. apply (kept_goto _ _ _ _ E). exact I. Qed.
Lemma at_phys s s' i p : (forall v, phys (va s' v) = phys (va s v)) -> at_ok nw s i p -> at_ok nw s' i p.
Proof. intros H. destruct p; cbn [at_ok]; auto. intros (A & B). split; [exact A|]. intros v K. rewrite H. apply B, K. Qed.
Lemma set_goto s i p : settled nw nv s -> at_ok nw s i p -> settled nw nv (goto s i p).
Proof.
  intros (A & B) H. split; [exact A|]. intros j q E. cbn [goto th] in E. apply (at_phys s); [reflexivity|]. apply nth_upd_cases in E. destruct E as [(-> & -> & _) | (_ & E)]; [exact H | apply B, E].
Qed.
Lemma set_setac s a x : settled nw nv s -> settled nw nv (setac s a x).
Proof. intros (A & B). split; [exact A|]. intros j q E. apply (at_phys s); [reflexivity|]. apply B, E. Qed.
Lemma set_setva s v x : phys x = phys (va s v) -> settled nw nv s -> settled nw nv (setva s v x).
Proof.
  intros E0 (A & B). assert (PH : forall w, phys (va (setva s v x) w) = phys (va s w)) by (intros w; cbn [setva va]; unfold fupd; destruct (Nat.eqb_spec w v) as [->|]; auto).
  split; [intros w L; rewrite PH; apply A, L|]. intros j q E. apply (at_phys s); [exact PH|]. apply B, E.
Qed.
Lemma set_notify s b : settled nw nv s -> settled nw nv (notify be s b).
Proof. intros S. unfold notify. destruct be; [apply set_setac, S|]. destruct (nth_error (th s) b) as [[]|] eqn:E; auto. apply set_goto; [exact S|]. apply (proj2 S) in E. exact E. Qed.
Lemma dr_goto s i p : drained_ nv s -> submitting p = false -> drained_ nv (goto s i p).
Proof. intros (A & B) H. split; [exact A|]. intros j q E. cbn [goto th] in E. apply nth_upd_cases in E. destruct E as [(-> & -> & _) | (_ & E)]; [exact H | apply (B _ _ E)]. Qed.
Lemma dr_setac s a x : drained_ nv s -> drained_ nv (setac s a x).
Proof. intros H. exact H. Qed.

Record good (s s' : st) : Prop := {
  g_set : settled nw nv s'; g_kept : kept s s'; g_dr : drained_ nv s -> drained_ nv s'; g_m : s' = s \/ (m nv nw s' < m nv nw s)%nat }.
Lemma good_refl s : settled nw nv s -> good s s.
Proof. intros S. constructor; auto. apply kept_refl. Qed.
Lemma not_dr s i p : nth_error (th s) i = Some p -> submitting p = true -> drained_ nv s -> False.
Proof. intros E H (_ & D). rewrite (D _ _ E) in H. discriminate. Qed.
Ltac gt S := apply (set_goto _ _ _ S).
Lemma nth_mod_in k v (r : list nat) : In (nth (k mod length (v :: r)) (v :: r) v) (v :: r).
Proof. apply nth_In. apply Nat.mod_upper_bound. discriminate. Qed.
Lemma drop1_len v r : In v r -> S (length (drop1 v r)) = length r.
Proof. induction r as [|y r IH]; cbn; intros H; [easy|]. destruct (Nat.eqb_spec y v) as [->|N]; [reflexivity|]. destruct H as [->|H]; [easy|]. cbn [length]. rewrite IH by exact H. reflexivity. Qed.

Lemma turn_good s i k : inv be nv s -> settled nw nv s -> exists s', take be cap nv nw s (Turn i k) = Ok s' /\ inv be nv s' /\ good s s'.
Proof.
  intros IV S. cbn [take]. unfold next. destruct (nth_error (th s) i) as [p|] eqn:E; [|exists s; split; [reflexivity|]; split; [exact IV | apply good_refl, S]].
  pose proof (proj2 S _ _ E) as AT. pose proof (i_t _ _ _ IV _ _ E) as TI.
  assert (FIN : forall a s', step be cap nv s (i, a) = Ok s' -> legal1 s (i, a) -> good s s' -> exists s', step be cap nv s (i, a) = Ok s' /\ inv be nv s' /\ good s s').
  { intros a s' E1 L G. exists s'. split; [exact E1|]. split; [apply (inv_step _ _ _ _ _ _ IV L E1) | exact G]. }
  destruct p; cbn [at_ok] in AT; try contradiction; cbn [tinv] in TI.
  - (* Out *) destruct (Nat.ltb_spec i nw) as [L|L]; [|exists s; split; [reflexivity|]; split; [exact IV | apply good_refl, S]].
    eapply FIN; [unfold step; rewrite E; reflexivity | exact I|]. constructor; [gt S; exact L | apply (kept_goto _ _ _ _ E I) | intros D; apply dr_goto; auto | right].
    pose proof (m_goto nv nw s i _ W0 E) as H. cbn [wt rank] in H. unfold outw in H. destruct (Nat.ltb_spec i nw); lia.
  - (* P0 *) destruct (vfree (va s v)) eqn:F.
    + eapply FIN; [unfold step, lockv; rewrite E, F; reflexivity | unfold legal1; cbn [fst snd]; rewrite E; exact I|]. set (x := mkvac _ _ _).
      constructor; [gt (set_setva s v x eq_refl S); exact AT | | intros D; exfalso; apply (not_dr _ _ _ E eq_refl D) | right].
      * split; [apply (kept_setva s v x); reflexivity|]. intros w t0 b P [[K | (j & K)] | K]; [left; left | left; right | right; exact K].
        { cbn [goto va setva]. unfold fupd. destruct (Nat.eqb_spec w v) as [->|]; exact K. }
        exists j. cbn [goto th setva]. destruct (Nat.eq_dec j i) as [->|N]; [|rewrite nth_error_upd_ne by auto; exact K]. rewrite E in K. rewrite nth_error_upd_eq by (apply (nth_error_lt _ _ _ E)).
        destruct K as [K|K]; [injection K as <- <-; right; reflexivity | discriminate].
      * pose proof (m_goto nv nw (setva s v x) i _ (P1 v t) E) as H. rewrite (m_setva_same nv nw s v x eq_refl) in H. cbn [wt rank setva ac] in H. lia.
    + eapply FIN; [unfold step, lockv; rewrite E, F; reflexivity | unfold legal1; cbn [fst snd]; rewrite E; exact I | apply good_refl, S].
  - (* P1 *) destruct (Nat.ltb_spec (length (vq (va s v))) cap) as [L|L].
    + eapply FIN; [unfold step; rewrite E; apply Nat.ltb_lt in L; rewrite L; reflexivity | unfold legal1; cbn [fst snd]; rewrite E; exact I|]. set (x := mkvac _ _ _).
      constructor; [gt (set_setva s v x eq_refl S); exact AT | | intros D; exfalso; apply (not_dr _ _ _ E eq_refl D) | right].
      * split; [intros w; cbn [goto va setva]; unfold fupd; destruct (Nat.eqb_spec w v) as [->|]; reflexivity|]. intros w t0 b P [[K | (j & K)] | K]; [left; left | left | right; exact K].
        { cbn [goto va setva]. unfold fupd. destruct (Nat.eqb_spec w v) as [->|]; [cbn [x vq]; apply in_or_app; left; exact K | exact K]. }
        destruct (Nat.eq_dec j i) as [->|N]; [left | right; exists j; cbn [goto th setva]; rewrite nth_error_upd_ne by auto; exact K].
        rewrite E in K. destruct K as [K|K]; [discriminate|]. injection K as <- <-. cbn [goto va setva]. rewrite fupd_eq. cbn [x vq]. apply in_or_app. right. left. reflexivity.
      * pose proof (m_goto nv nw (setva s v x) i _ (P2 v (phys (va s v))) E) as H. pose proof (m_setva nv nw s v x TI) as H2. cbn [x vq] in H2. rewrite app_length in H2. cbn [length] in H2.
        cbn [wt rank setva ac] in H. nia.
    + eapply FIN; [unfold step; rewrite E; apply Nat.ltb_ge in L; rewrite L; reflexivity | unfold legal1; cbn [fst snd]; rewrite E; exact I | apply good_refl, S].
  - (* P2 *) destruct TI as (TV & TP). destruct (proj1 S v TV) as (b & Lb & PB).
    eapply FIN; [unfold step; rewrite E, PB; reflexivity | unfold legal1; cbn [fst snd]; rewrite E; exact I|].
    constructor; [gt S; exact AT | apply (kept_goto _ _ _ _ E I) | intros D; exfalso; apply (not_dr _ _ _ E eq_refl D) | right].
    pose proof (m_goto nv nw s i _ (P3 v b) E) as H. cbn [wt rank] in H. lia.
  - (* P3 *) destruct (afree (ac s a)) eqn:F.
    + eapply FIN; [unfold step, locka; rewrite E, F; reflexivity | unfold legal1; cbn [fst snd]; rewrite E; exact I|]. set (x := mkacc _ _ _).
      constructor; [gt (set_setac s a x S); exact AT | apply (kept_trans _ _ _ (kept_setac s a x)); apply (kept_goto (setac s a x) _ _ _ E I) | intros D; exfalso; apply (not_dr _ _ _ E eq_refl D) | right].
      pose proof (m_goto nv nw (setac s a x) i _ (P4 v a) E) as H. rewrite (m_setac nv nw s a x eq_refl) in H. cbn [wt rank] in H. lia.
    + eapply FIN; [unfold step, locka; rewrite E, F; reflexivity | unfold legal1; cbn [fst snd]; rewrite E; exact I | apply good_refl, S].
  - (* P4 *) eapply FIN; [unfold step; rewrite E; reflexivity | unfold legal1; cbn [fst snd]; rewrite E; exact I|]. unfold addt. set (x := mkacc _ _ _).
    constructor; [gt (set_setac s a x S); exact AT | apply (kept_trans _ _ _ (kept_setac s a x)); apply (kept_goto (setac s a x) _ _ _ E I) | intros D; exfalso; apply (not_dr _ _ _ E eq_refl D) | right].
    pose proof (m_goto nv nw (setac s a x) i _ (P5 v a) E) as H. rewrite (m_setac nv nw s a x eq_refl) in H. cbn [wt rank] in H. lia.
  - (* P5 *) eapply FIN; [unfold step; rewrite E; reflexivity | unfold legal1; cbn [fst snd]; rewrite E; exact I|].
    assert (E1 : nth_error (th (notify be s a)) i = Some (P5 v a)).
    { unfold notify. destruct be; [exact E|]. destruct (nth_error (th s) a) as [[]|] eqn:EA; try exact E. cbn [goto th]. rewrite nth_error_upd_ne; [exact E|]. intros ->. congruence. }
    constructor; [gt (set_notify s a S); exact AT | apply (kept_trans _ _ _ (kept_notify s a)); apply (kept_goto _ _ _ _ E1 I) | intros D; exfalso; apply (not_dr _ _ _ E eq_refl D) | right].
    pose proof (m_goto nv nw (notify be s a) i _ (P6 v a) E1) as H. pose proof (m_notify be nv nw s a) as H2. cbn [wt rank] in H. lia.
  - (* P6 *) eapply FIN; [unfold step, unlocka; rewrite E; reflexivity | unfold legal1; cbn [fst snd]; rewrite E; exact I|]. set (x := mkacc _ _ _).
    constructor; [gt (set_setac s a x S); exact AT | apply (kept_trans _ _ _ (kept_setac s a x)); apply (kept_goto (setac s a x) _ _ _ E I) | intros D; exfalso; apply (not_dr _ _ _ E eq_refl D) | right].
    pose proof (m_goto nv nw (setac s a x) i _ (P7 v) E) as H. rewrite (m_setac nv nw s a x eq_refl) in H. cbn [wt rank] in H. lia.
  - (* P7 *) eapply FIN; [unfold step, unlockv; rewrite E; reflexivity | unfold legal1; cbn [fst snd]; rewrite E; exact I|]. set (x := mkvac _ _ _).
    constructor; [gt (set_setva s v x eq_refl S); exact I | apply (kept_trans _ _ _ (kept_setva s v x eq_refl eq_refl)); apply (kept_goto (setva s v x) _ _ _ E I) | intros D; exfalso; apply (not_dr _ _ _ E eq_refl D) | right].
    pose proof (m_goto nv nw (setva s v x) i _ Out E) as H. rewrite (m_setva_same nv nw s v x eq_refl) in H. cbn [wt rank] in H. lia.
  - (* W0 *) destruct (afree (ac s i)) eqn:F.
    + eapply FIN; [unfold step, locka; rewrite E, F; reflexivity | unfold legal1; cbn [fst snd]; rewrite E; exact I|]. set (x := mkacc _ _ _).
      constructor; [gt (set_setac s i x S); exact AT | apply (kept_trans _ _ _ (kept_setac s i x)); apply (kept_goto (setac s i x) _ _ _ E I) | intros D; apply dr_goto; auto | right].
      pose proof (m_goto nv nw (setac s i x) i _ W1 E) as H. rewrite (m_setac nv nw s i x eq_refl) in H. cbn [wt rank] in H. lia.
    + eapply FIN; [unfold step, locka; rewrite E, F; reflexivity | unfold legal1; cbn [fst snd]; rewrite E; exact I | apply good_refl, S].
  - (* W1 *) eapply FIN; [unfold step; rewrite E; reflexivity | unfold legal1; cbn [fst snd]; rewrite E; exact I|]. set (p' := if (tasks (ac s i) =? 0)%Z then W2 else W6).
    constructor; [gt S; unfold p'; destruct (tasks (ac s i) =? 0)%Z; exact AT | apply (kept_goto _ _ _ _ E I) | intros D; apply dr_goto; [exact D | unfold p'; destruct (tasks (ac s i) =? 0)%Z; reflexivity] | right].
    pose proof (m_goto nv nw s i _ p' E) as H. unfold p' in *. destruct (tasks (ac s i) =? 0)%Z; cbn [wt rank] in H; lia.
  - (* W2 *) eapply FIN; [unfold step, unlocka; rewrite E; reflexivity | unfold legal1; cbn [fst snd]; rewrite E; exact I|]. set (x := mkacc _ _ _).
    constructor; [gt (set_setac s i x S); exact AT | apply (kept_trans _ _ _ (kept_setac s i x)); apply (kept_goto (setac s i x) _ _ _ E I) | intros D; apply dr_goto; auto | right].
    pose proof (m_goto nv nw (setac s i x) i _ W3 E) as H. rewrite (m_setac nv nw s i x eq_refl) in H. cbn [wt rank] in H. lia.
  - (* W3 *) destruct be eqn:B.
    + destruct (Nat.leb_spec 1 (sem (ac s i))) as [L|L].
      * eapply FIN; [unfold step; rewrite E; apply Nat.leb_le in L; rewrite L; reflexivity | unfold legal1; cbn [fst snd]; rewrite E; exact I|].
        constructor; [gt S; exact AT | apply (kept_goto _ _ _ _ E I) | intros D; apply dr_goto; auto | right].
        pose proof (m_goto nv nw s i _ (W4 (sem (ac s i))) E) as H. cbn [wt rank] in H. rewrite Nat.eqb_refl in H. unfold Y in H. destruct (sem (ac s i)) as [|j]; [lia|]. replace (Datatypes.S j - 1)%nat with j in H by lia. nia.
      * eapply FIN; [unfold step; rewrite E; apply Nat.leb_gt in L; rewrite L; reflexivity | unfold legal1; cbn [fst snd]; rewrite E; exact I | apply good_refl, S].
    + eapply FIN; [unfold step; rewrite E; reflexivity | unfold legal1; cbn [fst snd]; rewrite E; exact I | apply good_refl, S].
  - (* W4 *) destruct TI as (X1 & BE). destruct (Nat.eqb (sem (ac s i)) x) eqn:Q.
    + eapply FIN; [unfold step; rewrite E, Q; reflexivity | unfold legal1; cbn [fst snd]; rewrite E; exact I|]. set (z := mkacc _ _ _).
      constructor; [gt (set_setac s i z S); exact AT | apply (kept_trans _ _ _ (kept_setac s i z)); apply (kept_goto (setac s i z) _ _ _ E I) | intros D; apply dr_goto; auto | right].
      pose proof (nth_error_lt _ _ _ E) as LI. apply Nat.eqb_eq in Q. unfold m. cbn [goto setac th va]. rewrite upd_length.
      set (s' := goto (setac s i z) i W5). change (qof s') with (qof s). pose proof (sums_one (wof nv nw s') (wof nv nw s) (length (th s)) i LI) as H.
      assert (H3 : forall j, j <> i -> wof nv nw s' j = wof nv nw s j) by (intros j N; unfold wof; cbn [s' goto setac th ac]; rewrite nth_error_upd_ne by auto; rewrite fupd_ne by auto; reflexivity). specialize (H H3).
      assert (H4 : (wof nv nw s' i < wof nv nw s i)%nat); [|lia]. unfold wof. rewrite E. cbn [s' goto setac th ac]. rewrite nth_error_upd_eq by exact LI. rewrite fupd_eq. cbn [z sem wt rank]. rewrite Q, Nat.eqb_refl. unfold Y. lia.
    + eapply FIN; [unfold step; rewrite E, Q; reflexivity | unfold legal1; cbn [fst snd]; rewrite E; exact I|].
      constructor; [gt S; exact AT | apply (kept_goto _ _ _ _ E I) | intros D; apply dr_goto; auto | right].
      pose proof (m_goto nv nw s i _ W3 E) as H. cbn [wt rank] in H. rewrite Q in H. lia.
  - (* W5 *) destruct (afree (ac s i)) eqn:F.
    + eapply FIN; [unfold step, locka; rewrite E, F; reflexivity | unfold legal1; cbn [fst snd]; rewrite E; exact I|]. set (x := mkacc _ _ _).
      constructor; [gt (set_setac s i x S); exact AT | apply (kept_trans _ _ _ (kept_setac s i x)); apply (kept_goto (setac s i x) _ _ _ E I) | intros D; apply dr_goto; auto | right].
      pose proof (m_goto nv nw (setac s i x) i _ W1 E) as H. rewrite (m_setac nv nw s i x eq_refl) in H. cbn [wt rank] in H. lia.
    + eapply FIN; [unfold step, locka; rewrite E, F; reflexivity | unfold legal1; cbn [fst snd]; rewrite E; exact I | apply good_refl, S].
  - (* W6 *) eapply FIN; [unfold step; rewrite E; reflexivity | unfold legal1; cbn [fst snd]; rewrite E; exact I|]. unfold addt. set (x := mkacc _ _ _).
    constructor; [gt (set_setac s i x S); exact AT | apply (kept_trans _ _ _ (kept_setac s i x)); apply (kept_goto (setac s i x) _ _ _ E I) | intros D; apply dr_goto; auto | right].
    pose proof (m_goto nv nw (setac s i x) i _ W7 E) as H. rewrite (m_setac nv nw s i x eq_refl) in H. cbn [wt rank] in H. lia.
  - (* W7 *) eapply FIN; [unfold step, unlocka; rewrite E; reflexivity | unfold legal1; cbn [fst snd]; rewrite E; exact I|]. set (x := mkacc _ _ _).
    constructor; [gt (set_setac s i x S); exact AT | apply (kept_trans _ _ _ (kept_setac s i x)); apply (kept_goto (setac s i x) _ _ _ E I) | intros D; apply dr_goto; auto | right].
    pose proof (m_goto nv nw (setac s i x) i _ WG E) as H. rewrite (m_setac nv nw s i x eq_refl) in H. cbn [wt rank] in H. lia.
  - (* WG *) destruct (afree (ac s i)) eqn:F.
    + eapply FIN; [unfold step; rewrite E, F; reflexivity | unfold legal1; cbn [fst snd]; rewrite E; exact I|].
      constructor; [gt S | apply (kept_goto _ _ _ _ E I) | intros D; apply dr_goto; auto | right].
      * cbn [at_ok]. split; [exact AT|]. intros v K. unfold assigned in K. apply filter_In in K. destruct K as (_ & K). destruct (phys (va s v)) as [b|]; [|discriminate]. apply Nat.eqb_eq in K. now subst.
      * pose proof (m_goto nv nw s i _ (WS (assigned nv s i)) E) as H. cbn [wt rank] in H. assert (LA : (length (assigned nv s i) <= nv)%nat).
        { unfold assigned. generalize (seq_length nv 0). generalize (seq 0 nv). intros l <-. clear. induction l as [|x l IH]; cbn [filter length]; [lia|]. destruct (match _ with Some _ => _ | None => _ end); cbn [length]; lia. }
        lia.
    + eapply FIN; [unfold step; rewrite E, F; reflexivity | unfold legal1; cbn [fst snd]; rewrite E; exact I | apply good_refl, S].
  - (* WS *) destruct AT as (L & AS). destruct r as [|w r0].
    + exfalso. assert (H : step be cap nv s (i, Go) = Ok (mkst (ac s) (va s) (upd (th s) i Out) (ran s) (fupd (empty s) i (Datatypes.S (empty s i))))) by (unfold step; rewrite E; reflexivity).
      assert (L1 : legal1 s (i, Go)) by (unfold legal1; cbn [fst snd]; rewrite E; exact I). pose proof (inv_step _ _ _ _ _ _ IV L1 H) as IV1. pose proof (i_e _ _ _ IV1 i) as Z. cbn [empty] in Z. rewrite fupd_eq in Z. discriminate.
    + set (r := w :: r0) in *. set (v := nth (k mod length r) r w). assert (IN : In v r) by apply nth_mod_in. pose proof (AS v IN) as PV.
      assert (LG : legal1 s (i, Pick v)) by (unfold legal1; cbn [fst snd]; rewrite E; exact PV).
      assert (EX : existsb (Nat.eqb v) r = true) by (apply existsb_exists; exists v; split; [exact IN | apply Nat.eqb_refl]).
      destruct TI as (ND & BL). assert (LV : (v < nv)%nat) by (unfold below in BL; rewrite Forall_forall in BL; apply BL, IN).
      destruct (vq (va s v)) as [|t q] eqn:VQ.
      * eapply FIN; [unfold step; rewrite E; rewrite EX, VQ; reflexivity | exact LG|]. constructor; [gt S | apply (kept_goto _ _ _ _ E I) | intros D; apply dr_goto; auto | right].
        { cbn [at_ok]. split; [exact L|]. intros u K. apply AS. apply (drop1_in v), K. }
        pose proof (m_goto nv nw s i _ (WS (drop1 v r)) E) as H. cbn [wt rank] in H. pose proof (drop1_len v r IN). lia.
      * eapply FIN; [unfold step; rewrite E; rewrite EX, VQ; reflexivity | exact LG|]. set (x := mkvac (vfree (va s v)) q (phys (va s v))). set (s1 := setva s v x).
        assert (S1 : settled nw nv s1) by (apply (set_setva s v x eq_refl S)). assert (S2 := set_goto s1 i Out S1 I).
        assert (PH : forall u, phys (va s1 u) = phys (va s u)) by (intros u; cbn [s1 setva va]; unfold fupd; destruct (Nat.eqb_spec u v) as [->|]; reflexivity).
        constructor; [exact S2 | | | right].
        -- split; [exact PH|]. intros u t0 b P K. cbn [ran va th]. destruct K as [[K | (j & K)] | K].
           ++ destruct (Nat.eq_dec u v) as [->|N].
              ** rewrite PV in P. injection P as <-. rewrite VQ in K. destruct K as [<-|K]; [right; rewrite fupd_eq; apply in_or_app; right; left; reflexivity | left; left; cbn [va s1 setva]; rewrite fupd_eq; exact K].
              ** left. left. cbn [va s1 setva]. rewrite fupd_ne by auto. exact K.
           ++ left. right. exists j. cbn [th s1 setva]. assert (N : j <> i) by (intros ->; rewrite E in K; destruct K as [K | K]; discriminate). rewrite nth_error_upd_ne by auto. exact K.
           ++ right. cbn [s1 setva ran]. unfold fupd. destruct (Nat.eqb_spec b i) as [->|]; [apply in_or_app; left; exact K | exact K].
        -- intros (D1 & _). rewrite (D1 v LV) in VQ. discriminate.
        -- change (m nv nw (goto s1 i Out) < m nv nw s)%nat. pose proof (m_goto nv nw s1 i _ Out E) as H. pose proof (m_setva nv nw s v x LV) as H2. fold s1 in H2. rewrite VQ in H2. cbn [x vq length] in H2.
           cbn [wt rank] in H. unfold outw, Tq in *. destruct (Nat.ltb_spec i nw); [|lia]. nia.
Qed.
Lemma spur_good s i : inv be nv s -> settled nw nv s -> exists s', take be cap nv nw s (Spurious i) = Ok s' /\ inv be nv s' /\ settled nw nv s' /\ kept s s' /\ (drained_ nv s -> drained_ nv s') /\ (m nv nw s' <= m nv nw s + nv + 6)%nat.
Proof.
  intros IV S. cbn [take]. assert (K : forall s', step be cap nv s (i, Spur) = Ok s' -> settled nw nv s' -> kept s s' -> (drained_ nv s -> drained_ nv s') -> (m nv nw s' <= m nv nw s + nv + 6)%nat ->
    exists s', step be cap nv s (i, Spur) = Ok s' /\ inv be nv s' /\ settled nw nv s' /\ kept s s' /\ (drained_ nv s -> drained_ nv s') /\ (m nv nw s' <= m nv nw s + nv + 6)%nat).
  { intros s' E1 A B C D. exists s'. split; [exact E1|]. split; [|auto]. refine (inv_step _ _ _ _ _ _ IV _ E1). unfold legal1. cbn [fst snd]. exact I. }
  assert (R : step be cap nv s (i, Spur) = Ok s -> exists s', step be cap nv s (i, Spur) = Ok s' /\ inv be nv s' /\ settled nw nv s' /\ kept s s' /\ (drained_ nv s -> drained_ nv s') /\ (m nv nw s' <= m nv nw s + nv + 6)%nat).
  { intros E1. apply (K s E1); auto using kept_refl. lia. }
  destruct (nth_error (th s) i) as [p|] eqn:E; [|apply R; unfold step; rewrite E; reflexivity].
  destruct p; try (apply R; unfold step; rewrite E; reflexivity). destruct be eqn:B; [apply R; unfold step; rewrite E; reflexivity|].
  eapply K; [unfold step; rewrite E; reflexivity | apply set_goto; [exact S | apply (proj2 S _ _ E)] | apply (kept_goto _ _ _ _ E I) | intros D; apply dr_goto; auto|].
  pose proof (m_goto nv nw s i _ W5 E) as H. cbn [wt rank] in H. lia.
Qed.
End OneTurn.

(** ** Nobody can move only when everything was taken *)
Section Stuck.
Variables (be : backend) (cap nv nw : nat).
Definition stuck_at (s : st) (i : nat) (p : pc) : Prop :=
  match p with
  | Out => ~ (i < nw)%nat
  | P0 v _ => vfree (va s v) = false
  | P1 v _ => (cap <= length (vq (va s v)))%nat
  | P3 _ a => afree (ac s a) = false
  | W0 | W5 | WG => afree (ac s i) = false
  | W3 => be = Mutex \/ sem (ac s i) = 0%nat
  | _ => False
  end.
Lemma stuck_pc s i k p : inv be nv s -> settled nw nv s -> nth_error (th s) i = Some p -> take be cap nv nw s (Turn i k) = Ok s -> stuck_at s i p.
Proof.
  intros IV S E. pose proof (proj2 S _ _ E) as AT. pose proof (i_t _ _ _ IV _ _ E) as TI. pose proof (nth_error_lt _ _ _ E) as LI. cbn [take]. unfold next. rewrite E.
  assert (C : forall s1 p', Ok s1 = Ok s -> th s1 = upd (th s) i p' -> p' = p).
  { intros s1 p' H T. injection H as H. rewrite H in T. assert (X : nth_error (th s) i = Some p') by (rewrite T; apply nth_error_upd_eq; exact LI). congruence. }
  destruct p; cbn [at_ok] in AT; try contradiction; cbn [tinv] in TI; cbn [stuck_at]; unfold step; rewrite ?E.
  - destruct (Nat.ltb_spec i nw); [intros H1; pose proof (C _ W0 H1 eq_refl) as H1x; discriminate | lia].
  - unfold lockv. destruct (vfree (va s v)); [|reflexivity]. intros H. pose proof (C _ (P1 v t) H eq_refl) as Hx. discriminate.
  - destruct (Nat.ltb_spec (length (vq (va s v))) cap) as [L|L]; [|intros _; exact L]. intros H. pose proof (C _ (P2 v (phys (va s v))) H eq_refl) as Hx. discriminate.
  - destruct (phys (va s v)); intros H; pose proof (C _ _ H eq_refl) as Hx; discriminate.
  - unfold locka. destruct (afree (ac s a)); [|reflexivity]. intros H. pose proof (C _ (P4 v a) H eq_refl) as Hx. discriminate.
  - intros H. pose proof (C _ (P5 v a) H eq_refl) as Hx. discriminate.
  - intros H. injection H as H. assert (X : nth_error (th (goto (notify be s a) i (P6 v a))) i = Some (P6 v a)); [|rewrite H, E in X; discriminate].
    cbn [goto th]. apply nth_error_upd_eq. unfold notify. destruct be; [exact LI|]. destruct (nth_error (th s) a) as [[]|]; try exact LI. cbn [goto th]. rewrite upd_length. exact LI.
  - intros H. pose proof (C _ (P7 v) H eq_refl) as Hx. discriminate.
  - intros H. pose proof (C _ Out H eq_refl) as Hx. discriminate.
  - unfold locka. destruct (afree (ac s i)); [|reflexivity]. intros H. pose proof (C _ W1 H eq_refl) as Hx. discriminate.
  - intros H. pose proof (C _ _ H eq_refl) as Hx. revert Hx. clear. destruct (tasks (ac s i) =? 0)%Z; discriminate.
  - intros H. pose proof (C _ W3 H eq_refl) as Hx. discriminate.
  - destruct be; [|auto]. destruct (Nat.leb_spec 1 (sem (ac s i))) as [L|L]; [|intros _; right; lia]. intros H. pose proof (C _ (W4 (sem (ac s i))) H eq_refl) as Hx. discriminate.
  - destruct (Nat.eqb (sem (ac s i)) x); intros H; [pose proof (C _ W5 H eq_refl) as Hx | pose proof (C _ W3 H eq_refl) as Hx]; discriminate.
  - unfold locka. destruct (afree (ac s i)); [|reflexivity]. intros H. pose proof (C _ W1 H eq_refl) as Hx. discriminate.
  - intros H. pose proof (C _ W7 H eq_refl) as Hx. discriminate.
  - intros H. pose proof (C _ WG H eq_refl) as Hx. discriminate.
  - destruct (afree (ac s i)); [|reflexivity]. intros H. pose proof (C _ (WS (assigned nv s i)) H eq_refl) as Hx. discriminate.
  - destruct r as [|w r0]; [intros H; pose proof (C _ Out H eq_refl) as Hx; discriminate|]. set (r := w :: r0) in *. set (v := nth (k mod length r) r w). assert (IN : In v r) by apply nth_mod_in.
    assert (EX : existsb (Nat.eqb v) r = true) by (apply existsb_exists; exists v; split; [exact IN | apply Nat.eqb_refl]). rewrite EX.
    destruct (vq (va s v)); intros H; [|pose proof (C _ Out H eq_refl) as Hx; discriminate]. pose proof (C _ (WS (drop1 v r)) H eq_refl) as Hx. apply (f_equal (fun p => match p with WS l => length l | _ => 0 end)) in Hx. cbv beta iota in Hx. pose proof (drop1_len v r IN). lia.
Qed.
Lemma stuck_drained s : (0 < cap)%nat -> (nw <= length (th s))%nat -> inv be nv s -> settled nw nv s ->
  (forall i, (i < length (th s))%nat -> exists k, take be cap nv nw s (Turn i k) = Ok s) -> drained_ nv s.
Proof.
  intros CP NW IV S ST. assert (SP : forall i p, nth_error (th s) i = Some p -> stuck_at s i p).
  { intros i p E. destruct (ST i (nth_error_lt _ _ _ E)) as (k & K). apply (stuck_pc s i k p IV S E K). }
  destruct (i_locks _ _ _ IV) as (LA & LV).
  assert (FA : forall a, afree (ac s a) = true).
  { intros a. destruct (afree (ac s a)) eqn:F; [reflexivity|]. destruct (l_held _ _ _ LA a F) as (i & p & E & H). pose proof (SP _ _ E) as Q. pose proof (proj2 S _ _ E) as AT.
    exfalso. destruct p; try discriminate H; try exact Q; exact AT. }
  assert (Q : forall i p, nth_error (th s) i = Some p -> (p = Out /\ ~ (i < nw)%nat) \/ (exists v t, p = P0 v t /\ vfree (va s v) = false) \/ (exists v t, p = P1 v t /\ (cap <= length (vq (va s v)))%nat) \/ (p = W3 /\ (be = Mutex \/ sem (ac s i) = 0%nat))).
  { intros i p E. pose proof (SP _ _ E) as K. destruct p; cbn [stuck_at] in K; try contradiction; eauto 8; rewrite FA in K; discriminate. }
  assert (CALM : forall i p, nth_error (th s) i = Some p -> calm p = true).
  { intros i p E. destruct (Q i p E) as [(-> & _) | [(v & t & -> & _) | [(v & t & -> & _) | (-> & _)]]]; reflexivity. }
  assert (QE : forall v, (v < nv)%nat -> vq (va s v) = []).
  { intros v LV0. destruct (vq (va s v)) as [|t q] eqn:VQ; [reflexivity|]. exfalso. destruct (proj1 S v LV0) as (b & LB & PB).
    destruct (nth_error (th s) b) as [p|] eqn:E; [|apply nth_error_None in E; lia].
    assert (RD : ready be nv b s) by (constructor; [exact IV | exact CALM | exists v; split; [exact LV0|]; split; [exact PB | congruence]]).
    destruct (Q b p E) as [(_ & N) | [(w & u & -> & _) | [(w & u & -> & _) | (-> & Z)]]]; [lia | | |]; try (pose proof (proj2 S _ _ E) as AT; cbn [at_ok] in AT; lia).
    destruct (sleeping be nv b s W3 RD (or_introl eq_refl) E) as (B1 & B2). destruct Z as [Z|Z]; [congruence | lia]. }
  split; [exact QE|]. intros i p E. destruct (Q i p E) as [(-> & _) | [(v & t & -> & F) | [(v & t & -> & F) | (-> & _)]]]; try reflexivity; exfalso.
  - destruct (l_held _ _ _ LV v F) as (j & q & Ej & Hj). destruct (Q j q Ej) as [(-> & _) | [(w & u & -> & _) | [(w & u & -> & F2) | (-> & _)]]]; try discriminate Hj.
    pose proof (i_t _ _ _ IV _ _ Ej) as TI. cbn [tinv] in TI. rewrite (QE w TI) in F2. cbn [length] in F2. lia.
  - pose proof (i_t _ _ _ IV _ _ E) as TI. cbn [tinv] in TI. rewrite (QE v TI) in F. cbn [length] in F. lia.
Qed.

(** ** Rounds *)
Lemma th_len s x s' : take be cap nv nw s x = Ok s' -> length (th s') = length (th s).
Proof.
  assert (LEN : forall i a s', step be cap nv s (i, a) = Ok s' -> length (th s') = length (th s)).
  { intros i a s1 R1. destruct (nth_error (th s) i) as [p|] eqn:E; [|unfold step in R1; rewrite E in R1; injection R1 as <-; reflexivity].
    destruct (step_change _ _ _ _ _ _ _ _ E R1) as [->|(p' & [M|(_ & b & _ & _ & _ & M)] & _)]; [reflexivity | |]; rewrite M, ?upd_length; reflexivity. }
  unfold take. destruct x as [i k|i]; [destruct (next nw s i k); [apply LEN | intros H; injection H as <-; reflexivity] | apply LEN].
Qed.
Lemma spurious_cons x l : spurious (x :: l) = ((match x with Spurious _ => 1 | _ => 0 end) + spurious l)%nat.
Proof. unfold spurious. destruct x; reflexivity. Qed.
Lemma spurious_app l l' : spurious (l ++ l') = (spurious l + spurious l')%nat.
Proof. unfold spurious. rewrite filter_app, app_length. reflexivity. Qed.
(** a sequence of turns: either nothing happened, or the measure went down (up to spurious wake-ups) *)
Lemma turns_good l : forall s, inv be nv s -> settled nw nv s -> exists s', turns be cap nv nw s l = Ok s' /\ inv be nv s' /\ settled nw nv s' /\ kept s s' /\ (drained_ nv s -> drained_ nv s') /\ length (th s') = length (th s) /\
  ((forall i k, In (Turn i k) l -> take be cap nv nw s (Turn i k) = Ok s) /\ (m nv nw s' <= m nv nw s + (nv + 7) * spurious l)%nat \/ (m nv nw s' < m nv nw s + (nv + 7) * spurious l)%nat).
Proof.
  induction l as [|x l IH]; intros s IV S.
  - exists s. cbn [turns]. split; [reflexivity|]. split; [exact IV|]. split; [exact S|]. split; [apply kept_refl|]. split; [auto|]. split; [reflexivity|]. left. split; [intros i k []|]. lia.
  - cbn [turns]. destruct x as [i k|i].
    + destruct (turn_good be cap nv nw s i k IV S) as (s1 & E1 & IV1 & [S1 K1 D1 M1]). rewrite E1. cbn [bind]. destruct (IH s1 IV1 S1) as (s' & E2 & IV2 & S2 & K2 & D2 & L2 & M2).
      exists s'. split; [exact E2|]. split; [exact IV2|]. split; [exact S2|]. split; [apply (kept_trans _ _ _ K1 K2)|]. split; [auto|]. split; [rewrite L2; apply (th_len _ _ _ E1)|]. rewrite spurious_cons. cbn [Nat.add].
      destruct M1 as [->|M1]; [|right; destruct M2 as [(_ & M2) | M2]; lia]. destruct M2 as [(N & M2) | M2]; [left; split; [|exact M2] | right; exact M2].
      intros j q [H|H]; [injection H as <- <-; exact E1 | apply N, H].
    + destruct (spur_good be cap nv nw s i IV S) as (s1 & E1 & IV1 & S1 & K1 & D1 & M1). rewrite E1. cbn [bind]. destruct (IH s1 IV1 S1) as (s' & E2 & IV2 & S2 & K2 & D2 & L2 & M2).
      exists s'. split; [exact E2|]. split; [exact IV2|]. split; [exact S2|]. split; [apply (kept_trans _ _ _ K1 K2)|]. split; [auto|]. split; [rewrite L2; apply (th_len _ _ _ E1)|]. rewrite spurious_cons. right. destruct M2 as [(_ & M2) | M2]; lia.
Qed.
Lemma turns_app l l' : forall s, turns be cap nv nw s (l ++ l') = do s1 <- turns be cap nv nw s l; turns be cap nv nw s1 l'.
Proof. induction l as [|x l IH]; intros s; cbn [app turns bind]; [reflexivity|]. destruct (take be cap nv nw s x); cbn [bind]; [apply IH | reflexivity | reflexivity]. Qed.
Lemma rounds_good rs : (0 < cap)%nat -> forall s, inv be nv s -> settled nw nv s -> (nw <= length (th s))%nat -> Forall (fair (length (th s))) rs ->
  exists s', turns be cap nv nw s (concat rs) = Ok s' /\ inv be nv s' /\ settled nw nv s' /\ kept s s' /\ length (th s') = length (th s) /\ (drained_ nv s' \/ (m nv nw s' + length rs <= m nv nw s + (nv + 7) * spurious (concat rs))%nat).
Proof.
  intros CP. induction rs as [|r rs IH]; intros s IV S NW F.
  - exists s. cbn [concat turns length]. split; [reflexivity|]. split; [exact IV|]. split; [exact S|]. split; [apply kept_refl|]. split; [reflexivity|]. right. lia.
  - inversion F as [|? ? F1 F2]; subst. cbn [concat]. destruct (turns_good r s IV S) as (s1 & E1 & IV1 & S1 & K1 & D1 & L1 & M1). rewrite turns_app, E1. cbn [bind].
    rewrite <- L1 in NW, F2. destruct (IH s1 IV1 S1 NW F2) as (s' & E2 & IV2 & S2 & K2 & L2 & M2). exists s'. split; [exact E2|]. split; [exact IV2|]. split; [exact S2|]. split; [apply (kept_trans _ _ _ K1 K2)|]. split; [congruence|].
    destruct M2 as [M2|M2]; [left; exact M2|]. rewrite spurious_app. cbn [length].
    destruct M1 as [(N & M1) | M1]; [|right; nia]. left.
    assert (DS : drained_ nv s).
    { apply stuck_drained; auto; [congruence|]. intros i LI. destruct (F1 i LI) as (k & K). exists k. apply N, K. }
    destruct (turns_good (concat rs) s1 IV1 S1) as (s2 & E3 & _ & _ & _ & D3 & _). rewrite E2 in E3. injection E3 as <-. auto.
Qed.
End Stuck.

(** Everything submitted is taken by the worker of the accelerator its virtual accelerator is assigned to: from every reachable state,
    in every fair execution (every order in which a worker looks at its virtual accelerators, any finite number of spurious wake-ups), after a number of
    rounds that depends only on the state and on the number of spurious wake-ups. *)
Theorem C65_drains be cap nv n nw s : (0 < cap)%nat -> (nw <= n)%nat -> reachable be cap nv n s -> settled nw nv s ->
  exists K, forall rs, Forall (fair n) rs -> (K + (nv + 7) * spurious (concat rs) <= length rs)%nat ->
  exists s', turns be cap nv nw s (concat rs) = Ok s' /\ drained_ nv s' /\ forall v t b, (v < nv)%nat -> pending s v t -> phys (va s v) = Some b -> In t (ran s' b).
Proof.
  intros CP NW (l & L & R) S. pose proof (inv_run _ _ _ _ _ _ (inv_init be nv n) L R) as IV.
  assert (LEN : length (th s) = n).
  { clear S IV L. assert (G : forall l s0 s', run be cap nv s0 l = Ok s' -> length (th s') = length (th s0)).
    { clear. induction l as [|[i x] l IH]; intros s0 s'; cbn [run]; intros R; [injection R as <-; reflexivity|]. apply bind_ok in R. destruct R as (s1 & R1 & R2). rewrite (IH _ _ R2). clear R2 IH.
      destruct (nth_error (th s0) i) as [p|] eqn:E; [|unfold step in R1; rewrite E in R1; injection R1 as <-; reflexivity].
      destruct (step_change _ _ _ _ _ _ _ _ E R1) as [->|(p' & [M|(_ & b & _ & _ & _ & M)] & _)]; [reflexivity | |]; rewrite M, ?upd_length; reflexivity. }
    rewrite (G _ _ _ R). cbn [init th]. apply repeat_length. }
  exists (m nv nw s + 1)%nat. intros rs F B. rewrite <- LEN in NW, F. destruct (rounds_good be cap nv nw rs CP s IV S NW F) as (s' & E & IV' & S' & (PH & KP) & L' & [D|D]); [|lia].
  exists s'. split; [exact E|]. split; [exact D|]. intros v t b LV P PB. destruct (KP v t b PB (or_introl P)) as [[Q | (j & Q)] | Q]; [| | exact Q]; exfalso.
  - rewrite (proj1 D v LV) in Q. destruct Q.
  - destruct Q as [Q|Q]; apply (proj2 D) in Q; discriminate.
Qed.

(** A state that meets the hypotheses: two accelerators, two virtual accelerators, the worker of the first accelerator asleep, a task
    in the queue of the second one, a client in the middle of submitting to the first one. *)
Definition script : list (nat * act) :=
  assign 2 0 0 ++ assign 2 1 1 ++ (0, Wait) :: gos 0 3 ++ submit 3 1 11 ++ (2, Submit 0 10) :: gos 2 1.
Example C65_example be : exists s, reachable be 4 2 4 s /\ settled 2 2 s /\ nth_error (th s) 0 = Some W3 /\ pending s 0 10 /\ pending s 1 11 /\ phys (va s 0) = Some 0%nat /\ phys (va s 1) = Some 1%nat.
Proof.
  exists (final be 4 2 4 script). split; [exists script; split; [destruct be; vm_compute; repeat split | apply final_run; destruct be; vm_compute; reflexivity]|].
  split; [|split; [destruct be; reflexivity|]; split; [right; exists 2%nat; right; destruct be; reflexivity|]; split; [left; destruct be; vm_compute; auto|]; split; destruct be; reflexivity].
  split.
  - intros v L. destruct v as [|[|v]]; [exists 0%nat | exists 1%nat | lia]; (split; [lia | destruct be; reflexivity]).
  - intros i p E. assert (LI : (i < 4)%nat) by (apply nth_error_lt in E; destruct be; exact E).
    destruct i as [|[|[|[|i]]]]; [| | | |lia]; destruct be; vm_compute in E; injection E as <-; cbn [at_ok]; try exact I; lia.
Qed.
