(** Invariants of WorkModel. *)
From Verif Require Import Base Sums Throttle WorkModel.
Local Open Scope Z_scope.
Arguments Nat.eqb : simpl never.

(** * Legal schedules
    - a worker takes tasks only from virtual accelerators assigned to it at that moment;
    - a virtual accelerator is taken away only when its queue is empty. *)
Definition legal1 (s : st) (x : nat * act) : Prop :=
  match snd x, nth_error (th s) (fst x) with
  | Pick v, Some (WS _) => phys (va s v) = Some (fst x)
  | Go, Some (R2 v _ _) => vq (va s v) = []
  | _, _ => True
  end.
Fixpoint legal (be : backend) (cap nv : nat) (s : st) (l : list (nat * act)) : Prop :=
  match l with
  | [] => True
  | x :: r => legal1 s x /\ match step be cap nv s x with Ok s' => legal be cap nv s' r | _ => True end
  end.

(** * Locks *)
Definition hA (i : nat) (p : pc) : option nat :=
  match p with
  | P4 _ b | P5 _ b | P6 _ b | A3 _ b | A4 _ b | A5 _ b | R2 _ b _ | R3 _ b _ | R4 _ b _ => Some b
  | W1 | W2 | W6 | W7 => Some i
  | _ => None
  end.
Definition hV (i : nat) (p : pc) : option nat :=
  match p with
  | P1 v _ | P2 v _ | P3 v _ | P4 v _ | P5 v _ | P6 v _ | P7 v | A1 v _ | A2 v _ | A3 v _ | A4 v _ | A5 v _ | A6 v
  | R1 v _ _ | R2 v _ _ | R3 v _ _ | R4 v _ _ | R5 v _ => Some v
  | _ => None
  end.
Record lockinv (h : nat -> pc -> option nat) (t : list pc) (free : nat -> bool) : Prop := {
  l_busy : forall i p a, nth_error t i = Some p -> h i p = Some a -> free a = false;
  l_one  : forall i j p q a, nth_error t i = Some p -> nth_error t j = Some q -> h i p = Some a -> h j q = Some a -> i = j;
  l_held : forall a, free a = false -> exists i p, nth_error t i = Some p /\ h i p = Some a
}.
Lemma li_same h t f f' i p p' : lockinv h t f -> nth_error t i = Some p -> h i p' = h i p -> (forall a, f' a = f a) -> lockinv h (upd t i p') f'.
Proof.
  intros [B O H] E Q F. pose proof (nth_error_lt _ _ _ E) as L. constructor.
  - intros j q a Ej Hj. rewrite F. apply nth_upd_cases in Ej. destruct Ej as [(-> & -> & _)|(N & Ej)]; [rewrite Q in Hj|]; eauto.
  - intros j k q r a Ej Ek Hj Hk. apply nth_upd_cases in Ej. apply nth_upd_cases in Ek.
    destruct Ej as [(-> & -> & _)|(N & Ej)]; [rewrite Q in Hj|]; (destruct Ek as [(-> & -> & _)|(N2 & Ek)]; [rewrite Q in Hk|]); eauto.
  - intros a Fa. rewrite F in Fa. destruct (H a Fa) as (j & q & Ej & Hj). destruct (Nat.eq_dec j i) as [->|N].
    + exists i, p'. split; [now apply nth_error_upd_eq|]. rewrite Q. congruence.
    + exists j, q. split; auto. now rewrite nth_error_upd_ne by auto.
Qed.
Lemma li_acq h t f f' i p p' a : lockinv h t f -> nth_error t i = Some p -> h i p = None -> h i p' = Some a -> f a = true -> f' a = false -> (forall b, b <> a -> f' b = f b) -> lockinv h (upd t i p') f'.
Proof.
  intros [B O H] E Q Q' FA FA' F. pose proof (nth_error_lt _ _ _ E) as L. constructor.
  - intros j q b Ej Hj. apply nth_upd_cases in Ej. destruct Ej as [(-> & -> & _)|(N & Ej)]; [congruence|]. destruct (Nat.eq_dec b a) as [->|Nb]; auto. rewrite F by auto. eauto.
  - intros j k q r b Ej Ek Hj Hk. apply nth_upd_cases in Ej. apply nth_upd_cases in Ek.
    destruct Ej as [(-> & -> & _)|(N & Ej)]; (destruct Ek as [(-> & -> & _)|(N2 & Ek)]); eauto.
    + assert (b = a) by congruence. subst. pose proof (B _ _ _ Ek Hk). congruence.
    + assert (b = a) by congruence. subst. pose proof (B _ _ _ Ej Hj). congruence.
  - intros b Fb. destruct (Nat.eq_dec b a) as [->|Nb]; [exists i, p'; split; auto; now apply nth_error_upd_eq|]. rewrite F in Fb by auto. destruct (H b Fb) as (j & q & Ej & Hj).
    exists j, q. split; auto. rewrite nth_error_upd_ne; auto. intros <-. congruence.
Qed.
Lemma li_rel h t f f' i p p' a : lockinv h t f -> nth_error t i = Some p -> h i p = Some a -> h i p' = None -> f' a = true -> (forall b, b <> a -> f' b = f b) -> lockinv h (upd t i p') f'.
Proof.
  intros [B O H] E Q Q' FA' F. constructor.
  - intros j q b Ej Hj. apply nth_upd_cases in Ej. destruct Ej as [(-> & -> & _)|(N & Ej)]; [congruence|]. destruct (Nat.eq_dec b a) as [->|Nb]; [exfalso; apply N; eauto|]. rewrite F by auto. eauto.
  - intros j k q r b Ej Ek Hj Hk. apply nth_upd_cases in Ej. apply nth_upd_cases in Ek.
    destruct Ej as [(-> & -> & _)|(N & Ej)]; (destruct Ek as [(-> & -> & _)|(N2 & Ek)]); eauto; congruence.
  - intros b Fb. destruct (Nat.eq_dec b a) as [->|Nb]; [congruence|]. rewrite F in Fb by auto. destruct (H b Fb) as (j & q & Ej & Hj).
    exists j, q. split; auto. rewrite nth_error_upd_ne; auto. intros <-. congruence.
Qed.
Definition fA (s : st) a := afree (ac s a).
Definition fV (s : st) v := vfree (va s v).
Definition locks (s : st) : Prop := lockinv hA (th s) (fA s) /\ lockinv hV (th s) (fV s).

(** what a notification changes *)
Lemma notify_spec be s a : let s' := notify be s a in
  va s' = va s /\ ran s' = ran s /\ empty s' = empty s /\ (forall b, afree (ac s' b) = afree (ac s b) /\ tasks (ac s' b) = tasks (ac s b) /\ (sem (ac s b) <= sem (ac s' b))%nat) /\
  (be = Spin -> (1 <= sem (ac s' a))%nat /\ th s' = th s) /\ (be = Mutex -> ac s' = ac s /\ nth_error (th s') a <> Some W3) /\
  (th s' = th s \/ (nth_error (th s) a = Some W3 /\ th s' = upd (th s) a W5)).
Proof.
  destruct be; cbn [notify].
  - repeat match goal with |- _ /\ _ => split end; try reflexivity; try discriminate; auto.
    + intros b. cbn. unfold fupd. destruct (Nat.eqb_spec b a) as [->|]; cbn; auto with arith.
    + intros _. cbn. rewrite fupd_eq. cbn. split; auto with arith.
  - assert (G : nth_error (th s) a <> Some W3 -> let s' := s in
      va s' = va s /\ ran s' = ran s /\ empty s' = empty s /\ (forall b, afree (ac s' b) = afree (ac s b) /\ tasks (ac s' b) = tasks (ac s b) /\ (sem (ac s b) <= sem (ac s' b))%nat) /\
      (Mutex = Spin -> (1 <= sem (ac s' a))%nat /\ th s' = th s) /\ (Mutex = Mutex -> ac s' = ac s /\ nth_error (th s') a <> Some W3) /\
      (th s' = th s \/ (nth_error (th s) a = Some W3 /\ th s' = upd (th s) a W5))).
    { intros N. cbv zeta. split; [reflexivity|]. split; [reflexivity|]. split; [reflexivity|]. split; [auto|]. split; [discriminate|]. split; auto. }
    destruct (nth_error (th s) a) as [p|] eqn:E; [|apply G; discriminate]. destruct p; try (apply G; discriminate).
    clear G. cbv zeta. split; [reflexivity|]. split; [reflexivity|]. split; [reflexivity|]. split; [auto|]. split; [discriminate|]. split; [|right; auto].
    intros _. split; auto. cbn. rewrite nth_error_upd_eq; [discriminate|]. eapply nth_error_lt; eauto.
Qed.

Ltac lk := first [eassumption | reflexivity | discriminate].
Lemma fA_fupd s a x b : afree (fupd (ac s) a x b) = (if Nat.eqb b a then afree x else afree (ac s b)).
Proof. unfold fupd. destruct (Nat.eqb b a); auto. Qed.

Lemma step_locks be cap nv s x s' : locks s -> step be cap nv s x = Ok s' -> locks s'.
Proof.
  intros [LA LV] H. destruct x as [i a]. unfold step in H. destruct (nth_error (th s) i) as [p|] eqn:E; [|inversion H; subst; split; auto].
  assert (SAME : forall p', hA i p' = hA i p -> hV i p' = hV i p -> locks (goto s i p')).
  { intros p' Q1 Q2. split; [eapply li_same with (p := p)|eapply li_same with (p := p)]; eauto; reflexivity. }
  assert (SAMEA : forall p' b y, hA i p' = hA i p -> hV i p' = hV i p -> afree y = afree (ac s b) -> locks (goto (setac s b y) i p')).
  { intros p' b y Q1 Q2 Q3. split; [eapply li_same with (p := p)|eapply li_same with (p := p)]; eauto; try reflexivity. intros c. unfold fA. cbn. unfold fupd. destruct (Nat.eqb_spec c b) as [->|]; auto. }
  assert (SAMEV : forall p' b y, hA i p' = hA i p -> hV i p' = hV i p -> vfree y = vfree (va s b) -> locks (goto (setva s b y) i p')).
  { intros p' b y Q1 Q2 Q3. split; [eapply li_same with (p := p)|eapply li_same with (p := p)]; eauto; try reflexivity. intros c. unfold fV. cbn. unfold fupd. destruct (Nat.eqb_spec c b) as [->|]; auto. }
  assert (SAMEAV : forall p' b y v z, hA i p' = hA i p -> hV i p' = hV i p -> afree y = afree (ac s b) -> vfree z = vfree (va s v) -> locks (goto (setva (setac s b y) v z) i p')).
  { intros p' b y v z Q1 Q2 Q3 Q4. split; [eapply li_same with (p := p)|eapply li_same with (p := p)]; eauto; try reflexivity.
    - intros c. unfold fA. cbn. unfold fupd. destruct (Nat.eqb_spec c b) as [->|]; auto.
    - intros c. unfold fV. cbn. unfold fupd. destruct (Nat.eqb_spec c v) as [->|]; auto. }
  assert (LKA : forall b p', hA i p = None -> hA i p' = Some b -> hV i p' = hV i p -> locks (locka s i b p')).
  { intros b p' Q1 Q2 Q3. unfold locka. destruct (afree (ac s b)) eqn:F; [|split; auto]. split; [eapply li_acq with (p := p) (a := b)|eapply li_same with (p := p)]; eauto; try reflexivity.
    - unfold fA. cbn. now rewrite fupd_eq. 
    - intros c N. unfold fA. cbn. now rewrite fupd_ne. }
  assert (ULA : forall b p', hA i p = Some b -> hA i p' = None -> hV i p' = hV i p -> locks (unlocka s i b p')).
  { intros b p' Q1 Q2 Q3. unfold unlocka. split; [eapply li_rel with (p := p) (a := b)|eapply li_same with (p := p)]; eauto; try reflexivity.
    - unfold fA. cbn. now rewrite fupd_eq.
    - intros c N. unfold fA. cbn. now rewrite fupd_ne. }
  assert (LKV : forall b p', hV i p = None -> hV i p' = Some b -> hA i p' = hA i p -> locks (lockv s i b p')).
  { intros b p' Q1 Q2 Q3. unfold lockv. destruct (vfree (va s b)) eqn:F; [|split; auto]. split; [eapply li_same with (p := p)|eapply li_acq with (p := p) (a := b)]; eauto; try reflexivity.
    - unfold fV. cbn. now rewrite fupd_eq.
    - intros c N. unfold fV. cbn. now rewrite fupd_ne. }
  assert (ULV : forall b p', hV i p = Some b -> hV i p' = None -> hA i p' = hA i p -> locks (unlockv s i b p')).
  { intros b p' Q1 Q2 Q3. unfold unlockv. split; [eapply li_same with (p := p)|eapply li_rel with (p := p) (a := b)]; eauto; try reflexivity.
    - unfold fV. cbn. now rewrite fupd_eq.
    - intros c N. unfold fV. cbn. now rewrite fupd_ne. }
  assert (NOT : forall b p', hA i p' = hA i p -> hV i p' = hV i p -> p <> W3 -> locks (goto (notify be s b) i p')).
  { intros b p' Q1 Q2 NW. destruct (notify_spec be s b) as (V1 & _ & _ & V4 & _ & _ & V7). set (s1 := notify be s b) in *.
    assert (L1 : lockinv hA (th s1) (fA s1) /\ lockinv hV (th s1) (fV s1) /\ nth_error (th s1) i = Some p).
    { destruct V7 as [V7|[V7 V8]].
      - rewrite V7. split; [|split; auto].
        + destruct LA as [B O H0]. constructor; auto; intros; unfold fA in *; rewrite (proj1 (V4 _)) in *; eauto.
        + destruct LV as [B O H0]. constructor; auto; intros; unfold fV in *; rewrite V1 in *; eauto.
      - rewrite V8. split; [|split].
        + eapply li_same; eauto. intros c. unfold fA. apply V4.
        + eapply li_same; eauto. intros c. unfold fV. now rewrite V1.
        + rewrite nth_error_upd_ne; auto. intros <-. congruence. }
    destruct L1 as (L1 & L2 & L3). split; eapply li_same with (p := p); eauto; reflexivity. }
  destruct a, p; try (inversion H; subst; split; assumption);
    repeat match type of H with
    | (if ?c then _ else _) = Ok _ => destruct c eqn:?
    | (match ?c with _ => _ end) = Ok _ => destruct c eqn:?
    end; try discriminate; inversion H; subst; clear H; try (split; assumption);
    try (apply SAME; reflexivity); try (apply SAMEV; reflexivity); try (apply SAMEA; reflexivity); try (apply LKA; reflexivity); try (apply LKV; reflexivity); try (apply ULA; reflexivity); try (apply ULV; reflexivity);
    try (apply NOT; [reflexivity|reflexivity|discriminate]).
  - (* A3 *) apply SAMEAV; destruct (vlen s v =? 0); reflexivity.
  - (* R2 *) destruct (vlen s v =? 0); [apply SAMEV|apply SAMEAV]; reflexivity.
  - (* R5 *) apply ULV; destruct k; reflexivity.
  - (* W1 *) apply SAME; destruct (tasks (ac s i) =? 0); reflexivity.
Qed.

(** * Shape of a step: which thread moved where *)
Definition notif (p : pc) : option nat := match p with P5 _ b | A4 _ b | R3 _ b _ => Some b | _ => None end.
Definition moved (be : backend) (s s' : st) (i : nat) (p p' : pc) : Prop :=
  th s' = upd (th s) i p' \/ (be = Mutex /\ exists b, notif p = Some b /\ b <> i /\ nth_error (th s) b = Some W3 /\ th s' = upd (upd (th s) b W5) i p').
Lemma moved_nth be s s' i p p' j q : moved be s s' i p p' -> nth_error (th s') j = Some q ->
  (j = i /\ q = p' /\ (i < length (th s))%nat) \/ (j <> i /\ nth_error (th s) j = Some q) \/ (j <> i /\ q = W5 /\ nth_error (th s) j = Some W3 /\ be = Mutex /\ notif p = Some j).
Proof.
  intros [M|(B & b & N & NE & E & M)] H; rewrite M in H; apply nth_upd_cases in H.
  - destruct H as [(-> & -> & L)|(Nj & H)]; auto.
  - destruct H as [(-> & -> & L)|(Nj & H)]; [left; rewrite upd_length in L; auto|]. apply nth_upd_cases in H. destruct H as [(-> & -> & L)|(Nb & H)]; auto. right. right. auto.
Qed.
Lemma moved_back be s s' i p p' j q : moved be s s' i p p' -> j <> i -> nth_error (th s) j = Some q -> q <> W3 -> nth_error (th s') j = Some q.
Proof.
  intros [M|(B & b & N & NE & E & M)] Nj H Q; rewrite M.
  - now rewrite nth_error_upd_ne by auto.
  - rewrite nth_error_upd_ne by auto. destruct (Nat.eq_dec b j) as [->|]; [congruence|]. now rewrite nth_error_upd_ne by auto.
Qed.
Lemma moved_sum (f : pc -> nat) be s s' i p p' : f W3 = f W5 -> moved be s s' i p p' -> nth_error (th s) i = Some p -> (sumf f (th s') + f p = sumf f (th s) + f p')%nat.
Proof.
  intros FE [M|(B & b & N & NE & E & M)] H; rewrite M.
  - now apply sumf_upd.
  - assert (H2 : nth_error (upd (th s) b W5) i = Some p) by (rewrite nth_error_upd_ne; auto). pose proof (sumf_upd f _ i p' p H2). pose proof (sumf_upd f _ b W5 W3 E). lia.
Qed.
Lemma moved_self be s s' i p p' : moved be s s' i p p' -> (i < length (th s))%nat -> nth_error (th s') i = Some p'.
Proof. intros [M|(B & b & N & NE & E & M)] L; rewrite M; apply nth_error_upd_eq; rewrite ?upd_length; auto. Qed.

(** What a step does to the rest of the state: at most one accelerator's counter/semaphore and at most one virtual
    accelerator change, and only under the corresponding lock. *)
Inductive change (be : backend) (cap nv : nat) (s s' : st) (i : nat) : pc -> pc -> Prop :=
| c_nop p p' : (forall b, tasks (ac s' b) = tasks (ac s b) /\ sem (ac s' b) = sem (ac s b)) -> (forall v, vq (va s' v) = vq (va s v) /\ phys (va s' v) = phys (va s v)) ->
    notif p = None -> (forall v t, p <> P1 v t) -> (forall v a, p <> P4 v a) -> (forall v a, p <> A3 v a) -> (forall v a k, p <> R2 v a k) -> p <> W6 -> 
    (match p, p' with
     | Out, P0 v _ | Out, A0 v _ | Out, R0 v _ None => (v < nv)%nat
     | Out, W0 => True
     | WS r, R0 v b (Some r') => In v r /\ r' = drop1 v r /\ b = i
     | WS r, WS r' => exists v, In v r /\ r' = drop1 v r /\ vq (va s v) = []
     | WS r, Out => r = []
     | P0 v t, P1 v' t' => v' = v /\ t' = t
     | P2 v o, P3 v' a => v' = v /\ phys (va s v) = Some a
     | P2 v o, P7 v' => v' = v /\ phys (va s v) = None
     | P3 v a, P4 v' a' => v' = v /\ a' = a
     | P6 v a, P7 v' => v' = v
     | P7 v, Out => True
     | A0 v a, A1 v' a' => v' = v /\ a' = a
     | A1 v a, A2 v' a' => v' = v /\ a' = a /\ phys (va s v) = None
     | A1 v a, A6 v' => v' = v
     | A2 v a, A3 v' a' => v' = v /\ a' = a
     | A5 v a, A6 v' => v' = v
     | A6 v, Out => True
     | R0 v a k, R1 v' a' k' | R1 v a k, R2 v' a' k' => v' = v /\ a' = a /\ k' = k
     | R4 v a k, R5 v' k' => v' = v /\ k' = k
     | R5 v k, q => q = ret i k
     | W0, W1 | W5, W1 | W2, W3 | W7, WG => True
     | W1, W2 => tasks (ac s i) = 0
     | W1, W6 => tasks (ac s i) <> 0
     | W3, W4 x => be = Spin /\ (1 <= x)%nat /\ x = sem (ac s i)
     | W3, W5 => be = Mutex
     | W4 x, W3 => sem (ac s i) <> x
     | WG, WS r => r = assigned nv s i /\ afree (ac s i) = true
     | _, _ => False
     end) -> change be cap nv s s' i p p'
| c_push v t : ac s' = ac s -> va s' = fupd (va s) v (mkvac (vfree (va s v)) (vq (va s v) ++ [t]) (phys (va s v))) -> (length (vq (va s v)) < cap)%nat -> change be cap nv s s' i (P1 v t) (P2 v (phys (va s v)))
| c_add v a : ac s' = fupd (ac s) a (mkacc (afree (ac s a)) (tasks (ac s a) + 1) (sem (ac s a))) -> va s' = va s -> change be cap nv s s' i (P4 v a) (P5 v a)
| c_not p p' b : notif p = Some b -> va s' = va s -> (forall c, tasks (ac s' c) = tasks (ac s c) /\ (sem (ac s c) <= sem (ac s' c))%nat) -> (be = Spin -> (1 <= sem (ac s' b))%nat) -> (be = Mutex -> ac s' = ac s /\ nth_error (th s') b <> Some W3) ->
    match p, p' with P5 v a, P6 v' a' | A4 v a, A5 v' a' => v' = v /\ a' = a | R3 v a k, R4 v' a' k' => v' = v /\ a' = a /\ k' = k | _, _ => False end -> change be cap nv s s' i p p'
| c_asg v a n : n = vlen s v -> ac s' = fupd (ac s) a (mkacc (afree (ac s a)) (tasks (ac s a) + n) (sem (ac s a))) -> va s' = fupd (va s) v (mkvac (vfree (va s v)) (vq (va s v)) (Some a)) -> change be cap nv s s' i (A3 v a) (if n =? 0 then A5 v a else A4 v a)
| c_rem v a k n : n = vlen s v -> phys (va s v) = Some a -> ac s' = (if n =? 0 then ac s else fupd (ac s) a (mkacc (afree (ac s a)) (tasks (ac s a) + - (n - 1)) (sem (ac s a)))) ->
    va s' = fupd (va s) v (mkvac (vfree (va s v)) (vq (va s v)) None) -> change be cap nv s s' i (R2 v a k) (if n =? 0 then R4 v a k else R3 v a k)
| c_grant : ac s' = fupd (ac s) i (mkacc (afree (ac s i)) (tasks (ac s i) + -1) (sem (ac s i))) -> va s' = va s -> change be cap nv s s' i W6 W7
| c_tok x : ac s' = fupd (ac s) i (mkacc (afree (ac s i)) (tasks (ac s i)) (sem (ac s i) - 1)) -> va s' = va s -> sem (ac s i) = x -> change be cap nv s s' i (W4 x) W5
| c_pick r v t q : ac s' = ac s -> In v r -> vq (va s v) = t :: q -> va s' = fupd (va s) v (mkvac (vfree (va s v)) q (phys (va s v))) -> change be cap nv s s' i (WS r) Out.

Lemma fupd_tasks s a f (b : nat) : (forall c, tasks (fupd (ac s) a (mkacc f (tasks (ac s a)) (sem (ac s a))) c) = tasks (ac s c) /\ sem (fupd (ac s) a (mkacc f (tasks (ac s a)) (sem (ac s a))) c) = sem (ac s c)) /\ b = b.
Proof. split; auto. intros c. unfold fupd. destruct (Nat.eqb_spec c a) as [->|]; auto. Qed.
Lemma fupd_va s v f c : vq (fupd (va s) v (mkvac f (vq (va s v)) (phys (va s v))) c) = vq (va s c) /\ phys (fupd (va s) v (mkvac f (vq (va s v)) (phys (va s v))) c) = phys (va s c).
Proof. unfold fupd. destruct (Nat.eqb_spec c v) as [->|]; auto. Qed.
Lemma existsb_in v r : existsb (Nat.eqb v) r = true -> In v r.
Proof. intros H. apply existsb_exists in H. destruct H as (x & I & E). apply Nat.eqb_eq in E. now subst. Qed.

Theorem step_change be cap nv s i a p s' : nth_error (th s) i = Some p -> step be cap nv s (i, a) = Ok s' ->
  s' = s \/ exists p', moved be s s' i p p' /\ change be cap nv s s' i p p'.
Proof.
  intros E H. unfold step in H. rewrite E in H.
  assert (LKA : forall b p', (forall c, tasks (ac (locka s i b p') c) = tasks (ac s c) /\ sem (ac (locka s i b p') c) = sem (ac s c)) /\ (locka s i b p' = s \/ th (locka s i b p') = upd (th s) i p') /\ va (locka s i b p') = va s).
  { intros b p'. unfold locka. destruct (afree (ac s b)); [|auto]. split; [|auto]. intros c. cbn. apply (fupd_tasks s b false c). }
  assert (ULA : forall b p', (forall c, tasks (ac (unlocka s i b p') c) = tasks (ac s c) /\ sem (ac (unlocka s i b p') c) = sem (ac s c))).
  { intros b p' c. cbn. apply (fupd_tasks s b true c). }
  assert (LKV : forall v p', (forall c, vq (va (lockv s i v p') c) = vq (va s c) /\ phys (va (lockv s i v p') c) = phys (va s c)) /\ (lockv s i v p' = s \/ th (lockv s i v p') = upd (th s) i p') /\ ac (lockv s i v p') = ac s).
  { intros v p'. unfold lockv. destruct (vfree (va s v)); [|auto]. split; [|auto]. intros c. cbn. apply fupd_va. }
  assert (ULV : forall v p', (forall c, vq (va (unlockv s i v p') c) = vq (va s c) /\ phys (va (unlockv s i v p') c) = phys (va s c))).
  { intros v p' c. cbn. apply fupd_va. }
  assert (MV : forall s1 p', th s1 = upd (th s) i p' -> moved be s s1 i p p') by (intros; now left).
  assert (NOT : forall b p', notif p = Some b -> moved be s (goto (notify be s b) i p') i p p' /\ va (goto (notify be s b) i p') = va s /\ (forall c, tasks (ac (goto (notify be s b) i p') c) = tasks (ac s c) /\ (sem (ac s c) <= sem (ac (goto (notify be s b) i p') c))%nat) /\
     (be = Spin -> (1 <= sem (ac (goto (notify be s b) i p') b))%nat) /\ (be = Mutex -> ac (goto (notify be s b) i p') = ac s /\ (p' <> W3 -> nth_error (th (goto (notify be s b) i p')) b <> Some W3))).
  { intros b p' N. destruct (notify_spec be s b) as (V1 & _ & _ & V4 & V5 & V6 & V7). cbn [goto ac va th]. split; [|split; [exact V1|split; [|split]]].
    - destruct V7 as [V7|[V7 V8]]; [left; cbn [goto th]; now rewrite V7|]. destruct be; [exfalso; destruct (V5 eq_refl) as [_ V9]; rewrite V9 in V8; apply (f_equal (fun l => nth_error l b)) in V8; rewrite V7 in V8; rewrite nth_error_upd_eq in V8 by (eapply nth_error_lt; eauto); discriminate|].
      right. split; auto. exists b. split; auto. split; [intros ->; rewrite E in V7; inversion V7; subst; discriminate|]. split; auto. cbn [goto th]. now rewrite V8.
    - intros c. split; [apply V4|apply V4].
    - intros B. apply V5. exact B.
    - intros B. split; [apply V6; exact B|]. intros NW. destruct (V6 B) as [_ V9]. destruct (Nat.eq_dec b i) as [->|Nb].
      + destruct (Nat.lt_ge_cases i (length (th (notify be s i)))); [rewrite nth_error_upd_eq by auto; congruence|]. intros Q. apply nth_error_lt in Q. rewrite upd_length in Q. lia.
      + now rewrite nth_error_upd_ne by auto. }
  destruct a, p; try (inversion H; subst; now left);
    repeat match type of H with
    | (if ?c then _ else _) = Ok _ => destruct c eqn:?
    | (match ?c with _ => _ end) = Ok _ => destruct c eqn:?
    end; try discriminate; match type of H with Ok ?y = Ok _ => assert (HH : s' = y) by congruence; clear H; rewrite HH; clear HH s' end; try (now left).
  all: try (match goal with |- locka _ _ ?b ?p' = _ \/ _ => destruct (LKA b p') as (X1 & [X2|X2] & X3); [now left|]; right; exists p'; split; [apply MV; exact X2|]; apply c_nop; try discriminate; auto; try (intros; rewrite X3; auto); fail end).
  all: try (match goal with |- lockv _ _ ?b ?p' = _ \/ _ => destruct (LKV b p') as (X1 & [X2|X2] & X3); [now left|]; right; exists p'; split; [apply MV; exact X2|]; apply c_nop; try discriminate; auto; try (intros; rewrite X3; auto); fail end).
  all: right.
  all: try (match goal with |- exists p', moved _ _ (goto (notify _ _ ?b) _ ?p0) _ _ _ /\ _ => destruct (NOT b p0 eq_refl) as (X1 & X2 & X3 & X4 & X5); exists p0; split; [exact X1|]; eapply c_not with (b := b); eauto; [intros B; destruct (X5 B) as [Y1 Y2]; split; [exact Y1|apply Y2; discriminate]|cbn; auto]; fail end).
  all: try (match goal with |- exists p', moved _ _ (goto ?s0 _ ?p0) _ _ _ /\ _ => exists p0; split; [apply MV; reflexivity|]; apply c_nop; try discriminate; auto; fail end).
  all: try (match goal with |- exists p', moved _ _ (unlocka _ _ ?b ?p0) _ _ _ /\ _ => exists p0; split; [apply MV; reflexivity|]; apply c_nop; try discriminate; auto; fail end).
  all: try (match goal with |- exists p', moved _ _ (unlockv _ _ ?b ?p0) _ _ _ /\ _ => exists p0; split; [apply MV; reflexivity|]; apply c_nop; try discriminate; auto; fail end).
  - exists (P0 v t). split; [apply MV; reflexivity|]. apply c_nop; try discriminate; auto. cbn. now apply Nat.ltb_lt.
  - exists (A0 v a). split; [apply MV; reflexivity|]. apply c_nop; try discriminate; auto. cbn. now apply Nat.ltb_lt.
  - exists (R0 v a None). split; [apply MV; reflexivity|]. apply c_nop; try discriminate; auto. cbn. now apply Nat.ltb_lt.
  - exists (R0 v a (Some (drop1 v r))). split; [apply MV; reflexivity|]. apply c_nop; try discriminate; auto. cbn.
    match goal with H : _ && _ = true |- _ => apply andb_true_iff in H; destruct H as [Q1 Q2] end. apply existsb_in in Q1. apply Nat.eqb_eq in Q2. auto.
  - exists (WS (drop1 v r)). split; [apply MV; reflexivity|]. apply c_nop; try discriminate; auto. cbn. exists v. auto using existsb_in.
  - exists Out. split; [apply MV; reflexivity|]. eapply c_pick; eauto using existsb_in.
  - exists (P2 v (phys (va s v))). split; [apply MV; reflexivity|]. apply c_push; auto. now apply Nat.ltb_lt.
  - exists (P5 v a). split; [apply MV; reflexivity|]. apply c_add; auto.
  - destruct (NOT a (P6 v a) eq_refl) as (X1 & X2 & X3 & X4 & X5). exists (P6 v a). split; [exact X1|]. eapply c_not with (b := a); eauto; try (cbn; auto; fail). intros B; destruct (X5 B) as [Y1 Y2]; split; [exact Y1|apply Y2; discriminate].
  - eexists. split; [apply MV; reflexivity|]. eapply c_asg; auto.
  - destruct (NOT a (A5 v a) eq_refl) as (X1 & X2 & X3 & X4 & X5). exists (A5 v a). split; [exact X1|]. eapply c_not with (b := a); eauto; try (cbn; auto; fail). intros B; destruct (X5 B) as [Y1 Y2]; split; [exact Y1|apply Y2; discriminate].
  - match goal with H : Nat.eqb _ _ = true |- _ => apply Nat.eqb_eq in H; subst end. exists (if vlen s v =? 0 then R4 v a k else R3 v a k). split; [apply MV; destruct (vlen s v =? 0); reflexivity|]. eapply c_rem; auto; destruct (vlen s v =? 0); auto.
  - destruct (NOT a (R4 v a k) eq_refl) as (X1 & X2 & X3 & X4 & X5). exists (R4 v a k). split; [exact X1|]. eapply c_not with (b := a); eauto; try (cbn; auto; fail). intros B; destruct (X5 B) as [Y1 Y2]; split; [exact Y1|apply Y2; discriminate].
  - exists (if tasks (ac s i) =? 0 then W2 else W6). split; [apply MV; reflexivity|]. apply c_nop; try discriminate; auto. destruct (Z.eqb_spec (tasks (ac s i)) 0); auto.
  - exists (W4 (sem (ac s i))). split; [apply MV; reflexivity|]. apply c_nop; try discriminate; auto. cbn. split; auto. split; auto. now apply Nat.leb_le.
  - exists W5. split; [apply MV; reflexivity|]. match goal with H : Nat.eqb _ _ = true |- _ => apply Nat.eqb_eq in H end. eapply c_tok; auto.
  - exists W3. split; [apply MV; reflexivity|]. match goal with H : Nat.eqb _ _ = false |- _ => apply Nat.eqb_neq in H end. apply c_nop; try discriminate; auto.
  - exists W7. split; [apply MV; reflexivity|]. apply c_grant; auto.
  - exists Out. split; [apply MV; reflexivity|]. apply c_nop; try discriminate; auto.
Qed.
