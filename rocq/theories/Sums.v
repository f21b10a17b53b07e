(** Sums over a finite list of threads. *)
From Verif Require Import Base.

Fixpoint sumf {A} (f : A -> nat) (l : list A) : nat :=
  match l with [] => 0 | x :: r => f x + sumf f r end.
Fixpoint sumN {A} (f : A -> N) (l : list A) : N :=
  match l with [] => 0%N | x :: r => (f x + sumN f r)%N end.

Lemma sumf_upd {A} (f : A -> nat) l i x old : nth_error l i = Some old ->
  sumf f (upd l i x) + f old = sumf f l + f x.
Proof.
  revert i. induction l as [|y l IH]; intros [|i] E; cbn in *; try discriminate.
  - inversion E; subst. lia.
  - specialize (IH _ E). lia.
Qed.
Lemma sumN_upd {A} (f : A -> N) l i x old : nth_error l i = Some old ->
  (sumN f (upd l i x) + f old = sumN f l + f x)%N.
Proof.
  revert i. induction l as [|y l IH]; intros [|i] E; cbn in *; try discriminate.
  - inversion E; subst. lia.
  - specialize (IH _ E). lia.
Qed.
Lemma sumf_map {A} (f : A -> nat) g l : (forall x, f (g x) = f x) -> sumf f (map g l) = sumf f l.
Proof. intros H. induction l as [|y l IH]; cbn; auto. Qed.
Lemma sumN_map {A} (f : A -> N) g l : (forall x, f (g x) = f x) -> sumN f (map g l) = sumN f l.
Proof. intros H. induction l as [|y l IH]; cbn; auto. now rewrite H, IH. Qed.
Lemma sumf_in {A} (f : A -> nat) l i x : nth_error l i = Some x -> f x <= sumf f l.
Proof. revert i. induction l as [|y l IH]; intros [|i] E; cbn in *; try discriminate; [inversion E; lia|specialize (IH _ E); lia]. Qed.
Lemma sumN_in {A} (f : A -> N) l i x : nth_error l i = Some x -> (f x <= sumN f l)%N.
Proof. revert i. induction l as [|y l IH]; intros [|i] E; cbn in *; try discriminate; [inversion E; lia|specialize (IH _ E); lia]. Qed.
Lemma sumf_two {A} (f : A -> nat) l i j x y : i <> j -> nth_error l i = Some x -> nth_error l j = Some y -> f x + f y <= sumf f l.
Proof.
  revert i j. induction l as [|z l IH]; intros [|i] [|j] N Ei Ej; cbn in *; try discriminate; try congruence.
  - inversion Ei; subst. pose proof (sumf_in f _ _ _ Ej). lia.
  - inversion Ej; subst. pose proof (sumf_in f _ _ _ Ei). lia.
  - specialize (IH i j ltac:(congruence) Ei Ej). lia.
Qed.
Lemma sumf_repeat {A} (f : A -> nat) x n : f x = 0 -> sumf f (repeat x n) = 0.
Proof. intros H. induction n; cbn; auto. lia. Qed.
Lemma sumN_repeat {A} (f : A -> N) x n : f x = 0%N -> sumN f (repeat x n) = 0%N.
Proof. intros H. induction n; cbn; auto. rewrite H. auto. Qed.
Lemma sumf_zero {A} (f : A -> nat) l : (forall i x, nth_error l i = Some x -> f x = 0) -> sumf f l = 0.
Proof.
  induction l as [|y l IH]; intros H; cbn; auto. rewrite (H 0 y eq_refl). cbn. apply IH. intros i x E. apply (H (S i) x E).
Qed.
Lemma sumN_zero {A} (f : A -> N) l : (forall i x, nth_error l i = Some x -> f x = 0%N) -> sumN f l = 0%N.
Proof.
  induction l as [|y l IH]; intros H; cbn; auto. rewrite (H 0 y eq_refl). apply IH. intros i x E. apply (H (S i) x E).
Qed.
Lemma nth_upd_cases {A} (l : list A) i x j y : nth_error (upd l i x) j = Some y ->
  (j = i /\ y = x /\ i < length l) \/ (j <> i /\ nth_error l j = Some y).
Proof.
  intros E. destruct (Nat.eq_dec j i) as [->|N].
  - left. assert (H : i < length l). { rewrite <- (upd_length l i x). apply nth_error_Some. congruence. }
    rewrite nth_error_upd_eq in E by auto. inversion E. auto.
  - right. rewrite nth_error_upd_ne in E by auto. auto.
Qed.
Lemma nth_error_lt {A} (l : list A) i x : nth_error l i = Some x -> i < length l.
Proof. intros H. apply nth_error_Some. congruence. Qed.
