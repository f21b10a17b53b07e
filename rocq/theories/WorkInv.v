(** Invariants of WorkModel, second part: pending counters, permits and scans. *)
From Verif Require Import Base Sums Throttle WorkModel WorkProof.
From Coq Require Import Permutation.
Local Open Scope Z_scope.
Arguments Nat.eqb : simpl never.

Definition below (nv : nat) (l : list nat) : Prop := Forall (fun v => (v < nv)%nat) l.
(** what a thread knows at each point *)
Definition tinv (be : backend) (nv : nat) (s : st) (i : nat) (p : pc) : Prop :=
  match p with
  | P0 v _ | P1 v _ | P5 v _ | P6 v _ | P7 v | A0 v _ | A1 v _ | A4 v _ | A5 v _ | A6 v
  | R0 v _ None | R1 v _ None | R2 v _ None | R3 v _ None | R4 v _ None | R5 v None => (v < nv)%nat
  | P2 v o => (v < nv)%nat /\ phys (va s v) = o
  | P3 v a | P4 v a => (v < nv)%nat /\ phys (va s v) = Some a
  | A2 v _ | A3 v _ => (v < nv)%nat /\ phys (va s v) = None
  | R0 v a (Some r) | R1 v a (Some r) | R2 v a (Some r) | R3 v a (Some r) | R4 v a (Some r) => a = i /\ NoDup (v :: r) /\ below nv (v :: r)
  | R5 v (Some r) => NoDup (v :: r) /\ below nv (v :: r)
  | WS r => NoDup r /\ below nv r
  | W2 => tasks (ac s i) = 0
  | W6 => 1 <= tasks (ac s i)
  | W4 x => (1 <= x)%nat /\ be = Spin
  | _ => True
  end.
Definition tinvs be nv s := forall i p, nth_error (th s) i = Some p -> tinv be nv s i p.

Lemma change_frame be cap nv s s' i p p' : change be cap nv s s' i p p' ->
  (forall v, phys (va s' v) = phys (va s v) \/ hV i p = Some v) /\ (forall b, tasks (ac s' b) = tasks (ac s b) \/ hA i p = Some b).
Proof.
  intros H. destruct H as [p p' H1 H2 _ _ _ _ _ _ _|v t A V _|v a A V|p p' b N V T _ _ _|v a n _ A V|v a k n _ _ A V|A V|x A V _|r v t q A _ _ V].
  - split; [intros; left; apply H2|intros; left; apply H1].
  - rewrite A, V. split; auto. intros w. unfold fupd. destruct (Nat.eqb_spec w v) as [->|]; auto.
  - rewrite A, V. split; auto. intros w. unfold fupd. destruct (Nat.eqb_spec w a) as [->|]; auto.
  - rewrite V. split; auto. intros w. left. apply T.
  - rewrite A, V. split; intros w; unfold fupd; [destruct (Nat.eqb_spec w v) as [->|]|destruct (Nat.eqb_spec w a) as [->|]]; auto.
  - rewrite A, V. split; intros w; [|destruct (n =? 0); auto]; unfold fupd; [destruct (Nat.eqb_spec w v) as [->|]|destruct (Nat.eqb_spec w a) as [->|]]; auto.
  - rewrite A, V. split; auto. intros w. unfold fupd. destruct (Nat.eqb_spec w i) as [->|]; auto.
  - rewrite A, V. split; auto. intros w. unfold fupd. destruct (Nat.eqb_spec w i) as [->|]; auto.
  - rewrite A, V. split; auto. intros w. unfold fupd. destruct (Nat.eqb_spec w v) as [->|]; auto.
Qed.

Lemma drop1_in v x r : In x (drop1 v r) -> In x r.
Proof. induction r as [|y r IH]; cbn; auto. destruct (Nat.eqb y v); cbn; intuition. Qed.
Lemma drop1_nodup v r : NoDup r -> NoDup (drop1 v r) /\ ~ In v (drop1 v r).
Proof.
  induction 1 as [|y r N D IH]; cbn; [split; [constructor|auto]|]. destruct (Nat.eqb_spec y v) as [->|Nv]; [auto|]. destruct IH as [I1 I2]. split.
  - constructor; auto. intros Q. apply N. eapply drop1_in; eauto.
  - cbn. intuition.
Qed.
Lemma drop1_perm v r : In v r -> Permutation r (v :: drop1 v r).
Proof.
  induction r as [|y r IH]; cbn; intros H; [easy|]. destruct (Nat.eqb_spec y v) as [->|Nv]; [reflexivity|]. destruct H as [->|H]; [easy|].
  rewrite (IH H) at 1. apply perm_swap.
Qed.
Lemma drop1_below nv v r : below nv r -> below nv (drop1 v r).
Proof. unfold below. rewrite !Forall_forall. intros H x I. apply H. eapply drop1_in; eauto. Qed.

Lemma tinvs_step be cap nv s x s' : locks s -> (forall a, 0 <= tasks (ac s a)) -> tinvs be nv s -> step be cap nv s x = Ok s' -> tinvs be nv s'.
Proof.
  intros [LA LV] TP T H. destruct x as [i a]. destruct (nth_error (th s) i) as [p|] eqn:E; [|unfold step in H; rewrite E in H; inversion H; subst; auto].
  destruct (step_change be cap nv s i a p s' E H) as [->|(p' & M & C)]; [auto|]. destruct (change_frame _ _ _ _ _ _ _ _ C) as [FV FA].
  intros j q Ej. destruct (moved_nth _ _ _ _ _ _ _ _ M Ej) as [(-> & -> & _)|[(Nj & Eo)|(Nj & -> & _)]]; [| |exact I].
  - (* the thread that moved *) clear Ej. pose proof (T _ _ E) as Ti. clear T FV FA H LA LV.
    assert (BV : forall v r, In v r -> below nv r -> (v < nv)%nat) by (intros v r I B; unfold below in B; rewrite Forall_forall in B; auto).
    destruct C as [p p' H1 H2 _ _ _ _ _ _ HM|v t A V _|v b A V|p p' b N V TT _ _ HM|v b n _ A V|v b k n _ PH A V|A V|y A V _|r v t q A _ _ V].
    + destruct p; destruct p'; try contradiction; repeat match goal with k : option (list nat) |- _ => destruct k end; cbn [tinv ret] in *; auto;
        repeat match goal with H : context [match ?k with Some _ => _ | None => _ end] |- _ => destruct k; cbn [tinv] in * end; try contradiction;
        repeat match goal with H : _ /\ _ |- _ => destruct H end; subst; auto;
        repeat match goal with |- context [match ?k with Some _ => _ | None => _ end] => destruct k; cbn [tinv] in * end; auto;
        repeat match goal with H : _ /\ _ |- _ => destruct H end; subst; auto;
        try (split; auto; rewrite (proj2 (H2 _)); auto; fail);
        try (rewrite (proj1 (H1 _)); auto; fail);
        repeat match goal with H : _ /\ _ |- _ => destruct H end; auto.
      all: cbn [ret] in *; repeat match goal with H : Some _ = Some _ |- _ => inversion H; clear H; subst | H : WS _ = WS _ |- _ => inversion H; clear H; subst end; try discriminate; auto.
      all: try (match goal with H : NoDup (_ :: ?l), H' : below _ (_ :: ?l) |- _ => inversion H; inversion H'; subst; auto end; fail).
      * rewrite (proj1 (H1 _)). specialize (TP i). lia.
      * unfold assigned. split; [apply NoDup_filter, seq_NoDup|]. unfold below. rewrite Forall_forall. intros x I. apply filter_In in I. destruct I as [I _]. apply in_seq in I. lia.
      * destruct (drop1_nodup v r ltac:(assumption)) as [D1 D2]. split; [reflexivity|]. split; [constructor; auto|]. constructor; [eapply BV; eauto|]. now apply drop1_below.
      * match goal with H : exists _, _ |- _ => destruct H as (w & I1 & -> & _) end. destruct (drop1_nodup w r ltac:(assumption)). split; auto. now apply drop1_below.
    + cbn in *. split; auto. rewrite V. now rewrite fupd_eq.
    + cbn in *. tauto.
    + destruct p; destruct p'; try contradiction; cbn [tinv] in *; repeat match goal with H : _ /\ _ |- _ => destruct H end; subst; auto.
    + cbn in Ti. destruct Ti. destruct (n =? 0); auto.
    + cbn in Ti. destruct (n =? 0); destruct k; cbn; auto.
    + exact I.
    + exact I.
    + exact I.
  - (* another thread *) pose proof (T _ _ Eo) as Tj.
    assert (PV : forall v, hV j q = Some v -> phys (va s' v) = phys (va s v)).
    { intros v Hv. destruct (FV v) as [Q|Q]; auto. exfalso. apply Nj. eapply (l_one _ _ _ LV); eauto. }
    assert (TA : forall b, hA j q = Some b -> tasks (ac s' b) = tasks (ac s b)).
    { intros b Hb. destruct (FA b) as [Q|Q]; auto. exfalso. apply Nj. eapply (l_one _ _ _ LA); eauto. }
    destruct q; cbn [tinv hV hA] in *; auto; try (rewrite PV by auto; auto; fail); try (rewrite TA by auto; auto; fail).
Qed.

(** tasks never negative on legal schedules *)
Lemma tasks_step be cap nv s x s' : tinvs be nv s -> (forall a, 0 <= tasks (ac s a)) -> legal1 s x -> step be cap nv s x = Ok s' -> forall a, 0 <= tasks (ac s' a).
Proof.
  intros T TP LG H. destruct x as [i a]. destruct (nth_error (th s) i) as [p|] eqn:E; [|unfold step in H; rewrite E in H; inversion H; subst; auto].
  destruct (step_change be cap nv s i a p s' E H) as [->|(p' & M & C)]; [auto|]. pose proof (T _ _ E) as Ti. intros b. specialize (TP b) as TPb.
  destruct C as [p p' H1 H2 _ _ _ _ _ _ HM|v t A V _|v c A V|p p' c N V TT _ _ HM|v c n Hn A V|v c k n Hn PH A V|A V|y A V _|r v t q A _ _ V]; try (rewrite A; auto; fail).
  - rewrite (proj1 (H1 b)). auto.
  - rewrite A. unfold fupd. destruct (Nat.eqb_spec b c) as [->|]; cbn; auto. lia.
  - rewrite (proj1 (TT b)). auto.
  - rewrite A. unfold fupd. destruct (Nat.eqb_spec b c) as [->|]; cbn; auto. unfold vlen in Hn. lia.
  - rewrite A. assert (n = 0) as ->; [|exact TPb]. subst n. unfold legal1 in LG. cbn in LG. destruct a; try (unfold step in H; rewrite E in H; inversion H; subst; exfalso;
      apply (f_equal (fun f => phys (f v))) in V; rewrite fupd_eq in V; cbn in V; congruence). rewrite E in LG. unfold vlen. rewrite LG. reflexivity.
  - rewrite A. unfold fupd. destruct (Nat.eqb_spec b i) as [->|]; cbn; auto. cbn in Ti. lia.
  - rewrite A. unfold fupd. destruct (Nat.eqb_spec b i) as [->|]; cbn; auto.
Qed.

(** * Wake-ups *)
Definition wake (s : st) (j : nat) : Prop := tasks (ac s j) = 0 \/ (1 <= sem (ac s j))%nat \/ exists k p, nth_error (th s) k = Some p /\ notif p = Some j.
Record wakeinv (be : backend) (s : st) : Prop := {
  w_sleep : forall j, (nth_error (th s) j = Some W3 \/ exists x, nth_error (th s) j = Some (W4 x)) -> wake s j;
  w_sem : be = Mutex -> forall j, sem (ac s j) = 0%nat
}.
Lemma sem_frame be cap nv s s' i p p' j : change be cap nv s s' i p p' -> (sem (ac s j) <= sem (ac s' j))%nat \/ (i = j /\ exists x, p = W4 x).
Proof.
  intros C. destruct C as [p p' H1 H2 _ _ _ _ _ _ HM|v t A V _|v c A V|p p' c N V TT _ _ HM|v c n Hn A V|v c k n Hn PH A V|A V|y A V _|r v t q A _ _ V]; try (rewrite A; auto; fail).
  - left. rewrite (proj2 (H1 j)). auto.
  - left. rewrite A. unfold fupd. destruct (Nat.eqb_spec j c) as [->|]; cbn; auto.
  - left. apply TT.
  - left. rewrite A. unfold fupd. destruct (Nat.eqb_spec j c) as [->|]; cbn; auto.
  - left. rewrite A. destruct (n =? 0); auto. unfold fupd. destruct (Nat.eqb_spec j c) as [->|]; cbn; auto.
  - left. rewrite A. unfold fupd. destruct (Nat.eqb_spec j i) as [->|]; cbn; auto.
  - destruct (Nat.eq_dec i j); [right; eauto|]. left. rewrite A. now rewrite fupd_ne by auto.
Qed.
Lemma wake_step be cap nv s x s' : locks s -> tinvs be nv s -> wakeinv be s -> step be cap nv s x = Ok s' -> wakeinv be s'.
Proof.
  intros [LA LV] T [WS_ WM] H. destruct x as [i a]. destruct (nth_error (th s) i) as [p|] eqn:E; [|unfold step in H; rewrite E in H; inversion H; subst; split; auto].
  destruct (step_change be cap nv s i a p s' E H) as [->|(p' & M & C)]; [split; auto|]. pose proof (T _ _ E) as Ti. clear H.
  pose proof (nth_error_lt _ _ _ E) as Li. pose proof (moved_self _ _ _ _ _ _ M Li) as E'.
  split.
  - intros j SL.
    assert (OLD : j <> i \/ (exists x, p = W4 x /\ p' = W3) \/ (exists x, p = W3 /\ p' = W4 x) \/ (p = W2 /\ p' = W3 /\ tasks (ac s' i) = 0)).
    { destruct (Nat.eq_dec j i) as [->|]; [|auto]. right. rewrite E' in SL. clear -SL C Ti.
      destruct C as [p p' H1 H2 _ _ _ _ _ _ HM|v t A V _|v c A V|p p' c N V TT _ _ HM|v c n Hn A V|v c k n Hn PH A V|A V|y A V _|r v t q A _ _ V];
        try (exfalso; destruct SL as [SL|[x SL]]; discriminate).
      - destruct SL as [SL|[x SL]]; inversion SL; subst; destruct p; try contradiction; eauto; try (exfalso; destruct k; discriminate).
        right; right; split; auto; split; auto; rewrite (proj1 (H1 i)); exact Ti.
      - exfalso. destruct SL as [SL|[x SL]]; inversion SL; subst; destruct p; try contradiction.
      - exfalso. destruct SL as [SL|[x SL]]; destruct (n =? 0); discriminate.
      - exfalso. destruct SL as [SL|[x SL]]; destruct (n =? 0); discriminate. }
    assert (OW : (p = W2 /\ p' = W3 /\ tasks (ac s' i) = 0 /\ j = i) \/ wake s j).
    { destruct (Nat.eq_dec j i) as [->|Nj].
      - destruct OLD as [N|[(x & -> & ->)|[(x & -> & ->)|(Q1 & Q2 & Q3)]]]; [easy| | |left; auto]; right; apply WS_; eauto.
      - right. apply WS_. destruct SL as [SL|[x SL]]; destruct (moved_nth _ _ _ _ _ _ _ _ M SL) as [(Q & _)|[(_ & Q)|(_ & Q & _)]]; try easy; eauto. }
    destruct OW as [(-> & -> & Q & ->)|OW]; [left; auto|].
    assert (NP : forall k q, k <> i -> nth_error (th s) k = Some q -> notif q = Some j -> wake s' j).
    { intros k q Nk Ek Nq. right. right. exists k, q. split; auto. eapply moved_back; eauto. intros ->. discriminate. }
    assert (SF : (sem (ac s j) <= sem (ac s' j))%nat).
    { destruct (sem_frame _ _ _ _ _ _ _ _ j C) as [Q|(-> & x & ->)]; auto. destruct OLD as [Q|[(y & _ & ->)|[(y & Q & _)|(Q & _)]]]; try easy.
      inversion C; subst; try discriminate; repeat match goal with HH : forall b, tasks _ = _ /\ sem _ = _ |- _ => rewrite (proj2 (HH j)) end; auto. }
    destruct OW as [T0|[S1|(k & q & Ek & Nq)]].
    + (* no pending work before: either still none, or the mover is about to notify *)
      destruct (change_frame _ _ _ _ _ _ _ _ C) as [_ FA].
      clear -T0 C Ti E' FA NP SF. revert Ti E'. destruct C as [p p' H1 H2 _ _ _ _ _ _ HM|v t A V _|v c A V|p p' c N V TT _ _ HM|v c n Hn A V|v c k n Hn PH A V|A V|y A V _|r v t q A _ _ V]; intros Ti E'; try (left; rewrite A; auto; fail).
      * left. rewrite (proj1 (H1 j)). auto.
      * destruct (Nat.eq_dec j c) as [->|]; [right; right; exists i; eauto|]. left. rewrite A. now rewrite fupd_ne by auto.
      * left. rewrite (proj1 (TT j)). auto.
      * destruct (Nat.eq_dec j c) as [->|]; [|left; rewrite A; now rewrite fupd_ne by auto]. destruct (Z.eqb_spec n 0) as [->|Nn].
        -- left. rewrite A, fupd_eq. cbn. lia.
        -- right. right. exists i. eauto.
      * destruct (Z.eqb_spec n 0) as [->|Nn]; [left; rewrite A; auto|]. destruct (Nat.eq_dec j c) as [->|]; [|left; rewrite A; now rewrite fupd_ne by auto].
        right. right. exists i. eauto.
      * left. rewrite A. unfold fupd. destruct (Nat.eqb_spec j i) as [->|]; cbn; auto. cbn in Ti. lia.
      * left. rewrite A. unfold fupd. destruct (Nat.eqb_spec j i) as [->|]; cbn; auto.
    + right. left. lia.
    + destruct (Nat.eq_dec k i) as [->|Nk]; [|eapply NP; eauto]. rewrite E in Ek. inversion Ek; subst q.
      destruct C as [p p' H1 H2 N _ _ _ _ _ HM|v t A V _|v c A V|p p' c N V TT SP MU HM|v c n Hn A V|v c k n Hn PH A V|A V|y A V _|r v t q A _ _ V]; try (cbn in Nq; discriminate); [congruence|].
      assert (c = j) by congruence. subst c. destruct be; [right; left; auto|]. exfalso. destruct (MU eq_refl) as [_ MU2].
      destruct SL as [SL|[x SL]]; [auto|]. destruct (moved_nth _ _ _ _ _ _ _ _ M SL) as [(-> & <- & _)|[(Nj & Q)|(_ & Q & _)]]; [destruct p; easy| |easy].
      pose proof (T _ _ Q) as Tj. cbn in Tj. destruct Tj; discriminate.
  - intros B j. specialize (WM B j). destruct C as [p p' H1 H2 N _ _ _ _ _ HM|v t A V _|v c A V|p p' c N V TT SP MU HM|v c n Hn A V|v c k n Hn PH A V|A V|y A V _|r v t q A _ _ V]; try (rewrite A; auto; fail).
    + rewrite (proj2 (H1 j)). auto.
    + rewrite A. unfold fupd. destruct (Nat.eqb_spec j c) as [->|]; cbn; auto.
    + destruct (MU B) as [-> _]. auto.
    + rewrite A. unfold fupd. destruct (Nat.eqb_spec j c) as [->|]; cbn; auto.
    + rewrite A. destruct (n =? 0); auto. unfold fupd. destruct (Nat.eqb_spec j c) as [->|]; cbn; auto.
    + rewrite A. unfold fupd. destruct (Nat.eqb_spec j i) as [->|]; cbn; auto.
    + rewrite A. unfold fupd. destruct (Nat.eqb_spec j i) as [->|]; cbn; auto. rewrite WM. reflexivity.
Qed.

(** * Pending work accounted for: counter + permits = queued work whose submission was counted *)
Fixpoint sumZ (f : nat -> Z) (l : list nat) : Z := match l with [] => 0 | x :: r => f x + sumZ f r end.
Lemma sumZ_ext f g l : (forall v, In v l -> f v = g v) -> sumZ f l = sumZ g l.
Proof. induction l as [|x r IH]; cbn; intros H; auto. rewrite H by auto. rewrite IH; auto. Qed.
Lemma sumZ_perm f l l' : Permutation l l' -> sumZ f l = sumZ f l'.
Proof. induction 1; cbn; lia. Qed.
Lemma sumZ_point f g l v0 d : (forall v, g v = f v + (if Nat.eqb v v0 then d else 0)) -> NoDup l -> sumZ g l = sumZ f l + (if existsb (Nat.eqb v0) l then d else 0).
Proof.
  intros H N. induction N as [|x r NI N IH]; cbn; [lia|]. rewrite IH, H. rewrite (Nat.eqb_sym v0 x). destruct (Nat.eqb_spec x v0) as [->|Nx]; cbn; [|lia].
  replace (existsb (Nat.eqb v0) r) with false; [lia|]. symmetry. apply not_true_iff_false. intros Q. apply existsb_in in Q. auto.
Qed.
Lemma sumZ_nonneg f l : (forall v, In v l -> 0 <= f v) -> 0 <= sumZ f l.
Proof. induction l as [|x r IH]; cbn; intros H; [lia|]. pose proof (H x (or_introl eq_refl)). assert (0 <= sumZ f r) by (apply IH; auto). lia. Qed.

Definition uncf (v a : nat) (p : pc) : nat :=
  match p with P2 w (Some b) | P3 w b | P4 w b => if Nat.eqb w v && Nat.eqb b a then 1%nat else 0%nat | _ => 0%nat end.
Definition held (s : st) (a v : nat) : Z := match phys (va s v) with Some b => if Nat.eqb b a then vlen s v else 0 | None => 0 end.
Definition credit (s : st) (a v : nat) : Z := held s a v - Z.of_nat (sumf (uncf v a) (th s)).
Definition granted (p : pc) : Z :=
  match p with W7 | WG | WS _ | R0 _ _ (Some _) | R1 _ _ (Some _) | R2 _ _ (Some _) | R3 _ _ (Some _) | R4 _ _ (Some _) | R5 _ (Some _) => 1 | _ => 0 end.
Definition perm (s : st) (a : nat) : Z := match nth_error (th s) a with Some p => granted p | None => 0 end.
Definition scan (p : pc) : option (list nat) :=
  match p with
  | WS r => Some r
  | R0 v _ (Some r) | R1 v _ (Some r) | R2 v _ (Some r) => Some (v :: r)
  | R3 _ _ (Some r) | R4 _ _ (Some r) | R5 _ (Some r) => Some r
  | _ => None
  end.
Record acct (nv : nat) (s : st) : Prop := {
  ac_eq : forall a, tasks (ac s a) + perm s a = sumZ (credit s a) (seq 0 nv);
  ac_scan : forall i p r, nth_error (th s) i = Some p -> scan p = Some r -> 1 <= sumZ (credit s i) r
}.
Lemma perm_moved be s s' i p p' a : moved be s s' i p p' -> nth_error (th s) i = Some p -> perm s' a = perm s a + (if Nat.eqb a i then granted p' - granted p else 0).
Proof.
  intros M E. pose proof (nth_error_lt _ _ _ E) as L. unfold perm. destruct (Nat.eqb_spec a i) as [->|N].
  - rewrite (moved_self _ _ _ _ _ _ M L), E. lia.
  - destruct (nth_error (th s) a) as [q|] eqn:Ea.
    + destruct M as [M|(B & b & Nb & NE & E3 & M)]; rewrite M; rewrite nth_error_upd_ne by auto; [rewrite Ea; lia|]. destruct (Nat.eq_dec b a) as [->|].
      * rewrite nth_error_upd_eq by (eapply nth_error_lt; eauto). rewrite E3 in Ea. inversion Ea; subst. cbn. lia.
      * rewrite nth_error_upd_ne by auto. rewrite Ea. lia.
    + assert (nth_error (th s') a = None) as ->; [|lia]. apply nth_error_None. apply nth_error_None in Ea. destruct M as [M|(B & b & Nb & NE & E3 & M)]; rewrite M, ?upd_length; auto.
Qed.
(** the credit of [v] under [a] when the mover's own part changed by [g] and what [a] holds of [v] by [h] *)
Lemma credit_moved be s s' i p p' a v : moved be s s' i p p' -> nth_error (th s) i = Some p ->
  credit s' a v = credit s a v + (held s' a v - held s a v) - (Z.of_nat (uncf v a p') - Z.of_nat (uncf v a p)).
Proof. intros M E. pose proof (moved_sum (uncf v a) _ _ _ _ _ _ eq_refl M E) as Q. unfold credit. lia. Qed.
Lemma held_same s s' a v : phys (va s' v) = phys (va s v) -> vq (va s' v) = vq (va s v) -> held s' a v = held s a v.
Proof. intros H1 H2. unfold held, vlen. now rewrite H1, H2. Qed.
Lemma held_nonneg s a v : 0 <= held s a v.
Proof. unfold held, vlen. destruct (phys (va s v)) as [b|]; [destruct (Nat.eqb b a)|]; lia. Qed.
Lemma credit_empty s a v : vq (va s v) = [] \/ phys (va s v) = None -> credit s a v <= 0.
Proof. intros H. unfold credit, held, vlen. destruct H as [->| ->]; cbn; [destruct (phys (va s v)) as [b|]; [destruct (Nat.eqb b a)|]|]; lia. Qed.

(** one step: at most one (accelerator, virtual accelerator) pair gains or loses credit, and the accelerator's counter
    plus permits move by the same amount *)
Definition creditd (nv : nat) (s s' : st) (i : nat) (p : pc) : Prop :=
  exists a0 v0 d, (forall a v, credit s' a v = credit s a v + (if Nat.eqb a a0 && Nat.eqb v v0 then d else 0)) /\ (d = 0 \/ (v0 < nv)%nat) /\
    (forall a, tasks (ac s' a) + perm s' a = tasks (ac s a) + perm s a + (if Nat.eqb a a0 then d else 0)) /\ (0 <= d \/ a0 = i).
Lemma credit_step be cap nv s i a p s' p' : tinvs be nv s -> locks s -> legal1 s (i, a) -> nth_error (th s) i = Some p -> step be cap nv s (i, a) = Ok s' -> p <> WS [] ->
  moved be s s' i p p' -> change be cap nv s s' i p p' -> creditd nv s s' i p.
Proof.
  intros T [LA LV] LG E ST NE M C. pose proof (T _ _ E) as Ti.
  pose proof (fun a => perm_moved be s s' i p p' a M E) as PM. pose proof (fun a v => credit_moved be s s' i p p' a v M E) as CM.
  assert (ZERO : (forall a v, held s' a v - held s a v = Z.of_nat (uncf v a p') - Z.of_nat (uncf v a p)) -> (forall b, tasks (ac s' b) = tasks (ac s b)) -> granted p' = granted p -> creditd nv s s' i p).
  { intros Q1 Q2 Q3. exists 0%nat, 0%nat, 0. split; [|split; [auto|split; [|lia]]].
    - intros b v. rewrite CM, Q1. destruct (_ && _); lia.
    - intros b. rewrite PM, Q2, Q3. destruct (Nat.eqb b i), (Nat.eqb b 0); lia. }
  assert (HS : (forall v, phys (va s' v) = phys (va s v) /\ vq (va s' v) = vq (va s v)) -> forall a v, held s' a v - held s a v = 0).
  { intros Q b v. rewrite (held_same s s') by apply Q. lia. }
  destruct C as [p p' H1 H2 N N1 N2 N3 N4 N5 HM|v t A V _|v c A V|p p' c N V TT SP MU HM|v c n Hn A V|v c k n Hn PH A V|A V|y A V _|r v t q A IN VQ V].
  - apply ZERO.
    + intros b v. rewrite HS by (intros w; split; apply H2). clear -HM Ti N2. destruct p; destruct p'; try contradiction; cbn; auto; try lia; try (destruct k; discriminate);
      repeat match goal with k : option (list nat) |- _ => destruct k end; try contradiction; try discriminate; cbn in Ti; repeat match goal with H : _ /\ _ |- _ => destruct H end; subst; try lia.
      all: try (exfalso; eapply N2; reflexivity).
      all: match goal with HP : phys _ = _ |- _ => rewrite HP end; lia.
    + intros b. apply H1.
    + clear -HM NE N5. destruct p; destruct p'; try contradiction; cbn; auto; try (now elim N5); try (destruct k; inversion HM; subst; auto; fail);
      repeat match goal with k : option (list nat) |- _ => destruct k end; try contradiction; try discriminate; auto; repeat match goal with H : _ /\ _ |- _ => destruct H end; try discriminate; try congruence.
  - (* push *) apply ZERO; [| |reflexivity].
    + intros b w. unfold held, vlen. rewrite V. cbn [uncf]. unfold fupd. rewrite (Nat.eqb_sym v w). destruct (Nat.eqb_spec w v) as [->|Nw]; cbn [vq phys andb].
      * destruct (phys (va s v)) as [c|]; [|lia]. destruct (Nat.eqb c b); [|lia]. rewrite app_length. cbn. lia.
      * destruct (phys (va s v)) as [c|]; lia.
    + intros b. now rewrite A.
  - (* counted *) cbn in Ti. destruct Ti as [Lv PV]. exists c, v, 1. split; [|split; [auto|split; [|lia]]].
    + intros b w. rewrite CM, HS by (intros z; rewrite V; auto). cbn [uncf]. rewrite (Nat.eqb_sym v w), (Nat.eqb_sym c b). destruct (Nat.eqb w v), (Nat.eqb b c); cbn; lia.
    + intros b. rewrite PM, A. cbn [granted]. unfold fupd. destruct (Nat.eqb_spec b c) as [->|]; cbn [tasks]; destruct (Nat.eqb _ i); lia.
  - (* notify *) apply ZERO.
    + intros b w. rewrite HS by (intros z; rewrite V; auto). destruct p; try discriminate; destruct p'; try contradiction; reflexivity.
    + intros b. apply TT.
    + destruct p; try discriminate; destruct p'; try contradiction; cbn; auto. destruct HM as (-> & -> & ->). reflexivity.
  - (* assign *) cbn in Ti. destruct Ti as [Lv PV]. exists c, v, n. split; [|split; [auto|split; [|left; unfold vlen in Hn; lia]]].
    + intros b w. rewrite CM. replace (uncf w b (if n =? 0 then A5 v c else A4 v c)) with 0%nat by (destruct (n =? 0); reflexivity). cbn [uncf].
      unfold held, vlen. rewrite V. unfold fupd. destruct (Nat.eqb_spec w v) as [->|Nw]; [|destruct (Nat.eqb b c); cbn; lia]. rewrite PV. cbn [phys vq]. rewrite (Nat.eqb_sym c b). destruct (Nat.eqb b c); cbn [andb]; unfold vlen in Hn; lia.
    + intros b. rewrite PM, A. replace (granted (if n =? 0 then A5 v c else A4 v c)) with 0 by (destruct (n =? 0); reflexivity). cbn [granted]. unfold fupd. destruct (Nat.eqb_spec b c) as [->|]; cbn [tasks]; destruct (Nat.eqb _ i); lia.
  - (* remove: legal only with an empty queue *)
    assert (QE : vq (va s v) = []). { unfold legal1 in LG. cbn in LG. destruct a; try (unfold step in ST; rewrite E in ST; inversion ST; subst; exfalso;
      apply (f_equal (fun f => phys (f v))) in V; rewrite fupd_eq in V; cbn in V; congruence). rewrite E in LG. exact LG. }
    assert (n = 0) as ->. { subst n. unfold vlen. now rewrite QE. } cbn [Z.eqb] in *. apply ZERO.
    + intros b w. cbn [uncf]. unfold held, vlen. rewrite V. unfold fupd. destruct (Nat.eqb_spec w v) as [->|Nw]; [|lia]. cbn [phys vq]. rewrite PH, QE. destruct (Nat.eqb c b); reflexivity.
    + intros b. now rewrite A.
    + destruct k; reflexivity.
  - (* granted *) exists i, 0%nat, 0. split; [|split; [auto|split; [|lia]]].
    + intros b w. rewrite CM, HS by (intros z; rewrite V; auto). cbn [uncf]. destruct (_ && _); lia.
    + intros b. rewrite PM, A. cbn [granted]. unfold fupd. destruct (Nat.eqb_spec b i) as [->|]; cbn [tasks]; lia.
  - (* token *) apply ZERO; [| |reflexivity].
    + intros b w. rewrite HS by (intros z; rewrite V; auto). reflexivity.
    + intros b. rewrite A. unfold fupd. destruct (Nat.eqb_spec b i) as [->|]; reflexivity.
  - (* pick *)
    assert (PV : phys (va s v) = Some i).
    { unfold legal1 in LG. cbn in LG. rewrite E in LG. unfold step in ST; rewrite E in ST.
      assert (Q : vq (va s' v) <> vq (va s v)) by (rewrite V, fupd_eq, VQ; cbn; intros Q; apply (f_equal (@length nat)) in Q; cbn in Q; lia).
      destruct a; try (exfalso; inversion ST; subst; auto; fail).
      - exfalso. destruct (_ && _); [|inversion ST; subst; auto]. destruct (phys (va s v0)) as [c|]; [|discriminate]. destruct (Nat.eqb c a); [|discriminate]. inversion ST; subst; auto.
      - destruct (Nat.eq_dec v0 v) as [->|Nv]; [exact LG|]. exfalso.
        apply Q. destruct (existsb (Nat.eqb v0) r); [|inversion ST; subst; auto]. destruct (vq (va s v0)); inversion ST; subst; cbn; auto. now rewrite fupd_ne by auto.
      - exfalso. destruct r; inversion ST; subst; auto. }
    cbn in Ti. destruct Ti as [ND BL]. exists i, v, (-1). split; [|split; [right; unfold below in BL; rewrite Forall_forall in BL; auto|split; [|auto]]].
    + intros b w. rewrite CM. cbn [uncf]. unfold held, vlen. rewrite V. unfold fupd. destruct (Nat.eqb_spec w v) as [->|Nw]; [|rewrite andb_false_r; lia]. cbn [phys vq]. rewrite PV, VQ, (Nat.eqb_sym i b). destruct (Nat.eqb b i); cbn [andb length]; lia.
    + intros b. rewrite PM, A. cbn [granted]. destruct (Nat.eqb b i); lia.
Qed.

Lemma existsb_false v l : ~ In v l -> existsb (Nat.eqb v) l = false.
Proof. intros H. apply not_true_iff_false. intros Q. apply existsb_in in Q. auto. Qed.
Lemma existsb_true v l : In v l -> existsb (Nat.eqb v) l = true.
Proof. intros H. apply existsb_exists. exists v. split; auto. apply Nat.eqb_refl. Qed.

Lemma filter_credit s i l : (forall v, phys (va s v) <> Some i -> credit s i v <= 0) ->
  sumZ (credit s i) l <= sumZ (credit s i) (filter (fun v => match phys (va s v) with Some b => Nat.eqb b i | None => false end) l).
Proof.
  intros H. induction l as [|x r IH]; cbn; [lia|]. destruct (phys (va s x)) as [b|] eqn:P.
  - destruct (Nat.eqb_spec b i) as [->|Nb]; cbn; [lia|]. assert (credit s i x <= 0) by (apply H; congruence). lia.
  - assert (credit s i x <= 0) by (apply H; congruence). lia.
Qed.
Lemma acct_step be cap nv s x s' : locks s -> tinvs be nv s -> (forall a, 0 <= tasks (ac s a)) -> legal1 s x -> acct nv s -> step be cap nv s x = Ok s' -> acct nv s'.
Proof.
  intros LK T TP LG AC H. pose proof AC as [EQ SC]. destruct x as [i a]. destruct (nth_error (th s) i) as [p|] eqn:E; [|unfold step in H; rewrite E in H; inversion H; subst; auto].
  destruct (step_change be cap nv s i a p s' E H) as [->|(p' & M & C)]; [auto|].
  assert (NE : p <> WS []). { intros ->. specialize (SC _ _ [] E eq_refl). cbn in SC. lia. }
  destruct (credit_step be cap nv s i a p s' p' T LK LG E H NE M C) as (a0 & v0 & d & D1 & D2 & D3 & D4).
  pose proof (nth_error_lt _ _ _ E) as L.
  assert (SUM : forall b l, NoDup l -> sumZ (credit s' b) l = sumZ (credit s b) l + (if Nat.eqb b a0 && existsb (Nat.eqb v0) l then d else 0)).
  { intros b l ND. destruct (Nat.eqb_spec b a0) as [->|Nb]; cbn [andb].
    - apply sumZ_point; auto. intros v. rewrite D1, Nat.eqb_refl. reflexivity.
    - replace (sumZ (credit s' b) l) with (sumZ (credit s b) l); [lia|]. apply sumZ_ext. intros v _. rewrite D1. apply Nat.eqb_neq in Nb. rewrite Nb. cbn. lia. }
  split.
  - intros b. rewrite D3, EQ, SUM by apply seq_NoDup. destruct (Nat.eqb b a0); cbn [andb]; auto. destruct D2 as [->|D2]; [destruct (existsb _ _); lia|].
    rewrite existsb_true; auto. apply in_seq. lia.
  - intros j q r Ej Sj. destruct (moved_nth _ _ _ _ _ _ _ _ M Ej) as [(-> & -> & _)|[(Nj & Eo)|(Nj & -> & _)]]; [| |discriminate].
    + (* the mover *)
      pose proof (T _ _ E) as Ti.
      assert (OLDS : forall r0, scan p = Some r0 -> 1 <= sumZ (credit s i) r0) by (intros; eapply SC; eauto).
      assert (UN : d = 0 -> forall l, sumZ (credit s' i) l = sumZ (credit s i) l).
      { intros -> l. apply sumZ_ext. intros v _. rewrite D1. destruct (_ && _); lia. }
      assert (PERMQ : perm s' i = granted p') by (unfold perm; now rewrite (moved_self _ _ _ _ _ _ M L)).
      assert (CN : forall b v, held s' b v = held s b v -> uncf v b p' = uncf v b p -> credit s' b v = credit s b v).
      { intros b v Q1 Q2. rewrite (credit_moved _ _ _ _ _ _ b v M E), Q1, Q2. lia. }
      destruct C as [p p' H1 H2 N N1 N2 N3 N4 N5 HM|v t A V _|v c A V|p p' c N V TT SP MU HM|v c n Hn A V|v c k n Hn PH A V|A V|y A V _|r1 v t q A IN VQ V]; try discriminate Sj.
      * assert (HH : forall b v, held s' b v = held s b v) by (intros; apply held_same; apply H2).
        assert (CC : forall l, uncf 0 0 p = 0%nat \/ True -> (forall v b, uncf v b p = 0%nat /\ uncf v b p' = 0%nat) -> sumZ (credit s' i) l = sumZ (credit s i) l).
        { intros l _ Q. apply sumZ_ext. intros v _. apply CN; auto. destruct (Q v i). lia. }
        destruct p; destruct p'; try contradiction; try discriminate Sj; repeat match goal with k : option (list nat) |- _ => destruct k end; try contradiction; try discriminate; cbn [scan ret] in *;
          repeat match goal with HX : _ /\ _ |- _ => destruct HX end; subst;
          try (rewrite CC by (auto; intros; split; reflexivity); apply OLDS; congruence).
        -- (* snapshot *) inversion Sj; subst r. rewrite CC by (auto; intros; split; reflexivity).
           assert (Q : 1 <= sumZ (credit s i) (seq 0 nv)). { rewrite <- EQ. unfold perm. rewrite E. cbn. specialize (TP i). lia. }
           eapply Z.le_trans; [exact Q|]. apply filter_credit. intros v PV. unfold credit, held. destruct (phys (va s v)) as [b|]; [|lia]. destruct (Nat.eqb_spec b i) as [->|]; [easy|lia].
        -- (* heterogeneous removal starts *) inversion Sj; subst r. rewrite CC by (auto; intros; split; reflexivity). rewrite <- (sumZ_perm (credit s i) r0); [apply OLDS; reflexivity|]. now apply drop1_perm.
        -- (* an empty one is skipped *) inversion Sj; subst r. destruct HM as (v & IN & -> & VQ). rewrite CC by (auto; intros; split; reflexivity).
           specialize (OLDS _ eq_refl). rewrite (sumZ_perm _ _ _ (drop1_perm v r0 IN)) in OLDS. cbn in OLDS. pose proof (credit_empty s i v (or_introl VQ)). lia.
      * destruct p; try discriminate; destruct p'; try contradiction; try discriminate Sj. destruct HM as (-> & -> & ->). destruct k; [|discriminate]. cbn in Sj. inversion Sj; subst r.
        rewrite (sumZ_ext (credit s' i) (credit s i)); [apply OLDS; reflexivity|]. intros w _. apply CN; auto. apply held_same; now rewrite V.
      * destruct (n =? 0); discriminate.
      * destruct k as [r1|]; [|destruct (n =? 0); discriminate]. assert (QE : vq (va s v) = []). { unfold legal1 in LG. cbn in LG. destruct a; try (unfold step in H; rewrite E in H; inversion H; subst; exfalso;
          apply (f_equal (fun f => phys (f v))) in V; rewrite fupd_eq in V; cbn in V; congruence). rewrite E in LG. exact LG. }
        assert (n = 0) as ->. { subst n. unfold vlen. now rewrite QE. } cbn [Z.eqb scan] in *. inversion Sj; subst r.
        specialize (OLDS _ eq_refl). cbn in OLDS. pose proof (credit_empty s i v (or_introl QE)).
        rewrite (sumZ_ext (credit s' i) (credit s i)); [lia|]. intros w _. apply CN; auto. unfold held, vlen. rewrite V. unfold fupd. destruct (Nat.eqb_spec w v) as [->|]; auto. cbn. rewrite PH, QE. destruct (Nat.eqb c i); reflexivity.
    + (* another thread *) specialize (SC _ _ _ Eo Sj). assert (ND : NoDup r).
      { pose proof (T _ _ Eo) as Tj. destruct q; try discriminate Sj; try (destruct k; [|discriminate]); cbn in Sj, Tj; inversion Sj; subst; try tauto; destruct Tj as [? Tj]; try (destruct Tj as [Tj _]); try (inversion Tj; auto; fail). inversion H0; auto. }
      rewrite SUM by auto. destruct (Nat.eqb_spec j a0) as [->|Na]; cbn [andb]; [|lia]. destruct D4 as [D4|D4]; [|congruence]. destruct (existsb _ _); lia.
Qed.

Record inv (be : backend) (nv : nat) (s : st) : Prop := {
  i_locks : locks s; i_t : tinvs be nv s; i_tp : forall a, 0 <= tasks (ac s a); i_w : wakeinv be s; i_ac : acct nv s; i_e : forall a, empty s a = 0%nat
}.
Lemma nth_repeat_out n i p : nth_error (repeat Out n) i = Some p -> p = Out.
Proof. intros H. apply nth_error_In in H. apply repeat_spec in H. auto. Qed.
Lemma inv_init be nv n : inv be nv (init n).
Proof.
  constructor; cbn; auto; try (intros; lia).
  - split; constructor; cbn; intros; try discriminate; match goal with H : nth_error (repeat Out n) _ = Some ?p |- _ => apply nth_repeat_out in H; subst; discriminate end.
  - intros i p E. apply nth_repeat_out in E. subst. exact I.
  - constructor; auto. intros j [H|[x H]]; apply nth_repeat_out in H; discriminate.
  - constructor.
    + intros a. assert (perm (init n) a = 0) as ->. { unfold perm. cbn. destruct (nth_error (repeat Out n) a) as [p|] eqn:E; auto. apply nth_repeat_out in E. subst. reflexivity. }
      cbn. assert (Q : forall l, sumZ (credit (init n) a) l = 0); [|now rewrite Q]. induction l as [|x r IH]; cbn [sumZ]; auto. rewrite IH. unfold credit, held. cbn. rewrite sumf_repeat by reflexivity. lia.
    + intros i p r E S. apply nth_repeat_out in E. subst. discriminate.
Qed.
Lemma step_empty be cap nv s i a s' : step be cap nv s (i, a) = Ok s' -> nth_error (th s) i <> Some (WS []) -> empty s' = empty s.
Proof.
  intros H N. unfold step in H. destruct (nth_error (th s) i) as [p|] eqn:E; [|inversion H; auto].
  assert (LA : forall b q, empty (locka s i b q) = empty s) by (intros; unfold locka; destruct (afree (ac s b)); reflexivity).
  assert (LV : forall b q, empty (lockv s i b q) = empty s) by (intros; unfold lockv; destruct (vfree (va s b)); reflexivity).
  assert (NT : forall b, empty (notify be s b) = empty s) by (intros; apply notify_spec).
  destruct a, p; repeat match type of H with
    | (if ?c then _ else _) = Ok _ => destruct c eqn:?
    | (match ?c with _ => _ end) = Ok _ => destruct c eqn:?
    end; try discriminate; inversion H; subst; auto; cbn [goto empty]; try apply NT.
  all: try (destruct (vlen s v =? 0); auto; fail).
  elim N. reflexivity.
Qed.
Lemma inv_step be cap nv s x s' : inv be nv s -> legal1 s x -> step be cap nv s x = Ok s' -> inv be nv s'.
Proof.
  intros [LK T TP W AC EM] LG H. constructor.
  - eapply step_locks; eauto.
  - eapply tinvs_step; eauto.
  - eapply tasks_step; eauto.
  - eapply wake_step; eauto.
  - eapply acct_step; eauto.
  - destruct x as [i a]. rewrite (step_empty _ _ _ _ _ _ _ H); auto. intros E. pose proof (ac_scan _ _ AC _ _ [] E eq_refl) as Q. cbn in Q. lia.
Qed.
Lemma inv_run be cap nv l : forall s s', inv be nv s -> legal be cap nv s l -> run be cap nv s l = Ok s' -> inv be nv s'.
Proof.
  induction l as [|x l IH]; cbn; intros s s' I L R; [inversion R; now subst|]. destruct L as [L1 L2]. apply bind_ok in R. destruct R as (s1 & R1 & R2). rewrite R1 in L2. eapply IH; [eapply inv_step; eauto|exact L2|exact R2].
Qed.
