(** Spinlock, src/utils/spinlock.h, for any number of threads, and property C09. *)
From Verif Require Import Base.

(** What one thread is doing. *)
(** src/utils/spinlock.h:32-52. *)
Inductive spc :=
| SOut                (* not using the lock *)
| SSpin               (* in utils_spinlock_lock: about to read [while [*lock]] (line 36) *)
| SCas                (* saw 0, about to do the compare-and-swap 0 -> 1 (line 38) *)
| SIn                 (* lock returned: inside *)
| SUnl.               (* in utils_spinlock_unlock, assert passed, about to store 0 (line 53) *)

(** [lk] is the lock word (only 0 and 1 are ever stored), [pc] the threads. *)
(** src/utils/spinlock.h:6-12 and the threads. *)
Record sls := mksl { lk : N; pc : nat -> spc }.

(** utils_spinlock_init, spinlock.h:18-21 *)
Definition sl_init : sls := mksl 0 (fun _ => SOut).

(** One scheduler choice: thread [i] calls lock, calls unlock, or executes its next access.
    [ALock] by a thread that is busy, or [AUnlock] by one that is not inside, is ignored: the
    documented usage (spinlock.h:44-46). *)
Inductive sact := ALock | AUnlock | AGo.

(** src/utils/spinlock.h:32-52, one access per step. *)
Definition sl_step (s : sls) (a : nat * sact) : outcome sls :=
  let '(i, act) := a in
  match act, pc s i with
  | ALock, SOut => Ok (mksl (lk s) (fupd (pc s) i SSpin))
  (* unlock: assert [*lock], line 52 *)
  | AUnlock, SIn => if (lk s =? 0)%N then Abort else Ok (mksl (lk s) (fupd (pc s) i SUnl))
  (* while [*lock]; line 36 *)
  | AGo, SSpin => if (lk s =? 0)%N then Ok (mksl (lk s) (fupd (pc s) i SCas)) else Ok s
  (* __sync_bool_compare_and_swap(lock, 0, 1), line 38 *)
  | AGo, SCas => if (lk s =? 0)%N then Ok (mksl 1 (fupd (pc s) i SIn))
                 else Ok (mksl (lk s) (fupd (pc s) i SSpin))
  (* __sync_fetch_and_and(lock, 0), line 53 *)
  | AGo, SUnl => Ok (mksl 0 (fupd (pc s) i SOut))
  | _, _ => Ok s
  end.

(** Any interleaving, no code of its own. *)
Fixpoint sl_run (s : sls) (l : list (nat * sact)) : outcome sls :=
  match l with [] => Ok s | a :: r => do s' <- sl_step s a; sl_run s' r end.

(** ** Specification: a thread is inside from the return of lock to the store of unlock. *)
Definition inside (s : sls) (i : nat) : Prop := pc s i = SIn \/ pc s i = SUnl.

Definition sl_inv (s : sls) : Prop :=
  (lk s = 0%N /\ (forall i, ~ inside s i)) \/
  (lk s = 1%N /\ exists o, inside s o /\ forall j, inside s j -> j = o).

Lemma sl_step_inv s a : sl_inv s -> exists s', sl_step s a = Ok s' /\ sl_inv s'.
Proof.
  intros H. destruct a as [i act]. unfold sl_step.
  destruct H as [(E & H)|(E & o & Ho & Hu)].
  - destruct act, (pc s i) eqn:P; rewrite ?E; cbn [N.eqb];
      try (eexists; split; [reflexivity|]; left; split; auto; fail).
    + eexists; split; [reflexivity|]. left. cbn. split; auto. intros j [Q|Q]; cbn in Q; unfold fupd in Q;
      destruct (Nat.eqb_spec j i); try discriminate; apply (H j); [left|right]; auto.
    + exfalso. apply (H i). now left.
    + eexists; split; [reflexivity|]. left. cbn. split; auto. intros j [Q|Q]; cbn in Q; unfold fupd in Q;
      destruct (Nat.eqb_spec j i); try discriminate; apply (H j); [left|right]; auto.
    + eexists; split; [reflexivity|]. right. cbn. split; auto. exists i. split.
      * left. cbn. now rewrite fupd_eq.
      * intros j [Q|Q]; cbn in Q; unfold fupd in Q; destruct (Nat.eqb_spec j i); auto; exfalso; apply (H j);
        [left|right]; auto.
    + exfalso. apply (H i). now right.
  - assert (U : forall x, (x = SSpin \/ x = SCas) -> pc s i <> SIn -> pc s i <> SUnl ->
      sl_inv (mksl (lk s) (fupd (pc s) i x))).
    { intros x Hx N1 N2. right. cbn. split; auto. exists o.
      assert (o <> i) by (intros ->; destruct Ho; contradiction).
      split.
      - destruct Ho as [Q|Q]; [left|right]; cbn; now rewrite fupd_ne.
      - intros j [Q|Q]; cbn in Q; unfold fupd in Q; destruct (Nat.eqb_spec j i); subst;
          try (destruct Hx; subst; discriminate); apply Hu; [left|right]; auto. }
    assert (I : sl_inv s) by (right; split; auto; exists o; auto).
    destruct act, (pc s i) eqn:P; rewrite ?E; cbn [N.eqb];
      try (eexists; split; [reflexivity|exact I]);
      try (rewrite <- E; eexists; split; [reflexivity|]; apply U; auto; congruence).
    + (* unlock call *) eexists; split; [reflexivity|]. right. cbn. split; auto.
      assert (i = o) by (apply Hu; now left). subst o. exists i. split.
      * right. cbn. apply fupd_eq.
      * intros j [Q|Q]; cbn in Q; unfold fupd in Q; destruct (Nat.eqb_spec j i); auto; apply Hu;
        [left|right]; auto.
    + (* store 0 *) eexists; split; [reflexivity|]. left. cbn. split; auto.
      assert (i = o) by (apply Hu; now right). subst o.
      intros j [Q|Q]; cbn in Q; unfold fupd in Q; destruct (Nat.eqb_spec j i); try discriminate;
      apply n, Hu; [left|right]; auto.
Qed.

Lemma sl_run_inv l : forall s, sl_inv s -> exists s', sl_run s l = Ok s' /\ sl_inv s'.
Proof.
  induction l as [|a l IH]; intros s H; cbn [sl_run]; eauto.
  destruct (sl_step_inv s a H) as (s1 & -> & H1). cbn [bind]. auto.
Qed.
Lemma sl_init_inv : sl_inv sl_init.
Proof. left. cbn. split; auto. intros i [H|H]; discriminate. Qed.

(** ** C09 *)
(** Whatever the interleaving: unlock's own assertion never fires, at most one thread is inside,
    and the lock word is 1 exactly while some thread is inside (0 otherwise). *)
Theorem C09_mutual_exclusion : forall sched, exists s, sl_run sl_init sched = Ok s /\
  (forall i j, inside s i -> inside s j -> i = j) /\
  (lk s = 1%N <-> exists i, inside s i) /\ (lk s = 0%N <-> forall i, ~ inside s i).
Proof.
  intros sched. destruct (sl_run_inv sched _ sl_init_inv) as (s & E & H).
  exists s. split; auto. destruct H as [(H1 & H2)|(H1 & o & H2 & H3)].
  - split; [intros i j Hi; destruct (H2 i Hi)|]. split; split; auto.
    + rewrite H1. discriminate.
    + intros (i & Hi). destruct (H2 i Hi).
  - split; [intros i j Hi Hj; rewrite (H3 i Hi), (H3 j Hj); auto|]. split; split; eauto.
    + rewrite H1. discriminate.
    + intros H. destruct (H o H2).
Qed.

Lemma sl_run_app l1 : forall l2 s, sl_run s (l1 ++ l2) = (do s' <- sl_run s l1; sl_run s' l2).
Proof. induction l1 as [|a l IH]; intros l2 s; cbn [sl_run app bind]; auto. destruct (sl_step s a); cbn [bind]; auto. Qed.

(** A free lock can always be taken: a thread that called lock enters within two of its own steps
    if nobody interferes. *)
Theorem C09_free_lock_can_be_taken : forall sched s i, sl_run sl_init sched = Ok s ->
  (forall j, ~ inside s j) -> pc s i = SSpin \/ pc s i = SCas ->
  exists k s', sl_run s (repeat (i, AGo) k) = Ok s' /\ (k <= 2)%nat /\ pc s' i = SIn.
Proof.
  intros sched s i E Hf Hi.
  destruct (C09_mutual_exclusion sched) as (s0 & E0 & _ & _ & Z). rewrite E in E0. inversion E0; subst s0.
  apply Z in Hf. destruct Hi as [Hi|Hi].
  - exists 2. eexists. cbn [repeat sl_run sl_step]. rewrite Hi, Hf. cbn [N.eqb bind sl_step pc lk].
    rewrite fupd_eq. cbn [N.eqb bind]. split; [reflexivity|]. split; auto. cbn. now rewrite fupd_eq.
  - exists 1. eexists. cbn [repeat sl_run sl_step]. rewrite Hi, Hf. cbn [N.eqb bind].
    split; [reflexivity|]. split; auto. cbn. now rewrite fupd_eq.
Qed.

(** Never a dead end: from any reachable state every thread that called lock can be brought inside. *)
Theorem C09_no_deadlock : forall sched s i, sl_run sl_init sched = Ok s ->
  pc s i = SSpin \/ pc s i = SCas ->
  exists more s', sl_run s more = Ok s' /\ pc s' i = SIn.
Proof.
  intros sched s i E Hi.
  destruct (sl_run_inv sched _ sl_init_inv) as (s0 & E0 & H). rewrite E in E0. inversion E0; subst s0.
  destruct H as [(H1 & H2)|(H1 & o & H2 & H3)].
  - destruct (C09_free_lock_can_be_taken sched s i E H2 Hi) as (k & s' & A & _ & B). eauto.
  - assert (o <> i) by (intros ->; destruct H2, Hi; congruence).
    set (rel := match pc s o with SIn => [(o, AUnlock); (o, AGo)] | _ => [(o, AGo)] end).
    assert (R : exists s1, sl_run s rel = Ok s1 /\ lk s1 = 0%N /\ (pc s1 i = pc s i)).
    { unfold rel. destruct H2 as [Q|Q]; rewrite Q; cbn [sl_run sl_step]; rewrite Q, ?H1; cbn [N.eqb bind sl_step pc];
      rewrite ?fupd_eq; cbn [bind]; eexists; (split; [reflexivity|]); cbn; rewrite ?fupd_ne by auto; auto. }
    destruct R as (s1 & R1 & R2 & R3).
    assert (E1 : sl_run sl_init (sched ++ rel) = Ok s1) by (rewrite sl_run_app, E; exact R1).
    destruct (C09_mutual_exclusion (sched ++ rel)) as (s2 & E2 & _ & _ & Z). rewrite E1 in E2. inversion E2; subst s2.
    destruct (C09_free_lock_can_be_taken _ s1 i E1 (proj1 Z R2) ltac:(rewrite R3; auto)) as (k & s' & A & _ & B).
    exists (rel ++ repeat (i, AGo) k), s'. split; auto. rewrite sl_run_app, R1. exact A.
Qed.

(** concrete run: three threads contend, thread 1 is inside, thread 2 spins, thread 0 left *)
Example C09_case : exists s, sl_run sl_init
  [(0, ALock); (1, ALock); (0, AGo); (1, AGo); (0, AGo); (1, AGo); (2, ALock); (0, AUnlock); (0, AGo);
   (1, AGo); (1, AGo); (2, AGo)]%nat = Ok s /\ pc s 1%nat = SIn /\ pc s 2%nat = SSpin /\ pc s 0%nat = SOut.
Proof. eexists. split; [vm_compute; reflexivity|]. repeat split. Qed.

Print Assumptions C09_mutual_exclusion.
Print Assumptions C09_free_lock_can_be_taken.
Print Assumptions C09_no_deadlock.
