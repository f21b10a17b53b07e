(** A process that dies at any point: property C62.

    Code modelled: nothing new.  The programs are those of [Spinlock] (src/utils/spinlock.h:18-53), [QueueConc]
    (src/utils/queue.c:63-124), [ObjConc] (src/core/arax_object.c:145-235, src/arch/shm/impl.c:221-303), [PipeInit]
    (src/core/arax_pipe.c:5-56, 241-251, src/arch/shm/impl.c:156-207) and [TaskWait] (src/core/arax_task.c:77-87); here any
    process may die between two of its steps.  A process that is killed leaves shared memory as it is: arax has no robust locks,
    no death handler and no recovery (no such call in src/), so that a dead process is one that takes no further step. *)
From Verif Require Import Base Sums.
From Verif Require Spinlock QueueModel QueueProps QueueConc ObjConc PipeInit TaskWait.
From Coq Require Import Lia.

(** ** Specification *)
(** Executions with deaths.  [step s a]: process [fst a] takes its next step.  [goes s D s' D']: from [s], with the processes [D]
    dead, the others went on, some of them died, and now it is [s'] and [D'] are dead. *)
Section Deaths.
  Context {S A : Type} (step : S -> nat * A -> outcome S).
  Inductive goes (s : S) (D : list nat) : S -> list nat -> Prop :=
  | g_now : goes s D s D
  | g_step s1 D1 a s2 : goes s D s1 D1 -> ~ In (fst a) D1 -> step s1 a = Ok s2 -> goes s D s2 D1
  | g_die s1 D1 p : goes s D s1 D1 -> goes s D s1 (p :: D1).
  (** the same, and nobody dies any more *)
  Inductive lives (D : list nat) (s : S) : S -> Prop :=
  | l_now : lives D s s
  | l_step s1 a s2 : lives D s s1 -> ~ In (fst a) D -> step s1 a = Ok s2 -> lives D s s2.

  (** Sanity: deaths only remove steps, so that everything proved of every schedule holds. *)
  Fixpoint runs (s : S) (l : list (nat * A)) : outcome S :=
    match l with [] => Ok s | a :: r => do s' <- step s a; runs s' r end.
  Lemma runs_app l1 : forall l2 s, runs s (l1 ++ l2) = (do s' <- runs s l1; runs s' l2).
  Proof. induction l1 as [|a l IH]; intros l2 s; cbn [runs app bind]; auto. destruct (step s a); cbn [bind]; auto. Qed.
  Lemma goes_runs s D s' D' : goes s D s' D' -> exists l, runs s l = Ok s' /\ Forall (fun a => ~ In (fst a) D) l.
  Proof.
    induction 1 as [|s1 D1 a s2 H (l & IH & F) N E|s1 D1 p H (l & IH & F)]; [exists []; split; [reflexivity|constructor] | | eauto].
    assert (DD : incl D D1) by (clear - H; induction H; intros x I; cbn; auto).
    exists (l ++ [a]). rewrite runs_app, IH. cbn [bind runs]. rewrite E. split; [reflexivity|]. apply Forall_app. split; [exact F|].
    constructor; [|constructor]. intros I. apply N, DD, I.
  Qed.
  Lemma goes_dead s D s' D' : goes s D s' D' -> incl D D'.
  Proof. induction 1; intros x I; cbn; auto. Qed.
  Lemma goes_trans s D s1 D1 s2 D2 : goes s D s1 D1 -> goes s1 D1 s2 D2 -> goes s D s2 D2.
  Proof. intros H1 H2. induction H2; [exact H1 | eapply g_step; eauto | now apply g_die]. Qed.
  Lemma lives_goes D s s' : lives D s s' -> goes s D s' D.
  Proof. induction 1; [constructor | eapply g_step; eauto]. Qed.
  Lemma lives_trans D s s1 s2 : lives D s s1 -> lives D s1 s2 -> lives D s s2.
  Proof. intros H1 H2. induction H2; [exact H1 | eapply l_step; eauto]. Qed.
  (** what a step of a live process keeps, every execution keeps *)
  Lemma goes_ind_inv (P : S -> list nat -> Prop) s D s' D' :
    P s D -> (forall s1 D1 a s2, P s1 D1 -> incl D D1 -> ~ In (fst a) D1 -> step s1 a = Ok s2 -> P s2 D1) ->
    (forall s1 D1 p, P s1 D1 -> P s1 (p :: D1)) -> goes s D s' D' -> P s' D'.
  Proof. intros H0 HS HD. induction 1; auto. eapply HS; eauto. eapply goes_dead; eauto. Qed.
End Deaths.

(** ** Locks *)
Section Lock.
  Import Spinlock.
  Lemma sl_runs l : forall s, runs sl_step s l = sl_run s l.
  Proof. induction l as [|a l IH]; intros s; cbn [runs sl_run]; [reflexivity|]. destruct (sl_step s a); cbn [bind]; auto. Qed.
  Lemma sl_goes s D : goes sl_step sl_init [] s D -> sl_inv s.
  Proof.
    intros G. destruct (goes_runs _ _ _ _ _ G) as (l & E & _). rewrite sl_runs in E.
    destruct (sl_run_inv l _ sl_init_inv) as (s' & E' & I). congruence.
  Qed.
  Lemma sl_other s a s' i : sl_step s a = Ok s' -> i <> fst a -> pc s' i = pc s i.
  Proof.
    destruct a as [k x]. cbn [fst]. intros E N. unfold sl_step in E.
    destruct x, (pc s k); repeat match type of E with context[if ?b then _ else _] => destruct b end; inversion E; subst; cbn [pc]; auto;
      now rewrite fupd_ne.
  Qed.

  (** Deaths never break mutual exclusion, nor make unlock's assertion fire. *)
  Theorem C62_lock_safe : forall s D, goes sl_step sl_init [] s D ->
    (forall i j, inside s i -> inside s j -> i = j) /\ (forall a, exists s', sl_step s a = Ok s').
  Proof.
    intros s D G. pose proof (sl_goes s D G) as I. split.
    - intros i j Hi Hj. destruct I as [(_ & H) | (_ & o & _ & U)]; [destruct (H i Hi)|]. rewrite (U i Hi), (U j Hj). reflexivity.
    - intros a. destruct (sl_step_inv s a I) as (s' & E & _). eauto.
  Qed.

  (** As long as no process died inside, the live ones can always get in: deaths outside a lock, or while waiting for it, hurt nobody. *)
  Theorem C62_lock_live_partial : forall s D i, goes sl_step sl_init [] s D -> ~ In i D -> pc s i = SSpin \/ pc s i = SCas ->
    (forall d, In d D -> ~ inside s d) -> exists s', lives sl_step D s s' /\ pc s' i = SIn.
  Proof.
    intros s D i G ND W OK.
    assert (FREE : forall s1, goes sl_step sl_init [] s1 D -> lk s1 = 0%N -> pc s1 i = SSpin \/ pc s1 i = SCas ->
              exists s', lives sl_step D s1 s' /\ pc s' i = SIn).
    { intros s1 G1 Z W1.
      assert (CAS : forall s2, lk s2 = 0%N -> pc s2 i = SCas -> exists s', lives sl_step D s2 s' /\ pc s' i = SIn).
      { intros s2 Z2 P. eexists. split; [eapply (l_step _ _ _ s2 (i, AGo)); [constructor | exact ND|]; cbn; rewrite P, Z2; reflexivity|].
        cbn [pc]. apply fupd_eq. }
      destruct W1 as [P | P]; [|eauto].
      destruct (CAS (mksl (lk s1) (fupd (pc s1) i SCas)) Z (fupd_eq _ _ _)) as (s' & L & Q).
      exists s'. split; [|exact Q]. eapply lives_trans; [|exact L].
      eapply (l_step _ _ _ s1 (i, AGo)); [constructor | exact ND|]. cbn. rewrite P, Z. reflexivity. }
    pose proof (sl_goes s D G) as I. destruct I as [(Z & _) | (Z & o & Ho & U)]; [eauto|].
    assert (NO : ~ In o D) by (intros X; exact (OK o X Ho)).
    assert (NE : i <> o) by (intros ->; destruct Ho, W; congruence).
    assert (UNL : forall s1, goes sl_step sl_init [] s1 D -> lk s1 = 1%N -> pc s1 o = SUnl -> pc s1 i = SSpin \/ pc s1 i = SCas ->
              exists s', lives sl_step D s1 s' /\ pc s' i = SIn).
    { intros s1 G1 Z1 P W1. set (s2 := mksl 0 (fupd (pc s1) o SOut)).
      assert (L : lives sl_step D s1 s2) by (eapply (l_step _ _ _ s1 (o, AGo)); [constructor | exact NO|]; cbn; rewrite P; reflexivity).
      destruct (FREE s2) as (s' & L' & Q); [eapply goes_trans; [exact G1 | now apply lives_goes] | reflexivity | |].
      - unfold s2. cbn [pc]. rewrite fupd_ne by exact NE. exact W1.
      - exists s'. split; [eapply lives_trans; eauto | exact Q]. }
    destruct Ho as [P | P]; [|eauto]. set (s2 := mksl (lk s) (fupd (pc s) o SUnl)).
    assert (L : lives sl_step D s s2) by (eapply (l_step _ _ _ s (o, AUnlock)); [constructor | exact NO|]; cbn; rewrite P, Z; unfold s2; rewrite Z; reflexivity).
    destruct (UNL s2) as (s' & L' & Q); [eapply goes_trans; [exact G | now apply lives_goes] | exact Z | apply fupd_eq | |].
    - unfold s2. cbn [pc]. rewrite fupd_ne by exact NE. exact W.
    - exists s'. split; [eapply lives_trans; eauto | exact Q].
  Qed.

  (** A process that died inside: nobody ever gets in again, whatever happens afterwards.  This is the lock of a task queue, of the
      lists of objects, of the heap and of the bitmap. *)
  Theorem C62_lock_refuted : forall s D d, goes sl_step sl_init [] s D -> In d D -> inside s d ->
    forall s' D', goes sl_step s D s' D' -> inside s' d /\ forall i, inside s' i -> i = d.
  Proof.
    intros s D d G ID HD s' D' G'.
    assert (K : inside s' d).
    { apply (goes_ind_inv sl_step (fun s1 _ => inside s1 d) s D s' D'); auto. intros s1 D1 a s2 H IN N E.
      assert (NE : d <> fst a) by (intros ->; apply N, IN, ID). unfold inside in *. rewrite (sl_other _ _ _ _ E NE). exact H. }
    split; [exact K|]. intros i Hi. pose proof (goes_trans _ _ _ _ _ _ _ G G') as GG. destruct (C62_lock_safe _ _ GG) as (M & _). exact (M i d Hi K).
  Qed.

  (** A case: process 0 dies inside, process 1 is waiting; or it dies while waiting. *)
  Example C62_lock_case : exists s, goes sl_step sl_init [] s [0%nat] /\ inside s 0 /\ pc s 1%nat = SSpin.
  Proof.
    eexists. split; [apply g_die; refine (g_step _ _ _ _ _ (1%nat, ALock) _ (g_step _ _ _ _ _ (0%nat, AGo) _ (g_step _ _ _ _ _ (0%nat, AGo) _
      (g_step _ _ _ _ _ (0%nat, ALock) _ (g_now _ _ _) _ _) _ _) _ _) _ _); try (intros []); try reflexivity|].
    split; [now left | reflexivity].
  Qed.
  Example C62_lock_case_live : exists s, goes sl_step sl_init [] s [0%nat] /\ pc s 1%nat = SSpin /\ pc s 0%nat = SCas /\
    (forall d, In d [0%nat] -> ~ inside s d).
  Proof.
    eexists. split; [apply g_die; refine (g_step _ _ _ _ _ (1%nat, ALock) _ (g_step _ _ _ _ _ (0%nat, AGo) _
      (g_step _ _ _ _ _ (0%nat, ALock) _ (g_now _ _ _) _ _) _ _) _ _); try (intros []); try reflexivity|].
    split; [reflexivity|]. split; [reflexivity|]. intros d [<- | []] [H | H]; discriminate.
  Qed.
End Lock.

(** ** The task queue *)
Section Queue.
  Import QueueModel QueueProps QueueConc.
  Local Open Scope N_scope.
  Variable cap : N.
  Hypothesis HC : good_cap cap.
  (** The executions considered, as in C08: nobody pushes NULL (queue.c:94 asserts it) and no pop in progress is overtaken by 65536
      others.  Every other step is that of src/utils/queue.c:63-124, [cstep]. *)
  Definition usual (c : qc) (a : nat * qact) : bool :=
    match snd a, c_pc c (fst a) with
    | CPush d, _ => negb (d =? 0)
    | Go, Pop1 _ g | Go, Pop3 _ _ g => n_popped c <? g + U16
    | _, _ => true
    end.
  (** src/utils/queue.c:63-124, in the executions considered *)
  Definition ustep (c : qc) (a : nat * qact) : outcome qc := if usual c a then cstep cap c a else UB.
  Lemma usual_ok c a : usual c a = true -> (forall i, a <> (i, CPush 0)) /\ not_overtaken U16 c a.
  Proof using.
    destruct a as [i x]. unfold usual, not_overtaken. cbn [fst snd]. intros H. split.
    - intros j E. injection E as -> ->. discriminate.
    - destruct x; auto. destruct (c_pc c i); auto; lia.
  Qed.
  Lemma q_inv s D s' D' : cinv cap s -> goes ustep s D s' D' -> cinv cap s'.
  Proof using HC.
    intros I G. revert G. apply (goes_ind_inv ustep (fun c _ => cinv cap c)); auto. intros c D1 a c' H _ _ E. unfold ustep in E.
    destruct (usual c a) eqn:U; [|discriminate]. destruct (usual_ok c a U) as (U1 & U2).
    destruct (cstep_inv cap c a HC H U1 U2) as (c2 & E2 & I2). congruence.
  Qed.
  Lemma q_init c D : goes ustep (qc_init cap) [] c D -> cinv cap c.
  Proof using HC. apply q_inv. now apply cinit_inv. Qed.
  Lemma q_other c a c' i : ustep c a = Ok c' -> i <> fst a -> c_pc c' i = c_pc c i.
  Proof using.
    destruct a as [k x]. cbn [fst]. intros E N. unfold ustep in E. destruct (usual c (k, x)); [|discriminate]. unfold cstep, goto, goto_ev in E.
    destruct x, (c_pc c k);
    repeat match type of E with
    | context[if ?b then _ else _] => destruct b
    | bind ?x _ = Ok _ => let v := fresh "v" in let H1 := fresh in let H2 := fresh in destruct (bind_ok _ _ _ E) as (v & H1 & H2); clear E; rename H2 into E
    end; try discriminate; injection E as <-; cbn [c_pc]; auto; now rewrite fupd_ne.
  Qed.

  (** Whoever dies wherever: what came out is what went in, in order and once each, and everything else is still there. *)
  Theorem C62_queue_safe_partial : forall c D, goes ustep (qc_init cap) [] c D -> exists rest,
    pushed (c_ev c) = popped (c_ev c) ++ rest /\ N.of_nat (length rest) <= cap /\
    forall k, (k < length rest)%nat -> nth (N.to_nat ((n_popped c + N.of_nat k) mod cap)) (c_e c) 0 = nth k rest 0.
  Proof using HC.
    intros c D G. destruct (q_init c D G) as [I1 I2 I3 I4 I5 I6 I7 I8 I9].
    exists (skipn (length (popped (c_ev c))) (pushed (c_ev c))). unfold n_popped, n_pushed in *.
    split; [rewrite I6 at 1; symmetry; apply firstn_skipn|]. rewrite skipn_length. split; [clear - I5; lia|]. intros k Hk.
    rewrite I7; [|clear; lia|clear - Hk; lia].
    assert (NS : forall (A : Type) (l : list A) a b d, nth (a + b) l d = nth b (skipn a l) d).
    { clear. intros A l a. revert l. induction a as [|a IH]; intros l b d; [reflexivity|].
      destruct l as [|x l]; cbn; [destruct b; reflexivity|apply IH]. }
    rewrite <- NS. f_equal. clear. lia.
  Qed.

  (** Taking a task needs nobody else: a live process that calls pop gets the oldest task within five of its own steps, even if others died
      in the middle of push, in the middle of pop or holding the queue's lock. *)
  Theorem C62_pop_needs_nobody : forall c D i r rest, goes ustep (qc_init cap) [] c D -> c_pc c i = Idle r ->
    pushed (c_ev c) = popped (c_ev c) ++ rest ->
    exists k c', runs ustep c ((i, CPop) :: repeat (i, Go) k) = Ok c' /\ (k <= 4)%nat /\
      match rest with
      | [] => c_pc c' i = Idle 0 /\ popped (c_ev c') = popped (c_ev c)
      | v :: _ => c_pc c' i = Idle v /\ popped (c_ev c') = popped (c_ev c) ++ [v]
      end.
  Proof using HC.
    intros c D i r rest G P ER. destruct (q_init c D G) as [I1 I2 I3 I4 I5 I6 I7 I8 I9].
    destruct (good_cap_facts cap HC) as (C1 & C2 & m & C3 & C4).
    set (t := c_t c). set (g := n_popped c).
    set (c1 := goto c i Pop0). set (c2 := goto c1 i (Pop1 t g)).
    assert (E1 : ustep c (i, CPop) = Ok c1) by (unfold ustep, usual; cbn; now rewrite P).
    assert (E2 : ustep c1 (i, Go) = Ok c2) by (unfold ustep, usual; cbn; rewrite fupd_eq; reflexivity).
    assert (U2 : forall c', c_pc c' i = Pop1 t g -> n_popped c' = g -> usual c' (i, Go) = true) by (intros c' -> -> || (intros c' H1 H2; unfold usual; cbn; rewrite H1, H2; unfold U16; lia)).
    destruct rest as [|v rest'].
    - assert (EB : n_pushed c = n_popped c) by (unfold n_pushed, n_popped; rewrite ER, app_nil_r; reflexivity).
      exists 2%nat. eexists. split; [|split; [lia|]].
      + cbn [repeat runs]. rewrite E1. cbn [bind]. rewrite E2. cbn [bind]. unfold ustep. rewrite U2 by (cbn; try apply fupd_eq; reflexivity).
        unfold cstep. cbn [c2 goto c_pc]. rewrite fupd_eq. change (c_b c2) with (c_b c). replace (c_b c =? t) with true by (unfold t; rewrite I2, I3, EB; symmetry; apply N.eqb_refl). cbn [bind]. reflexivity.
      + cbn [goto_ev goto c_pc c_ev]. rewrite fupd_eq, popped_app. cbn. now rewrite app_nil_r.
    - assert (EB : n_popped c < n_pushed c) by (unfold n_pushed, n_popped; rewrite ER, app_length; cbn [length]; lia).
      assert (NT : (c_b c =? t) = false) by (unfold t; rewrite I2, I3; apply N.eqb_neq; clear - EB I5 C2 C1; unfold U16 in *; lia).
      assert (RD : rd (c_e c) (N.to_nat (N.land t (cap - 1))) = Ok v).
      { assert (EN : nth (N.to_nat (n_popped c mod cap)) (c_e c) 0 = v).
        { rewrite I7 by lia. unfold n_popped. rewrite Nnat.Nat2N.id, ER. rewrite app_nth2 by lia. rewrite Nat.sub_diag. reflexivity. }
        rewrite land_cap by exact HC. unfold t. rewrite I2.
        assert (EM : (n_popped c mod U16) mod cap = n_popped c mod cap).
        { rewrite C3. rewrite N.mod_mul_r by lia. rewrite N.mul_comm, N.mod_add by lia. now rewrite N.mod_mod by lia. }
        rewrite EM. unfold rd. assert (LT : n_popped c mod cap < cap) by (apply N.mod_lt; lia).
        destruct (nth_error (c_e c) (N.to_nat (n_popped c mod cap))) eqn:EE; [|apply nth_error_None in EE; rewrite I1 in EE; lia].
        rewrite (nth_error_nth _ _ 0 EE) in EN. congruence. }
      set (c3 := goto c2 i (Pop2 t g)). set (c4 := goto c3 i (Pop3 t v g)).
      exists 4%nat. eexists. split; [|split; [lia|]].
      + cbn [repeat runs]. rewrite E1. cbn [bind]. rewrite E2. cbn [bind].
        assert (E3 : ustep c2 (i, Go) = Ok c3).
        { unfold ustep. rewrite U2 by (cbn; try apply fupd_eq; reflexivity). unfold cstep. cbn [c2 goto c_pc]. rewrite fupd_eq. change (c_b c2) with (c_b c). rewrite NT. reflexivity. }
        rewrite E3. cbn [bind].
        assert (E4 : ustep c3 (i, Go) = Ok c4).
        { unfold ustep, usual, cstep. cbn [fst snd c3 goto c_pc]. rewrite fupd_eq. change (c_e c3) with (c_e c). rewrite RD. reflexivity. }
        rewrite E4. cbn [bind].
        unfold ustep, usual, cstep. cbn [fst snd c4 goto c_pc]. rewrite fupd_eq.
        replace (n_popped c4 <? g + U16) with true by (symmetry; apply N.ltb_lt; unfold g, c4, n_popped; cbn [c3 c2 c1 goto c_ev]; unfold U16; lia).
        change (c_t c4) with t. rewrite N.eqb_refl. cbn [bind]. reflexivity.
      + cbn [c_pc c_ev c4 c3 c2 c1 goto]. rewrite fupd_eq, popped_app. auto.
  Qed.

  (** *** Push and the queue's lock *)
  Definition finished (D : list nat) (c : qc) (o : nat) (d : N) (c' : qc) : Prop :=
    lives ustep D c c' /\ c_l c' = 0 /\ (forall j, j <> o -> c_pc c' j = c_pc c j) /\
    ((c_pc c' o = Idle d /\ c_ev c' = c_ev c ++ [EPush o d]) \/
     (c_pc c' o = Idle 0 /\ c_ev c' = c_ev c ++ [EFull o] /\ n_pushed c = n_popped c + cap)).
  Lemma go_ok D c o : ~ In o D -> cinv cap c -> usual c (o, Go) = true -> exists c1, cstep cap c (o, Go) = Ok c1 /\ cinv cap c1 /\ lives ustep D c c1.
  Proof using HC.
    intros ND I U. destruct (usual_ok c _ U) as (U1 & U2). destruct (cstep_inv cap c (o, Go) HC I U1 U2) as (c1 & E & I1).
    exists c1. split; [exact E|]. split; [exact I1|]. eapply (l_step _ _ _ c (o, Go)); [constructor | exact ND|]. unfold ustep. now rewrite U.
  Qed.
  Lemma fin6 D c o r : ~ In o D -> cinv cap c -> c_pc c o = Psh6 r ->
    exists c', lives ustep D c c' /\ c_l c' = 0 /\ (forall j, j <> o -> c_pc c' j = c_pc c j) /\ c_pc c' o = Idle r /\ c_ev c' = c_ev c.
  Proof using HC.
    intros ND I P. destruct (go_ok D c o ND I) as (c1 & E & I1 & L); [unfold usual; cbn; now rewrite P|]. exists c1. split; [exact L|].
    unfold cstep in E. rewrite P in E. destruct (c_l c =? 0); [discriminate|]. injection E as <-. cbn.
    split; [reflexivity|]. split; [intros j N; now rewrite fupd_ne|]. now rewrite fupd_eq.
  Qed.
  Lemma fin5 D c o d b : ~ In o D -> cinv cap c -> c_pc c o = Psh5 d b -> exists c', finished D c o d c'.
  Proof using HC.
    intros ND I P. destruct (go_ok D c o ND I) as (c1 & E & I1 & L); [unfold usual; cbn; now rewrite P|].
    unfold cstep in E. rewrite P in E. injection E as <-. destruct (fin6 D _ o d ND I1 (fupd_eq _ _ _)) as (c' & L' & A & B & C & F).
    exists c'. split; [eapply lives_trans; eauto|]. split; [exact A|]. split; [intros j N; rewrite B by exact N; cbn; now rewrite fupd_ne|]. left. split; [exact C | exact F].
  Qed.
  Lemma fin4 D c o d b : ~ In o D -> cinv cap c -> c_pc c o = Psh4 d b -> exists c', finished D c o d c'.
  Proof using HC.
    intros ND I P. destruct (go_ok D c o ND I) as (c1 & E & I1 & L); [unfold usual; cbn; now rewrite P|].
    unfold cstep in E. rewrite P in E. apply bind_ok in E. destruct E as (e & _ & E). injection E as <-.
    destruct (fin5 D _ o d b ND I1 (fupd_eq _ _ _)) as (c' & L' & A & B & C).
    exists c'. split; [eapply lives_trans; eauto|]. split; [exact A|]. split; [intros j N; rewrite B by exact N; cbn; now rewrite fupd_ne|]. exact C.
  Qed.
  Lemma fin3 D c o d b : ~ In o D -> cinv cap c -> c_pc c o = Psh3 d b -> exists c', finished D c o d c'.
  Proof using HC.
    intros ND I P. destruct (go_ok D c o ND I) as (c1 & E & I1 & L); [unfold usual; cbn; now rewrite P|].
    unfold cstep in E. rewrite P in E. destruct (used_diff b (c_t c) =? cap) eqn:FU; injection E as <-.
    - destruct (fin6 D _ o 0 ND I1 (fupd_eq _ _ _)) as (c' & L' & A & B & C & F).
      exists c'. split; [eapply lives_trans; eauto|]. split; [exact A|]. split; [intros j N; rewrite B by exact N; cbn; now rewrite fupd_ne|]. right.
      split; [exact C|]. split; [exact F|]. apply N.eqb_eq in FU. destruct I as [X1 X2 X3 X4 X5 X6 X7 X8 X9]. specialize (X9 o). rewrite P in X9. destruct X9 as (_ & Xb).
      destruct (good_cap_facts cap HC) as (C1 & C2 & _). rewrite Xb, X2 in FU.
      replace (n_pushed c) with (n_popped c + (n_pushed c - n_popped c)) in FU at 1 by (clear - X4; lia).
      rewrite used_diff_ok in FU; [|clear - X5 C2; unfold U16 in *; lia]. clear - FU X4. lia.
    - destruct (fin4 D _ o d b ND I1 (fupd_eq _ _ _)) as (c' & L' & A & B & C).
      exists c'. split; [eapply lives_trans; eauto|]. split; [exact A|]. split; [intros j N; rewrite B by exact N; cbn; now rewrite fupd_ne|]. exact C.
  Qed.
  Lemma fin2 D c o d : ~ In o D -> cinv cap c -> c_pc c o = Psh2 d -> exists c', finished D c o d c'.
  Proof using HC.
    intros ND I P. destruct (go_ok D c o ND I) as (c1 & E & I1 & L); [unfold usual; cbn; now rewrite P|].
    unfold cstep in E. rewrite P in E. injection E as <-. destruct (fin3 D _ o d _ ND I1 (fupd_eq _ _ _)) as (c' & L' & A & B & C).
    exists c'. split; [eapply lives_trans; eauto|]. split; [exact A|]. split; [intros j N; rewrite B by exact N; cbn; now rewrite fupd_ne|]. exact C.
  Qed.
  Lemma release D c o : ~ In o D -> cinv cap c -> holds (c_pc c o) = true ->
    exists c', lives ustep D c c' /\ c_l c' = 0 /\ (forall j, j <> o -> c_pc c' j = c_pc c j).
  Proof using HC.
    intros ND I H. destruct (c_pc c o) eqn:P; try discriminate H.
    - destruct (fin2 D c o _ ND I P) as (c' & A & B & C & _). eauto.
    - destruct (fin3 D c o _ _ ND I P) as (c' & A & B & C & _). eauto.
    - destruct (fin4 D c o _ _ ND I P) as (c' & A & B & C & _). eauto.
    - destruct (fin5 D c o _ _ ND I P) as (c' & A & B & C & _). eauto.
    - destruct (fin6 D c o _ ND I P) as (c' & A & B & C & _). eauto.
  Qed.
  Lemma enter D c i v : ~ In i D -> cinv cap c -> c_l c = 0 -> c_pc c i = Psh0 v \/ c_pc c i = Psh1 v -> exists c', lives ustep D c c' /\ cinv cap c' /\ c_pc c' i = Psh2 v.
  Proof using HC.
    intros ND I Z [P | P].
    - destruct (go_ok D c i ND I) as (c1 & E & I1 & L); [unfold usual; cbn; now rewrite P|]. unfold cstep in E. rewrite P, Z in E. injection E as <-.
      destruct (go_ok D _ i ND I1) as (c2 & E & I2 & L2); [unfold usual; cbn; now rewrite fupd_eq|]. unfold cstep in E. cbn [goto c_pc c_l] in E. rewrite fupd_eq, Z in E. injection E as <-.
      eexists. split; [eapply lives_trans; eauto|]. split; [exact I2 | apply fupd_eq].
    - destruct (go_ok D c i ND I) as (c1 & E & I1 & L); [unfold usual; cbn; now rewrite P|]. unfold cstep in E. rewrite P, Z in E. injection E as <-.
      eexists. split; [exact L|]. split; [exact I1 | apply fupd_eq].
  Qed.

  (** As long as nobody died holding the queue's lock (dead pops, and pushes that were still waiting for the lock, do not matter), a live push
      can return: it put its task last, or it was refused and the queue was full. *)
  Theorem C62_push_live_partial : forall c D i v, goes ustep (qc_init cap) [] c D -> ~ In i D -> c_pc c i = Psh0 v \/ c_pc c i = Psh1 v ->
    (forall d, In d D -> holds (c_pc c d) = false) ->
    exists c1 c', lives ustep D c c1 /\ lives ustep D c1 c' /\
      (c_pc c' i = Idle v /\ pushed (c_ev c') = pushed (c_ev c1) ++ [v] \/
       c_pc c' i = Idle 0 /\ c_ev c' = c_ev c1 ++ [EFull i] /\ n_pushed c1 = n_popped c1 + cap).
  Proof using HC.
    intros c D i v G ND P OK. pose proof (q_init c D G) as I.
    assert (FREE : exists c0, lives ustep D c c0 /\ cinv cap c0 /\ c_l c0 = 0 /\ c_pc c0 i = c_pc c i).
    { destruct (ci_lk _ _ I) as [(Z & _) | (Z & o & Ho & _)]; [exists c; split; [constructor | auto]|].
      assert (NO : ~ In o D) by (intros X; specialize (OK o X); congruence).
      assert (NE : i <> o) by (intros ->; destruct P as [P | P]; rewrite P in Ho; discriminate).
      destruct (release D c o NO I Ho) as (c0 & L & A & B). exists c0. split; [exact L|]. split; [eapply q_inv; [exact I | apply lives_goes; exact L]|]. auto. }
    destruct FREE as (c0 & L0 & I0 & Z0 & P0). rewrite <- P0 in P. destruct (enter D c0 i v ND I0 Z0 P) as (c1 & L1 & I1 & P1).
    destruct (fin2 D c1 i v ND I1 P1) as (c' & L2 & A & B & [(C1 & C2) | (C1 & C2 & C3)]).
    - exists c1, c'. split; [eapply lives_trans; eauto|]. split; [exact L2|]. left. split; [exact C1|]. rewrite C2, pushed_app. reflexivity.
    - exists c1, c'. split; [eapply lives_trans; eauto|]. split; [exact L2|]. right. auto.
  Qed.

  (** A process that died between taking the queue's lock and releasing it: in every continuation nothing is ever put in the queue again and no
      other push ever returns, although the queue goes on handing out what it has. *)
  Theorem C62_push_refuted : forall c D d, goes ustep (qc_init cap) [] c D -> In d D -> holds (c_pc c d) = true ->
    forall c' D', goes ustep c D c' D' -> pushed (c_ev c') = pushed (c_ev c) /\
      forall i v, i <> d -> c_pc c i = Psh0 v \/ c_pc c i = Psh1 v -> c_pc c' i = Psh0 v \/ c_pc c' i = Psh1 v.
  Proof using HC.
    intros c D d G ID HD c' D' G'.
    assert (K : cinv cap c' /\ holds (c_pc c' d) = true /\ pushed (c_ev c') = pushed (c_ev c) /\
      forall i v, i <> d -> c_pc c i = Psh0 v \/ c_pc c i = Psh1 v -> c_pc c' i = Psh0 v \/ c_pc c' i = Psh1 v).
    2: { destruct K as (_ & _ & K). exact K. }
    revert G'. apply (goes_ind_inv ustep (fun c' _ => cinv cap c' /\ holds (c_pc c' d) = true /\ pushed (c_ev c') = pushed (c_ev c) /\
      forall i v, i <> d -> c_pc c i = Psh0 v \/ c_pc c i = Psh1 v -> c_pc c' i = Psh0 v \/ c_pc c' i = Psh1 v)); auto.
    { split; [exact (q_init c D G)|]. auto. }
    clear c' D'. intros c1 D1 a c2 (I & H & E0 & W) IN N E.
    assert (NE : d <> fst a) by (intros ->; apply N, IN, ID).
    assert (I2 : cinv cap c2) by (eapply q_inv; [exact I|]; eapply (g_step ustep c1 D1 c1 D1 a); [constructor | exact N | exact E]).
    split; [exact I2|]. split; [rewrite (q_other _ _ _ _ E NE); exact H|].
    assert (LK : c_l c1 = 1 /\ forall j, holds (c_pc c1 j) = true -> j = d).
    { destruct (ci_lk _ _ I) as [(_ & X) | (Z & o & Ho & U)]; [rewrite X in H; discriminate|]. split; [exact Z|].
      intros j Hj. rewrite (U j Hj), (U d H). reflexivity. }
    destruct LK as (LK & LU). destruct a as [k x]. cbn [fst] in *. split.
    - rewrite <- E0. unfold ustep in E. destruct (usual c1 (k, x)); [|discriminate]. unfold cstep, goto, goto_ev in E.
      destruct x, (c_pc c1 k) eqn:PK;
      repeat match type of E with
      | context[if ?b then _ else _] => destruct b
      | bind ?x _ = Ok _ => let v := fresh "v" in let H1 := fresh in let H2 := fresh in destruct (bind_ok _ _ _ E) as (v & H1 & H2); clear E; rename H2 into E
      end; try discriminate; try (exfalso; apply NE; symmetry; apply LU; rewrite PK; reflexivity);
      injection E as <-; cbn [c_ev]; rewrite ?pushed_app, ?app_nil_r; reflexivity.
    - intros i v Ni Pi. specialize (W i v Ni Pi). destruct (Nat.eq_dec i k) as [->|Nk]; [|rewrite (q_other c1 (k, x) c2 i E Nk); exact W].
      unfold ustep in E. destruct (usual c1 (k, x)); [|discriminate]. unfold cstep in E.
      destruct x, W as [W | W]; rewrite W in E; rewrite ?LK in E; cbn [N.eqb Pos.eqb] in E; injection E as <-; auto;
        try (left; unfold goto; cbn [c_pc]; apply fupd_eq).
  Qed.
End Queue.

(** Cases: process 0 put 5 in the queue (capacity 4) and died in its second push, holding the lock; or it died in a pop. *)
Lemma runs_goes {S A} (step : S -> nat * A -> outcome S) l : forall s0 s s', goes step s0 [] s [] -> runs step s l = Ok s' -> goes step s0 [] s' [].
Proof.
  induction l as [|a l IH]; intros s0 s s' G E; [injection E as <-; exact G|]. cbn [runs] in E. apply bind_ok in E. destruct E as (s1 & E1 & E).
  apply (IH s0 s1 s'); [eapply g_step; [exact G | intros [] | exact E1] | exact E].
Qed.
Section QueueCase.
  Import QueueModel QueueProps QueueConc.
  Local Open Scope N_scope.
  Definition ex_lock : list (nat * qact) := (0%nat, CPush 5) :: repeat (0%nat, Go) 7 ++ (0%nat, CPush 6) :: repeat (0%nat, Go) 3 ++ [(1%nat, CPush 7)].
  Definition ex_pop : list (nat * qact) := (0%nat, CPush 5) :: repeat (0%nat, Go) 7 ++ (0%nat, CPop) :: repeat (0%nat, Go) 3 ++ [(1%nat, CPush 7)].
  Definition end_of (l : list (nat * qact)) : qc := match runs (ustep 4) (qc_init 4) l with Ok c => c | _ => qc_init 4 end.
  Example C62_queue_case_lock : good_cap 4 /\ goes (ustep 4) (qc_init 4) [] (end_of ex_lock) [0%nat] /\ holds (c_pc (end_of ex_lock) 0%nat) = true /\
    c_pc (end_of ex_lock) 1%nat = Psh0 7 /\ pushed (c_ev (end_of ex_lock)) = [5] /\ c_pc (end_of ex_lock) 2%nat = Idle 0.
  Proof.
    split; [exists 2; split; [lia | reflexivity]|]. split; [|vm_compute; auto].
    apply g_die, (runs_goes _ ex_lock _ (qc_init 4)); [constructor | vm_compute; reflexivity].
  Qed.
  Example C62_queue_case_pop : goes (ustep 4) (qc_init 4) [] (end_of ex_pop) [0%nat] /\ c_pc (end_of ex_pop) 0%nat = Pop3 0 5 0 /\
    c_pc (end_of ex_pop) 1%nat = Psh0 7 /\ (forall d, In d [0%nat] -> holds (c_pc (end_of ex_pop) d) = false).
  Proof.
    split; [apply g_die, (runs_goes _ ex_pop _ (qc_init 4)); [constructor | vm_compute; reflexivity]|].
    split; [reflexivity|]. split; [reflexivity|]. intros d [<- | []]. reflexivity.
  Qed.
End QueueCase.

(** ** Objects *)
Section Objects.
  Import ObjConc.
  (** As in C49: no lookups by name, src/core/arax_object.c:145-235 and src/arch/shm/impl.c:221-303. *)
  Definition ostep (s : st) (a : nat * act) : outcome st := match snd a with CGet => UB | _ => step s a end.
  Lemma o_goes hs s D : sumf (fun h => h) hs <> 0 -> goes ostep (start hs) [] s D -> inv false s.
  Proof.
    intros NZ. apply (goes_ind_inv ostep (fun s _ => inv false s)); auto; [now apply start_inv|].
    intros s1 D1 [i x] s2 I _ _ E. assert (NG : x <> CGet) by (intros ->; discriminate).
    destruct (step_inv false s1 i x) as (s' & E' & I'); [auto | discriminate | exact I|].
    unfold ostep in E. cbn [snd] in E. destruct x; congruence.
  Qed.
  (** the dead one's thread changes only by references handed to it *)
  Lemma o_other s i x s' d t : step s (i, x) = Ok s' -> d <> i -> nth_error (th s) d = Some t ->
    exists t', nth_error (th s') d = Some t' /\ at_ t' = at_ t /\ held t <= held t'.
  Proof.
    intros R N E. unfold step in R. destruct (nth_error (th s) i) as [[p h]|] eqn:EI; [|injection R as <-; eauto].
    assert (G : forall c l ls dd f b q, exists t', nth_error (th (mkst c l ls dd f b (upd (th s) i q))) d = Some t' /\ at_ t' = at_ t /\ held t <= held t').
    { intros. cbn [th]. rewrite nth_error_upd_ne by congruence. eauto. }
    assert (G0 : exists t', nth_error (th s) d = Some t' /\ at_ t' = at_ t /\ held t <= held t') by eauto.
    unfold touch, goto in R.
    destruct x, p;
      try (repeat match type of R with
      | context[if ?b then _ else _] => destruct b
      | context[match h with O => _ | S _ => _ end] => destruct h as [|h']
      end; try discriminate; injection R as <-; first [exact G0 | apply G]).
    destruct h as [|h']; [injection R as <-; exact G0|].
    destruct (nth_error (th s) j) as [[q g]|] eqn:EJ; [|injection R as <-; exact G0].
    destruct (Nat.eqb_spec i j); [injection R as <-; exact G0|]. injection R as <-. cbn [th].
    assert (J : j < length (upd (th s) i (mkthr Out h'))) by (rewrite upd_length; eapply nth_error_lt; eassumption).
    destruct (Nat.eq_dec j d) as [->|N'].
    - rewrite nth_error_upd_eq by exact J. rewrite EJ in E. injection E as <-. eexists. split; [reflexivity|]. cbn. auto.
    - rewrite nth_error_upd_ne by congruence. rewrite nth_error_upd_ne by congruence. eauto.
  Qed.
  Lemma o_dead hs s D d t s' D' : sumf (fun h => h) hs <> 0 -> goes ostep (start hs) [] s D -> In d D -> nth_error (th s) d = Some t ->
    goes ostep s D s' D' -> exists t', nth_error (th s') d = Some t' /\ at_ t' = at_ t /\ held t <= held t'.
  Proof.
    intros NZ G ID E. apply (goes_ind_inv ostep (fun s' _ => exists t', nth_error (th s') d = Some t' /\ at_ t' = at_ t /\ held t <= held t')); eauto.
    intros s1 D1 [i x] s2 (t1 & E1 & A1 & H1) IN N R. cbn [fst] in N.
    assert (R' : step s1 (i, x) = Ok s2) by (unfold ostep in R; cbn [snd] in R; destruct x; congruence).
    destruct (o_other s1 i x s2 d t1 R') as (t2 & E2 & A2 & H2); [intros ->; apply N, IN, ID | exact E1|].
    exists t2. split; [exact E2|]. split; [congruence | lia].
  Qed.

  (** Deaths never make a live process touch released memory or see a wrong count: the object is listed, whole and not destroyed as long as anyone,
      dead or alive, has a reference. *)
  Theorem C62_objects_safe_partial : forall hs s D, sumf (fun h => h) hs <> 0 -> goes ostep (start hs) [] s D ->
    cnt s = Z.of_nat (refs s) /\ (refs s <> 0 -> listed s = true /\ dtors s = 0 /\ freed s = false /\ back s = 0) /\
    dtors s <= 1 /\ back s <= 1 /\ (forall a, snd a <> CGet -> exists s', ostep s a = Ok s').
  Proof.
    intros hs s D NZ G. pose proof (o_goes hs s D NZ G) as I. pose proof I as [I1 I2 I3 I4 I5 I6 _ _ _]. split; [exact I1|].
    assert (X : forall a, snd a <> CGet -> exists s', ostep s a = Ok s').
    { intros [i x] H. cbn [snd] in H. destruct (step_inv false s i x) as (s' & E & _); [auto | discriminate | exact I|].
      exists s'. unfold ostep. cbn [snd]. destruct x; congruence. }
    destruct (Nat.eqb_spec (refs s) 0).
    - split; [contradiction|]. destruct (listed s), (freed s); cbn in *; repeat split; auto; intros; try discriminate; lia.
    - destruct (listed s), (freed s); cbn in *; repeat split; auto; intros; try discriminate; lia.
  Qed.

  (** What a dead process held is never recovered: if it died with a reference, or while it was giving up the last one, the object's bytes are
      never given back, whatever the others do; and its memory is not released unless that had already been done. *)
  Theorem C62_leak_refuted : forall hs s D d t, sumf (fun h => h) hs <> 0 -> goes ostep (start hs) [] s D -> In d D -> nth_error (th s) d = Some t ->
    held t <> 0 \/ pending t <> 0 \/ k_unlist t <> 0 \/ k_dtor t <> 0 \/ k_free t <> 0 ->
    forall s' D', goes ostep s D s' D' -> freed s' = false /\ back s' = 0.
  Proof.
    intros hs s D d t NZ G ID E H s' D' G'. destruct (o_dead hs s D d t s' D' NZ G ID E G') as (t' & E' & A & HH).
    pose proof (o_goes hs s' D' NZ (goes_trans _ _ _ _ _ _ _ G G')) as [I1 I2 I3 I4 I5 I6 _ _ _].
    pose proof (sumf_in k_unlist (th s') d t' E') as K1. pose proof (sumf_in k_dtor (th s') d t' E') as K2. pose proof (sumf_in k_free (th s') d t' E') as K3.
    pose proof (sumf_in (fun t => held t + pending t) (th s') d t' E') as K4. cbn beta in K4. fold (refs s') in K4.
    unfold k_unlist, k_dtor, k_free, pending in H. rewrite <- A in H. fold (k_unlist t') (k_dtor t') (k_free t') (pending t') in H.
    assert (Z : sumf k_back (th s') + back s' = 0).
    { destruct (Nat.eqb_spec (refs s') 0); [|lia]. destruct H as [H | [H | [H | [H | H]]]]; lia. }
    destruct (freed s'); cbn [b2n] in I6; split; try reflexivity; lia.
  Qed.
  (** ... and if it had released the memory but not yet given its size back, the accounts stay wrong for ever. *)
  Theorem C62_account_refuted : forall hs s D d t, sumf (fun h => h) hs <> 0 -> goes ostep (start hs) [] s D -> In d D -> nth_error (th s) d = Some t ->
    k_back t <> 0 -> forall s' D', goes ostep s D s' D' -> freed s' = true /\ back s' = 0.
  Proof.
    intros hs s D d t NZ G ID E H s' D' G'. destruct (o_dead hs s D d t s' D' NZ G ID E G') as (t' & E' & A & HH).
    pose proof (o_goes hs s' D' NZ (goes_trans _ _ _ _ _ _ _ G G')) as [I1 I2 I3 I4 I5 I6 _ _ _].
    pose proof (sumf_in k_back (th s') d t' E') as K. unfold k_back in H. rewrite <- A in H. fold (k_back t') in H.
    destruct (Nat.eqb_spec (refs s') 0); [|lia]. destruct (freed s'); cbn [b2n] in I6; split; try reflexivity; lia.
  Qed.

  (** Cases: two processes with a reference each; process 0 dies holding it; or it dies between the destructor and the release of the memory; or
      before the accounting. *)
  Example C62_objects_case : let g n := repeat (0, Go) n in
    (exists s, goes ostep (start [1; 1]) [] s [0] /\ nth_error (th s) 0 = Some (mkthr Out 1)) /\
    (exists s, goes ostep (start [1; 0]) [] s [0] /\ nth_error (th s) 0 = Some (mkthr Dec6 0)) /\
    (exists s, goes ostep (start [1; 0]) [] s [0] /\ nth_error (th s) 0 = Some (mkthr Dec7 0)).
  Proof.
    split; [|split].
    - eexists. split; [apply g_die; constructor | reflexivity].
    - eexists. split; [apply g_die, (runs_goes _ ((0, CDec) :: repeat (0, Go) 6) _ (start [1; 0])); [constructor | vm_compute; reflexivity] | reflexivity].
    - eexists. split; [apply g_die, (runs_goes _ ((0, CDec) :: repeat (0, Go) 7) _ (start [1; 0])); [constructor | vm_compute; reflexivity] | reflexivity].
  Qed.
End Objects.

(** ** Waiting for a task *)
Section Wait.
  Import TaskWait.
  Definition by_client (a : wact) : Prop := match a with ClientCalls _ | ClientGo _ => True | _ => False end.
  (** If the process that executes the task dies before it has marked it done, no wait ever returns. *)
  Theorem C62_wait_refuted : forall n st l s, ends_with st l -> run (tw_init n) l = Ok s -> worker s <> WDone ->
    forall more s', Forall by_client more -> run s more = Ok s' -> returned s' = [].
  Proof.
    intros n st l s EW R NW more s' F R'. pose proof (run_inv st l _ _ (init_inv st n) EW R) as [A B C].
    assert (Q : done s = false /\ sumf reading (clients s) = 0 /\ returned s = []).
    { destruct (done s); destruct (worker s); try contradiction; destruct (returned s); cbn [length] in B; repeat split; lia. }
    clear A B C R EW NW l n. revert s Q F R'. induction more as [|a r IH]; intros s (Q1 & Q2 & Q3) F R; [injection R as <-; exact Q3|].
    cbn [run] in R. apply bind_ok in R. destruct R as (s1 & E & R). inversion F as [|? ? Fa Fr]; subst. apply (IH s1); auto.
    destruct a as [i|i|st'|]; cbn in Fa; try contradiction; unfold step in E.
    - destruct (nth_error (clients s) i) as [[]|] eqn:Ei; injection E as <-; auto.
      cbn. pose proof (sumf_upd reading (clients s) i CAssert COut Ei) as U. cbn in U. repeat split; auto. lia.
    - destruct (nth_error (clients s) i) as [[]|] eqn:Ei; try (injection E as <-; auto; fail).
      + pose proof (sumf_upd reading (clients s) i CWait CAssert Ei) as U. cbn in U. destruct (state s); try discriminate; injection E as <-; cbn; repeat split; auto; lia.
      + rewrite Q1 in E. injection E as <-. auto.
      + pose proof (sumf_in reading (clients s) i CRead Ei) as U. cbn in U. lia.
  Qed.
  Example C62_wait_case : exists s, run (tw_init 2) [ClientCalls 0; ClientGo 0; WorkerEnds task_completed; WorkerGo] = Ok s /\ worker s = WCompl /\ state s = task_completed.
  Proof. eexists. split; [reflexivity|]. auto. Qed.
End Wait.

(** ** The segment *)
Section Segment.
  Import PipeInit.
  Variable rev : nat -> N.
  Variable enforce : nat -> bool.
  (** The processes other than the dead ones went on. *)
  Inductive goes_on (D : list nat) (s : st) : st -> Prop :=
  | go_now : goes_on D s s
  | go_step s1 p s2 : goes_on D s s1 -> ~ In p D -> step rev enforce p s1 = Some s2 -> goes_on D s s2.
  Lemma p_other p s s' d : step rev enforce p s = Some s' -> d <> p -> pcs s' d = pcs s d.
  Proof using. intros E N. destruct (C36_history_is_observed rev enforce s p s' E) as (_ & O & _). now apply O. Qed.
  Lemma on_reach D s s' : reach rev enforce s -> goes_on D s s' -> reach rev enforce s'.
  Proof using. intros R. induction 1; [exact R | eapply reach_step; eauto]. Qed.
  Lemma on_dead D s s' d : In d D -> goes_on D s s' -> pcs s' d = pcs s d.
  Proof using.
    intros ID. induction 1 as [|s1 p s2 G IH N E]; [reflexivity|]. rewrite <- IH. apply (p_other _ _ _ _ E). intros ->. contradiction.
  Qed.
  (** the events since *)
  Lemma on_trace D s s' : goes_on D s s' -> exists l, tr s' = l ++ tr s.
  Proof using.
    induction 1 as [|s1 p s2 G (l & IH) N E]; [exists []; reflexivity|].
    destruct (C36_history_is_observed rev enforce s1 p s2 E) as (H & _). rewrite IH in H. rewrite H. eexists. rewrite app_assoc. reflexivity.
  Qed.

  (** A process that died attached (or attaching): nobody who leaves the segment is ever told that it is the last, so that the segment is never
      cleaned up. *)
  Theorem C62_segment_refuted : forall s D d g, reach rev enforce s -> In d D -> holding g (pcs s d) = true ->
    forall s', goes_on D s s' -> forall l, tr s' = l ++ tr s -> forall p, ~ In (EDel p g true) l.
  Proof using.
    intros s D d g R ID H s' G. induction G as [|s1 p s2 G IH N E]; intros l T q I.
    - destruct l as [|e l]; [destruct I|]. exfalso. assert (X : length (tr s) = length ((e :: l) ++ tr s)) by (rewrite <- T; reflexivity).
      rewrite app_length in X. cbn in X. lia.
    - destruct (on_trace D s s1 G) as (l1 & T1). destruct (C36_history_is_observed rev enforce s1 p s2 E) as (HO & _).
      rewrite T1, T, app_assoc in HO. apply app_inv_tail in HO. subst l. apply in_app_or in I. destruct I as [I | I]; [|exact (IH l1 T1 q I)].
      assert (R2 : reach rev enforce s2) by (eapply reach_step; [eapply on_reach; eauto | exact E]).
      assert (H2 : holding g (pcs s2 d) = true).
      { rewrite (p_other p s1 s2 d E) by (intros ->; contradiction). rewrite (on_dead D s s1 d ID G). exact H. }
      assert (ET : exists r, observe p (pcs s1 p) (pcs s2 p) ++ l1 = EDel q g true :: r).
      { unfold observe in I |- *. destruct (pcs s1 p) as [|?|? [|? ?]|?|?|?|?|? ?|?], (pcs s2 p); cbn in I; try contradiction;
          destruct I as [I | []]; try discriminate I; rewrite I; cbn; eauto. }
      destruct ET as (r & ET). rewrite ET in T. cbn in T.
      pose proof (flags_exact rev enforce s2 R2 (r ++ tr s) (EDel q g true) [] T) as X. cbn beta iota in X. rewrite <- T in X.
      rewrite <- (procs_users rev enforce s2 R2) in X. symmetry in X. apply Z.eqb_eq in X.
      pose proof (holding_procs rev enforce s2 R2 d g H2). lia.
  Qed.

  (** The first process died before it published the segment (sha[0]): nobody else ever attaches to it; they all wait for ever. *)
  Theorem C62_initialiser_refuted : forall s D d g td, reach rev enforce s -> In d D -> pcs s d = Initing g td -> sha0 (segs s g) = false ->
    (forall p, pcs s p <> Checking g /\ pcs s p <> In_ g) ->
    forall s', goes_on D s s' -> sha0 (segs s' g) = false /\ forall p, pcs s' p <> Checking g /\ pcs s' p <> In_ g.
  Proof using.
    intros s D d g td R ID P Z Q s' G. induction G as [|s1 p s2 G (IH1 & IH2) N E]; [auto|].
    assert (R1 : reach rev enforce s1) by (eapply on_reach; eauto).
    assert (P1 : pcs s1 d = Initing g td) by (rewrite (on_dead D s s1 d ID G); exact P).
    assert (NE : d <> p) by (intros ->; contradiction).
    pose proof (IH2 p) as (IHc & IHi).
    unfold step in E. destruct (pcs s1 p) as [|g0|g0 td0|g0|g0|g0|g0|g0 td0|g0] eqn:PP.
    - injection E as <-. split; [exact IH1|]. intros q. cbn [pcs]. unfold upd. destruct (q =? p); [split; discriminate | apply IH2].
    - injection E as <-. split.
      + cbn [segs]. unfold upd. destruct (Nat.eqb_spec g g0) as [<-|]; exact IH1.
      + intros q. cbn [pcs]. unfold upd. destruct (q =? p); [destruct (procs (segs s1 g0) =? 0)%Z; split; discriminate | apply IH2].
    - assert (NG : g0 <> g) by (intros ->; apply NE; exact (C36_one_initialiser rev enforce s1 R1 d p g _ _ P1 PP)).
      destruct td0 as [|i td0]; injection E as <-; (split; [|intros q; cbn [pcs]; unfold upd; destruct (q =? p); [split; intros X; try discriminate; injection X; congruence | apply IH2]]).
      + exact IH1.
      + cbn [segs]. rewrite upd_other by congruence. exact IH1.
    - destruct (sha0 (segs s1 g0)) eqn:S0; [|discriminate]. injection E as <-. split; [exact IH1|]. intros q. cbn [pcs]. unfold upd.
      destruct (q =? p); [split; intros X; [injection X; intros ->; congruence | discriminate] | apply IH2].
    - assert (NG : g0 <> g) by congruence. cbv zeta in E. destruct (negb _ && _); injection E as <-; (split; [exact IH1|]); intros q; cbn [pcs]; unfold upd;
      (destruct (q =? p); [split; intros X; try discriminate; injection X; congruence | apply IH2]).
    - assert (NG : g0 <> g) by congruence. injection E as <-. split.
      + cbn [segs]. rewrite upd_other by congruence. exact IH1.
      + intros q. cbn [pcs]. unfold upd. destruct (q =? p); [destruct (procs (segs s1 g0) =? 1)%Z; split; discriminate | apply IH2].
    - discriminate.
    - destruct td0 as [|i td0]; injection E as <-; (split; [|intros q; cbn [pcs]; unfold upd; destruct (q =? p); [split; discriminate | apply IH2]]).
      + exact IH1.
      + cbn [segs]. unfold upd. destruct (Nat.eqb_spec g g0) as [<-|]; exact IH1.
    - injection E as <-. split; [exact IH1|]. intros q. cbn [pcs]. unfold upd. destruct (q =? p); [split; discriminate | apply IH2].
  Qed.
End Segment.
(** Cases: process 0 attached and died; or it died in the middle of the initialisation, before sha[0], with process 1 waiting. *)
Example C62_segment_case : let s := PipeInit.final PipeInit.same_rev (repeat 0 15) in
  PipeInit.reach PipeInit.same_rev PipeInit.ex_enforce s /\ PipeInit.holding 0 (PipeInit.pcs s 0) = true.
Proof. split; [apply PipeInit.final_reach; reflexivity | reflexivity]. Qed.
Example C62_initialiser_case : let s := PipeInit.final PipeInit.same_rev (repeat 0 4 ++ [1; 1]) in
  PipeInit.reach PipeInit.same_rev PipeInit.ex_enforce s /\ (exists td, PipeInit.pcs s 0 = PipeInit.Initing 0 td) /\ PipeInit.sha0 (PipeInit.segs s 0) = false /\
  PipeInit.pcs s 1 = PipeInit.Spinning 0 /\ forall p, PipeInit.pcs s p <> PipeInit.Checking 0 /\ PipeInit.pcs s p <> PipeInit.In_ 0.
Proof.
  split; [apply PipeInit.final_reach; reflexivity|]. split; [eexists; reflexivity|]. split; [reflexivity|]. split; [reflexivity|].
  intros [|[|p]]; split; vm_compute; discriminate.
Qed.
