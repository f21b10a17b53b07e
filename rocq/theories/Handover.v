(** * What one side wrote before handing a task over is what the other side reads, on processors that delay and reorder stores (C73)

    Code modelled
    - [src/arch/shm/impl.c:467-488]     arax_task_issue: the arguments are stored, then arax_task_submit
    - [src/core/arax_task.c:64-75]      arax_task_submit: the state is stored, then the task is pushed
    - [src/utils/queue.c:88-124]        utils_queue_push: the entry, a fence (115), then the new bottom, which is what makes the task visible
    - [src/utils/queue.c:63-86]         utils_queue_pop: the swap that takes the task is a locked instruction
    - [src/core/arax_task.c:83-87]      arax_task_mark_done: the state is stored, then the completion
    - [src/async/spin/async.c:15-23]    completing and waiting are swaps, locked instructions ([src/async/mutex/async.c:16-25]: a mutex operation is one too)
    - [src/arch/shm/impl.c:502-522]     arax_task_stat, a plain read of the state; arax_task_wait

    A thread's stores wait in a buffer; it sees its own, the others see memory only.  Stores to different words leave the buffer in any order ([tso = false]: any
    processor that delays stores) or in the order they were made ([tso = true]: x86).  A fence or a locked instruction waits until the buffer is
    empty.  Loads are not reordered (C70 has what happens to the queue then).

    Simplified: the queue is a list that the store to bottom appends to (C70: the ring with delayed stores is such a list); the words of a task are numbered; reading or
    storing a word of a task one does not hold is outside the model, except through arax_task_stat. *)
From Verif Require Import Base.
From Coq Require Import Lia.
Local Open Scope nat_scope.

(** ** The model *)
(** The words of task [t]: its state, and everything else the two sides exchange (arguments, host data, buffers; src/core/arax_task.h:20-42). *)
Inductive loc := State (t : nat) | Word (t k : nat).
Definition task_of (x : loc) : nat := match x with State t | Word t _ => t end.
(** task_issued, task_completed; include/arax_types.h:61-66. *)
Definition issued : nat := 1.
Definition completed : nat := 2.
(** A store that waits: of a word, or of the bottom that makes task [t] visible (src/utils/queue.c:116). *)
Inductive item := St (x : loc) (v : nat) | Put (t : nat).
(** Where a task is: not made, with the client that makes it, pushed, with a worker, marked (state stored, completion to come), completed, back with a thread that waited. *)
(** src/core/arax_task.c:3-87. *)
Inductive phase := Free | Making (i : nat) | Pushed | Running (j : nat) | Marked (j : nat) | Over | Back (i : nat).
(** Memory, the buffers, the tasks, the queue, the completions (completion->completed, src/async/spin/async.h). *)
Record st := mks { mem : loc -> nat; buf : nat -> list item; ph : nat -> phase; q : list nat; flag : nat -> bool }.
(** [m0]: what is in memory before (a fresh task's state is 0: C71_new_object_zeroed). *)
(** src/core/arax_task.c:3-50. *)
Definition init (m0 : loc -> nat) : st := mks m0 (fun _ => []) (fun _ => Free) [] (fun _ => false).

Definition loc_eqb (x y : loc) : bool :=
  match x, y with State t, State u => t =? u | Word t k, Word u l => (t =? u) && (k =? l) | _, _ => false end.
Definition store (m : loc -> nat) (x : loc) (v : nat) : loc -> nat := fun y => if loc_eqb y x then v else m y.
(** A thread's view of a word: its own newest store that waits, or memory.  (Processors, no code of their own.) *)
Definition see (b : list item) (m : loc -> nat) (x : loc) : nat := fold_left (fun r e => match e with St y v => if loc_eqb x y then v else r | Put _ => r end) b (m x).
Definition load (s : st) (i : nat) (x : loc) : nat := see (buf s i) (mem s) x.
(** Which stores of a buffer may leave it now: the [k]-th if no older one is to the same word, and on x86 only the oldest. *)
Definition same_word (a b : item) : bool := match a, b with St x _, St y _ => loc_eqb x y | Put _, Put _ => true | _, _ => false end.
Definition may_leave (tso : bool) (b : list item) (k : nat) : bool :=
  match nth_error b k with Some e => (if tso then k =? 0 else true) && negb (existsb (same_word e) (firstn k b)) | None => false end.

(** What happens.  [New]: arax_task_alloc; [Store]: a plain store by who holds the task; [Push]: the fence and the store to bottom; [Drain]: a store leaves a buffer; [Pop]; [Mark]: the
    store of the state in arax_task_mark_done; [Complete]; [Wait]: a wait that returns. *)
(** src/core/arax_task.c:3-87, src/utils/queue.c:63-124, src/async/spin/async.c:15-23. *)
Inductive event := New (i t : nat) | Store (i : nat) (x : loc) (v : nat) | Push (i t : nat) | Drain (i k : nat) | Pop (j : nat) | Mark (j t v : nat) | Complete (j t : nat) | Wait (i t : nat).
(** who holds a task *)
Definition holder (p : phase) : option nat := match p with Making i | Running i | Back i => Some i | _ => None end.
Definition is_nil {X} (l : list X) : bool := match l with [] => true | _ => false end.
(** One event; [None]: it cannot happen (src lines as in [event]). *)
Definition step (tso : bool) (s : st) (e : event) : option st :=
  match e with
  | New i t => match ph s t with Free => Some (mks (mem s) (buf s) (fupd (ph s) t (Making i)) (q s) (flag s)) | _ => None end
  | Store i x v =>
      match holder (ph s (task_of x)) with
      | Some h => if (h =? i) && match x with State _ => v =? issued | _ => true end
                  then Some (mks (mem s) (fupd (buf s) i (buf s i ++ [St x v])) (ph s) (q s) (flag s)) else None
      | None => None end
  | Push i t =>
      match ph s t with
      | Making h => if (h =? i) && is_nil (buf s i) then Some (mks (mem s) (fupd (buf s) i [Put t]) (fupd (ph s) t Pushed) (q s) (flag s)) else None
      | _ => None end
  | Drain i k =>
      if may_leave tso (buf s i) k then
        let b := firstn k (buf s i) ++ skipn (S k) (buf s i) in
        match nth_error (buf s i) k with
        | Some (St x v) => Some (mks (store (mem s) x v) (fupd (buf s) i b) (ph s) (q s) (flag s))
        | Some (Put t) => Some (mks (mem s) (fupd (buf s) i b) (ph s) (q s ++ [t]) (flag s))
        | None => None end
      else None
  | Pop j => match q s with t :: q' => if is_nil (buf s j) then Some (mks (mem s) (buf s) (fupd (ph s) t (Running j)) q' (flag s)) else None | [] => None end
  | Mark j t v =>
      match ph s t with
      | Running h => if h =? j then Some (mks (mem s) (fupd (buf s) j (buf s j ++ [St (State t) v])) (fupd (ph s) t (Marked j)) (q s) (flag s)) else None
      | _ => None end
  | Complete j t =>
      match ph s t with
      | Marked h => if (h =? j) && is_nil (buf s j) then Some (mks (mem s) (buf s) (fupd (ph s) t Over) (q s) (fupd (flag s) t true)) else None
      | _ => None end
  | Wait i t => if flag s t && is_nil (buf s i) then Some (mks (mem s) (buf s) (fupd (ph s) t (Back i)) (q s) (fupd (flag s) t false)) else None
  end.
(** Any history, no code of its own. *)
Fixpoint run (tso : bool) (s : st) (l : list event) : option st :=
  match l with [] => Some s | e :: l' => match step tso s e with Some s' => run tso s' l' | None => None end end.

(** ** Specification *)
(** What a word holds if no store were ever delayed: the last store made to it. *)
Definition apply (m : loc -> nat) (e : event) : loc -> nat :=
  match e with Store _ x v => store m x v | Mark _ t v => store m (State t) v | _ => m end.
Definition last (m0 : loc -> nat) (l : list event) : loc -> nat := fold_left apply l m0.

(** ** Proofs *)
Lemma loc_eqb_spec x y : reflect (x = y) (loc_eqb x y).
Proof.
  destruct x as [t|t k], y as [u|u l]; simpl; try (constructor; congruence).
  - destruct (Nat.eqb_spec t u); constructor; congruence.
  - destruct (Nat.eqb_spec t u), (Nat.eqb_spec k l); simpl; constructor; congruence.
Qed.
Lemma loc_eqb_refl x : loc_eqb x x = true.
Proof. destruct (loc_eqb_spec x x); congruence. Qed.
Lemma loc_eqb_ne x y : x <> y -> loc_eqb x y = false.
Proof. destruct (loc_eqb_spec x y); congruence. Qed.
Definition pick (x : loc) (r : nat) (e : item) : nat := match e with St y v => if loc_eqb x y then v else r | Put _ => r end.
Lemma see_app a b m x : see (a ++ b) m x = fold_left (pick x) b (see a m x).
Proof. unfold see. now rewrite fold_left_app. Qed.
Definition about (t : nat) (e : item) : Prop := match e with St x _ => task_of x = t | Put u => u = t end.
Lemma pick_other x l r : (forall v, ~ In (St x v) l) -> fold_left (pick x) l r = r.
Proof.
  revert r. induction l as [|e l IH]; intros r H; simpl; auto. rewrite IH by (intros v X; apply (H v); simpl; auto). destruct e as [y v|]; simpl; auto.
  destruct (loc_eqb_spec x y) as [->|N]; auto. exfalso. apply (H v). simpl. auto.
Qed.
Lemma see_none l m x : (forall v, ~ In (St x v) l) -> see l m x = m x.
Proof. intros H. unfold see. change (fold_left (pick x) l (m x) = m x). now apply pick_other. Qed.
(** a store that leaves the buffer is not seen to move by its thread *)
Lemma pick_last x l r r' : (exists v, In (St x v) l) -> fold_left (pick x) l r = fold_left (pick x) l r'.
Proof.
  revert r r'. induction l as [|e l IH]; intros r r' [v H]; simpl in *; [tauto|].
  destruct e as [y u|u]; simpl.
  - destruct (loc_eqb_spec x y) as [->|N]; auto. destruct H as [H|H]; [congruence|]. apply IH. eauto.
  - destruct H as [H|H]; [discriminate|]. apply IH. eauto.
Qed.
Lemma has_loc x (l : list item) : (exists v, In (St x v) l) \/ forall v, ~ In (St x v) l.
Proof.
  induction l as [|e l IH]; [right; auto|]. destruct IH as [[v H]|H]; [left; exists v; simpl; auto|].
  destruct e as [y v|u]; [destruct (loc_eqb_spec x y) as [->|N]; [left; exists v; simpl; auto|]|]; right; intros w [X|X]; try congruence; now apply (H w).
Qed.
Lemma see_drain a b x v m y : (forall w, ~ In (St x w) a) -> see (a ++ St x v :: b) m y = see (a ++ b) (store m x v) y.
Proof.
  intros H. rewrite !see_app. simpl. destruct (loc_eqb_spec y x) as [->|N].
  - rewrite !see_none by auto. unfold store. now rewrite loc_eqb_refl.
  - f_equal. unfold see. f_equal. unfold store. now rewrite loc_eqb_ne.
Qed.
Lemma nth_split_mid (b : list item) k e : nth_error b k = Some e -> b = firstn k b ++ e :: skipn (S k) b.
Proof.
  revert k. induction b as [|y b IH]; intros [|k] E; simpl in *; try discriminate; [congruence|]. f_equal. now apply IH.
Qed.
Lemma may_leave_spec tso b k : may_leave tso b k = true -> exists e, nth_error b k = Some e /\ b = firstn k b ++ e :: skipn (S k) b /\
  (forall x v, e = St x v -> forall w, ~ In (St x w) (firstn k b)) /\ (tso = true -> k = 0).
Proof.
  unfold may_leave. destruct (nth_error b k) as [e|] eqn:E; [|discriminate]. intros H. apply Bool.andb_true_iff in H as [H1 H2].
  exists e. split; auto. split; [now apply nth_split_mid|]. split.
  - intros x v -> w X. apply Bool.negb_true_iff in H2. assert (existsb (same_word (St x v)) (firstn k b) = true); [|congruence].
    apply existsb_exists. exists (St x w). split; auto. simpl. apply loc_eqb_refl.
  - intros ->. now apply Nat.eqb_eq.
Qed.
Lemma mid_in (b : list item) k e f : nth_error b k = Some e -> In f (firstn k b ++ skipn (S k) b) -> In f b.
Proof. intros E X. rewrite (nth_split_mid b k e E). apply in_app_or in X. apply in_or_app. simpl. tauto. Qed.

(** the thread whose buffer may hold stores about a task *)
Definition keeper (p : phase) : option nat := match p with Making i | Running i | Marked i | Back i => Some i | _ => None end.
Definition puts (b : list item) : list nat := flat_map (fun e => match e with Put t => [t] | _ => [] end) b.
Definition value (s : st) (x : loc) : nat := match keeper (ph s (task_of x)) with Some i => see (buf s i) (mem s) x | None => mem s x end.
Record inv (m0 : loc -> nat) (l : list event) (s : st) : Prop := mkinv {
  v_words : forall i x v, In (St x v) (buf s i) -> keeper (ph s (task_of x)) = Some i;
  v_put : forall i t, In t (puts (buf s i)) -> ph s t = Pushed /\ ~ In t (q s);
  v_put1 : forall i j t, In t (puts (buf s i)) -> In t (puts (buf s j)) -> i = j;
  v_putn : forall i, NoDup (puts (buf s i));
  v_q : forall t, In t (q s) -> ph s t = Pushed;
  v_qn : NoDup (q s);
  v_flag : forall t, flag s t = true -> ph s t = Over;
  v_val : forall x, value s x = last m0 l x }.

Lemma last_snoc m0 l e x : last m0 (l ++ [e]) x = apply (last m0 l) e x.
Proof. unfold last. now rewrite fold_left_app. Qed.
Lemma is_nil_true {X} (l : list X) : is_nil l = true -> l = [].
Proof. destruct l; [auto|discriminate]. Qed.
Lemma puts_app a b : puts (a ++ b) = puts a ++ puts b.
Proof. apply flat_map_app. Qed.
Lemma see_mem b m m' x : m x = m' x -> see b m x = see b m' x.
Proof. unfold see. intros ->. reflexivity. Qed.
Lemma store_eq m x v : store m x v x = v.
Proof. unfold store. now rewrite loc_eqb_refl. Qed.
Lemma store_ne m x v y : y <> x -> store m x v y = m y.
Proof. intros N. unfold store. now rewrite loc_eqb_ne. Qed.
Lemma NoDup_snoc (l : list nat) x : NoDup l -> ~ In x l -> NoDup (l ++ [x]).
Proof.
  induction 1 as [|y l N ND IH]; simpl; intros H; [repeat constructor; auto|]. constructor; [|apply IH; tauto].
  intros Y. apply in_app_or in Y as [Y|[<-|[]]]; tauto.
Qed.
Lemma inv_init m0 : inv m0 [] (init m0).
Proof. split; simpl; try easy; constructor. Qed.

(** the phase of one task changes, nothing else but the queue and the flags *)
Lemma inv_phase m0 l s t p q' f' e : inv m0 l s -> (forall x, apply (last m0 l) e x = last m0 l x) ->
  (forall i, keeper (ph s t) = Some i -> keeper p = Some i \/ buf s i = []) ->
  (forall i, keeper p = Some i -> keeper (ph s t) = Some i \/ (keeper (ph s t) = None)) ->
  (ph s t = Pushed -> p <> Pushed -> (forall i, ~ In t (puts (buf s i)))) ->
  (forall u, In u q' -> In u (q s) /\ (u <> t \/ p = Pushed)) -> NoDup q' -> (forall u, f' u = true -> (u <> t /\ flag s u = true) \/ (u = t /\ p = Over)) ->
  (ph s t <> Pushed -> p <> Pushed) ->
  inv m0 (l ++ [e]) (mks (mem s) (buf s) (fupd (ph s) t p) q' f').
Proof.
  intros I Ap K1 K2 K3 Q1 Q2 F1 NP. split; cbn [mem buf ph q flag].
  - intros i x v X. pose proof (v_words _ _ _ I i x v X) as W. unfold fupd. destruct (Nat.eqb_spec (task_of x) t) as [E|N]; auto.
    rewrite E in W. destruct (K1 i W) as [Y|Y]; auto. rewrite Y in X. contradiction.
  - intros i u X. destruct (v_put _ _ _ I i u X) as [A B]. split.
    + unfold fupd. destruct (Nat.eqb_spec u t) as [->|N]; auto. destruct p; auto; exfalso; eapply (K3 A ltac:(discriminate) i X).
    + intros Y. apply Q1 in Y. tauto.
  - apply I.
  - apply I.
  - intros u X. destruct (Q1 u X) as [A B]. unfold fupd. destruct (Nat.eqb_spec u t) as [->|N]; [tauto|]. now apply I.
  - exact Q2.
  - intros u X. apply F1 in X. unfold fupd. destruct (Nat.eqb_spec u t) as [->|N]; [tauto|]. apply I. tauto.
  - intros x. rewrite last_snoc, Ap, <- (v_val _ _ _ I x). unfold value. cbn [mem buf ph]. unfold fupd. destruct (Nat.eqb_spec (task_of x) t) as [E|N]; auto.
    rewrite E. destruct (keeper (ph s t)) as [i|] eqn:Ki; destruct (keeper p) as [j|] eqn:Kp; auto.
    + destruct (K2 j eq_refl) as [A|A]; congruence.
    + destruct (K1 i eq_refl) as [A|A]; [congruence|]. rewrite A. reflexivity.
    + apply see_none. intros v X. pose proof (v_words _ _ _ I j x v X) as W. rewrite E in W. congruence.
Qed.
(** a plain store by the keeper *)
Lemma inv_store m0 l s i x v p e : inv m0 l s -> keeper (ph s (task_of x)) = Some i -> keeper p = Some i -> ph s (task_of x) <> Over ->
  (forall y, apply (last m0 l) e y = store (last m0 l) x v y) ->
  inv m0 (l ++ [e]) (mks (mem s) (fupd (buf s) i (buf s i ++ [St x v])) (fupd (ph s) (task_of x) p) (q s) (flag s)).
Proof.
  intros I K Kp NO Ap.
  assert (NPu : ph s (task_of x) <> Pushed) by (intros E; rewrite E in K; discriminate).
  assert (P' : forall j, puts (fupd (buf s) i (buf s i ++ [St x v]) j) = puts (buf s j)).
  { intros j. unfold fupd. destruct (Nat.eqb_spec j i) as [->|N]; auto. rewrite puts_app. simpl. apply app_nil_r. }
  assert (Kf : forall t, keeper (fupd (ph s) (task_of x) p t) = keeper (ph s t)).
  { intros t. unfold fupd. destruct (Nat.eqb_spec t (task_of x)) as [->|N]; congruence. }
  split; cbn [mem buf ph q flag].
  - intros j y w X. rewrite Kf. unfold fupd in X. destruct (Nat.eqb_spec j i) as [->|N]; [|eapply (v_words _ _ _ I); eauto].
    apply in_app_or in X as [X|[X|[]]]; [eapply (v_words _ _ _ I); eauto|]. now injection X as <- <-.
  - intros j t X. rewrite P' in X. destruct (v_put _ _ _ I j t X) as [A B]. split; auto. rewrite fupd_ne by congruence. exact A.
  - intros j k t X Y. rewrite P' in X, Y. eapply (v_put1 _ _ _ I); eauto.
  - intros j. rewrite P'. apply I.
  - intros t X. pose proof (v_q _ _ _ I t X) as A. rewrite fupd_ne by congruence. exact A.
  - apply I.
  - intros t X. pose proof (v_flag _ _ _ I t X) as A. rewrite fupd_ne by congruence. exact A.
  - intros y. rewrite last_snoc, Ap. pose proof (v_val _ _ _ I y) as V. unfold value in *. cbn [mem buf ph]. rewrite Kf.
    destruct (keeper (ph s (task_of y))) as [j|] eqn:Kj.
    + unfold fupd. destruct (Nat.eqb_spec j i) as [->|N].
      * rewrite see_app. simpl. destruct (loc_eqb_spec y x) as [->|Ny]; [now rewrite store_eq|now rewrite store_ne, V].
      * rewrite store_ne by (intros ->; congruence). exact V.
    + rewrite store_ne by (intros ->; congruence). exact V.
Qed.

Lemma inv_step tso m0 l s e s' : inv m0 l s -> step tso s e = Some s' -> inv m0 (l ++ [e]) s'.
Proof.
  intros I E. destruct e as [i t|i x v|i t|i k|j|j t v|j t|i t]; simpl in E.
  - destruct (ph s t) eqn:P; try discriminate. injection E as <-. apply inv_phase; auto; rewrite ?P; try discriminate; simpl; auto; try apply I.
    + intros u X. split; auto. left. intros ->. pose proof (v_q _ _ _ I t X). congruence.
    + intros u X. left. split; auto. intros ->. pose proof (v_flag _ _ _ I t X). congruence.
  - destruct (holder (ph s (task_of x))) as [h|] eqn:H; try discriminate. destruct ((h =? i) && _) eqn:C; try discriminate. injection E as <-.
    apply Bool.andb_true_iff in C as [C _]. apply Nat.eqb_eq in C. subst h.
    assert (K : keeper (ph s (task_of x)) = Some i) by (destruct (ph s (task_of x)); simpl in *; congruence).
    pose proof (inv_store m0 l s i x v (ph s (task_of x)) (Store i x v) I K K ltac:(intros Z; rewrite Z in H; discriminate) ltac:(auto)) as J.
    destruct J as [J1 J2 J3 J4 J5 J6 J7 J8].
    assert (F : forall u, fupd (ph s) (task_of x) (ph s (task_of x)) u = ph s u) by (intros u; unfold fupd; destruct (Nat.eqb_spec u (task_of x)); congruence).
    split; cbn [mem buf ph q flag] in *; auto.
    + intros i0 x0 v0 X. rewrite <- F. eauto.
    + intros i0 t0 X. rewrite <- F. eauto.
    + intros t0 X. rewrite <- F. eauto.
    + intros t0 X. rewrite <- F. eauto.
    + intros y. rewrite <- J8. unfold value. cbn [mem buf ph]. now rewrite F.
  - destruct (ph s t) eqn:P; try discriminate. destruct ((i0 =? i) && _) eqn:C; try discriminate. injection E as <-.
    apply Bool.andb_true_iff in C as [C D]. apply Nat.eqb_eq in C. subst i0. apply is_nil_true in D.
    assert (Nb : forall j, ~ In t (puts (buf s j))) by (intros j X; destruct (v_put _ _ _ I j t X); congruence).
    assert (P' : forall j u, In u (puts (fupd (buf s) i [Put t] j)) -> (j = i /\ u = t) \/ In u (puts (buf s j))).
    { intros j u X. unfold fupd in X. destruct (Nat.eqb_spec j i) as [->|N]; auto. simpl in X. intuition. }
    assert (Nq : ~ In t (q s)) by (intros X; pose proof (v_q _ _ _ I t X); congruence).
    split; cbn [mem buf ph q flag].
    + intros j x v X. unfold fupd in X. destruct (Nat.eqb_spec j i) as [->|N]; [simpl in X; intuition discriminate|].
      pose proof (v_words _ _ _ I j x v X) as W. rewrite fupd_ne; auto. intros Z. rewrite Z, P in W. simpl in W. congruence.
    + intros j u X. apply P' in X as [[-> ->]|X]; [rewrite fupd_eq; auto|]. destruct (v_put _ _ _ I j u X). split; auto. rewrite fupd_ne; auto. intros ->. now apply (Nb j).
    + intros j k u X Y. apply P' in X, Y. destruct X as [[-> ->]|X]; destruct Y as [[-> Y]|Y]; auto; subst; try (exfalso; eapply Nb; eauto; fail). eapply (v_put1 _ _ _ I); eauto.
    + intros j. unfold fupd. destruct (Nat.eqb_spec j i); [simpl; repeat constructor; auto|apply I].
    + intros u X. rewrite fupd_ne; [now apply I|]. intros ->. contradiction.
    + apply I.
    + intros u X. pose proof (v_flag _ _ _ I u X). rewrite fupd_ne; auto. congruence.
    + intros x. rewrite last_snoc. simpl. rewrite <- (v_val _ _ _ I x). unfold value. cbn [mem buf ph]. unfold fupd at 1.
      destruct (Nat.eqb_spec (task_of x) t) as [->|N].
      * rewrite P. simpl. now rewrite D.
      * destruct (keeper (ph s (task_of x))) as [j|]; auto. unfold fupd. destruct (Nat.eqb_spec j i) as [->|N']; auto. now rewrite D.
  - destruct (may_leave tso (buf s i) k) eqn:M; try discriminate. destruct (may_leave_spec _ _ _ M) as (e & Ek & Sp & Ow & _).
    rewrite Ek in E. set (b' := firstn k (buf s i) ++ skipn (S k) (buf s i)) in *.
    assert (Sub : forall j f, In f (fupd (buf s) i b' j) -> In f (buf s j)).
    { intros j f X. unfold fupd in X. destruct (Nat.eqb_spec j i) as [->|N]; auto. eapply mid_in; eauto. }
    assert (Pm : puts (buf s i) = puts (firstn k (buf s i)) ++ puts [e] ++ puts (skipn (S k) (buf s i))).
    { rewrite Sp at 1. rewrite puts_app. f_equal. change (e :: skipn (S k) (buf s i)) with ([e] ++ skipn (S k) (buf s i)). apply puts_app. }
    assert (Pb : puts b' = puts (firstn k (buf s i)) ++ puts (skipn (S k) (buf s i))) by apply puts_app.
    destruct e as [x v|t]; injection E as <-; [change (puts [St x v]) with (@nil nat) in Pm|change (puts [Put t]) with [t] in Pm]; cbn [app] in Pm.
    + assert (Kx : keeper (ph s (task_of x)) = Some i) by (apply (v_words _ _ _ I i x v); eapply nth_error_In; eauto).
      assert (P' : forall j, puts (fupd (buf s) i b' j) = puts (buf s j)).
      { intros j. unfold fupd. destruct (Nat.eqb_spec j i) as [->|N]; auto. congruence. }
      split; cbn [mem buf ph q flag]; try apply I.
      * intros j y w X. eapply (v_words _ _ _ I). eauto.
      * intros j t X. rewrite P' in X. now apply (v_put _ _ _ I j).
      * intros j j' t X Y. rewrite P' in X, Y. eapply (v_put1 _ _ _ I); eauto.
      * intros j. rewrite P'. apply I.
      * intros y. rewrite last_snoc. simpl. rewrite <- (v_val _ _ _ I y). unfold value. cbn [mem buf ph].
        destruct (keeper (ph s (task_of y))) as [j|] eqn:Kj.
        -- unfold fupd. destruct (Nat.eqb_spec j i) as [->|N].
           ++ transitivity (see (firstn k (buf s i) ++ St x v :: skipn (S k) (buf s i)) (mem s) y); [symmetry; apply see_drain; apply (Ow x v eq_refl)|now rewrite <- Sp].
           ++ apply see_mem. apply store_ne. intros ->. congruence.
        -- apply store_ne. intros ->. congruence.
    + assert (It : In t (puts (buf s i))) by (rewrite Pm; apply in_or_app; simpl; auto). destruct (v_put _ _ _ I i t It) as [Pt Nt].
      pose proof (v_putn _ _ _ I i) as ND. rewrite Pm in ND. pose proof (NoDup_remove_1 _ _ _ ND) as ND1. pose proof (NoDup_remove_2 _ _ _ ND) as ND2.
      assert (P' : forall j u, In u (puts (fupd (buf s) i b' j)) -> In u (puts (buf s j)) /\ u <> t).
      { intros j u X. unfold fupd in X. destruct (Nat.eqb_spec j i) as [->|N].
        - rewrite Pb in X. split; [rewrite Pm; apply in_app_or in X; apply in_or_app; simpl; tauto|]. intros ->. contradiction.
        - split; auto. intros ->. apply N. eapply (v_put1 _ _ _ I); eauto. }
      split; cbn [mem buf ph q flag]; try apply I.
      * intros j y w X. eapply (v_words _ _ _ I). eauto.
      * intros j u X. apply P' in X as [X N]. destruct (v_put _ _ _ I j u X). split; auto. intros Y. apply in_app_or in Y as [Y|[Y|[]]]; auto.
      * intros j j' u X Y. apply P' in X as [X _]. apply P' in Y as [Y _]. eapply (v_put1 _ _ _ I); eauto.
      * intros j. unfold fupd. destruct (Nat.eqb_spec j i) as [->|N]; [change (NoDup (puts b')); rewrite Pb; exact ND1|apply I].
      * intros u X. apply in_app_or in X as [X|[<-|[]]]; auto. now apply I.
      * apply NoDup_snoc; auto. apply I.
      * intros y. rewrite last_snoc. simpl. rewrite <- (v_val _ _ _ I y). unfold value. cbn [mem buf ph].
        destruct (keeper (ph s (task_of y))) as [j|]; auto. unfold fupd. destruct (Nat.eqb_spec j i) as [->|N]; auto.
        transitivity (see (firstn k (buf s i) ++ Put t :: skipn (S k) (buf s i)) (mem s) y); [unfold b'; rewrite !see_app; reflexivity|now rewrite <- Sp].
  - destruct (q s) as [|t q'] eqn:Q; try discriminate. destruct (is_nil (buf s j)) eqn:N; try discriminate. injection E as <-. apply is_nil_true in N.
    assert (It : In t (q s)) by (rewrite Q; simpl; auto). pose proof (v_q _ _ _ I t It) as P.
    pose proof (v_qn _ _ _ I) as ND. rewrite Q in ND. inversion ND as [|? ? N1 N2 E0]; subst.
    apply inv_phase; auto; rewrite ?P; try discriminate; simpl; auto; try apply I.
    + intros _ _ i X. destruct (v_put _ _ _ I i t X). contradiction.
    + intros u X. rewrite Q. simpl. split; auto. left. intros ->. contradiction.
    + intros u X. left. split; auto. intros ->. pose proof (v_flag _ _ _ I t X). congruence.
  - destruct (ph s t) eqn:P; try discriminate. destruct (Nat.eqb_spec j0 j); try discriminate. subst j0. injection E as <-.
    apply (inv_store m0 l s j (State t) v (Marked j) (Mark j t v)); simpl; rewrite ?P; auto. discriminate.
  - destruct (ph s t) eqn:P; try discriminate. destruct ((j0 =? j) && _) eqn:C; try discriminate. injection E as <-.
    apply Bool.andb_true_iff in C as [C D]. apply Nat.eqb_eq in C. subst j0. apply is_nil_true in D.
    apply inv_phase; auto; rewrite ?P; try discriminate; simpl; auto; try apply I.
    + intros i H. injection H as <-. auto.
    + intros u X. split; auto. left. intros ->. pose proof (v_q _ _ _ I t X). congruence.
    + intros u X. unfold fupd in X. destruct (Nat.eqb_spec u t) as [Eu|N]; auto.
  - destruct (flag s t) eqn:F; try discriminate. destruct (is_nil (buf s i)) eqn:N; try discriminate. injection E as <-. apply is_nil_true in N.
    pose proof (v_flag _ _ _ I t F) as P.
    apply inv_phase; auto; rewrite ?P; try discriminate; simpl; auto; try apply I.
    + intros u X. split; auto. left. intros ->. pose proof (v_q _ _ _ I t X). congruence.
    + intros u X. unfold fupd in X. destruct (Nat.eqb_spec u t) as [Eu|Nu]; [discriminate|auto].
Qed.
Lemma run_app tso l1 : forall l2 s, run tso s (l1 ++ l2) = match run tso s l1 with Some s' => run tso s' l2 | None => None end.
Proof. induction l1 as [|e l1 IH]; intros l2 s; simpl; auto. destruct (step tso s e); auto. Qed.
Lemma inv_run tso m0 l : forall l0 s s', inv m0 l0 s -> run tso s l = Some s' -> inv m0 (l0 ++ l) s'.
Proof.
  induction l as [|e l IH]; intros l0 s s' I R; simpl in R; [injection R as <-; now rewrite app_nil_r|].
  destruct (step tso s e) as [s1|] eqn:E; try discriminate. change (e :: l) with ([e] ++ l). rewrite app_assoc. apply (IH _ s1); auto. eapply inv_step; eauto.
Qed.

(** ** Theorems *)
(** On every processor that delays stores, in whatever order they leave: whoever holds a task (the client that fills it in, the worker that took it, the thread whose wait returned) reads in every word
    of the task the last value stored to it by whoever held the task then, as if no store were ever delayed. *)
Theorem C73_handover tso m0 l s i x : run tso (init m0) l = Some s -> holder (ph s (task_of x)) = Some i -> load s i x = last m0 l x.
Proof.
  intros R H. pose proof (inv_run tso m0 l [] _ _ (inv_init m0) R) as I. simpl in I. pose proof (v_val _ _ _ I x) as V. unfold value in V. unfold load.
  assert (K : keeper (ph s (task_of x)) = Some i) by (destruct (ph s (task_of x)); simpl in *; congruence). now rewrite K in V.
Qed.


(** how far a task is; it only goes forward *)
Definition rank (p : phase) : nat := match p with Free => 0 | Making _ => 1 | Pushed => 2 | Running _ => 3 | Marked _ => 4 | Over => 5 | Back _ => 6 end.
Lemma rank_step tso m0 l s e s' t : inv m0 l s -> step tso s e = Some s' -> rank (ph s t) <= rank (ph s' t).
Proof.
  intros I E. assert (U : forall u p, rank (ph s u) <= rank p -> rank (ph s t) <= rank (fupd (ph s) u p t)).
  { intros u p H. unfold fupd. destruct (Nat.eqb_spec t u) as [->|N]; auto. }
  destruct e as [i u|i x v|i u|i k|j|j u v|j u|i u]; simpl in E.
  - destruct (ph s u) eqn:P; try discriminate. injection E as <-. cbn [ph]. apply U. rewrite P. simpl. lia.
  - destruct (holder _); try discriminate. destruct ((_ =? _) && _); try discriminate. injection E as <-. auto.
  - destruct (ph s u) eqn:P; try discriminate. destruct ((_ =? _) && _); try discriminate. injection E as <-. cbn [ph]. apply U. rewrite P. simpl. lia.
  - destruct (may_leave _ _ _); try discriminate. destruct (nth_error _ _) as [[x v|u]|]; try discriminate; injection E as <-; auto.
  - destruct (q s) as [|u q'] eqn:Q; try discriminate. destruct (is_nil _); try discriminate. injection E as <-. cbn [ph]. apply U.
    rewrite (v_q _ _ _ I u) by (rewrite Q; simpl; auto). simpl. lia.
  - destruct (ph s u) eqn:P; try discriminate. destruct (_ =? _); try discriminate. injection E as <-. cbn [ph]. apply U. rewrite P. simpl. lia.
  - destruct (ph s u) eqn:P; try discriminate. destruct ((_ =? _) && _); try discriminate. injection E as <-. cbn [ph]. apply U. rewrite P. simpl. lia.
  - destruct (flag s u) eqn:F; try discriminate. destruct (is_nil _); try discriminate. injection E as <-. cbn [ph]. apply U. rewrite (v_flag _ _ _ I u F). simpl. lia.
Qed.
Lemma rank_run tso m0 l2 t : forall l1 s s', inv m0 l1 s -> run tso s l2 = Some s' -> rank (ph s t) <= rank (ph s' t).
Proof.
  induction l2 as [|e l2 IH]; intros l1 s s' I R; simpl in R; [injection R as <-; auto|]. destruct (step tso s e) as [s1|] eqn:E; try discriminate.
  etransitivity; [eapply rank_step; eauto|]. eapply IH; [eapply inv_step; eauto|eauto].
Qed.
(** between the state stored by arax_task_mark_done and the return of the wait nobody stores to the task *)
Lemma quiet_run tso m0 l2 t : forall l1 s s', inv m0 l1 s -> run tso s l2 = Some s' -> 4 <= rank (ph s t) -> rank (ph s' t) <= 5 ->
  forall x, task_of x = t -> last m0 (l1 ++ l2) x = last m0 l1 x.
Proof.
  induction l2 as [|e l2 IH]; intros l1 s s' I R A B x T; [now rewrite app_nil_r|]. pose proof R as R0. simpl in R. destruct (step tso s e) as [s1|] eqn:E; try discriminate.
  pose proof (inv_step _ _ _ _ _ _ I E) as I1. pose proof (rank_step _ _ _ _ _ _ t I E) as K. pose proof (rank_run _ _ _ t _ _ _ I1 R) as K2.
  change (e :: l2) with ([e] ++ l2). rewrite app_assoc. rewrite (IH (l1 ++ [e]) s1 s') by (auto; lia). rewrite last_snoc.
  destruct e as [i u|i y v|i u|i k|j|j u v|j u|i u]; auto; simpl in E |- *.
  - apply store_ne. intros ->. rewrite T in E. destruct (ph s t) eqn:P; simpl in *; try discriminate; lia.
  - apply store_ne. intros ->. simpl in T. subst u. destruct (ph s t) eqn:P; simpl in *; try discriminate; lia.
Qed.

(** A worker that takes a task from the queue reads in it exactly what was stored before the task was pushed, the arguments and the state. *)
Theorem C73_args tso m0 l1 i t l2 j s s' x : run tso (init m0) (l1 ++ Push i t :: l2) = Some s -> task_of x = t ->
  hd_error (q s) = Some t -> step tso s (Pop j) = Some s' -> load s' j x = last m0 l1 x.
Proof.
  intros R T Hq E. assert (R' : run tso (init m0) ((l1 ++ Push i t :: l2) ++ [Pop j]) = Some s') by (rewrite run_app, R; simpl run; simpl in E |- *; now rewrite E).
  assert (Ps : ph s' t = Running j).
  { simpl in E. destruct (q s) as [|u q']; try discriminate. simpl in Hq. injection Hq as ->. destruct (is_nil _); try discriminate. injection E as <-. cbn [ph]. now rewrite fupd_eq. }
  rewrite (C73_handover _ _ _ _ j x R') by (rewrite T, Ps; reflexivity). rewrite last_snoc. simpl.
  rewrite run_app in R. destruct (run tso (init m0) l1) as [s0|] eqn:R1; try discriminate. pose proof (inv_run tso m0 l1 [] _ _ (inv_init m0) R1) as I0. simpl in I0.
  simpl in R. destruct (ph s0 t) eqn:P0; try discriminate. destruct ((i0 =? i) && _) eqn:C; try discriminate.
  set (s1 := mks (mem s0) (fupd (buf s0) i [Put t]) (fupd (ph s0) t Pushed) (q s0) (flag s0)) in *.
  assert (I1 : inv m0 (l1 ++ [Push i t]) s1) by (apply (inv_step tso m0 l1 s0); auto; simpl; now rewrite P0, C).
  change (Push i t :: l2) with ([Push i t] ++ l2). rewrite app_assoc.
  assert (P1 : rank (ph s1 t) = 2) by (unfold s1; cbn [ph]; now rewrite fupd_eq).
  pose proof (inv_run tso m0 l2 _ _ _ I1 R) as I2.
  assert (P2 : ph s t = Pushed) by (apply (v_q _ _ _ I2); destruct (q s); simpl in *; [discriminate|injection Hq; auto]).
  assert (G : forall l2 l1' s1, inv m0 l1' s1 -> run tso s1 l2 = Some s -> 2 <= rank (ph s1 t) -> last m0 (l1' ++ l2) x = last m0 l1' x).
  { clear - T P2. induction l2 as [|e l2 IH]; intros l1' s1 I R A; [now rewrite app_nil_r|]. simpl in R. destruct (step tso s1 e) as [s2|] eqn:E; try discriminate.
    pose proof (inv_step _ _ _ _ _ _ I E) as I1. pose proof (rank_step _ _ _ _ _ _ t I E) as K. pose proof (rank_run _ _ _ t _ _ _ I1 R) as K2. rewrite P2 in K2. simpl in K2.
    change (e :: l2) with ([e] ++ l2). rewrite app_assoc. rewrite (IH (l1' ++ [e]) s2) by (auto; lia). rewrite last_snoc.
    destruct e as [i u|i y v|i u|i k|j|j u v|j u|i u]; auto; simpl in E |- *.
    - apply store_ne. intros ->. rewrite T in E. destruct (ph s1 t) eqn:P; simpl in *; try discriminate; lia.
    - apply store_ne. intros ->. simpl in T. subst u. destruct (ph s1 t) eqn:P; simpl in *; try discriminate; lia. }
  rewrite (G l2 (l1 ++ [Push i t]) s1 I1 R) by lia. rewrite last_snoc. reflexivity.
Qed.

(** A thread whose arax_task_wait has returned reads the state the worker marked the task with, and in every other word what was stored before the task was marked: the results. *)
Theorem C73_results tso m0 l1 j t v l2 i s : run tso (init m0) (l1 ++ Mark j t v :: l2 ++ [Wait i t]) = Some s ->
  load s i (State t) = v /\ forall k, load s i (Word t k) = last m0 l1 (Word t k).
Proof.
  intros R. assert (Ps : ph s t = Back i).
  { pose proof R as R1. change (l1 ++ Mark j t v :: l2 ++ [Wait i t]) with (l1 ++ (Mark j t v :: l2) ++ [Wait i t]) in R1. rewrite app_assoc, run_app in R1.
    clear R. destruct (run tso (init m0) (l1 ++ Mark j t v :: l2)) as [s1|]; try discriminate. simpl in R1. destruct (flag s1 t && is_nil (buf s1 i)); try discriminate. injection R1 as <-. cbn [ph]. apply fupd_eq. }
  assert (Q : forall x, task_of x = t -> last m0 (l1 ++ Mark j t v :: l2 ++ [Wait i t]) x = last m0 (l1 ++ [Mark j t v]) x).
  { intros x T. replace (l1 ++ Mark j t v :: l2 ++ [Wait i t]) with (((l1 ++ [Mark j t v]) ++ l2) ++ [Wait i t]) in * by (rewrite <- !app_assoc; reflexivity).
    rewrite last_snoc. simpl. rewrite !run_app in R. destruct (run tso (init m0) l1) as [s0|] eqn:R0; try discriminate.
    pose proof (inv_run tso m0 l1 [] _ _ (inv_init m0) R0) as I0. simpl in I0.
    simpl in R. destruct (ph s0 t) eqn:P0; try discriminate. destruct (j0 =? j) eqn:C; try discriminate.
    set (s1 := mks (mem s0) (fupd (buf s0) j (buf s0 j ++ [St (State t) v])) (fupd (ph s0) t (Marked j)) (q s0) (flag s0)) in *.
    assert (I1 : inv m0 (l1 ++ [Mark j t v]) s1) by (apply (inv_step tso m0 l1 s0); auto; simpl; now rewrite P0, C).
    destruct (run tso s1 l2) as [s2|] eqn:R2; try discriminate. pose proof (inv_run tso m0 l2 _ _ _ I1 R2) as I2.
    assert (P2 : ph s2 t = Over) by (apply (v_flag _ _ _ I2); destruct (flag s2 t); [auto|discriminate]).
    apply (quiet_run tso m0 l2 t _ s1 s2 I1 R2); auto; [unfold s1; cbn [ph]; rewrite fupd_eq; simpl; lia|rewrite P2; simpl; lia]. }
  split; [|intros k]; (rewrite (C73_handover _ _ _ _ i _ R) by (simpl; now rewrite Ps)); rewrite Q, last_snoc by auto; simpl; [now rewrite store_eq|now apply store_ne].
Qed.

(** *** arax_task_stat, a plain read, instead of arax_task_wait *)
Definition noabout (t : nat) (b : list item) : Prop := forall x v, In (St x v) b -> task_of x <> t.
Definition pinv (s : st) : Prop := forall t,
  match ph s t with
  | Marked j => noabout t (buf s j) \/ (mem s (State t) <> completed /\ exists pre v post, buf s j = pre ++ St (State t) v :: post /\ ~ In (St (State t) completed) pre /\ noabout t post)
  | Over | Back _ => True
  | _ => mem s (State t) <> completed /\ forall i, ~ In (St (State t) completed) (buf s i) end.

Lemma pinv_step m0 l s e s' : inv m0 l s -> pinv s -> step true s e = Some s' -> pinv s'.
Proof.
  intros I P E t. pose proof (P t) as Pt. destruct e as [i u|i x v|i u|i k|j|j u v|j u|i u]; simpl in E.
  - destruct (ph s u) eqn:Pu; try discriminate. injection E as <-. cbn [ph mem buf]. unfold fupd. destruct (Nat.eqb_spec t u) as [->|N]; auto. now rewrite Pu in Pt.
  - destruct (holder (ph s (task_of x))) as [h|] eqn:H; try discriminate. destruct ((h =? i) && _) eqn:C; try discriminate. injection E as <-.
    apply Bool.andb_true_iff in C as [C C2]. apply Nat.eqb_eq in C. subst h. cbn [ph mem buf].
    assert (G : mem s (State t) <> completed /\ (forall i, ~ In (St (State t) completed) (buf s i)) ->
      mem s (State t) <> completed /\ (forall i0, ~ In (St (State t) completed) (fupd (buf s) i (buf s i ++ [St x v]) i0))).
    { intros [A B]. split; auto. intros i0 X. unfold fupd in X. destruct (Nat.eqb_spec i0 i) as [_|N]; [|now apply (B i0)].
      apply in_app_or in X as [X|[X|[]]]; [now apply (B i)|]. injection X as -> ->. discriminate C2. }
    destruct (ph s t) eqn:Pp; auto. assert (Nx : task_of x <> t) by (intros T; rewrite T, Pp in H; discriminate).
    unfold fupd. destruct (Nat.eqb_spec j i) as [->|N]; auto. destruct Pt as [A|(A & pre & w & post & B & C & D)].
    + left. intros y z X. apply in_app_or in X as [X|[X|[]]]; [eapply A; eauto|]. now injection X as <- <-.
    + right. split; auto. exists pre, w, (post ++ [St x v]). rewrite B, <- app_assoc. split; [reflexivity|]. split; auto.
      intros y z X. apply in_app_or in X as [X|[X|[]]]; [eapply D; eauto|]. now injection X as <- <-.
  - destruct (ph s u) eqn:Pu; try discriminate. destruct ((i0 =? i) && _) eqn:C; try discriminate. injection E as <-.
    apply Bool.andb_true_iff in C as [C D]. apply is_nil_true in D. cbn [ph mem buf].
    assert (G : mem s (State t) <> completed /\ (forall i, ~ In (St (State t) completed) (buf s i)) ->
      mem s (State t) <> completed /\ (forall i0, ~ In (St (State t) completed) (fupd (buf s) i [Put u] i0))).
    { intros [A B]. split; auto. intros i1 X. unfold fupd in X. destruct (Nat.eqb_spec i1 i) as [_|N]; [simpl in X; intuition discriminate|now apply (B i1)]. }
    unfold fupd at 1. destruct (Nat.eqb_spec t u) as [->|N]; [rewrite Pu in Pt; auto|]. destruct (ph s t) eqn:Pp; auto.
    unfold fupd. destruct (Nat.eqb_spec j i) as [->|N']; auto. left. intros y z X. simpl in X. intuition discriminate.
  - destruct (may_leave true (buf s i) k) eqn:M; try discriminate. destruct (may_leave_spec _ _ _ M) as (e & Ek & _ & _ & K0). rewrite (K0 eq_refl) in *. clear K0.
    destruct (buf s i) as [|e' b] eqn:Bi; [discriminate|]. simpl in Ek. injection Ek as ->. simpl in E.
    assert (Sub : forall j f, In f (fupd (buf s) i b j) -> In f (buf s j)).
    { intros j f X. unfold fupd in X. destruct (Nat.eqb_spec j i) as [->|N]; auto. rewrite Bi. simpl. auto. }
    assert (Ph : ph s' = ph s /\ buf s' = fupd (buf s) i b /\ mem s' = match e with St x v => store (mem s) x v | Put _ => mem s end) by (destruct e; injection E as <-; auto).
    destruct Ph as (E1 & E2 & E3). rewrite E1, E2, E3. clear E E1 E2 E3 s'.
    assert (G : mem s (State t) <> completed /\ (forall i, ~ In (St (State t) completed) (buf s i)) ->
      match e with St x v => store (mem s) x v | Put _ => mem s end (State t) <> completed /\ (forall i0, ~ In (St (State t) completed) (fupd (buf s) i b i0))).
    { intros [A B]. split; [|intros i0 X; apply (B i0); auto]. destruct e as [x v|]; auto. unfold store. destruct (loc_eqb_spec (State t) x) as [<-|N]; auto.
      intros ->. apply (B i). rewrite Bi. simpl. auto. }
    destruct (ph s t) eqn:Pp; auto.
    destruct Pt as [A|(A & pre & w & post & B & C & D)].
    + left. intros y z X. eapply A. eauto.
    + destruct (Nat.eqb_spec j i) as [->|N].
      * rewrite fupd_eq. rewrite Bi in B. destruct pre as [|e1 pre]; simpl in B; injection B as -> ->.
        -- left. exact D.
        -- right. split; [|exists pre, w, post; split; auto; split; auto; intros X; apply C; simpl; auto].
           destruct e1 as [x v|]; auto. unfold store. destruct (loc_eqb_spec (State t) x) as [<-|N]; auto. intros ->. apply C. simpl. auto.
      * rewrite fupd_ne by auto. right. split; [|eauto 6]. destruct e as [x v|]; auto. rewrite store_ne; auto. intros <-.
        pose proof (v_words _ _ _ I i (State t) v ltac:(rewrite Bi; simpl; auto)) as W. simpl in W. rewrite Pp in W. simpl in W. congruence.
  - destruct (q s) as [|u q'] eqn:Q; try discriminate. destruct (is_nil _); try discriminate. injection E as <-. cbn [ph mem buf].
    unfold fupd. destruct (Nat.eqb_spec t u) as [->|N]; auto. now rewrite (v_q _ _ _ I u) in Pt by (rewrite Q; simpl; auto).
  - destruct (ph s u) eqn:Pu; try discriminate. destruct (Nat.eqb_spec j0 j); try discriminate. subst j0. injection E as <-. cbn [ph mem buf].
    unfold fupd at 1. destruct (Nat.eqb_spec t u) as [->|N].
    + rewrite Pu in Pt. right. split; [tauto|]. rewrite fupd_eq. exists (buf s j), v, []. split; auto. split; [apply Pt|]. intros x w [].
    + assert (G : mem s (State t) <> completed /\ (forall i, ~ In (St (State t) completed) (buf s i)) ->
        mem s (State t) <> completed /\ (forall i0, ~ In (St (State t) completed) (fupd (buf s) j (buf s j ++ [St (State u) v]) i0))).
      { intros [A B]. split; auto. intros i0 X. unfold fupd in X. destruct (Nat.eqb_spec i0 j) as [_|N0]; [|now apply (B i0)].
        apply in_app_or in X as [X|[X|[]]]; [now apply (B j)|]. congruence. }
      destruct (ph s t) eqn:Pp; auto. unfold fupd. destruct (Nat.eqb_spec j0 j) as [->|N0]; auto. destruct Pt as [A|(A & pre & w & post & B & C & D)].
      * left. intros y z X. apply in_app_or in X as [X|[X|[]]]; [eapply A; eauto|]. injection X as <- <-. simpl. auto.
      * right. split; auto. exists pre, w, (post ++ [St (State u) v]). rewrite B, <- app_assoc. split; [reflexivity|]. split; auto.
        intros y z X. apply in_app_or in X as [X|[X|[]]]; [eapply D; eauto|]. injection X as <- <-. simpl. auto.
  - destruct (ph s u) eqn:Pu; try discriminate. destruct ((_ =? _) && _); try discriminate. injection E as <-. cbn [ph mem buf].
    unfold fupd. destruct (Nat.eqb_spec t u) as [->|N]; auto.
  - destruct (flag s u); try discriminate. destruct (is_nil _); try discriminate. injection E as <-. cbn [ph mem buf].
    unfold fupd. destruct (Nat.eqb_spec t u) as [->|N]; auto.
Qed.
Lemma pinv_run m0 l2 : forall l1 s s', inv m0 l1 s -> pinv s -> run true s l2 = Some s' -> pinv s'.
Proof.
  induction l2 as [|e l2 IH]; intros l1 s s' I P R; simpl in R; [now injection R as <-|]. destruct (step true s e) as [s1|] eqn:E; try discriminate.
  eapply (IH (l1 ++ [e]) s1); eauto; [eapply inv_step|eapply pinv_step]; eauto.
Qed.
Lemma rank_back tso m0 l2 t : forall l1 s s', inv m0 l1 s -> run tso s l2 = Some s' -> rank (ph s t) <= 5 -> (forall i, ~ In (Wait i t) l2) -> rank (ph s' t) <= 5.
Proof.
  induction l2 as [|e l2 IH]; intros l1 s s' I R A W; simpl in R; [injection R as <-; auto|]. destruct (step tso s e) as [s1|] eqn:E; try discriminate.
  apply (IH (l1 ++ [e]) s1); auto; [eapply inv_step; eauto| |intros i X; apply (W i); simpl; auto].
  assert (U : forall u p, (u = t -> rank p <= 5) -> rank (fupd (ph s) u p t) <= 5).
  { intros u p H. unfold fupd. destruct (Nat.eqb_spec t u) as [->|N]; auto. }
  destruct e as [i u|i x v|i u|i k|j|j u v|j u|i u]; simpl in E.
  - destruct (ph s u); try discriminate. injection E as <-. apply U. simpl. lia.
  - destruct (holder _); try discriminate. destruct ((_ =? _) && _); try discriminate. injection E as <-. auto.
  - destruct (ph s u); try discriminate. destruct ((_ =? _) && _); try discriminate. injection E as <-. apply U. simpl. lia.
  - destruct (may_leave _ _ _); try discriminate. destruct (nth_error _ _) as [[x v|u]|]; try discriminate; injection E as <-; auto.
  - destruct (q s); try discriminate. destruct (is_nil _); try discriminate. injection E as <-. apply U. simpl. lia.
  - destruct (ph s u); try discriminate. destruct (_ =? _); try discriminate. injection E as <-. apply U. simpl. lia.
  - destruct (ph s u); try discriminate. destruct ((_ =? _) && _); try discriminate. injection E as <-. apply U. simpl. lia.
  - destruct (flag s u); try discriminate. destruct (is_nil _); try discriminate. injection E as <-. apply U. intros ->. exfalso. apply (W i). simpl. auto.
Qed.

(** On x86, where stores leave in order: whoever reads task_completed with arax_task_stat, before anybody waited for the task, reads the results too, without waiting. *)
Theorem C73_poll_tso m0 l s i t x : run true (init m0) l = Some s -> (forall u, m0 (State u) <> completed) -> (forall c, ~ In (Wait c t) l) ->
  load s i (State t) = completed -> task_of x = t -> load s i x = last m0 l x.
Proof.
  intros R Z W L T. pose proof (inv_run true m0 l [] _ _ (inv_init m0) R) as I. simpl in I.
  assert (P : pinv s) by (apply (pinv_run m0 l [] (init m0)); auto; [apply inv_init|intros u; simpl; auto]).
  pose proof (rank_back true m0 l t [] _ _ (inv_init m0) R ltac:(simpl; lia) W) as Rk. specialize (P t).
  pose proof (v_val _ _ _ I x) as V. unfold value in V. rewrite T in V. rewrite <- V. unfold load in *.
  assert (O : keeper (ph s t) <> Some i -> forall y, task_of y = t -> see (buf s i) (mem s) y = mem s y).
  { intros K y Ty. apply see_none. intros v X. pose proof (v_words _ _ _ I i y v X) as Wd. rewrite Ty in Wd. contradiction. }
  assert (N : mem s (State t) <> completed -> (forall i, ~ In (St (State t) completed) (buf s i)) -> False).
  { intros A B. destruct (has_loc (State t) (buf s i)) as [_|H]; [|rewrite see_none in L; auto].
    clear - A B L. specialize (B i). revert L A B. unfold see. generalize (mem s (State t)). induction (buf s i) as [|e b IH]; simpl; intros n L A B; auto.
    eapply IH; [exact L| |tauto]. destruct e as [[u|u k] v|]; auto. destruct (Nat.eqb_spec t u) as [<-|]; auto. }
  destruct (ph s t) eqn:Pp; simpl in *; try (exfalso; apply N; tauto); try lia.
  - destruct (Nat.eq_dec j i) as [->|Nj]; auto. rewrite O in L |- * by (auto; congruence). destruct P as [A|(A & _)]; [|contradiction].
    rewrite see_none; auto. intros v X. now apply (A x v X).
  - apply O; auto. discriminate.
Qed.
(** Elsewhere it is false: a client that polls can see task_completed and still read the old result. *)
Theorem C73_poll_refuted : exists l s, run false (init (fun _ => 0)) l = Some s /\ load s 0 (State 0) = completed /\
  last (fun _ => 0) l (Word 0 1) = 7 /\ load s 0 (Word 0 1) = 0.
Proof.
  exists [New 0 0; Store 0 (Word 0 0) 5; Store 0 (State 0) issued; Drain 0 1; Drain 0 0; Push 0 0; Drain 0 0; Pop 1; Store 1 (Word 0 1) 7; Mark 1 0 completed; Drain 1 1].
  eexists. split; [vm_compute; reflexivity|]. vm_compute. auto.
Qed.
(** A task that goes the whole way, with stores that leave out of order: the client fills it in, the worker takes it, stores a result and completes it, the client waits. *)
Definition c73_case : list event :=
  [New 0 3; Store 0 (Word 3 0) 5; Store 0 (Word 3 1) 6; Store 0 (State 3) issued; Drain 0 2; Drain 0 1; Drain 0 0; Push 0 3; Drain 0 0; Pop 1;
   Store 1 (Word 3 2) 7; Store 1 (Word 3 0) 9; Mark 1 3 completed; Drain 1 2; Drain 1 1; Drain 1 0; Complete 1 3; Wait 0 3].
Theorem C73_case : exists s, run false (init (fun _ => 0)) c73_case = Some s /\ holder (ph s 3) = Some 0 /\ load s 0 (Word 3 2) = 7 /\ load s 0 (Word 3 0) = 9 /\
  load s 0 (Word 3 1) = 6 /\ load s 0 (State 3) = completed.
Proof. eexists. split; [vm_compute; reflexivity|]. vm_compute. auto 10. Qed.
(** What the worker of that run reads as it takes the task. *)
Theorem C73_args_case : exists s s', run false (init (fun _ => 0)) (firstn 9 c73_case) = Some s /\ hd_error (q s) = Some 3 /\ step false s (Pop 1) = Some s' /\
  load s' 1 (Word 3 0) = 5 /\ load s' 1 (Word 3 1) = 6.
Proof. eexists. eexists. split; [vm_compute; reflexivity|]. split; [vm_compute; reflexivity|]. split; [vm_compute; reflexivity|]. vm_compute. auto. Qed.
(** A poll on x86 that sees the task completed while the completion has not been raised. *)
Theorem C73_poll_case : exists s, run true (init (fun _ => 0))
  [New 0 0; Store 0 (State 0) issued; Drain 0 0; Push 0 0; Drain 0 0; Pop 1; Store 1 (Word 0 1) 7; Mark 1 0 completed; Drain 1 0; Drain 1 0] = Some s /\
  load s 0 (State 0) = completed /\ load s 0 (Word 0 1) = 7 /\ flag s 0 = false.
Proof. eexists. split; [vm_compute; reflexivity|]. vm_compute. auto. Qed.
