(** The task queue on processors that delay stores, and on processors that also reorder loads (property C70).

    Code modelled
    - [src/utils/queue.c:63-142]  utils_queue_pop, utils_queue_push: as in [QueueConc], with a store buffer for every thread
    A store waits in the buffer of its thread and reaches memory at any later moment; stores of one thread to different words may
    reach memory in any order (SPARC PSO; x86 keeps the order, so its runs are among these).  __sync_synchronize (queue.c:115), the
    swap of pop (82) and of the lock (spinlock.h:38), and the __sync_fetch_and_and of unlock (spinlock.h:52) wait until the buffer is
    empty.  A thread reads its own waiting stores. *)
From Verif Require Import Base QueueModel QueueProps QueueConc QueueObs.
From Coq Require Import Lia.
Local Open Scope N_scope.
Arguments N.add : simpl never.
Arguments N.sub : simpl never.
Arguments N.mul : simpl never.
Arguments N.div : simpl never.
Arguments N.modulo : simpl never.
Arguments N.pow : simpl never.

(** ** The machine *)
(** A waiting store: to an entry (queue.c:114), to bottom (116). *)
Inductive st := SEnt (i v : N) | SBot (b : N).
(** Where a thread is: as in [QueueConc], and before the fence of queue.c:115. *)
Inductive wpc := At (p : qpc) | Fence (d b : N).
Record wc := mkwc { w_e : list N; w_b : N; w_t : N; w_l : N; w_pc : nat -> wpc; w_buf : nat -> list st; w_ev : list qev }.
Definition w_init (cap : N) : wc := mkwc (repeat 0 (N.to_nat cap)) 0 0 0 (fun _ => At (Idle 0)) (fun _ => []) [].
(** What a thread reads: its own newest waiting store to the word, else memory. *)
Definition see_b (l : list st) (m : N) : N := fold_left (fun x s => match s with SBot b => b | _ => x end) l m.
Definition see_e (l : list st) (k m : N) : N := fold_left (fun x s => match s with SEnt i v => if i =? k then v else x | _ => x end) l m.
Definition stay (c : wc) (i : nat) (p : wpc) : wc := mkwc (w_e c) (w_b c) (w_t c) (w_l c) (fupd (w_pc c) i p) (w_buf c) (w_ev c).
Definition stay_ev (c : wc) (i : nat) (p : wpc) (e : qev) : wc := mkwc (w_e c) (w_b c) (w_t c) (w_l c) (fupd (w_pc c) i p) (w_buf c) (w_ev c ++ [e]).
Definition n_out (c : wc) : N := N.of_nat (length (popped (w_ev c))).
(** the value a push that stored bottom will return *)
Definition val_of (p : wpc) : N := match p with At (Psh6 r) => r | _ => 0 end.
(** Calls, accesses, and [Drain k]: the [k]-th waiting store of the thread reaches memory.  queue.c:63-142 *)
Inductive wact := WPush (d : N) | WPop | WGo | Drain (k : nat).
Definition wstep (cap : N) (c : wc) (a : nat * wact) : outcome wc :=
  let '(i, act) := a in
  let buf := w_buf c i in
  let empty := match buf with [] => true | _ => false end in
  match act, w_pc c i with
  | WPush d, At (Idle _) => do _ <- assert_ (negb (d =? 0)); Ok (stay c i (At (Psh0 d)))
  | WPop, At (Idle _) => Ok (stay c i (At Pop0))
  | WGo, At Pop0 => Ok (stay c i (At (Pop1 (w_t c) (n_out c))))
  | WGo, At (Pop1 t g) => if see_b buf (w_b c) =? t then Ok (stay_ev c i (At (Idle 0)) (EEmpty i)) else Ok (stay c i (At (Pop2 t g)))
  | WGo, At (Pop2 t g) => do v <- rd (w_e c) (N.to_nat (N.land t (cap - 1))); Ok (stay c i (At (Pop3 t (see_e buf (N.land t (cap - 1)) v) g)))
  | WGo, At (Pop3 t v g) =>
    if negb empty then Ok c
    else if w_t c =? t
    then Ok (mkwc (w_e c) (w_b c) ((t + 1) mod U16) (w_l c) (fupd (w_pc c) i (At (Idle v))) (w_buf c) (w_ev c ++ [EPop i v]))
    else Ok (stay_ev c i (At (Idle 0)) (ELost i))
  | WGo, At (Psh0 d) => if w_l c =? 0 then Ok (stay c i (At (Psh1 d))) else Ok c
  | WGo, At (Psh1 d) =>
    if negb empty then Ok c
    else if w_l c =? 0 then Ok (mkwc (w_e c) (w_b c) (w_t c) 1 (fupd (w_pc c) i (At (Psh2 d))) (w_buf c) (w_ev c))
    else Ok (stay c i (At (Psh0 d)))
  | WGo, At (Psh2 d) => Ok (stay c i (At (Psh3 d (see_b buf (w_b c)))))
  | WGo, At (Psh3 d b) => if used_diff b (w_t c) =? cap then Ok (stay_ev c i (At (Psh6 0)) (EFull i)) else Ok (stay c i (At (Psh4 d b)))
  | WGo, At (Psh4 d b) => Ok (mkwc (w_e c) (w_b c) (w_t c) (w_l c) (fupd (w_pc c) i (Fence d b)) (fupd (w_buf c) i (buf ++ [SEnt (N.land b (cap - 1)) d])) (w_ev c))
  | WGo, Fence d b => if negb empty then Ok c else Ok (stay c i (At (Psh5 d b)))
  | WGo, At (Psh5 d b) => Ok (mkwc (w_e c) (w_b c) (w_t c) (w_l c) (fupd (w_pc c) i (At (Psh6 d))) (fupd (w_buf c) i (buf ++ [SBot ((b + 1) mod U16)])) (w_ev c))
  | WGo, At (Psh6 r) =>
    if w_l c =? 0 then Abort
    else if negb empty then Ok c
    else Ok (mkwc (w_e c) (w_b c) (w_t c) 0 (fupd (w_pc c) i (At (Idle r))) (w_buf c) (w_ev c))
  | Drain k, p =>
    match nth_error buf k with
    | None => Ok c
    | Some s =>
      let buf' := fupd (w_buf c) i (firstn k buf ++ skipn (S k) buf) in
      match s with
      | SEnt j v => do e <- wr (w_e c) (N.to_nat j) v; Ok (mkwc e (w_b c) (w_t c) (w_l c) (w_pc c) buf' (w_ev c))
      | SBot b => Ok (mkwc (w_e c) b (w_t c) (w_l c) (w_pc c) buf' (w_ev c ++ [EPush i (val_of p)]))
      end
    end
  | _, _ => Ok c
  end.
Fixpoint wrun (cap : N) (c : wc) (l : list (nat * wact)) : outcome wc :=
  match l with [] => Ok c | a :: r => do c' <- wstep cap c a; wrun cap c' r end.
(** No pop in progress is overtaken by [D] or more other pops. *)
Definition w_not_overtaken (D : N) (c : wc) (a : nat * wact) : Prop :=
  match snd a, w_pc c (fst a) with WGo, At (Pop1 _ g) | WGo, At (Pop3 _ _ g) => n_out c < g + D | _, _ => True end.
Fixpoint w_timely (D cap : N) (c : wc) (l : list (nat * wact)) : Prop :=
  match l with [] => True | a :: r => w_not_overtaken D c a /\ match wstep cap c a with Ok c' => w_timely D cap c' r | _ => True end end.

(** ** What the callers see *)
(** The observer of [QueueObs]: it sees when a call starts, when it ends and what it returns. *)
Definition place (p : wpc) : qpc := match p with At q => q | Fence d b => Psh4 d b end.
Definition act_of (x : wact) : qact := match x with WPush d => CPush d | WPop => CPop | _ => Go end.
Fixpoint w_watched (cap : N) (c : wc) (m : mon) (l : list (nat * wact)) : outcome (wc * mon) :=
  match l with
  | [] => Ok (c, m)
  | a :: r => do c' <- wstep cap c a; w_watched cap c' (watch (fst a, act_of (snd a)) (place (w_pc c (fst a))) (place (w_pc c' (fst a))) m) r
  end.
(** A push that is in the queue and has not returned yet. *)
Definition w_returning (p : wpc) (b : list st) : list answer := match p, b with At (Psh6 r), [] => [if r =? 0 then Refused else Pushed r] | _, _ => [] end.

(** ** Every run looks like one without delays *)
(** Where the thread is in that run: a store that waits has not been made. *)
Definition rel (cap : N) (q : qpc) (p : wpc) (b : list st) : Prop :=
  match p with
  | At (Psh6 d) => (b = [] /\ q = Psh6 d) \/ exists b1, b = [SBot ((b1 + 1) mod U16)] /\ q = Psh5 d b1
  | At p => b = [] /\ q = p
  | Fence d b1 => (b = [SEnt (N.land b1 (cap - 1)) d] /\ q = Psh4 d b1) \/ (b = [] /\ q = Psh5 d b1)
  end.
Record like (cap : N) (c : qc) (w : wc) : Prop := {
  k_e : c_e c = w_e w; k_b : c_b c = w_b w; k_t : c_t c = w_t w; k_l : c_l c = w_l w; k_ev : c_ev c = w_ev w;
  k_pc : forall i, rel cap (c_pc c i) (w_pc w i) (w_buf w i)
}.
Definition quiet (q : qpc) : Prop := match q with Idle _ => False | _ => True end.
(** what the observer can tell *)
Definition alike (q : qpc) (p : wpc) : Prop := match q, place p with Idle r, Idle r' => r = r' | Idle _, _ | _, Idle _ => False | _, _ => True end.
Lemma rel_alike cap q p b : rel cap q p b -> alike q p.
Proof.
  destruct p as [p | d b1]; [destruct p|]; cbn [rel]; unfold alike; cbn [place]; intros H;
  try (destruct H as (_ & ->); cbn; auto; fail); destruct H as [(_ & ->) | H]; cbn; auto; try (destruct H as (? & _ & ->); exact Logic.I); destruct H as (_ & ->); exact Logic.I.
Qed.
Lemma watch_alike a a' q q' p p' m : fst a = fst a' -> snd a = snd a' \/ ~ (exists r, q = Idle r) -> alike q p -> alike q' p' -> watch a q q' m = watch a' (place p) (place p') m.
Proof.
  destruct a as [i x], a' as [i' x']. cbn [fst snd]. intros <- X. unfold alike, watch. cbn [fst snd].
  destruct q as [r | | | | | | | | | | |], (place p) as [r0 | | | | | | | | | | |]; try tauto; destruct q' as [r1 | | | | | | | | | | |], (place p') as [r2 | | | | | | | | | | |]; try tauto; intros; subst; try reflexivity;
  (destruct X as [-> | X]; [reflexivity | exfalso; apply X; eauto]).
Qed.
(** nothing happened in the run without delays, and the observer saw nothing *)
Lemma watch_none i x q p p' m : alike q p -> alike q p' -> watch (i, x) (place p) (place p') m = m.
Proof.
  unfold alike, watch. destruct q as [r | | | | | | | | | | |], (place p) as [r0 | | | | | | | | | | |]; try tauto; destruct (place p') as [r2 | | | | | | | | | | |]; try tauto; reflexivity.
Qed.

Lemma like_stay cap c w i q p : like cap c w -> rel cap q p (w_buf w i) -> like cap (goto c i q) (stay w i p).
Proof.
  intros [L1 L2 L3 L4 L5 L6] R. constructor; cbn [goto stay c_e c_b c_t c_l c_ev c_pc w_e w_b w_t w_l w_ev w_pc w_buf]; auto.
  intros j. destruct (Nat.eq_dec j i) as [-> | NE]; [rewrite !fupd_eq; exact R | rewrite !fupd_ne by auto; apply L6].
Qed.
Lemma like_stay_ev cap c w i q p e : like cap c w -> rel cap q p (w_buf w i) -> like cap (goto_ev c i q e) (stay_ev w i p e).
Proof.
  intros [L1 L2 L3 L4 L5 L6] R. constructor; cbn [goto_ev stay_ev c_e c_b c_t c_l c_ev c_pc w_e w_b w_t w_l w_ev w_pc w_buf]; auto; [congruence|].
  intros j. destruct (Nat.eq_dec j i) as [-> | NE]; [rewrite !fupd_eq; exact R | rewrite !fupd_ne by auto; apply L6].
Qed.
Lemma like_full cap c w i q p e b t l buf ev : like cap c w -> rel cap q p buf ->
  like cap (mkqc e b t l (fupd (c_pc c) i q) ev) (mkwc e b t l (fupd (w_pc w) i p) (fupd (w_buf w) i buf) ev).
Proof.
  intros [L1 L2 L3 L4 L5 L6] R. constructor; cbn [c_e c_b c_t c_l c_ev c_pc w_e w_b w_t w_l w_ev w_pc w_buf]; auto.
  intros j. destruct (Nat.eq_dec j i) as [-> | NE]; [rewrite !fupd_eq; exact R | rewrite !fupd_ne by auto; apply L6].
Qed.
(** the matching steps of the run without delays: none or one of the same thread *)
Definition shadow (w : wc) (a : nat * wact) : list (nat * qact) :=
  let '(i, x) := a in
  match x with
  | WPush d => [(i, CPush d)]
  | WPop => [(i, CPop)]
  | Drain k => match nth_error (w_buf w i) k with Some _ => [(i, Go)] | None => [] end
  | WGo => match w_pc w i, w_buf w i with
           | At (Psh4 _ _), _ | At (Psh5 _ _), _ | Fence _ _, _ => []
           | At (Psh6 _), _ :: _ => if w_l w =? 0 then [(i, Go)] else []
           | _, _ => [(i, Go)]
           end
  end.
Lemma like_n cap c w : like cap c w -> n_popped c = n_out w.
Proof. intros L. unfold n_popped, n_out. rewrite (k_ev _ _ _ L). reflexivity. Qed.
Lemma rel_plain cap q p b : rel cap q (At p) b -> (forall d, p <> Psh6 d) -> b = [] /\ q = p.
Proof. destruct p; cbn [rel]; intros H N; auto. exfalso. apply (N r). reflexivity. Qed.
Lemma rel_eq cap p b : (forall d, p <> Psh6 d) -> b = [] -> rel cap p (At p) b.
Proof. intros N ->. destruct p; cbn [rel]; auto. Qed.

Lemma sim cap c w a w' : like cap c w -> wstep cap w a = Ok w' -> exists c', crun cap c (shadow w a) = Ok c' /\ like cap c' w'.
Proof.
  intros L E. destruct a as [i x]. pose proof (k_pc _ _ _ L i) as R. pose proof (like_n _ _ _ L) as NP. cbn [wstep] in E. cbn [shadow].
  assert (ONE : forall y c', cstep cap c (i, y) = Ok c' -> like cap c' w' -> exists c', crun cap c [(i, y)] = Ok c' /\ like cap c' w') by (intros y c' E1 L1; exists c'; cbn [crun]; rewrite E1; auto).
  assert (STAY : w' = w -> exists c', crun cap c [] = Ok c' /\ like cap c' w') by (intros ->; exists c; auto).
  destruct x as [d | | | k].
  - (* a push is called *)
    destruct (w_pc w i) as [p | d1 b1] eqn:EP.
    2:{ injection E as <-. apply (ONE _ c); [|exact L]. cbn [rel] in R. cbn [cstep]. destruct R as [(_ & ->) | (_ & ->)]; reflexivity. }
    destruct p; try (injection E as <-; apply (ONE _ c); [|exact L]; cbn [rel] in R; cbn [cstep]; try (destruct R as (_ & ->); reflexivity); destruct R as [(_ & ->) | (b1 & _ & ->)]; reflexivity).
    destruct R as (EB & R). destruct (d =? 0) eqn:ED; [discriminate|]. cbn [negb assert_ bind] in E. injection E as <-. apply (ONE _ (goto c i (Psh0 d))).
    + cbn [cstep]. rewrite R, ED. reflexivity.
    + apply like_stay; [exact L|]. cbn [rel]. auto.
  - (* a pop is called *)
    destruct (w_pc w i) as [p | d1 b1] eqn:EP.
    2:{ injection E as <-. apply (ONE _ c); [|exact L]. cbn [rel] in R. cbn [cstep]. destruct R as [(_ & ->) | (_ & ->)]; reflexivity. }
    destruct p; try (injection E as <-; apply (ONE _ c); [|exact L]; cbn [rel] in R; cbn [cstep]; try (destruct R as (_ & ->); reflexivity); destruct R as [(_ & ->) | (b1 & _ & ->)]; reflexivity).
    destruct R as (EB & R). injection E as <-. apply (ONE _ (goto c i Pop0)).
    + cbn [cstep]. rewrite R. reflexivity.
    + apply like_stay; [exact L|]. cbn [rel]. auto.
  - (* an access *)
    destruct (w_pc w i) as [p | d1 b1] eqn:EP.
    2:{ cbn [rel] in R. destruct R as [(EB & R) | (EB & R)]; rewrite EB in E; cbn [negb] in E; injection E as <-.
        - apply STAY. reflexivity.
        - exists c. split; [reflexivity|]. destruct L as [L1 L2 L3 L4 L5 L6]. constructor; cbn [stay w_e w_b w_t w_l w_ev w_pc w_buf]; auto.
          intros j. destruct (Nat.eq_dec j i) as [-> | NE]; [rewrite fupd_eq, EB; cbn [rel]; auto | rewrite fupd_ne by auto; apply L6]. }
    destruct p as [r | | t g | t g | t v g | d | d | d | d b | d b | d b | r]; cbn [rel] in R.
    + injection E as <-. apply (ONE _ c); [|exact L]. destruct R as (_ & R). cbn [cstep]. rewrite R. reflexivity.
    + destruct R as (EB & R). injection E as <-. apply (ONE _ (goto c i (Pop1 (c_t c) (n_popped c)))); [cbn [cstep]; rewrite R; reflexivity|].
      rewrite NP, (k_t _ _ _ L). apply like_stay; [exact L | cbn [rel]; auto].
    + destruct R as (EB & R). rewrite EB in E. cbn [see_b fold_left] in E. rewrite <- (k_b _ _ _ L) in E. destruct (c_b c =? t) eqn:ET; injection E as <-.
      * apply (ONE _ (goto_ev c i (Idle 0) (EEmpty i))); [cbn [cstep]; rewrite R, ET; reflexivity|]. apply like_stay_ev; [exact L | cbn [rel]; auto].
      * apply (ONE _ (goto c i (Pop2 t g))); [cbn [cstep]; rewrite R, ET; reflexivity|]. apply like_stay; [exact L | cbn [rel]; auto].
    + destruct R as (EB & R). rewrite EB in E. cbn [see_e fold_left] in E. rewrite <- (k_e _ _ _ L) in E. destruct (rd (c_e c) (N.to_nat (N.land t (cap - 1)))) as [v| |] eqn:ER; try discriminate. cbn [bind] in E. injection E as <-.
      apply (ONE _ (goto c i (Pop3 t v g))); [cbn [cstep]; rewrite R, ER; reflexivity|]. apply like_stay; [exact L | cbn [rel]; auto].
    + destruct R as (EB & R). rewrite EB in *. cbn [negb] in E. rewrite <- (k_t _ _ _ L) in E. destruct (c_t c =? t) eqn:ET; injection E as <-.
      * eapply ONE; [cbn [cstep]; rewrite R, ET; reflexivity|]. rewrite (k_e _ _ _ L), (k_b _ _ _ L), (k_l _ _ _ L), (k_ev _ _ _ L).
        destruct L as [L1 L2 L3 L4 L5 L6]. constructor; cbn [c_e c_b c_t c_l c_ev c_pc w_e w_b w_t w_l w_ev w_pc w_buf]; auto.
        intros j. destruct (Nat.eq_dec j i) as [-> | NE]; [rewrite !fupd_eq, EB; cbn [rel]; auto | rewrite !fupd_ne by auto; apply L6].
      * apply (ONE _ (goto_ev c i (Idle 0) (ELost i))); [cbn [cstep]; rewrite R, ET; reflexivity|]. apply like_stay_ev; [exact L | cbn [rel]; auto].
    + destruct R as (EB & R). rewrite <- (k_l _ _ _ L) in E. destruct (c_l c =? 0) eqn:EL; injection E as <-.
      * apply (ONE _ (goto c i (Psh1 d))); [cbn [cstep]; rewrite R, EL; reflexivity|]. apply like_stay; [exact L | cbn [rel]; auto].
      * apply (ONE _ c); [cbn [cstep]; rewrite R, EL; reflexivity | exact L].
    + destruct R as (EB & R). rewrite EB in *. cbn [negb] in E. rewrite <- (k_l _ _ _ L) in E. destruct (c_l c =? 0) eqn:EL; injection E as <-.
      * eapply ONE; [cbn [cstep]; rewrite R, EL; reflexivity|]. destruct L as [L1 L2 L3 L4 L5 L6]. constructor; cbn [c_e c_b c_t c_l c_ev c_pc w_e w_b w_t w_l w_ev w_pc w_buf]; auto.
        intros j. destruct (Nat.eq_dec j i) as [-> | NE]; [rewrite !fupd_eq, EB; cbn [rel]; auto | rewrite !fupd_ne by auto; apply L6].
      * apply (ONE _ (goto c i (Psh0 d))); [cbn [cstep]; rewrite R, EL; reflexivity|]. apply like_stay; [exact L | cbn [rel]; auto].
    + destruct R as (EB & R). rewrite EB in E. cbn [see_b fold_left] in E. rewrite <- (k_b _ _ _ L) in E. injection E as <-.
      apply (ONE _ (goto c i (Psh3 d (c_b c)))); [cbn [cstep]; rewrite R; reflexivity|]. apply like_stay; [exact L | cbn [rel]; auto].
    + destruct R as (EB & R). rewrite <- (k_t _ _ _ L) in E. destruct (used_diff b (c_t c) =? cap) eqn:EU; injection E as <-.
      * apply (ONE _ (goto_ev c i (Psh6 0) (EFull i))); [cbn [cstep]; rewrite R, EU; reflexivity|]. apply like_stay_ev; [exact L | cbn [rel]; auto].
      * apply (ONE _ (goto c i (Psh4 d b))); [cbn [cstep]; rewrite R, EU; reflexivity|]. apply like_stay; [exact L | cbn [rel]; auto].
    + destruct R as (EB & R). rewrite EB in E. cbn [app] in E. injection E as <-. exists c. split; [reflexivity|]. destruct L as [L1 L2 L3 L4 L5 L6]. constructor; cbn [w_e w_b w_t w_l w_ev w_pc w_buf]; auto.
      intros j. destruct (Nat.eq_dec j i) as [-> | NE]; [rewrite !fupd_eq; cbn [rel]; auto | rewrite !fupd_ne by auto; apply L6].
    + destruct R as (EB & R). rewrite EB in E. cbn [app] in E. injection E as <-. exists c. split; [reflexivity|]. destruct L as [L1 L2 L3 L4 L5 L6]. constructor; cbn [w_e w_b w_t w_l w_ev w_pc w_buf]; auto.
      intros j. destruct (Nat.eq_dec j i) as [-> | NE]; [rewrite !fupd_eq; cbn [rel]; eauto | rewrite !fupd_ne by auto; apply L6].
    + destruct R as [(EB & R) | (b1 & EB & R)]; rewrite EB in *; destruct (w_l w =? 0) eqn:EL; try discriminate; cbn [negb] in E; injection E as <-; [|apply STAY; reflexivity].
      eapply ONE; [cbn [cstep]; rewrite R, (k_l _ _ _ L), EL; reflexivity|]. rewrite (k_e _ _ _ L), (k_b _ _ _ L), (k_t _ _ _ L), (k_ev _ _ _ L).
      destruct L as [L1 L2 L3 L4 L5 L6]. constructor; cbn [c_e c_b c_t c_l c_ev c_pc w_e w_b w_t w_l w_ev w_pc w_buf]; auto.
      intros j. destruct (Nat.eq_dec j i) as [-> | NE]; [rewrite !fupd_eq, EB; cbn [rel]; auto | rewrite !fupd_ne by auto; apply L6].
  - (* a store reaches memory *)
    destruct (nth_error (w_buf w i) k) as [s|] eqn:EN.
    2:{ destruct (w_pc w i) as [[]|]; injection E as <-; apply STAY; reflexivity. }
    assert (E' : (let buf' := fupd (w_buf w) i (firstn k (w_buf w i) ++ skipn (S k) (w_buf w i)) in
      match s with
      | SEnt j v => do e <- wr (w_e w) (N.to_nat j) v; Ok (mkwc e (w_b w) (w_t w) (w_l w) (w_pc w) buf' (w_ev w))
      | SBot b => Ok (mkwc (w_e w) b (w_t w) (w_l w) (w_pc w) buf' (w_ev w ++ [EPush i (val_of (w_pc w i))]))
      end) = Ok w') by (destruct (w_pc w i) as [[]|]; exact E). clear E. cbv zeta in E'.
    destruct (w_pc w i) as [p | d1 b1] eqn:EP; cbn [rel] in R.
    + destruct p; try (exfalso; destruct R as (EB & _); rewrite EB in EN; destruct k; discriminate). destruct R as [(EB & _) | (b1 & EB & R)]; rewrite EB in *; [destruct k; discriminate|].
      destruct k as [|[|k]]; try discriminate. injection EN as <-. cbn [firstn skipn app val_of] in E'. injection E' as <-.
      eapply ONE; [cbn [cstep]; rewrite R; reflexivity|]. rewrite (k_e _ _ _ L), (k_l _ _ _ L), (k_t _ _ _ L), (k_ev _ _ _ L).
      destruct L as [L1 L2 L3 L4 L5 L6]. constructor; cbn [c_e c_b c_t c_l c_ev c_pc w_e w_b w_t w_l w_ev w_pc w_buf]; auto.
      intros j. destruct (Nat.eq_dec j i) as [-> | NE]; [rewrite !fupd_eq, EP; cbn [rel]; auto | rewrite !fupd_ne by auto; apply L6].
    + destruct R as [(EB & R) | (EB & _)]; rewrite EB in *; [|destruct k; discriminate]. destruct k as [|[|k]]; try discriminate. injection EN as <-. cbn [firstn skipn app] in E'.
      rewrite <- (k_e _ _ _ L) in E'. destruct (wr (c_e c) (N.to_nat (N.land b1 (cap - 1))) d1) as [e| |] eqn:EW; try discriminate. cbn [bind] in E'. injection E' as <-.
      eapply ONE; [cbn [cstep]; rewrite R, EW; reflexivity|]. rewrite (k_b _ _ _ L), (k_l _ _ _ L), (k_t _ _ _ L), (k_ev _ _ _ L).
      destruct L as [L1 L2 L3 L4 L5 L6]. constructor; cbn [c_e c_b c_t c_l c_ev c_pc w_e w_b w_t w_l w_ev w_pc w_buf]; auto.
      intros j. destruct (Nat.eq_dec j i) as [-> | NE]; [rewrite !fupd_eq, EP; cbn [rel]; auto | rewrite !fupd_ne by auto; apply L6].
Qed.
Lemma w_timely_sim cap c w a : like cap c w -> w_not_overtaken U16 w a -> match shadow w a with [] => True | a' :: _ => not_overtaken U16 c a' end.
Proof.
  intros L T. destruct a as [i x]. pose proof (k_pc _ _ _ L i) as R. pose proof (like_n _ _ _ L) as NP. unfold w_not_overtaken in T. cbn [fst snd] in T. cbn [shadow].
  destruct x as [d | | | k].
  - exact Logic.I.
  - exact Logic.I.
  - unfold not_overtaken. destruct (w_pc w i) as [p | d1 b1]; [|exact Logic.I]. destruct p; cbn [rel] in R; try exact Logic.I; try (destruct R as (_ & R); cbn [fst snd]; rewrite R; rewrite ?NP; auto; exact Logic.I).
    destruct R as [(EB & R) | (b1 & EB & R)]; rewrite EB; cbn [fst snd]; [rewrite R; exact Logic.I|]. destruct (w_l w =? 0); [cbn [fst snd]; rewrite R; exact Logic.I | exact Logic.I].
  - destruct (nth_error (w_buf w i) k) eqn:EN; [|exact Logic.I]. unfold not_overtaken. cbn [fst snd]. destruct (w_pc w i) as [p | d1 b1]; cbn [rel] in R.
    + destruct p; try (exfalso; destruct R as (EB & _); rewrite EB in EN; destruct k; discriminate). destruct R as [(_ & ->) | (b1 & _ & ->)]; exact Logic.I.
    + destruct R as [(_ & ->) | (_ & ->)]; exact Logic.I.
Qed.
(** No step aborts or leaves the array. *)
Lemma w_total cap c w a : good_cap cap -> cinv cap c -> like cap c w -> (forall i, a <> (i, WPush 0)) -> w_not_overtaken U16 w a -> exists w', wstep cap w a = Ok w'.
Proof.
  intros HC HI L NZ T. destruct a as [i x]. pose proof (k_pc _ _ _ L i) as R. pose proof (w_timely_sim cap c w (i, x) L T) as T'. cbn [wstep]. cbn [shadow] in T'. destruct x as [d | | | k].
  - destruct (w_pc w i) as [[]|]; eauto. assert (D0 : d <> 0) by (intros ->; apply (NZ i eq_refl)). apply N.eqb_neq in D0. rewrite D0. cbn [negb assert_ bind]. eauto.
  - destruct (w_pc w i) as [[]|]; eauto.
  - destruct (w_pc w i) as [p | d1 b1] eqn:EP; [|destruct (w_buf w i); cbn [negb]; eauto]. destruct p; cbn [rel] in R; try (destruct R as (EB & R)); eauto.
    + destruct (see_b _ _ =? t); eauto.
    + destruct (cstep_inv cap c (i, Go) HC HI) as (c1 & E & _); [intros j Q; discriminate | destruct (w_buf w i); exact T'|].
      cbn [cstep] in E. rewrite R in E. rewrite <- (k_e _ _ _ L). destruct (rd (c_e c) _); try discriminate. cbn [bind]. eauto.
    + destruct (negb _); eauto. destruct (w_t w =? t); eauto.
    + destruct (w_l w =? 0); eauto.
    + destruct (negb _); eauto. destruct (w_l w =? 0); eauto.
    + destruct (used_diff b (w_t w) =? cap); eauto.
    + assert (HL : w_l w = 1).
      { rewrite <- (k_l _ _ _ L). destruct (ci_lk _ _ HI) as [(_ & F) | (LK & _)]; [|exact LK]. exfalso. specialize (F i). destruct R as [(_ & R) | (b1 & _ & R)]; rewrite R in F; discriminate. }
      rewrite HL. cbn [N.eqb]. destruct (negb _); eauto.
  - destruct (nth_error (w_buf w i) k) as [s|] eqn:EN; [|destruct (w_pc w i) as [[]|]; eauto].
    assert (G : exists w', (let buf' := fupd (w_buf w) i (firstn k (w_buf w i) ++ skipn (S k) (w_buf w i)) in
      match s with
      | SEnt j v => do e <- wr (w_e w) (N.to_nat j) v; Ok (mkwc e (w_b w) (w_t w) (w_l w) (w_pc w) buf' (w_ev w))
      | SBot b => Ok (mkwc (w_e w) b (w_t w) (w_l w) (w_pc w) buf' (w_ev w ++ [EPush i (val_of (w_pc w i))]))
      end) = Ok w').
    { cbv zeta. destruct s as [j v | b]; [|eauto].
      destruct (cstep_inv cap c (i, Go) HC HI) as (c1 & E & _); [intros j' Q; discriminate | exact T'|].
      destruct (w_pc w i) as [p | d1 b1]; cbn [rel] in R.
      + destruct p; try (exfalso; destruct R as (EB & _); rewrite EB in EN; destruct k; discriminate). destruct R as [(EB & _) | (b1 & EB & R)]; rewrite EB in EN; [destruct k; discriminate|]. destruct k as [|[|k]]; discriminate.
      + destruct R as [(EB & R) | (EB & _)]; rewrite EB in EN; [|destruct k; discriminate]. destruct k as [|[|k]]; try discriminate. injection EN as <- <-.
        cbn [cstep] in E. rewrite R in E. rewrite <- (k_e _ _ _ L). destruct (wr (c_e c) _ _); try discriminate. cbn [bind]. eauto. }
    cbv zeta in G. destruct G as (w' & G). exists w'. destruct (w_pc w i) as [[]|]; exact G.
Qed.
Lemma like_init cap : like cap (qc_init cap) (w_init cap).
Proof. constructor; cbn; auto. Qed.
Lemma shadow_no0 w a : (forall i, a <> (i, WPush 0)) -> forall i, ~ In (i, CPush 0) (shadow w a).
Proof.
  intros NZ i I. destruct a as [j x]. cbn [shadow] in I. destruct x as [d | | | k].
  - destruct I as [I | []]. injection I as -> ->. apply (NZ i eq_refl).
  - destruct I as [I | []]. discriminate.
  - destruct (w_pc w j) as [[]|]; destruct (w_buf w j); try (destruct (w_l w =? 0)); repeat (destruct I as [I | I]; try discriminate); try destruct I.
  - destruct (nth_error (w_buf w j) k); repeat (destruct I as [I | I]; try discriminate); try destruct I.
Qed.
Lemma shadow_timely cap c w a : like cap c w -> w_not_overtaken U16 w a -> timely U16 cap c (shadow w a).
Proof.
  intros L T. pose proof (w_timely_sim _ _ _ _ L T) as Q. assert (LN : (length (shadow w a) <= 1)%nat).
  { destruct a as [i x]. cbn [shadow]. destruct x as [d | | | k]; cbn; auto; [|destruct (nth_error _ _); cbn; auto]. destruct (w_pc w i) as [[]|]; destruct (w_buf w i); try (destruct (w_l w =? 0)); cbn; auto. }
  destruct (shadow w a) as [|a' [|]]; cbn in LN; [exact Logic.I | | lia]. cbn [timely]. split; [exact Q|]. destruct (cstep cap c a'); exact Logic.I.
Qed.
(** the whole run, the observer along *)
Lemma sim_watch cap c w a w' c' m : like cap c w -> like cap c' w' -> crun cap c (shadow w a) = Ok c' ->
  watched cap c m (shadow w a) = Ok (c', watch (fst a, act_of (snd a)) (place (w_pc w (fst a))) (place (w_pc w' (fst a))) m).
Proof.
  intros L L' E. destruct a as [i x]. pose proof (rel_alike _ _ _ _ (k_pc _ _ _ L i)) as A. pose proof (rel_alike _ _ _ _ (k_pc _ _ _ L' i)) as A'. cbn [fst snd].
  assert (Q : shadow w (i, x) = [] \/ exists y, shadow w (i, x) = [(i, y)] /\ (y = act_of x \/ (y = Go /\ exists k, x = Drain k))).
  { cbn [shadow]. destruct x as [d | | | k]; cbn [act_of]; eauto.
    - destruct (w_pc w i) as [[]|]; destruct (w_buf w i); try (destruct (w_l w =? 0)); eauto.
    - destruct (nth_error _ _); eauto. }
  destruct Q as [Q | (y & Q & Y)]; rewrite Q in *.
  - cbn [crun] in E. injection E as <-. cbn [watched]. rewrite (watch_none _ _ _ _ _ m A A'). reflexivity.
  - cbn [crun] in E. cbn [watched]. destruct (cstep cap c (i, y)) as [c1| |]; try discriminate. cbn [bind] in *. injection E as ->. cbn [fst].
    rewrite (watch_alike (i, y) (i, act_of x) _ _ (w_pc w i) (w_pc w' i) m); [reflexivity | reflexivity | | exact A | exact A']. left. cbn [snd]. destruct Y as [-> | (-> & k & ->)]; reflexivity.
Qed.
Lemma watched_app cap l1 : forall l2 c m, watched cap c m (l1 ++ l2) = (do x <- watched cap c m l1; watched cap (fst x) (snd x) l2).
Proof. induction l1 as [|a l IH]; intros l2 c m; cbn [watched app bind]; [reflexivity|]. destruct (cstep cap c a); cbn [bind]; auto. Qed.
Lemma sim_run cap : forall l c w m w' m', like cap c w -> w_watched cap w m l = Ok (w', m') -> exists l' c', watched cap c m l' = Ok (c', m') /\ like cap c' w'.
Proof.
  induction l as [|a l IH]; intros c w m w' m' L E; cbn [w_watched] in E; [injection E as <- <-; exists [], c; auto|].
  destruct (wstep cap w a) as [w1| |] eqn:E1; try discriminate. cbn [bind] in E. destruct (sim cap c w a w1 L E1) as (c1 & R1 & L1). pose proof (sim_watch cap c w a w1 c1 m L L1 R1) as W1.
  destruct (IH _ _ _ _ _ L1 E) as (l2 & c2 & W2 & L2). exists (shadow w a ++ l2), c2. split; [|exact L2]. rewrite watched_app, W1. exact W2.
Qed.
Lemma w_run_inv cap : good_cap cap -> forall l c w, cinv cap c -> like cap c w -> (forall i, ~ In (i, WPush 0) l) -> w_timely U16 cap w l ->
  exists w' c', wrun cap w l = Ok w' /\ cinv cap c' /\ like cap c' w'.
Proof.
  intros HC. induction l as [|a l IH]; intros c w HI L NZ T; cbn [wrun]; [eauto|]. destruct T as (T1 & T2).
  assert (NA : forall i, a <> (i, WPush 0)) by (intros i ->; apply (NZ i); now left).
  destruct (w_total cap c w a HC HI L NA T1) as (w1 & E1). rewrite E1 in *. cbn [bind]. destruct (sim cap c w a w1 L E1) as (c1 & R1 & L1).
  destruct (crun_inv cap (shadow w a) HC c HI (shadow_no0 w a NA) (shadow_timely cap c w a L T1)) as (c2 & R2 & H2). rewrite R1 in R2. injection R2 as <-.
  apply (IH c1 w1 H2 L1); [intros i I; apply (NZ i); now right | exact T2].
Qed.

(** ** Theorems *)
(** Delayed stores, any interleaving, no pop overtaken by 65536 others: no call aborts or leaves the array; what was popped is a
    prefix of what was pushed, in order; the rest, at most [cap] values, is in the ring. *)
Theorem C70_queue_fifo cap sched : good_cap cap -> (forall i, ~ In (i, WPush 0) sched) -> w_timely U16 cap (w_init cap) sched ->
  exists w rest, wrun cap (w_init cap) sched = Ok w /\ pushed (w_ev w) = popped (w_ev w) ++ rest /\ N.of_nat (length rest) <= cap /\
    forall k, (k < length rest)%nat -> nth (N.to_nat ((n_out w + N.of_nat k) mod cap)) (w_e w) 0 = nth k rest 0.
Proof.
  intros HC NZ T. destruct (w_run_inv cap HC sched _ _ (cinit_inv cap HC) (like_init cap) NZ T) as (w & c & E & HI & L).
  exists w, (skipn (length (popped (w_ev w))) (pushed (w_ev w))). split; [exact E|]. pose proof (like_n _ _ _ L) as NP. destruct HI as [I1 I2 I3 I4 I5 I6 I7 I8 I9]. rewrite <- NP, <- (k_ev _ _ _ L), <- (k_e _ _ _ L). unfold n_popped, n_pushed in *.
  split; [rewrite I6 at 1; symmetry; apply firstn_skipn|]. rewrite skipn_length. split; [clear - I5; lia|]. intros k Hk.
  rewrite I7; [|clear; lia|clear - Hk; lia].
  assert (NS : forall (A : Type) (l : list A) a b d, nth (a + b) l d = nth b (skipn a l) d).
  { clear. intros A l a. revert l. induction a as [|a IH]; intros l b d; [reflexivity|]. destruct l as [|x l]; cbn; [destruct b; reflexivity|apply IH]. }
  rewrite <- NS. f_equal. clear. lia.
Qed.
(** In every run with delayed stores, the log restricted to a thread is the answers its finished calls got, in order, and that of a
    push that is in the queue and about to return; a push never answers anything but its own value or NULL. *)
Theorem C70_queue_observed cap sched w m : w_watched cap (w_init cap) mon0 sched = Ok (w, m) -> forall i,
  map says (filter (by_thread i) (w_ev w)) = map answer_of (done_ m i) ++ w_returning (w_pc w i) (w_buf w i) /\
  forall d r, In (Push d, r) (done_ m i) -> r = 0 \/ r = d.
Proof.
  intros W i. destruct (sim_run cap sched _ _ _ _ _ (like_init cap) W) as (l' & c & WC & L).
  assert (I0 : oinv (qc_init cap) mon0) by (constructor; [intros j; reflexivity|intros j; reflexivity|intros j x []]). destruct (obs_run cap l' _ _ I0 _ _ WC) as [[A LG O] _].
  specialize (LG i). unfold log_of in LG. rewrite (k_ev _ _ _ L) in LG. split; [|intros d r X; exact (O i _ X)]. rewrite LG. f_equal.
  pose proof (k_pc _ _ _ L i) as R. destruct (w_pc w i) as [p | d1 b1]; cbn [rel] in R.
  - destruct p; try (destruct R as (EB & R); rewrite R; reflexivity). destruct R as [(EB & R) | (b1 & EB & R)]; rewrite EB, R; reflexivity.
  - destruct R as [(_ & R) | (_ & R)]; rewrite R; reflexivity.
Qed.
(** ... and what took effect stays. *)
Theorem C70_queue_log_grows cap w a w' : wstep cap w a = Ok w' -> exists evs, w_ev w' = w_ev w ++ evs /\ (length evs <= 1)%nat.
Proof.
  intros H. destruct a as [i x]. cbn [wstep] in H.
  destruct x as [d| | | k]; destruct (w_pc w i) as [[]|];
  repeat match type of H with
  | context[if ?b then _ else _] => destruct b eqn:?
  | context[match nth_error ?l ?k with _ => _ end] => destruct (nth_error l k) as [[? ?|?]|]
  | bind ?x _ = Ok _ => destruct x; cbn [bind] in H
  end; try discriminate H; injection H as <-; cbn [stay stay_ev w_ev];
  first [ exists []; rewrite app_nil_r; split; [reflexivity | cbn; lia] | eexists; split; [reflexivity | cbn; lia] ].
Qed.

(** ** Processors that reorder loads (ARM, POWER) *)
(** Nothing orders the load of the entry (queue.c:81) after that of bottom (73): on such a processor it may be carried out first.
    Here the machine of [QueueConc], and [Early]: a pop that has read top reads the entry before bottom. *)
Record rc := mkrc { r_c : qc; r_early : nat -> option N }.
Inductive ract := Plain (x : qact) | Early.
Definition rstep (cap : N) (c : rc) (a : nat * ract) : outcome rc :=
  let '(i, x) := a in
  match x, c_pc (r_c c) i with
  | Early, Pop1 t g => do v <- rd (c_e (r_c c)) (N.to_nat (N.land t (cap - 1))); Ok (mkrc (r_c c) (fupd (r_early c) i (Some v)))
  | Early, _ => Ok c
  | Plain Go, Pop2 t g => match r_early c i with
                          | Some v => Ok (mkrc (goto (r_c c) i (Pop3 t v g)) (fupd (r_early c) i None))
                          | None => do c' <- cstep cap (r_c c) (i, Go); Ok (mkrc c' (r_early c))
                          end
  | Plain Go, Pop1 t g => do c' <- cstep cap (r_c c) (i, Go); Ok (mkrc c' (if c_b (r_c c) =? t then fupd (r_early c) i None else r_early c))
  | Plain y, _ => do c' <- cstep cap (r_c c) (i, y); Ok (mkrc c' (r_early c))
  end.
Fixpoint rrun (cap : N) (c : rc) (l : list (nat * ract)) : outcome rc :=
  match l with [] => Ok c | a :: r => do c' <- rstep cap c a; rrun cap c' r end.
Definition plain (l : list (nat * qact)) : list (nat * ract) := map (fun a => (fst a, Plain (snd a))) l.
Definition early_sched : list (nat * ract) :=
  plain (rounds 256) ++ [(1%nat, Plain CPop); (1%nat, Plain Go); (1%nat, Early)] ++ plain (push_sched 3) ++ repeat (1%nat, Plain Go) 3.
Fixpoint all_eq (l : list N) (v : N) : bool := match l with [] => true | x :: r => (x =? v) && all_eq r v end.
Lemma all_eq_repeat l v : all_eq l v = true -> l = repeat v (length l).
Proof. induction l as [|x l IH]; cbn [all_eq length repeat]; [reflexivity|]. intros H. apply andb_prop in H. destruct H as (H1 & H2). apply N.eqb_eq in H1. f_equal; auto. Qed.
(** The default queue of 256: after 256 tasks went through, the next pop answers a task that was executed before, and the one that was
    pushed is lost.  Nobody is overtaken. *)
Theorem C70_loads_refuted : exists c, rrun 256 (mkrc (qc_init 256) (fun _ => None)) early_sched = Ok c /\
  pushed (c_ev (r_c c)) = repeat 2 256 ++ [3] /\ popped (c_ev (r_c c)) = repeat 2 257 /\ c_b (r_c c) = c_t (r_c c) /\ c_pc (r_c c) 1%nat = Idle 2.
Proof.
  assert (Q : match rrun 256 (mkrc (qc_init 256) (fun _ => None)) early_sched with
              | Ok c => all_eq (firstn 256 (pushed (c_ev (r_c c)))) 2 && (length (firstn 256 (pushed (c_ev (r_c c)))) =? 256)%nat && all_eq (skipn 256 (pushed (c_ev (r_c c)))) 3 && (length (skipn 256 (pushed (c_ev (r_c c)))) =? 1)%nat &&
                        all_eq (popped (c_ev (r_c c))) 2 && (length (popped (c_ev (r_c c))) =? 257)%nat && (c_b (r_c c) =? c_t (r_c c)) && match c_pc (r_c c) 1%nat with Idle r => r =? 2 | _ => false end
              | _ => false
              end = true) by (vm_compute; reflexivity).
  destruct (rrun 256 (mkrc (qc_init 256) (fun _ => None)) early_sched) as [c| |]; try discriminate. exists c. split; [reflexivity|].
  apply andb_prop in Q. destruct Q as (Q & Q8). apply andb_prop in Q. destruct Q as (Q & Q7). apply andb_prop in Q. destruct Q as (Q & Q6). apply andb_prop in Q. destruct Q as (Q & Q5).
  apply andb_prop in Q. destruct Q as (Q & Q4). apply andb_prop in Q. destruct Q as (Q & Q3). apply andb_prop in Q. destruct Q as (Q1 & Q2).
  apply all_eq_repeat in Q1, Q3, Q5. apply Nat.eqb_eq in Q2, Q4, Q6. rewrite Q2 in Q1. rewrite Q4 in Q3. rewrite Q6 in Q5.
  split; [rewrite <- (firstn_skipn 256 (pushed (c_ev (r_c c)))), Q1, Q3; reflexivity|]. split; [exact Q5|]. split; [apply N.eqb_eq; exact Q7|].
  destruct (c_pc (r_c c) 1%nat); try discriminate. f_equal. apply N.eqb_eq. exact Q8.
Qed.

(** ** A concrete case *)
(** Thread 0 pushed 7; its store to bottom waits when thread 1 pops and finds nothing; then the store reaches memory and thread 2 pops
    7 although the push has not returned. *)
Definition wcase : list (nat * wact) :=
  (0%nat, WPush 7) :: repeat (0%nat, WGo) 5 ++ [(0%nat, Drain 0); (0%nat, WGo); (0%nat, WGo)] ++ (1%nat, WPop) :: repeat (1%nat, WGo) 2 ++ [(0%nat, WGo); (0%nat, Drain 0)] ++ (2%nat, WPop) :: repeat (2%nat, WGo) 4.
Example C70_queue_case : exists w, wrun 256 (w_init 256) wcase = Ok w /\ w_ev w = [EEmpty 1; EPush 0 7; EPop 2 7] /\ w_pc w 0%nat = At (Psh6 7) /\ w_pc w 2%nat = At (Idle 7).
Proof. eexists. split; [vm_compute; reflexivity|]. split; [reflexivity|]. split; reflexivity. Qed.
Example C70_queue_case_timely : w_timely U16 256 (w_init 256) wcase.
Proof.
  assert (G : forall cap l c, (fix chk c l := match l with [] => true | a :: r => match snd a, w_pc c (fst a) with WGo, At (Pop1 _ g) | WGo, At (Pop3 _ _ g) => n_out c <? g + U16 | _, _ => true end && match wstep cap c a with Ok c' => chk c' r | _ => true end end) c l = true -> w_timely U16 cap c l).
  { intros cap l. induction l as [|a l IH]; intros c H; [exact Logic.I|]. apply andb_prop in H. destruct H as (H1 & H2). cbn [w_timely]. split.
    - unfold w_not_overtaken. destruct (snd a); try exact Logic.I. destruct (w_pc c (fst a)) as [[]|]; try exact Logic.I; apply N.ltb_lt, H1.
    - destruct (wstep cap c a); try exact Logic.I. apply IH. exact H2. }
  apply G. vm_compute. reflexivity.
Qed.
