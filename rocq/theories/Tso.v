(** Locks and tables on processors that delay stores, as x86 does (property C70).

    Code modelled
    - [src/utils/spinlock.h:32-54]  utils_spinlock_lock: the swap is a locked instruction, so the thread's delayed stores reach memory
      first; utils_spinlock_unlock: __sync_fetch_and_and is one too
    - the calls of [Locked], with their stores delayed

    A thread's stores wait in a buffer, in order; it sees its own, others see memory only.  A store reaches memory at any later
    moment, at the latest before the thread's next locked instruction or fence. *)
From Verif Require Import Base Locked Kv KvConc BitmapModel BitmapProps BitmapConc.
From Coq Require Import Lia Permutation.

(** ** The machine *)
Section Machine.
Variables (X : obj) (B : body X).
(** Memory as it would be with the stores of a buffer carried out; a store is what it does to memory. *)
Definition with_buf (b : list (St X -> St X)) (m : St X) : St X := fold_left (fun s w => w s) b m.
(** [mem]: memory; [buf i]: the stores of thread [i] that wait, oldest first; the rest as in [conf] *)
Record tconf := mkt { mem : St X; tlock : bool; tmine : list (Tok X); tths : list (pc X B); ttrace : list (mark X); buf : nat -> list (St X -> St X) }.
Notation set_buf b i x := (fupd b i x).
(** spinlock.h:32-54 and the calls; a locked instruction needs an empty buffer *)
Inductive tstep : tconf -> tconf -> Prop :=
| t_call s k H H' T h b i o : nth_error T i = Some Idle -> Permutation H (needs X o ++ H') -> tstep (mkt s k H T h b) (mkt s k H' (put T i (Spin o)) (h ++ [Call i o]) b)
| t_spin s k H T h b i o : nth_error T i = Some (Spin o) -> tstep (mkt s k H T h b) (mkt s k H (put T i (if k then Spin o else Cas o)) h b)
| t_lock s H T h b i o : nth_error T i = Some (Cas o) -> b i = [] -> tstep (mkt s false H T h b) (mkt s true H (put T i (Inside o (start B o))) h b)
| t_fail s H T h b i o : nth_error T i = Some (Cas o) -> b i = [] -> tstep (mkt s true H T h b) (mkt s true H (put T i (Spin o)) h b)
| t_load s k H T h b i o l l' : nth_error T i = Some (Inside o l) -> fin B l = None -> micro B l (with_buf (b i) s) l' (with_buf (b i) s) ->
    tstep (mkt s k H T h b) (mkt s k H (put T i (Inside o l')) h b)
| t_store s k H T h b i o l l' w : nth_error T i = Some (Inside o l) -> fin B l = None -> micro B l (with_buf (b i) s) l' (w (with_buf (b i) s)) ->
    tstep (mkt s k H T h b) (mkt s k H (put T i (Inside o l')) h (set_buf b i (b i ++ [w])))
| t_drain s k H T h b i w r : b i = w :: r -> tstep (mkt s k H T h b) (mkt (w s) k H T h (set_buf b i r))
| t_unlock s k H T h b i o l r : nth_error T i = Some (Inside o l) -> fin B l = Some r -> b i = [] -> tstep (mkt s k H T h b) (mkt s false H (put T i (Back o r)) h b)
| t_return s k H T h b i o r : nth_error T i = Some (Back o r) -> tstep (mkt s k H T h b) (mkt s k (gives X o r ++ H) (put T i Idle) (h ++ [Answer i r]) b).
Inductive treach : tconf -> Prop :=
| t_start n : treach (mkt (init X) false [] (repeat Idle n) [] (fun _ => []))
| t_step t t' : treach t -> tstep t t' -> treach t'.

(** ** Every run looks like one without delays *)
(** Only the thread inside has stores waiting; carried out, they give the memory of the run without delays. *)
Definition same (t : tconf) (s : St X) : Prop :=
  (forall i, (forall o l, nth_error (tths t) i <> Some (Inside o l)) -> buf t i = []) /\
  (forall i o l, nth_error (tths t) i = Some (Inside o l) -> s = with_buf (buf t i) (mem t)) /\
  (tlock t = false -> s = mem t).
Hypothesis SB : sound X B.
Lemma with_buf_snoc b w m : with_buf (b ++ [w]) m = w (with_buf b m).
Proof. unfold with_buf. rewrite fold_left_app. reflexivity. Qed.
Definition sc (t : tconf) (s : St X) : conf X B := mkc s (tlock t) (tmine t) (tths t) (ttrace t).
Lemma not_in (T : list (pc X B)) i p : nth_error T i = Some p -> ~ inside p -> forall o l, nth_error T i <> Some (Inside o l).
Proof. intros E NI o l Q. rewrite E in Q. injection Q as ->. apply NI. exact Logic.I. Qed.
(** a step of [i] between places outside *)
Lemma same_out s k H T h b s0 k' H' i p q h' : same (mkt s k H T h b) s0 -> nth_error T i = Some p -> ~ inside p -> ~ inside q -> k' = k -> same (mkt s k' H' (put T i q) h' b) s0.
Proof.
  intros (S1 & S2 & S3) E NP NQ ->. cbn [tths buf mem tlock] in *. split; [|split; [|exact S3]].
  - intros j NJ. apply S1. intros o l EJ. destruct (Nat.eq_dec j i) as [-> | NE]; [apply (not_in _ _ _ E NP _ _ EJ)|]. apply (NJ o l). cbn [tths]. rewrite nth_error_upd_ne by auto. exact EJ.
  - intros j o l EJ. apply put_at in EJ. destruct EJ as [(-> & <-) | (_ & EJ)]; [exfalso; apply NQ; exact Logic.I | apply (S2 _ _ _ EJ)].
Qed.
Lemma same_step t s t' : reach B (sc t s) -> same t s -> tstep t t' -> exists s', same t' s' /\ (sc t' s' = sc t s \/ step B (sc t s) (sc t' s')).
Proof.
  intros R SM ST. destruct ST as [s1 k H H' T h b i o E P | s1 k H T h b i o E | s1 H T h b i o E EB | s1 H T h b i o E EB | s1 k H T h b i o l l' E EF M | s1 k H T h b i o l l' w E EF M | s1 k H T h b i w r EB | s1 k H T h b i o l r E EF EB | s1 k H T h b i o r E].
  - exists s. split; [apply (same_out _ _ _ _ _ _ _ _ _ _ _ _ _ SM E); auto|]. right. apply s_call; assumption.
  - exists s. split; [apply (same_out _ _ _ _ _ _ _ _ _ _ _ _ _ SM E); auto; destruct k; auto|]. right. apply s_spin. exact E.
  - exists s. destruct SM as (S1 & S2 & S3). cbn [tths buf mem tlock] in *. specialize (S3 eq_refl). subst s1. split.
    + split; [|split; [|discriminate]]; cbn [tths buf mem].
      * intros j NJ. destruct (Nat.eq_dec j i) as [-> | NE]; [exact EB|]. apply S1. intros o' l' EJ. apply (NJ o' l'). cbn [tths]. rewrite nth_error_upd_ne by auto. exact EJ.
      * intros j o' l' EJ. apply put_at in EJ. destruct EJ as [(-> & _) | (_ & EJ)]; [rewrite EB; reflexivity | apply (S2 _ _ _ EJ)].
    + right. apply s_lock. exact E.
  - exists s. split; [apply (same_out _ _ _ _ _ _ _ _ _ _ _ _ _ SM E); auto|]. right. apply s_fail. exact E.
  - exists s. destruct SM as (S1 & S2 & S3). cbn [tths buf mem tlock] in *. pose proof (S2 _ _ _ E) as EV. split.
    + split; [|split; [|exact S3]]; cbn [tths buf mem].
      * intros j NJ. destruct (Nat.eq_dec j i) as [-> | NE]; [exfalso; apply (NJ o l'); apply (put_same _ _ _ _ E)|]. apply S1. intros o2 l2 EJ. apply (NJ o2 l2). cbn [tths]. rewrite nth_error_upd_ne by auto. exact EJ.
      * intros j o2 l2 EJ. apply put_at in EJ. destruct EJ as [(-> & _) | (_ & EJ)]; [exact EV | apply (S2 _ _ _ EJ)].
    + right. rewrite <- EV in M. apply (s_micro B s k H T h i o l s l' E EF M).
  - pose proof (proj1 (proj2 SM) _ _ _ E) as EV. cbn [buf mem] in EV. exists (w s).
    destruct (C69_locked_one _ _ SB _ i i o l o l R E E) as (_ & LK). cbn [sc lock tlock] in LK. subst k.
    assert (U : forall j o2 l2, nth_error T j = Some (Inside o2 l2) -> j = i) by (intros j o2 l2 EJ; destruct (C69_locked_one _ _ SB _ j i _ _ _ _ R EJ E) as (-> & _); reflexivity).
    destruct SM as (S1 & S2 & S3). cbn [tths buf mem tlock] in *. split.
    + split; [|split; [|discriminate]]; cbn [tths buf mem].
      * intros j NJ. destruct (Nat.eq_dec j i) as [-> | NE]; [exfalso; apply (NJ o l'); apply (put_same _ _ _ _ E)|]. rewrite fupd_ne by auto. apply S1. intros o2 l2 EJ. apply NE, (U _ _ _ EJ).
      * intros j o2 l2 EJ. apply put_at in EJ. destruct EJ as [(-> & _) | (NE & EJ)]; [|exfalso; apply NE, (U _ _ _ EJ)]. rewrite fupd_eq, with_buf_snoc, <- EV. reflexivity.
    + right. rewrite <- EV in M. apply (s_micro B s true H T h i o l (w s) l' E EF M).
  - exists s. destruct SM as (S1 & S2 & S3). cbn [tths buf mem tlock] in *. split; [|left; reflexivity].
    assert (IN : exists o l, nth_error T i = Some (Inside o l)).
    { destruct (nth_error T i) as [p|] eqn:E.
      - destruct p as [| o | o | o l | o r1]; eauto; exfalso; (assert (Q : b i = []) by (apply S1; intros o' l'; rewrite E; discriminate)); rewrite Q in EB; discriminate.
      - exfalso. assert (Q : b i = []) by (apply S1; intros o l; rewrite E; discriminate). rewrite Q in EB. discriminate. }
    destruct IN as (o & l & E). destruct (C69_locked_one _ _ SB _ i i o l o l R E E) as (_ & LK). cbn [sc lock tlock] in LK.
    split; [|split; [|cbn [tlock]; congruence]]; cbn [tths buf mem].
    + intros j NJ. destruct (Nat.eq_dec j i) as [-> | NE]; [exfalso; apply (NJ o l E)|]. rewrite fupd_ne by auto. apply S1. exact NJ.
    + intros j o2 l2 EJ. destruct (C69_locked_one _ _ SB _ j i _ _ _ _ R EJ E) as (-> & _). rewrite fupd_eq. rewrite (S2 _ _ _ E), EB. reflexivity.
  - exists s. pose proof (proj1 (proj2 SM) _ _ _ E) as EV. cbn [buf mem] in EV. rewrite EB in EV. cbn in EV.
    assert (U : forall j o2 l2, nth_error T j = Some (Inside o2 l2) -> j = i) by (intros j o2 l2 EJ; destruct (C69_locked_one _ _ SB _ j i _ _ _ _ R EJ E) as (-> & _); reflexivity).
    destruct SM as (S1 & S2 & S3). cbn [tths buf mem tlock] in *. split.
    + split; [|split; [|intros _; exact EV]]; cbn [tths buf mem].
      * intros j NJ. destruct (Nat.eq_dec j i) as [-> | NE]; [exact EB|]. apply S1. intros o2 l2 EJ. apply NE, (U _ _ _ EJ).
      * intros j o2 l2 EJ. apply put_at in EJ. destruct EJ as [(_ & Q) | (NE & EJ)]; [discriminate | exfalso; apply NE, (U _ _ _ EJ)].
    + right. apply (s_unlock B s k H T h i o l r E EF).
  - exists s. split; [apply (same_out _ _ _ _ _ _ _ _ _ _ _ _ _ SM E); auto|]. right. apply s_return. exact E.
Qed.
Lemma treach_same t : treach t -> exists s, reach B (sc t s) /\ same t s.
Proof.
  induction 1 as [n | t t' H (s & R & SM) ST].
  - exists (init X). split; [apply r_start|]. split; [reflexivity|]. split; [|reflexivity]. intros i o l _. reflexivity.
  - destruct (same_step t s t' R SM ST) as (s' & SM' & [E | S1]); exists s'; (split; [|exact SM']); [rewrite E; exact R | apply (r_step B _ _ R S1)].
Qed.

(** ** Theorems *)
(** Whatever stores are delayed, what is seen is what is seen of calls that take effect one at a time. *)
Theorem C70_locked_linearizable t : treach t -> linearizable X (ttrace t).
Proof. intros R. destruct (treach_same t R) as (s & RS & _). apply (C69_locked_linearizable _ _ SB _ RS). Qed.
(** One thread is inside at a time, and only it has stores waiting. *)
Theorem C70_locked_one t i j o l o' l' : treach t -> nth_error (tths t) i = Some (Inside o l) -> nth_error (tths t) j = Some (Inside o' l') -> i = j /\ tlock t = true.
Proof. intros R. destruct (treach_same t R) as (s & RS & _). apply (C69_locked_one _ _ SB _ i j o l o' l' RS). Qed.
Theorem C70_locked_buffers t i : treach t -> buf t i <> [] -> exists o l, nth_error (tths t) i = Some (Inside o l).
Proof.
  intros R NB. destruct (treach_same t R) as (s & RS & S1 & _). destruct (nth_error (tths t) i) as [p|] eqn:E.
  - destruct p as [| o | o | o l | o r]; eauto; exfalso; apply NB, S1; intros o' l'; rewrite E; discriminate.
  - exfalso. apply NB, S1. intros o l. rewrite E. discriminate.
Qed.
(** The run with its delays and a run without: the same threads, lock, answers; memory, with the stores that wait carried out, is that
    of the run without. *)
Theorem C70_locked_same t : treach t -> exists s, reach B (mkc s (tlock t) (tmine t) (tths t) (ttrace t)) /\
  (tlock t = false -> s = mem t) /\ forall i o l, nth_error (tths t) i = Some (Inside o l) -> s = with_buf (buf t i) (mem t).
Proof. intros R. destruct (treach_same t R) as (s & RS & S1 & S2 & S3). exists s. split; [exact RS | split; [exact S3 | exact S2]]. Qed.
End Machine.
Arguments mem {X B}. Arguments tlock {X B}. Arguments tmine {X B}. Arguments tths {X B}. Arguments ttrace {X B}. Arguments buf {X B}. Arguments mkt {X B}.

(** The key/value store and the page bitmap, stores delayed. *)
Theorem C70_kv cap t : treach (kobj cap) (kbody cap) t -> exists g, filter seen g = ttrace t /\ (forall i, exists st, follows i g st) /\ map_answers cap (taken g).
Proof. intros R. destruct (C70_locked_same _ _ (C69_kv_steps cap) t R) as (s & RS & _). apply (C69_kv_map cap _ RS). Qed.
Theorem C70_pages size t : (size < 2 ^ 63)%N -> treach (pobj size) (pbody size) t ->
  let live := tmine t ++ flat_map pend (tths t) in
  linearizable (pobj size) (ttrace t) /\ pairwise_disjoint live /\
  (tlock t = false -> (forall p, page_marked (mem t) p <-> exists r, In r live /\ page_in r p) /\ bitmap_used (mem t) = pages live).
Proof.
  intros SZ R live. destruct (C70_locked_same _ _ (C69_pages_steps size) t R) as (s & RS & S3 & _). split; [apply (C70_locked_linearizable _ _ (C69_pages_steps size) t R)|].
  split; [apply (proj1 (C69_pages_disjoint size _ SZ RS))|]. intros LK. rewrite <- (S3 LK). destruct (C69_pages_exact size _ SZ RS LK) as (P1 & P2 & _). split; [exact P1 | exact P2].
Qed.

(** ** A concrete case *)
(** A thread that sets key 5 to 50 has stored the key and the value; memory has neither yet. *)
Definition w1 (s : kv) : kv := mkkv (upd (kv_arr s) (kv_pairs s) (5%N, snd (nth (kv_pairs s) (kv_arr s) (0%N, 0%N)))) (kv_pairs s).
Definition w2 (s : kv) : kv := mkkv (upd (kv_arr s) (kv_pairs s) (fst (nth (kv_pairs s) (kv_arr s) (0%N, 0%N)), 50%N)) (kv_pairs s).
Example C70_kv_case : exists t, treach (kobj 2) (kbody 2) t /\ mem t = kv_init 2 /\ buf t 0%nat = [w1; w2] /\ with_buf (kobj 2) (buf t 0%nat) (mem t) = mkkv [(5%N, 50%N); (0%N, 0%N)] 0 /\
  tlock t = true /\ nth_error (tths t) 0 = Some (@Inside (kobj 2) (kbody 2) (Set_ 5 50) IncP).
Proof.
  eexists. split.
  - eapply t_step; [eapply t_step; [eapply t_step; [eapply t_step; [eapply t_step; [eapply t_step; [eapply t_step; [apply (t_start (kobj 2) (kbody 2) 1)|]|]|]|]|]|]|].
    + eapply (t_call (kobj 2) (kbody 2)) with (i := 0%nat) (o := Set_ 5 50); [reflexivity | apply Permutation_refl].
    + eapply (t_spin (kobj 2) (kbody 2)) with (i := 0%nat). reflexivity.
    + eapply (t_lock (kobj 2) (kbody 2)) with (i := 0%nat); reflexivity.
    + eapply (t_load (kobj 2) (kbody 2)) with (i := 0%nat); [reflexivity | reflexivity |]. reflexivity.
    + eapply (t_load (kobj 2) (kbody 2)) with (i := 0%nat); [reflexivity | reflexivity |]. reflexivity.
    + eapply (t_store (kobj 2) (kbody 2)) with (i := 0%nat) (w := w1); [reflexivity | reflexivity |]. reflexivity.
    + eapply (t_store (kobj 2) (kbody 2)) with (i := 0%nat) (w := w2); [reflexivity | reflexivity |]. reflexivity.
  - cbn [mem buf tlock tths]. split; [reflexivity|]. split; [reflexivity|]. split; [reflexivity|]. split; reflexivity.
Qed.
