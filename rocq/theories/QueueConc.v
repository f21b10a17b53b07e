(** Concurrent model of src/utils/queue.c (UTILS_QUEUE_MPMC, the default) at the granularity of
    single shared-memory accesses, any number of threads, and property C08.
    Simplification: sequentially consistent memory ([QueueTso] has delayed stores and reordered loads, C70). *)
From Verif Require Import Base QueueModel QueueProps.
Local Open Scope N_scope.
Ltac Zify.zify_post_hook ::= Z.div_mod_to_equations.
Arguments N.add : simpl never.
Arguments N.sub : simpl never.
Arguments N.mul : simpl never.
Arguments N.div : simpl never.
Arguments N.modulo : simpl never.
Arguments N.pow : simpl never.

(** Program counters.  [g] is ghost: how many pops had succeeded when this call read [top]. *)
Inductive qpc :=
| Idle (ret : N)                 (* not in a call; last returned value *)
| Pop0                           (* about to read top,    queue.c:72 *)
| Pop1 (t g : N)                 (* about to read bottom, queue.c:73, then the empty test 76 *)
| Pop2 (t g : N)                 (* about to read entries[t & mask], queue.c:80-81 *)
| Pop3 (t v g : N)               (* about to compare-and-swap top, queue.c:82 *)
| Psh0 (d : N)                   (* spinning on the lock word, queue.c:97 / spinlock.h:36 *)
| Psh1 (d : N)                   (* about to compare-and-swap the lock, spinlock.h:38 *)
| Psh2 (d : N)                   (* about to read bottom, queue.c:99 *)
| Psh3 (d b : N)                 (* about to read top, queue.c:100, then the full test 102-111 *)
| Psh4 (d b : N)                 (* about to write the entry, queue.c:113-114 *)
| Psh5 (d b : N)                 (* about to write bottom, queue.c:116 *)
| Psh6 (r : N).                  (* about to unlock and return r, queue.c:121-123 *)

(** Ghost events, in commit order. *)
(** Ghost, no code of its own. *)
Inductive qev :=
| EPush (i : nat) (v : N)        (* bottom advanced over v: the push will return v *)
| EFull (i : nat)                (* the push found no space: will return NULL *)
| EPop (i : nat) (v : N)         (* the CAS succeeded: the pop returns v *)
| EEmpty (i : nat)               (* the pop saw bottom = top: returns NULL *)
| ELost (i : nat).               (* the pop lost the CAS: returns NULL *)

(** src/utils/queue.h:15-28 and the threads. *)
Record qc := mkqc {
  c_e : list N; c_b : N; c_t : N; c_l : N; c_pc : nat -> qpc; c_ev : list qev }.

Definition pushed (l : list qev) : list N :=
  flat_map (fun e => match e with EPush _ v => [v] | _ => [] end) l.
Definition popped (l : list qev) : list N :=
  flat_map (fun e => match e with EPop _ v => [v] | _ => [] end) l.
Definition n_popped (c : qc) : N := N.of_nat (length (popped (c_ev c))).
Definition n_pushed (c : qc) : N := N.of_nat (length (pushed (c_ev c))).

(** src/utils/queue.c:39-49. *)
Definition qc_init (cap : N) : qc := mkqc (repeat 0 (N.to_nat cap)) 0 0 0 (fun _ => Idle 0) [].

(** Calls of src/utils/queue.c:63-142 and steps inside them. *)
Inductive qact := CPush (d : N) | CPop | Go.

(** A private step, no code of its own. *)
Definition goto (c : qc) (i : nat) (p : qpc) : qc :=
  mkqc (c_e c) (c_b c) (c_t c) (c_l c) (fupd (c_pc c) i p) (c_ev c).
(** A step with its ghost event, no code of its own. *)
Definition goto_ev (c : qc) (i : nat) (p : qpc) (e : qev) : qc :=
  mkqc (c_e c) (c_b c) (c_t c) (c_l c) (fupd (c_pc c) i p) (c_ev c ++ [e]).

(** One scheduler choice: thread [i] starts a call (if idle) or performs its next access. *)
Definition cstep (cap : N) (c : qc) (a : nat * qact) : outcome qc :=
  let '(i, act) := a in
  match act, c_pc c i with
  | CPush d, Idle _ => do _ <- assert_ (negb (d =? 0)); Ok (goto c i (Psh0 d))   (* queue.c:94 *)
  | CPop, Idle _ => Ok (goto c i Pop0)
  | Go, Pop0 => Ok (goto c i (Pop1 (c_t c) (n_popped c)))
  | Go, Pop1 t g => if c_b c =? t then Ok (goto_ev c i (Idle 0) (EEmpty i)) else Ok (goto c i (Pop2 t g))
  | Go, Pop2 t g => do v <- rd (c_e c) (N.to_nat (N.land t (cap - 1))); Ok (goto c i (Pop3 t v g))
  | Go, Pop3 t v g =>
    if c_t c =? t
    then Ok (mkqc (c_e c) (c_b c) ((t + 1) mod U16) (c_l c) (fupd (c_pc c) i (Idle v)) (c_ev c ++ [EPop i v]))
    else Ok (goto_ev c i (Idle 0) (ELost i))
  | Go, Psh0 d => if c_l c =? 0 then Ok (goto c i (Psh1 d)) else Ok c
  | Go, Psh1 d =>
    if c_l c =? 0 then Ok (mkqc (c_e c) (c_b c) (c_t c) 1 (fupd (c_pc c) i (Psh2 d)) (c_ev c))
    else Ok (goto c i (Psh0 d))
  | Go, Psh2 d => Ok (goto c i (Psh3 d (c_b c)))
  | Go, Psh3 d b =>
    if used_diff b (c_t c) =? cap then Ok (goto_ev c i (Psh6 0) (EFull i)) else Ok (goto c i (Psh4 d b))
  | Go, Psh4 d b =>
    do e <- wr (c_e c) (N.to_nat (N.land b (cap - 1))) d;
    Ok (mkqc e (c_b c) (c_t c) (c_l c) (fupd (c_pc c) i (Psh5 d b)) (c_ev c))
  | Go, Psh5 d b =>
    Ok (mkqc (c_e c) ((b + 1) mod U16) (c_t c) (c_l c) (fupd (c_pc c) i (Psh6 d)) (c_ev c ++ [EPush i d]))
  | Go, Psh6 r =>
    if c_l c =? 0 then Abort
    else Ok (mkqc (c_e c) (c_b c) (c_t c) 0 (fupd (c_pc c) i (Idle r)) (c_ev c))
  | _, _ => Ok c
  end.

(** Any interleaving, no code of its own. *)
Fixpoint crun (cap : N) (c : qc) (l : list (nat * qact)) : outcome qc :=
  match l with [] => Ok c | a :: r => do c' <- cstep cap c a; crun cap c' r end.

(** Executions in which no pop call in progress is overtaken by [D] or more successful pops. *)
Definition not_overtaken (D : N) (c : qc) (a : nat * qact) : Prop :=
  match snd a, c_pc c (fst a) with
  | Go, Pop1 _ g => n_popped c < g + D
  | Go, Pop3 _ _ g => n_popped c < g + D
  | _, _ => True
  end.
Fixpoint timely (D cap : N) (c : qc) (l : list (nat * qact)) : Prop :=
  match l with
  | [] => True
  | a :: r => not_overtaken D c a /\
    match cstep cap c a with Ok c' => timely D cap c' r | _ => True end
  end.

(** ** Invariant *)
Definition holds (p : qpc) : bool :=
  match p with Psh2 _ | Psh3 _ _ | Psh4 _ _ | Psh5 _ _ | Psh6 _ => true | _ => false end.

Definition thread_ok (cap : N) (c : qc) (p : qpc) : Prop :=
  let P := n_popped c in
  let B := n_pushed c in
  match p with
  | Pop1 t g => t = g mod U16 /\ g <= P
  | Pop2 t g => t = g mod U16 /\ g <= P /\ g < B
  | Pop3 t v g => t = g mod U16 /\ g <= P /\ g < B /\ (P = g -> v = nth (N.to_nat g) (pushed (c_ev c)) 0)
  | Psh0 d | Psh1 d | Psh2 d => d <> 0
  | Psh3 d b => d <> 0 /\ b = B mod U16
  | Psh4 d b => d <> 0 /\ b = B mod U16 /\ B < P + cap
  | Psh5 d b => d <> 0 /\ b = B mod U16 /\ B < P + cap /\ nth (N.to_nat (B mod cap)) (c_e c) 0 = d
  | _ => True
  end.

Record cinv (cap : N) (c : qc) : Prop := {
  ci_len : length (c_e c) = N.to_nat cap;
  ci_t   : c_t c = n_popped c mod U16;
  ci_b   : c_b c = n_pushed c mod U16;
  ci_le  : n_popped c <= n_pushed c;
  ci_cap : n_pushed c <= n_popped c + cap;
  ci_pre : popped (c_ev c) = firstn (length (popped (c_ev c))) (pushed (c_ev c));
  ci_ent : forall k, n_popped c <= k -> k < n_pushed c ->
             nth (N.to_nat (k mod cap)) (c_e c) 0 = nth (N.to_nat k) (pushed (c_ev c)) 0;
  ci_lk  : (c_l c = 0 /\ forall i, holds (c_pc c i) = false) \/
           (c_l c = 1 /\ exists o, holds (c_pc c o) = true /\ forall j, holds (c_pc c j) = true -> j = o);
  ci_th  : forall i, thread_ok cap c (c_pc c i)
}.

Lemma pushed_app l e : pushed (l ++ [e]) = pushed l ++ (match e with EPush _ v => [v] | _ => [] end).
Proof. unfold pushed. rewrite flat_map_app. cbn. now rewrite app_nil_r. Qed.
Lemma popped_app l e : popped (l ++ [e]) = popped l ++ (match e with EPop _ v => [v] | _ => [] end).
Proof. unfold popped. rewrite flat_map_app. cbn. now rewrite app_nil_r. Qed.

(** a step that leaves memory and ghost counts alone *)
Lemma quiet_inv cap c i p e :
  cinv cap c -> (match e with EPush _ _ | EPop _ _ => False | _ => True end) ->
  holds p = holds (c_pc c i) -> thread_ok cap c p ->
  cinv cap (goto c i p) /\ cinv cap (goto_ev c i p e).
Proof.
  intros HI He Hh Hp. destruct HI as [I1 I2 I3 I4 I5 I6 I7 I8 I9].
  assert (PE : pushed (c_ev c ++ [e]) = pushed (c_ev c)).
  { rewrite pushed_app. destruct e; try contradiction; apply app_nil_r. }
  assert (PO : popped (c_ev c ++ [e]) = popped (c_ev c)).
  { rewrite popped_app. destruct e; try contradiction; apply app_nil_r. }
  assert (LK : (c_l c = 0 /\ (forall j, holds (fupd (c_pc c) i p j) = false)) \/
               (c_l c = 1 /\ exists o, holds (fupd (c_pc c) i p o) = true /\
                  forall j, holds (fupd (c_pc c) i p j) = true -> j = o)).
  { assert (E : forall j, holds (fupd (c_pc c) i p j) = holds (c_pc c j)).
    { intros j. unfold fupd. destruct (Nat.eqb_spec j i); subst; auto. }
    destruct I8 as [(Q1 & Q2)|(Q1 & o & Q2 & Q3)]; [left|right]; split; auto.
    - intros j. now rewrite E.
    - exists o. split; [now rewrite E|]. intros j. rewrite E. auto. }
  split; constructor; unfold n_popped, n_pushed in *; cbn [goto goto_ev c_e c_b c_t c_l c_pc c_ev]; rewrite ?PE, ?PO; auto.
  - intros j. unfold fupd. destruct (Nat.eqb_spec j i); subst; [exact Hp|apply I9].
  - intros j. unfold thread_ok, n_popped, n_pushed in *. cbn [goto goto_ev c_e c_ev]. rewrite PE, PO.
    unfold fupd. destruct (Nat.eqb_spec j i); subst; [exact Hp|apply I9].
Qed.

Lemma firstn_snoc {A} (l : list A) n d : (n < length l)%nat -> firstn (S n) l = firstn n l ++ [nth n l d].
Proof.
  revert n; induction l as [|x l IH]; intros [|n] H; cbn in *; try lia; auto.
  f_equal. apply IH. lia.
Qed.

Lemma cstep_inv cap c a : good_cap cap -> cinv cap c -> (forall i, a <> (i, CPush 0)) ->
  not_overtaken U16 c a ->
  exists c', cstep cap c a = Ok c' /\ cinv cap c'.
Proof.
  intros HC HI Ha HT. destruct a as [i act]. pose proof HI as [I1 I2 I3 I4 I5 I6 I7 I8 I9].
  destruct (good_cap_facts cap HC) as (C1 & C2 & m & C3 & C4).
  assert (Hlt : forall x, (N.to_nat (x mod cap) < length (c_e c))%nat).
  { intros x. rewrite I1. pose proof (N.mod_lt x cap ltac:(clear - C1; lia)) as M. clear - M. lia. }
  pose proof (I9 i) as Hi. unfold cstep, not_overtaken in *. cbn [fst snd] in *.
  assert (Q : forall p, holds p = holds (c_pc c i) -> thread_ok cap c p -> cinv cap (goto c i p)).
  { intros p H1 H2. apply (quiet_inv cap c i p (EFull i)); auto. }
  destruct act as [d| |].
  - (* call push *) destruct (c_pc c i) eqn:P; try (exists c; auto; fail).
    assert (d <> 0) by (intros ->; apply (Ha i); auto).
    apply N.eqb_neq in H. rewrite H. cbn [negb assert_ bind]. eexists; split; [reflexivity|].
    apply Q; auto. cbn. now apply N.eqb_neq.
  - destruct (c_pc c i) eqn:P; try (exists c; auto; fail).
    eexists; split; [reflexivity|]. apply Q; auto.
  - destruct (c_pc c i) as [r| |t g|t g|t v g|d|d|d|d b|d b|d b|r] eqn:P.
    + exists c; auto.
    + eexists; split; [reflexivity|]. apply Q; auto. cbn. split; auto. apply N.le_refl.
    + cbn in Hi. destruct Hi as (Ht & Hg). destruct (N.eqb_spec (c_b c) t) as [E|E].
      * eexists; split; [reflexivity|].
        apply (quiet_inv cap c i (Idle 0) (EEmpty i)); auto; try exact I; rewrite P; reflexivity.
      * eexists; split; [reflexivity|]. apply Q; auto. cbn. repeat split; auto.
        rewrite I3, Ht in E. assert (g <> n_pushed c) by congruence.
        clear - H Hg I4. lia.
    + cbn in Hi. destruct Hi as (Ht & Hg & Hb).
      rewrite land_cap, Ht, mod_mod_cap by assumption. rewrite (rd_ok _ _ 0) by apply Hlt. cbn [bind].
      eexists; split; [reflexivity|]. rewrite <- Ht. apply Q; auto. cbn. repeat split; auto.
      intros Ep. apply I7; auto. rewrite Ep. apply N.le_refl.
    + cbn in Hi. destruct Hi as (Ht & Hg & Hb & Hv). destruct (N.eqb_spec (c_t c) t) as [E|E].
      * eexists; split; [reflexivity|].
        assert (Eg : n_popped c = g).
        { rewrite I2, Ht in E. clear - E Hg HT. unfold U16 in *. lia. }
        assert (Hv' := Hv Eg).
        set (L := pushed (c_ev c)) in *.
        assert (LenP : (length (popped (c_ev c)) < length L)%nat).
        { unfold n_pushed, n_popped in *. fold L in Hb. clear - Hb Eg. lia. }
        assert (NP : forall pc', n_popped (mkqc (c_e c) (c_b c) ((t + 1) mod U16) (c_l c) pc' (c_ev c ++ [EPop i v])) = n_popped c + 1).
        { intros pc'. unfold n_popped. cbn [c_ev]. rewrite popped_app, app_length. cbn [length]. clear; lia. }
        assert (NB : forall pc', n_pushed (mkqc (c_e c) (c_b c) ((t + 1) mod U16) (c_l c) pc' (c_ev c ++ [EPop i v])) = n_pushed c).
        { intros pc'. unfold n_pushed. cbn [c_ev]. rewrite pushed_app, app_nil_r. reflexivity. }
        constructor; rewrite ?NP, ?NB; cbn [c_e c_b c_t c_l c_pc c_ev]; auto.
        -- rewrite Ht, <- Eg. clear. unfold U16. lia.
        -- rewrite Eg. clear - Hb. lia.
        -- clear - I5. lia.
        -- rewrite popped_app, pushed_app, app_nil_r, app_length. cbn [length].
           rewrite Nat.add_1_r. fold L. rewrite (firstn_snoc L _ 0) by assumption.
           rewrite <- I6. f_equal. f_equal. rewrite Hv'. f_equal.
           unfold n_popped in Eg. clear - Eg. lia.
        -- intros k K1 K2. rewrite pushed_app, app_nil_r. fold L. apply I7; auto. clear - K1. lia.
        -- destruct I8 as [(Q1 & Q2)|(Q1 & o & Q2 & Q3)]; [left|right]; split; auto.
           ++ intros j. unfold fupd. destruct (Nat.eqb_spec j i); auto.
           ++ exists o. assert (o <> i) by (intros ->; rewrite P in Q2; discriminate).
              split; [now rewrite fupd_ne|]. intros j. unfold fupd. destruct (Nat.eqb_spec j i); auto. discriminate.
        -- intros j. unfold fupd. destruct (Nat.eqb_spec j i); [exact I|].
           pose proof (I9 j) as Hj. unfold thread_ok in *. rewrite NP, NB. cbn [c_e c_ev].
           rewrite pushed_app, app_nil_r. fold L. clearbody L.
           destruct (c_pc c j); auto; repeat match goal with h : _ /\ _ |- _ => destruct h end; repeat split; auto;
             try (clear - H0; lia); try (clear - H1; lia).
      * eexists; split; [reflexivity|].
        apply (quiet_inv cap c i (Idle 0) (ELost i)); auto; try exact I; rewrite P; reflexivity.
    + destruct (N.eqb_spec (c_l c) 0); [|exists c; auto].
      eexists; split; [reflexivity|]. apply Q; auto.
    + destruct (N.eqb_spec (c_l c) 0) as [E|E].
      2:{ eexists; split; [reflexivity|]. apply Q; auto. }
      eexists; split; [reflexivity|].
      assert (X : forall pc', n_popped (mkqc (c_e c) (c_b c) (c_t c) 1 pc' (c_ev c)) = n_popped c /\
                  n_pushed (mkqc (c_e c) (c_b c) (c_t c) 1 pc' (c_ev c)) = n_pushed c) by (split; reflexivity).
      constructor; cbn [c_e c_b c_t c_l c_pc c_ev]; auto.
      * right. split; auto. exists i. split; [now rewrite fupd_eq|].
        intros j. unfold fupd. destruct (Nat.eqb_spec j i); auto. intros Hj.
        destruct I8 as [(Q1 & Q2)|(Q1 & _)]; [rewrite Q2 in Hj; discriminate|congruence].
      * intros j. unfold fupd. destruct (Nat.eqb_spec j i); [exact Hi|exact (I9 j)].
    + eexists; split; [reflexivity|]. apply Q; auto. cbn. cbn in Hi. auto.
    + cbn in Hi. destruct Hi as (Hd & Hb). destruct (N.eqb_spec (used_diff b (c_t c)) cap) as [E|E].
      * eexists; split; [reflexivity|].
        apply (quiet_inv cap c i (Psh6 0) (EFull i)); auto; try exact I; rewrite P; reflexivity. 
      * eexists; split; [reflexivity|]. apply Q; auto. cbn. repeat split; auto.
        assert (D : used_diff b (c_t c) = n_pushed c - n_popped c).
        { rewrite Hb, I2. replace (n_pushed c) with (n_popped c + (n_pushed c - n_popped c)) at 1 by (clear - I4; lia).
          apply used_diff_ok. clear - I5 C2. unfold U16 in *. lia. }
        rewrite D in E. clear - E I4 I5. lia.
    + cbn in Hi. destruct Hi as (Hd & Hb & Hr).
      rewrite land_cap, Hb, mod_mod_cap by assumption. rewrite wr_ok by apply Hlt. cbn [bind].
      eexists; split; [reflexivity|].
      constructor; cbn [c_e c_b c_t c_l c_pc c_ev]; auto.
      * now rewrite upd_length.
      * intros k K1 K2. unfold n_popped, n_pushed in K1, K2. cbn [c_ev] in K1, K2.
        fold (n_popped c) in K1. fold (n_pushed c) in K2.
        rewrite nth_upd_ne; [apply I7; auto|].
        intros X. apply N2Nat.inj in X. symmetry in X. apply mod_inj_window in X; auto.
        -- clear - X K2. lia.
        -- clear - K2. lia.
        -- clear - K1 Hr. lia.
      * destruct I8 as [(Q1 & Q2)|(Q1 & o & Q2 & Q3)].
        { exfalso. specialize (Q2 i). rewrite P in Q2. discriminate. }
        right. split; auto. assert (i = o) by (apply Q3; now rewrite P). subst o. exists i.
        split; [now rewrite fupd_eq|]. intros j. unfold fupd. destruct (Nat.eqb_spec j i); auto.
      * intros j. unfold fupd. destruct (Nat.eqb_spec j i).
        -- subst j. cbn. unfold n_pushed, n_popped; cbn [c_ev]. fold (n_pushed c). fold (n_popped c).
           repeat split; auto. apply nth_upd_eq. apply Hlt.
        -- pose proof (I9 j) as Hj. unfold thread_ok in *. unfold n_pushed, n_popped in *; cbn [c_ev c_e] in *.
           destruct (c_pc c j) eqn:Pj; auto.
           exfalso. destruct I8 as [(Q1 & Q2)|(Q1 & o & Q2 & Q3)].
           { specialize (Q2 i). rewrite P in Q2. discriminate. }
           apply n. rewrite (Q3 j), (Q3 i); auto; [now rewrite P|now rewrite Pj].
    + cbn in Hi. destruct Hi as (Hd & Hb & Hr & He). eexists; split; [reflexivity|].
      set (L := pushed (c_ev c)) in *.
      assert (NP : forall pc', n_popped (mkqc (c_e c) ((b + 1) mod U16) (c_t c) (c_l c) pc' (c_ev c ++ [EPush i d])) = n_popped c).
      { intros pc'. unfold n_popped. cbn [c_ev]. rewrite popped_app, app_nil_r. reflexivity. }
      assert (NB : forall pc', n_pushed (mkqc (c_e c) ((b + 1) mod U16) (c_t c) (c_l c) pc' (c_ev c ++ [EPush i d])) = n_pushed c + 1).
      { intros pc'. unfold n_pushed. cbn [c_ev]. rewrite pushed_app, app_length. cbn [length]. clear; lia. }
      constructor; rewrite ?NP, ?NB; cbn [c_e c_b c_t c_l c_pc c_ev]; auto.
      * rewrite Hb. clear. unfold U16. lia.
      * clear - I4. lia.
      * clear - Hr. lia.
      * rewrite popped_app, pushed_app, app_nil_r. fold L. rewrite firstn_app.
        replace (length (popped (c_ev c)) - length L)%nat with 0%nat.
        2:{ unfold n_popped, n_pushed in I4. fold L in I4. clear - I4. lia. }
        rewrite firstn_O, app_nil_r. exact I6.
      * intros k K1 K2. rewrite pushed_app. fold L.
        destruct (N.eq_dec k (n_pushed c)) as [->|Nk].
        -- rewrite He. rewrite app_nth2; unfold n_pushed; fold L; rewrite Nat2N.id; [now rewrite Nat.sub_diag|apply Nat.le_refl].
        -- assert (K3 : k < n_pushed c) by (clear - K2 Nk; lia).
           rewrite app_nth1; [apply I7; auto|]. unfold n_pushed in K3. fold L in K3. clear - K3. lia.
      * destruct I8 as [(Q1 & Q2)|(Q1 & o & Q2 & Q3)].
        { exfalso. specialize (Q2 i). rewrite P in Q2. discriminate. }
        right. split; auto. assert (i = o) by (apply Q3; now rewrite P). subst o. exists i.
        split; [now rewrite fupd_eq|]. intros j. unfold fupd. destruct (Nat.eqb_spec j i); auto.
      * intros j. unfold fupd. destruct (Nat.eqb_spec j i); [exact I|].
        pose proof (I9 j) as Hj. unfold thread_ok in *. rewrite NP, NB. cbn [c_e c_ev].
        rewrite pushed_app. fold L.
        assert (NH : holds (c_pc c j) = false).
        { destruct (holds (c_pc c j)) eqn:Hh; auto. exfalso.
          destruct I8 as [(Q1 & Q2)|(Q1 & o & Q2 & Q3)].
          { specialize (Q2 i). rewrite P in Q2. discriminate. }
          apply n. rewrite (Q3 j), (Q3 i); auto. now rewrite P. }
        destruct (c_pc c j); auto; try discriminate; repeat match goal with h : _ /\ _ |- _ => destruct h end; repeat split; auto;
             try (clear - H1; lia).
        intros X. rewrite H2 by assumption. rewrite app_nth1; auto.
        unfold n_pushed in H1. fold L in H1. clear - H1. lia.
    + destruct I8 as [(Q1 & Q2)|(Q1 & o & Q2 & Q3)].
      { exfalso. specialize (Q2 i). rewrite P in Q2. discriminate. }
      rewrite Q1. cbn [N.eqb]. eexists; split; [reflexivity|].
      assert (i = o) by (apply Q3; now rewrite P). subst o.
      constructor; cbn [c_e c_b c_t c_l c_pc c_ev]; auto.
      * left. split; auto. intros j. unfold fupd. destruct (Nat.eqb_spec j i); auto.
        destruct (holds (c_pc c j)) eqn:Hh; auto. exfalso. auto.
      * intros j. unfold fupd. destruct (Nat.eqb_spec j i); [exact I|exact (I9 j)].
Qed.

Lemma cinit_inv cap : good_cap cap -> cinv cap (qc_init cap).
Proof.
  intros HC. constructor; cbn; auto.
  - apply repeat_length.
  - unfold n_popped, n_pushed; cbn. lia.
  - unfold n_popped, n_pushed; cbn. lia.
  - intros k K1 K2. unfold n_pushed in K2. cbn in K2. lia.

Qed.

Lemma crun_inv cap sched : good_cap cap -> forall c, cinv cap c -> (forall i, ~ In (i, CPush 0) sched) ->
  timely U16 cap c sched -> exists c', crun cap c sched = Ok c' /\ cinv cap c'.
Proof.
  intros HC. induction sched as [|a l IH]; intros c HI Hn HT; cbn [crun]; eauto.
  destruct HT as (T1 & T2).
  destruct (cstep_inv cap c a HC HI) as (c1 & E & H1); auto.
  { intros i ->. apply (Hn i). now left. }
  rewrite E in *. cbn [bind]. apply IH; auto. intros i Hx. apply (Hn i). now right.
Qed.

(** ** C08 *)
(** Every interleaving of any number of threads, provided no single pop call is overtaken by 65536
    other successful pops (the 16-bit ABA window): nothing aborts, the popped values are a prefix of
    the pushed values in commit order, and what is left over is what the queue still holds
    (at most [cap] values, stored in the ring in order). *)
Theorem C08_concurrent_fifo_partial : forall cap sched, good_cap cap ->
  (forall i, ~ In (i, CPush 0) sched) -> timely U16 cap (qc_init cap) sched ->
  exists c rest, crun cap (qc_init cap) sched = Ok c /\
    pushed (c_ev c) = popped (c_ev c) ++ rest /\ N.of_nat (length rest) <= cap /\
    forall k, (k < length rest)%nat ->
      nth (N.to_nat ((n_popped c + N.of_nat k) mod cap)) (c_e c) 0 = nth k rest 0.
Proof.
  intros cap sched HC Hn HT.
  destruct (crun_inv cap sched HC _ (cinit_inv cap HC) Hn HT) as (c & E & HI).
  destruct HI as [I1 I2 I3 I4 I5 I6 I7 I8 I9].
  exists c, (skipn (length (popped (c_ev c))) (pushed (c_ev c))).
  split; auto. unfold n_popped, n_pushed in *. split; [rewrite I6 at 1; symmetry; apply firstn_skipn|].
  rewrite skipn_length. split; [clear - I5; lia|]. intros k Hk.
  rewrite I7; [|clear; lia|clear - Hk; lia].
  assert (NS : forall (A : Type) (l : list A) a b d, nth (a + b) l d = nth b (skipn a l) d).
  { clear. intros A l a. revert l. induction a as [|a IH]; intros l b d; [reflexivity|].
    destruct l as [|x l]; cbn; [destruct b; reflexivity|apply IH]. }
  rewrite <- NS. f_equal. clear. lia.
Qed.

(** When a pop reports "empty" the queue really was empty at that moment, and when a push reports
    "full" it held [cap] values when top was read (bounded overtaking by 65536 - cap). *)
Theorem C08_failures_truthful : forall cap sched c i t g, good_cap cap ->
  (forall i, ~ In (i, CPush 0) sched) -> timely U16 cap (qc_init cap) sched ->
  crun cap (qc_init cap) sched = Ok c ->
  (c_pc c i = Pop1 t g -> c_b c = t -> n_popped c < g + (U16 - cap) -> n_pushed c = n_popped c) /\
  (forall d b, c_pc c i = Psh3 d b -> used_diff b (c_t c) = cap -> n_pushed c = n_popped c + cap).
Proof.
  intros cap sched c i t g HC Hn HT E.
  destruct (crun_inv cap sched HC _ (cinit_inv cap HC) Hn HT) as (c' & E' & HI).
  rewrite E in E'. inversion E'; subst c'.
  destruct HI as [I1 I2 I3 I4 I5 I6 I7 I8 I9].
  destruct (good_cap_facts cap HC) as (C1 & C2 & _).
  pose proof (I9 i) as Hi. split.
  - intros P Eb Ho. rewrite P in Hi. cbn in Hi. destruct Hi as (Ht & Hg).
    rewrite I3, Ht in Eb. clear - Eb Hg Ho I4 I5 C2. unfold U16 in *. lia.
  - intros d b P Ef. rewrite P in Hi. cbn in Hi. destruct Hi as (Hd & Hb).
    rewrite Hb, I2 in Ef.
    replace (n_pushed c) with (n_popped c + (n_pushed c - n_popped c)) in Ef at 1 by (clear - I4; lia).
    rewrite used_diff_ok in Ef; [|clear - I5 C2; unfold U16 in *; lia]. clear - Ef I4. lia.
Qed.

(** ** The ABA window: without the hypothesis the property is false *)
Definition push_sched (v : N) : list (nat * qact) :=
  (0%nat, CPush v) :: repeat (0%nat, Go) 7.
Definition pop_sched : list (nat * qact) := (0%nat, CPop) :: repeat (0%nat, Go) 4.

Lemma crun_app cap l1 : forall l2 c, crun cap c (l1 ++ l2) = (do c' <- crun cap c l1; crun cap c' l2).
Proof. induction l1 as [|a l IH]; intros l2 c; cbn [crun app bind]; auto. destruct (cstep cap c a); cbn [bind]; auto. Qed.

Lemma solo_push c v r : length (c_e c) = N.to_nat 256 -> c_b c = c_t c -> c_t c < U16 -> c_l c = 0 -> c_pc c 0%nat = Idle r -> v <> 0 ->
  exists c', crun 256 c (push_sched v) = Ok c' /\
    c_e c' = upd (c_e c) (N.to_nat (c_b c mod 256)) v /\ c_b c' = (c_t c + 1) mod U16 /\ c_t c' = c_t c /\
    c_l c' = 0 /\ c_pc c' 0%nat = Idle v /\ c_pc c' 1%nat = c_pc c 1%nat /\ c_ev c' = c_ev c ++ [EPush 0 v].
Proof.
  intros Hl Hb Ht Hk Hp Hv. unfold push_sched. cbn [repeat crun].
  unfold cstep at 1. rewrite Hp. replace (v =? 0) with false by (symmetry; apply N.eqb_neq; auto).
  cbn [negb assert_ bind]. unfold cstep at 1. cbn [goto c_pc c_l]. rewrite fupd_eq, Hk. cbn [N.eqb bind].
  unfold cstep at 1. cbn [goto c_pc c_l]. rewrite fupd_eq, Hk. cbn [N.eqb bind].
  unfold cstep at 1. cbn [goto c_pc c_l]. rewrite fupd_eq. cbn [bind].
  unfold cstep at 1. cbn [goto c_pc c_l c_t c_b]. rewrite fupd_eq.
  rewrite Hb. replace (used_diff (c_t c) (c_t c) =? 256) with false.
  2:{ unfold used_diff. rewrite N.ltb_irrefl, N.sub_diag. reflexivity. }
  cbn [bind]. unfold cstep at 1. cbn [goto c_pc c_l c_t c_b c_e]. rewrite fupd_eq.
  rewrite land_cap by (exists 8; split; [lia|reflexivity]).
  rewrite wr_ok. 2:{ rewrite Hl. pose proof (N.mod_lt (c_t c) 256 ltac:(discriminate)). lia. }
  cbn [bind]. unfold cstep at 1. cbn [goto c_pc c_l c_t c_b c_e]. rewrite fupd_eq. cbn [bind].
  unfold cstep at 1. cbn [goto c_pc c_l c_t c_b c_e]. rewrite fupd_eq. cbn [N.eqb bind].
  eexists. split; [reflexivity|]. cbn [c_e c_b c_t c_l c_pc c_ev]. rewrite fupd_eq.
  repeat split; auto.
Qed.

Lemma solo_pop c r : length (c_e c) = N.to_nat 256 -> c_b c = (c_t c + 1) mod U16 -> c_t c < U16 -> c_pc c 0%nat = Idle r ->
  exists c', crun 256 c pop_sched = Ok c' /\
    c_e c' = c_e c /\ c_b c' = c_b c /\ c_t c' = c_b c /\ c_l c' = c_l c /\
    c_pc c' 0%nat = Idle (nth (N.to_nat (c_t c mod 256)) (c_e c) 0) /\ c_pc c' 1%nat = c_pc c 1%nat /\
    c_ev c' = c_ev c ++ [EPop 0 (nth (N.to_nat (c_t c mod 256)) (c_e c) 0)].
Proof.
  intros Hl Hb Ht Hp. unfold pop_sched. cbn [repeat crun].
  unfold cstep at 1. rewrite Hp. cbn [bind].
  unfold cstep at 1. cbn [goto c_pc c_t]. rewrite fupd_eq. cbn [bind].
  unfold cstep at 1. cbn [goto c_pc c_t c_b]. rewrite fupd_eq.
  replace (c_b c =? c_t c) with false. 2:{ symmetry. apply N.eqb_neq. rewrite Hb. unfold U16 in *. lia. }
  cbn [bind]. unfold cstep at 1. cbn [goto c_pc c_t c_b c_e]. rewrite fupd_eq.
  rewrite land_cap by (exists 8; split; [lia|reflexivity]).
  rewrite (rd_ok _ _ 0). 2:{ rewrite Hl. pose proof (N.mod_lt (c_t c) 256 ltac:(discriminate)). lia. }
  cbn [bind]. unfold cstep at 1. cbn [goto c_pc c_t c_b c_e]. rewrite fupd_eq, N.eqb_refl. cbn [bind].
  eexists. split; [reflexivity|]. cbn [c_e c_b c_t c_l c_pc c_ev]. rewrite fupd_eq. repeat split; auto.
Qed.

Fixpoint rounds (n : nat) : list (nat * qact) :=
  match n with O => [] | S k => push_sched 2 ++ pop_sched ++ rounds k end.

Lemma rounds_run n : forall c r, length (c_e c) = N.to_nat 256 -> c_b c = c_t c -> c_t c < U16 -> c_l c = 0 ->
  c_pc c 0%nat = Idle r ->
  exists c' r', crun 256 c (rounds n) = Ok c' /\ length (c_e c') = N.to_nat 256 /\
    c_b c' = c_t c' /\ c_t c' = (c_t c + N.of_nat n) mod U16 /\ c_l c' = 0 /\ c_pc c' 0%nat = Idle r' /\
    c_pc c' 1%nat = c_pc c 1%nat /\
    pushed (c_ev c') = pushed (c_ev c) ++ repeat 2 n /\ popped (c_ev c') = popped (c_ev c) ++ repeat 2 n.
Proof.
  induction n as [|n IH]; intros c r Hl Hb Ht Hk Hp; cbn [rounds repeat].
  - exists c, r. rewrite !app_nil_r. repeat split; auto. cbn. rewrite N.mod_small; lia.
  - destruct (solo_push c 2 r Hl Hb Ht Hk Hp ltac:(discriminate)) as (c1 & E1 & A1 & A2 & A3 & A4 & A5 & A6 & A7).
    rewrite crun_app, E1. cbn [bind].
    destruct (solo_pop c1 2) as (c2 & E2 & B1 & B2 & B3 & B4 & B5 & B6 & B7); auto.
    { rewrite A1, upd_length; auto. } { now rewrite A3. } { now rewrite A3. }
    rewrite crun_app, E2. cbn [bind].
    destruct (IH c2 (nth (N.to_nat (c_t c1 mod 256)) (c_e c1) 0)) as (c3 & r3 & E3 & D1 & D2 & D3 & D4 & D5 & D6 & D7 & D8); auto.
    { rewrite B1, A1, upd_length; auto. } { now rewrite B3, B2. } { rewrite B3, A2. unfold U16; lia. } { now rewrite B4. }
    exists c3, r3. repeat split; auto.
    + rewrite D3, B3, A2. unfold U16. lia.
    + now rewrite D6, B6, A6.
    + rewrite D7, B7, A7, !pushed_app, app_nil_r, <- app_assoc. reflexivity.
    + rewrite D8, B7, A7, !popped_app, app_nil_r, <- app_assoc.
      assert (V : nth (N.to_nat (c_t c1 mod 256)) (c_e c1) 0 = 2).
      { rewrite A1, A3, Hb. apply nth_upd_eq. rewrite Hl. pose proof (N.mod_lt (c_t c) 256 ltac:(discriminate)). lia. }
      rewrite V. reflexivity.
Qed.

(** Thread 1 is preempted inside pop just before its compare-and-swap while thread 0 completes
    65536 pops; thread 1 then returns value 1 a second time and value 3 is lost. *)
Theorem C08_aba_refuted :
  exists sched c, (forall i, ~ In (i, CPush 0) sched) /\ crun 256 (qc_init 256) sched = Ok c /\
    pushed (c_ev c) = [1] ++ repeat 2 (N.to_nat 65535) ++ [3] /\
    popped (c_ev c) = [1] ++ repeat 2 (N.to_nat 65535) ++ [1].
Proof.
  set (pre := push_sched 1 ++ [(1%nat, CPop); (1%nat, Go); (1%nat, Go); (1%nat, Go)] ++ pop_sched).
  assert (P : exists c0, crun 256 (qc_init 256) pre = Ok c0 /\ length (c_e c0) = N.to_nat 256 /\ c_b c0 = 1 /\ c_t c0 = 1 /\
     c_l c0 = 0 /\ c_pc c0 0%nat = Idle 1 /\ c_pc c0 1%nat = Pop3 0 1 0 /\ pushed (c_ev c0) = [1] /\ popped (c_ev c0) = [1]).
  { eexists. split; [vm_compute; reflexivity|]. repeat split. }
  destruct P as (c0 & E0 & P1 & P2 & P3 & P4 & P5 & P6 & P7 & P8).
  destruct (rounds_run (N.to_nat 65535) c0 1) as (c1 & r1 & E1 & Q1 & Q2 & Q3 & Q4 & Q5 & Q6 & Q7 & Q8); auto.
  { congruence. } { rewrite P3. reflexivity. }
  rewrite P3, N2Nat.id in Q3. change ((1 + 65535) mod U16) with 0 in Q3.
  destruct (solo_push c1 3 r1) as (c2 & E2 & A1 & A2 & A3 & A4 & A5 & A6 & A7); auto.
  { rewrite Q3. reflexivity. } { discriminate. }
  exists (pre ++ rounds (N.to_nat 65535) ++ push_sched 3 ++ [(1%nat, Go)]).
  eexists. split; [|split].
  - intros i. assert (R : forall n, ~ In (i, CPush 0) (rounds n)).
    { induction n as [|n IH]; cbn [rounds]; [intros []|]. rewrite !in_app_iff. intros [H|[H|H]]; auto.
      - cbn in H. repeat (destruct H as [H|H]; [inversion H|]). auto.
      - cbn in H. repeat (destruct H as [H|H]; [inversion H|]). auto. }
    unfold pre. generalize (N.to_nat 65535). intros k. rewrite !in_app_iff. intros H. decompose [or] H; clear H;
      try (apply (R k); assumption);
      match goal with h : In _ _ |- _ => cbn in h; repeat (destruct h as [h|h]; [inversion h|]); auto end.
  - rewrite !crun_app, E0. cbn [bind]. rewrite !crun_app, E1. cbn [bind]. rewrite crun_app, E2. cbn [bind crun].
    unfold cstep. rewrite A6, Q6, P6, A3, Q3. cbn [N.eqb bind]. reflexivity.
  - cbn [c_ev]. rewrite !pushed_app, !popped_app, A7, pushed_app, popped_app, Q7, Q8, P7, P8, !app_nil_r, <- !app_assoc. split; reflexivity.
Qed.

Example C08_case : let s := push_sched 5 ++ [(1%nat, CPop); (1%nat, Go); (2%nat, CPush 6); (2%nat, Go); (1%nat, Go)] ++ pop_sched ++ repeat (1%nat, Go) 2 in
  timely U16 256 (qc_init 256) s /\
  exists c, crun 256 (qc_init 256) s = Ok c /\ pushed (c_ev c) = [5] /\ popped (c_ev c) = [5] /\ c_pc c 1%nat = Idle 0.
Proof. split; [vm_compute; repeat split|]. eexists. split; [vm_compute; reflexivity|]. repeat split. Qed.

Print Assumptions C08_concurrent_fifo_partial.
Print Assumptions C08_failures_truthful.
Print Assumptions C08_aba_refuted.
