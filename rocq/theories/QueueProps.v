(** Properties C06 and C07: the queue is a bounded FIFO. *)
From Verif Require Import Base QueueModel.
Local Open Scope N_scope.
Ltac Zify.zify_post_hook ::= Z.div_mod_to_equations.
Arguments N.add : simpl never.
Arguments N.sub : simpl never.
Arguments N.mul : simpl never.
Arguments N.div : simpl never.
Arguments N.modulo : simpl never.
Arguments N.pow : simpl never.

(** ** Specification: an ideal bounded FIFO is a list of at most [cap] values. *)
Definition fifo_step (cap : N) (l : list N) (op : qop) : list N * N :=
  match op with
  | QPush v => if N.of_nat (length l) =? cap then (l, 0) else (l ++ [v], v)
  | QPop => match l with [] => ([], 0) | x :: r => (r, x) end
  | QPeek => match l with [] => ([], 0) | x :: _ => (l, x) end
  | QUsed => (l, N.of_nat (length l))
  end.
Fixpoint fifo_run (cap : N) (l : list N) (ops : list qop) : list N * list N :=
  match ops with
  | [] => (l, [])
  | op :: rest =>
    let '(l1, r) := fifo_step cap l op in
    let '(l2, rs) := fifo_run cap l1 rest in (l2, r :: rs)
  end.
(** capacities for which the 16-bit indices suffice *)
Definition good_cap (cap : N) : Prop := exists k, k <= 15 /\ cap = 2 ^ k.

(** ** Refinement *)
Lemma good_cap_facts cap : good_cap cap -> 1 <= cap /\ 2 * cap <= U16 /\ exists m, U16 = cap * m /\ 0 < m.
Proof.
  intros (k & Hk & ->). split; [apply N.lt_pred_le; assert (2^k <> 0) by (apply N.pow_nonzero; discriminate); lia|].
  split.
  - change 2 with (2 ^ 1) at 1. rewrite <- N.pow_add_r. change U16 with (2 ^ 16). apply N.pow_le_mono_r; lia.
  - exists (2 ^ (16 - k)). rewrite <- N.pow_add_r. replace (k + (16 - k)) with 16 by lia. split; auto.
    assert (2^(16-k) <> 0) by (apply N.pow_nonzero; discriminate). lia.
Qed.

Lemma land_cap cap x : good_cap cap -> N.land x (cap - 1) = x mod cap.
Proof.
  intros (k & Hk & ->). rewrite N.sub_1_r, <- N.ones_equiv. apply N.land_ones.
Qed.

Lemma mod_mod_cap cap x : good_cap cap -> (x mod U16) mod cap = x mod cap.
Proof.
  intros H. destruct (good_cap_facts cap H) as (H1 & _ & m & E & Hm). rewrite E.
  rewrite N.mod_mul_r by lia. rewrite N.mul_comm, N.mod_add by lia. apply N.mod_mod. lia.
Qed.

Lemma mod_inj_window cap a b : 1 <= cap -> a mod cap = b mod cap -> a <= b -> b < a + cap -> a = b.
Proof.
  intros Hc E H1 H2. pose proof (N.div_mod' a cap) as A. pose proof (N.div_mod' b cap) as B.
  rewrite <- E in B. set (x := a / cap) in *. set (y := b / cap) in *. set (r := a mod cap) in *.
  clearbody x y r. assert (x = y) by nia. subst. lia.
Qed.

Record qrel (cap : N) (q : queue) (l : list N) : Prop := {
  qr_len : length (q_entries q) = N.to_nat cap;
  qr_l   : N.of_nat (length l) <= cap;
  qr_nz  : ~ In 0 l;
  qr_pos : exists T, q_top q = T mod U16 /\ q_bottom q = (T + N.of_nat (length l)) mod U16 /\
     forall j, (j < length l)%nat -> nth (N.to_nat ((T + N.of_nat j) mod cap)) (q_entries q) 0 = nth j l 0
}.

Lemma used_diff_ok T n : n < U16 -> used_diff ((T + n) mod U16) (T mod U16) = n.
Proof. unfold used_diff, U16. intros H. destruct (N.ltb_spec ((T + n) mod 65536) (T mod 65536)); lia. Qed.

Lemma qstep_rel cap q l op : good_cap cap -> qrel cap q l -> op <> QPush 0 ->
  exists q', qstep cap q op = Ok (q', snd (fifo_step cap l op)) /\ qrel cap q' (fst (fifo_step cap l op)).
Proof.
  intros HC [Hlen Hl Hnz (T & HT & HB & Hc)] Hop.
  destruct (good_cap_facts cap HC) as (C1 & C2 & m & C3 & C4).
  assert (Hsm : N.of_nat (length l) < U16) by (unfold U16 in *; lia).
  assert (Hud : used_diff (q_bottom q) (q_top q) = N.of_nat (length l)) by (rewrite HB, HT; now apply used_diff_ok).
  assert (Hemp : (q_bottom q =? q_top q) = Nat.eqb (length l) 0).
  { rewrite HB, HT. destruct (Nat.eqb_spec (length l) 0) as [E|E].
    - rewrite E. replace (T + N.of_nat 0) with T by lia. apply N.eqb_refl.
    - apply N.eqb_neq. unfold U16 in *. lia. }
  assert (Hlt : forall x, (N.to_nat (x mod cap) < length (q_entries q))%nat).
  { intros x. rewrite Hlen. pose proof (N.mod_lt x cap ltac:(lia)). lia. }
  destruct op as [v| | |]; cbn [qstep fifo_step].
  - unfold queue_push. replace (negb (v =? 0)) with true.
    2:{ destruct (N.eqb_spec v 0); auto. subst. congruence. }
    cbn [assert_ bind]. rewrite Hud. destruct (N.eqb_spec (N.of_nat (length l)) cap) as [E|E].
    + exists q. cbn [fst snd]. split; auto. constructor; auto. exists T; auto.
    + rewrite land_cap, HB, mod_mod_cap by assumption. rewrite wr_ok by apply Hlt. cbn [bind].
      eexists. split; [reflexivity|]. cbn [fst]. constructor; cbn [q_entries q_bottom q_top].
      * now rewrite upd_length.
      * rewrite app_length. cbn [length]. lia.
      * rewrite in_app_iff. cbn. intros [|[|[]]]; auto. subst v. congruence.
      * exists T. split; auto. split.
        { rewrite app_length. cbn [length]. unfold U16 in *. lia. }
        intros j Hj. rewrite app_length in Hj. cbn [length] in Hj.
        destruct (Nat.eq_dec j (length l)) as [->|Nj].
        -- rewrite nth_upd_eq by apply Hlt. rewrite app_nth2 by lia. now rewrite Nat.sub_diag.
        -- rewrite nth_upd_ne.
           ++ rewrite Hc by lia. rewrite app_nth1 by lia. reflexivity.
           ++ intros Q. apply N2Nat.inj in Q. symmetry in Q.
              assert (Bd : (j < length l)%nat) by (clear - Hj Nj; lia).
              apply mod_inj_window in Q; [clear - Q Bd; lia|exact C1|clear - Bd; lia|clear - Bd Hl E; lia].
  - unfold queue_pop. rewrite Hemp. destruct l as [|x r]; cbn [length Nat.eqb fst snd].
    + exists q. split; auto. constructor; auto. exists T; auto.
    + rewrite land_cap, HT, mod_mod_cap by assumption.
      rewrite (rd_ok _ _ 0) by apply Hlt. cbn [bind].
      pose proof (Hc 0%nat ltac:(cbn; lia)) as H0. replace (T + N.of_nat 0) with T in H0 by lia.
      rewrite H0. cbn [nth]. eexists. split; [reflexivity|].
      constructor; cbn [q_entries q_bottom q_top]; auto.
      * cbn [length] in Hl. lia.
      * intros Hin. apply Hnz. now right.
      * exists (T + 1). split; [unfold U16; lia|]. split.
        { rewrite HB. cbn [length]. f_equal. lia. }
        intros j Hj. specialize (Hc (S j) ltac:(cbn; lia)). cbn [nth] in Hc. rewrite <- Hc.
        do 2 f_equal. f_equal. lia.
  - unfold queue_peek. rewrite Hemp. destruct l as [|x r]; cbn [length Nat.eqb fst snd bind].
    + exists q. split; auto. constructor; auto. exists T; auto.
    + rewrite land_cap, HT, mod_mod_cap by assumption.
      rewrite (rd_ok _ _ 0) by apply Hlt. cbn [bind].
      pose proof (Hc 0%nat ltac:(cbn; lia)) as H0. replace (T + N.of_nat 0) with T in H0 by lia.
      rewrite H0. cbn [nth]. exists q. split; auto. constructor; auto. exists T; auto.
  - exists q. unfold queue_used_slots. rewrite Hud. split; auto. constructor; auto. exists T; auto.
Qed.

Lemma qrun_rel cap ops : good_cap cap -> forall q l, qrel cap q l -> ~ In (QPush 0) ops ->
  exists q', qrun cap q ops = Ok (q', snd (fifo_run cap l ops)) /\ qrel cap q' (fst (fifo_run cap l ops)).
Proof.
  intros HC. induction ops as [|op ops IH]; intros q l HR Hn; cbn [qrun fifo_run].
  - exists q. auto.
  - destruct (qstep_rel cap q l op HC HR ltac:(intros ->; apply Hn; now left)) as (q1 & E1 & R1).
    rewrite E1. cbn [bind fst snd].
    destruct (IH q1 _ R1 ltac:(intros H; apply Hn; now right)) as (q2 & E2 & R2).
    rewrite E2. cbn [bind fst snd]. destruct (fifo_step cap l op) as [l1 r]. cbn [fst snd] in *.
    destruct (fifo_run cap l1 ops) as [l2 rs]. cbn [fst snd] in *. eauto.
Qed.

Lemma init_rel cap : good_cap cap -> exists q, queue_init cap = Ok q /\ qrel cap q [].
Proof.
  intros HC. unfold queue_init. rewrite land_cap by assumption. rewrite N.mod_same.
  2:{ destruct (good_cap_facts cap HC); lia. }
  cbn [N.eqb assert_ bind]. eexists. split; [reflexivity|].
  constructor; cbn [q_entries q_bottom q_top length].
  - apply repeat_length.
  - lia.
  - auto.
  - exists 0. repeat split. intros j Hj. lia.
Qed.

(** ** C06 *)
(** For every capacity 2^k (k <= 15) and every history of calls, however long (the 16-bit indices
    wrap), the results are those of the ideal bounded FIFO; no call aborts or is undefined. *)
Theorem C06_bounded_fifo : forall cap ops, good_cap cap -> ~ In (QPush 0) ops ->
  exists q0 q, queue_init cap = Ok q0 /\ qrun cap q0 ops = Ok (q, snd (fifo_run cap [] ops)).
Proof.
  intros cap ops HC Hn. destruct (init_rel cap HC) as (q0 & E & R).
  destruct (qrun_rel cap ops HC q0 [] R Hn) as (q & E2 & _). eauto.
Qed.

(** pushing NULL is refused by an assertion *)
Theorem C06_null_push_aborts : forall cap q, queue_push cap q 0 = Abort.
Proof. reflexivity. Qed.

Example C06_case : good_cap 4 /\
  snd (fifo_run 4 [] [QPush 1; QPush 2; QPush 3; QPush 4; QPush 5; QPop; QPeek; QPush 6; QUsed; QPop; QPop; QPop; QPop; QPop])
  = [1; 2; 3; 4; 0; 1; 2; 6; 4; 2; 3; 4; 6; 0].
Proof. split; [exists 2; split; [lia|reflexivity]|reflexivity]. Qed.

(** ** C07 *)
(** Every power of two up to 32768 works (C06).  The documented maximum 65536 does not. *)
Lemma push_65536 q v : length (q_entries q) = N.to_nat 65536 -> q_bottom q < U16 -> q_top q < U16 -> v <> 0 ->
  exists e, queue_push 65536 q v = Ok (mkq e ((q_bottom q + 1) mod U16) (q_top q), v) /\ length e = N.to_nat 65536.
Proof.
  intros Hl Hb Ht Hv. unfold queue_push. replace (negb (v =? 0)) with true by lia. cbn [assert_ bind].
  assert (U : used_diff (q_bottom q) (q_top q) <> 65536).
  { unfold used_diff, U16 in *. destruct (N.ltb_spec (q_bottom q) (q_top q)); lia. }
  apply N.eqb_neq in U. rewrite U.
  assert (L : N.land (q_bottom q) (65536 - 1) = q_bottom q).
  { change (65536 - 1) with (N.ones 16). rewrite N.land_ones. apply N.mod_small. exact Hb. }
  rewrite L. rewrite wr_ok by (rewrite Hl; unfold U16 in Hb; lia). cbn [bind].
  eexists. split; [reflexivity|]. now rewrite upd_length.
Qed.

Lemma pushes_65536 n : forall q, length (q_entries q) = N.to_nat 65536 -> q_bottom q < U16 -> q_top q < U16 ->
  exists q', qrun 65536 q (repeat (QPush 1) n) = Ok (q', repeat 1 n) /\
    length (q_entries q') = N.to_nat 65536 /\ q_top q' = q_top q /\
    q_bottom q' = (q_bottom q + N.of_nat n) mod U16.
Proof.
  induction n as [|n IH]; intros q Hl Hb Ht; cbn [repeat qrun].
  - exists q. repeat split; auto. rewrite N.mod_small; [lia|]. lia.
  - cbn [qstep]. destruct (push_65536 q 1 Hl Hb Ht ltac:(discriminate)) as (e & -> & Le). cbn [bind fst snd].
    destruct (IH (mkq e ((q_bottom q + 1) mod U16) (q_top q))) as (q' & E & L' & T' & B'); cbn [q_entries q_bottom q_top]; auto.
    { unfold U16; lia. }
    rewrite E. cbn [bind fst snd]. exists q'. repeat split; auto. rewrite B'. cbn [q_bottom]. unfold U16. lia.
Qed.

(** With capacity 65536: 65536 accepted pushes, then the queue reports 0 used slots and the next
    pop finds nothing: every stored element is lost. *)
Theorem C07_capacity_65536_refuted :
  exists q0 q, queue_init 65536 = Ok q0 /\
    qrun 65536 q0 (repeat (QPush 1) (N.to_nat 65536)) = Ok (q, repeat 1 (N.to_nat 65536)) /\
    queue_used_slots q = 0 /\ queue_pop 65536 q = Ok (q, 0).
Proof.
  unfold queue_init. replace (N.land 65536 (65536 - 1) =? 0) with true by reflexivity. cbn [assert_ bind].
  eexists. 
  destruct (pushes_65536 (N.to_nat 65536) (mkq (repeat 0 (N.to_nat 65536)) 0 0)) as (q & E & L & T & B).
  { cbn [q_entries]. apply repeat_length. }
  { reflexivity. } { reflexivity. }
  exists q. split; [reflexivity|]. split; [exact E|]. cbn [q_top q_bottom] in *.
  rewrite N2Nat.id in B. change ((0 + 65536) mod U16) with 0 in B.
  unfold queue_used_slots, queue_pop. rewrite T, B. cbn [N.eqb]. split; reflexivity.
Qed.

(** all allowed capacities below 65536 never lose or overwrite: pushes that return non-NULL come
    out in order (instance of C06 kept as the positive half of C07) *)
Theorem C07_other_capacities_partial : forall k ops, k <= 15 -> ~ In (QPush 0) ops ->
  exists q0 q, queue_init (2 ^ k) = Ok q0 /\ qrun (2 ^ k) q0 ops = Ok (q, snd (fifo_run (2 ^ k) [] ops)).
Proof. intros k ops Hk Hn. apply C06_bounded_fifo; auto. exists k. auto. Qed.

Print Assumptions C06_bounded_fifo.
Print Assumptions C07_capacity_65536_refuted.
Print Assumptions C07_other_capacities_partial.
