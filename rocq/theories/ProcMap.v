(** C35: the table of processes that mapped the segment.  Models src/core/arax_pipe.c:126-163.
    The table is an array of SIZE 64-bit cells (include/arax_pipe.h:31, ARAX_PROC_MAP_SIZE = 1024 by default);
    the calls run under proc_lock (C09), so they are atomic here. *)
From Verif Require Import Base.
Arguments Nat.eqb : simpl never. Arguments Nat.div : simpl never. Arguments Nat.modulo : simpl never. Arguments Nat.mul : simpl never.
Arguments N.pow : simpl never. Arguments N.mul : simpl never. Arguments N.add : simpl never.

(** one byte of the table (little endian) and a cell put together from bytes *)
(** include/arax_pipe.h:31 seen as bytes. *)
Definition byte (m : list N) (k : nat) : N := (N.shiftr (nth (k / 8) m 0) (N.of_nat (8 * (k mod 8))) mod 256)%N.
(** include/arax_pipe.h:31 seen as bytes. *)
Fixpoint glue (f : nat -> N) (n : nat) : N := match n with O => 0 | S j => glue f j + f j * 2 ^ N.of_nat (8 * j) end%N.
(** memmove(base + dst, base + src, n), all in BYTES *)
(** C library, used at src/core/arax_pipe.c:148-163. *)
Definition memmove (m : list N) (dst src n : nat) : list N :=
  map (fun i => glue (fun j => let k := 8 * i + j in if (dst <=? k) && (k <? dst + n) then byte m (k - dst + src) else byte m k) 8) (seq 0 (length m)).

(** the loop of arax_pipe_have_to_mmap, arax_pipe.c:133-143: [r] is the table from cell [c] on *)
Fixpoint mmap_loop (m : list N) (r : list N) (c : nat) (pid : N) : list N * bool :=
  match r with
  | [] => (m, true)
  | x :: t => if (x =? pid)%N then (m, false) else if (x =? 0)%N then (upd m c pid, true) else mmap_loop m t (S c) pid
  end.
(** arax_pipe_have_to_mmap, arax_pipe.c:126-146 *)
Definition have_to_mmap (m : list N) (pid : N) : outcome (list N * bool) :=
  do _ <- assert_ (negb (pid =? 0)%N);
  Ok (mmap_loop m m 0 pid).
(** the search of arax_pipe_mark_unmap, arax_pipe.c:154-157 *)
Fixpoint find_loop (r : list N) (c : nat) (pid : N) : nat := match r with [] => c | x :: t => if (x =? pid)%N then c else find_loop t (S c) pid end.
(** arax_pipe_mark_unmap, arax_pipe.c:148-163.  Line 160 passes ARAX_PROC_MAP_SIZE - (c + 1), a number of cells, as
    memmove's number of BYTES. *)
Definition mark_unmap (m : list N) (pid : N) : outcome (list N) :=
  do _ <- assert_ (negb (pid =? 0)%N);
  let size := length m in
  let c := find_loop m 0 pid in
  do _ <- assert_ (c <? size);
  Ok (upd (memmove m (8 * c) (8 * (c + 1)) (size - (c + 1))) (size - 1) 0%N).

(** * What memmove does to a cell *)
Definition W64 : N := 2 ^ 64.
Lemma glue_ext f g n : (forall j, j < n -> f j = g j) -> glue f n = glue g n.
Proof. induction n; intros H; cbn; auto. rewrite IHn by auto. rewrite H by lia. reflexivity. Qed.
Lemma glue_self x n : glue (fun j => (N.shiftr x (N.of_nat (8 * j)) mod 256)%N) n = (x mod 2 ^ N.of_nat (8 * n))%N.
Proof.
  induction n; cbn [glue]; [change (N.of_nat (8 * 0)) with 0%N; now rewrite N.pow_0_r, N.mod_1_r|]. rewrite IHn, N.shiftr_div_pow2.
  replace (N.of_nat (8 * S n)) with (N.of_nat (8 * n) + 8)%N by lia. rewrite N.pow_add_r. rewrite (N.mod_mul_r x (2 ^ N.of_nat (8 * n)) (2 ^ 8)); [|apply N.pow_nonzero; lia|apply N.pow_nonzero; lia].
  change (2 ^ 8)%N with 256%N. lia.
Qed.
Lemma div8 i j : j < 8 -> (8 * i + j) / 8 = i /\ (8 * i + j) mod 8 = j.
Proof. intros H. split; [symmetry; apply (Nat.div_unique _ 8 i j); lia|symmetry; apply (Nat.mod_unique _ 8 i j); lia]. Qed.
Lemma byte_at m i j : j < 8 -> byte m (8 * i + j) = (N.shiftr (nth i m 0) (N.of_nat (8 * j)) mod 256)%N.
Proof. intros H. unfold byte. destruct (div8 i j H) as [-> ->]. reflexivity. Qed.
Lemma glue_cell m i : (nth i m 0 < W64)%N -> glue (fun j => byte m (8 * i + j)) 8 = nth i m 0%N.
Proof. intros H. rewrite (glue_ext _ (fun j => (N.shiftr (nth i m 0) (N.of_nat (8 * j)) mod 256)%N)) by (intros; now apply byte_at). rewrite glue_self. apply N.mod_small. exact H. Qed.
Lemma nth_mapseq (f : nat -> N) n i : i < n -> nth i (map f (seq 0 n)) 0%N = f i.
Proof. intros H. rewrite (nth_indep _ 0%N (f 0)) by now rewrite map_length, seq_length. rewrite map_nth, seq_nth; auto. Qed.
Definition wf (m : list N) : Prop := forall i, (nth i m 0 < W64)%N.
Section Move.
Context (m : list N) (WF : wf m) (c n : nat).
Let m' := memmove m (8 * c) (8 * (c + 1)) n.
Lemma mv_length : length m' = length m. Proof using Type. unfold m', memmove. now rewrite map_length, seq_length. Qed.
Lemma mv_nth i : i < length m -> nth i m' 0%N = glue (fun j => if (8 * c <=? 8 * i + j) && (8 * i + j <? 8 * c + n) then byte m (8 * (i + 1) + j) else byte m (8 * i + j)) 8.
Proof using Type.
  intros H. unfold m', memmove. rewrite nth_mapseq by auto. apply glue_ext. intros j J. cbv zeta. destruct (Nat.leb_spec (8 * c) (8 * i + j)); cbn [andb]; auto. destruct (8 * i + j <? 8 * c + n); auto. f_equal. lia.
Qed.
Lemma mv_before i : i < length m -> i < c -> nth i m' 0%N = nth i m 0%N.
Proof using WF. intros H L. rewrite mv_nth by auto. rewrite <- (glue_cell m i) by apply WF. apply glue_ext. intros j J. destruct (Nat.leb_spec (8 * c) (8 * i + j)); auto. lia. Qed.
Lemma mv_inside i : i < length m -> c <= i -> 8 * (i + 1) <= 8 * c + n -> nth i m' 0%N = nth (i + 1) m 0%N.
Proof using WF.
  intros H L U. rewrite mv_nth by auto. rewrite <- (glue_cell m (i + 1)) by apply WF. apply glue_ext. intros j J.
  destruct (Nat.leb_spec (8 * c) (8 * i + j)); [|lia]. destruct (Nat.ltb_spec (8 * i + j) (8 * c + n)); [reflexivity|lia].
Qed.
Lemma mv_after i : i < length m -> 8 * c + n <= 8 * i -> nth i m' 0%N = nth i m 0%N.
Proof using WF.
  intros H L. rewrite mv_nth by auto. rewrite <- (glue_cell m i) by apply WF. apply glue_ext. intros j J. destruct (Nat.ltb_spec (8 * i + j) (8 * c + n)); [lia|now rewrite andb_false_r].
Qed.
(** the cell where the move stops keeps the high bytes of its old contents *)
Lemma mv_edge_zero i : i < length m -> c <= i -> 8 * i + 7 <= 8 * c + n -> (nth i m 0 < 2 ^ 56)%N -> nth (i + 1) m 0%N = 0%N -> nth i m' 0%N = 0%N.
Proof using WF.
  intros H L U B Z. rewrite mv_nth by auto. cbn [glue].
  assert (Q : forall j, j < 7 -> (if (8 * c <=? 8 * i + j) && (8 * i + j <? 8 * c + n) then byte m (8 * (i + 1) + j) else byte m (8 * i + j)) = 0%N).
  { intros j J. destruct (Nat.leb_spec (8 * c) (8 * i + j)); [|lia]. destruct (Nat.ltb_spec (8 * i + j) (8 * c + n)); [|lia]. cbn [andb]. rewrite byte_at by lia. rewrite Z, N.shiftr_0_l. reflexivity. }
  rewrite !Q by lia.
  assert (Q7 : (if (8 * c <=? 8 * i + 7) && (8 * i + 7 <? 8 * c + n) then byte m (8 * (i + 1) + 7) else byte m (8 * i + 7)) = 0%N).
  { destruct ((8 * c <=? 8 * i + 7) && (8 * i + 7 <? 8 * c + n)); rewrite byte_at by lia; [rewrite Z, N.shiftr_0_l; reflexivity|]. rewrite N.shiftr_div_pow2. change (N.of_nat (8 * 7)) with 56%N. rewrite N.div_small by auto. reflexivity. }
  rewrite Q7. reflexivity.
Qed.
End Move.

(** * Specification: the set of recorded processes, in arrival order *)
Inductive op := Attach (pid : N) | Detach (pid : N).
Fixpoint remove1 (p : N) (l : list N) : list N := match l with [] => [] | x :: t => if (x =? p)%N then t else x :: remove1 p t end.
(** one call on the specification: the new set and, for Attach, whether the process must map *)
Definition spec (l : list N) (o : op) : list N * option bool :=
  match o with
  | Attach p => if in_dec N.eq_dec p l then (l, Some false) else (l ++ [p], Some true)
  | Detach p => (remove1 p l, None)
  end.
(** src/core/arax_pipe.c:126-163, one call. *)
Definition step (m : list N) (o : op) : outcome (list N * option bool) :=
  match o with
  | Attach p => do (m', b) <- have_to_mmap m p; Ok (m', Some b)
  | Detach p => do m' <- mark_unmap m p; Ok (m', None)
  end.
Fixpoint specs (l : list N) (h : list op) : list (option bool) := match h with [] => [] | o :: r => let (l', b) := spec l o in b :: specs l' r end.
(** A history of calls, no code of its own. *)
Fixpoint steps (m : list N) (h : list op) : outcome (list N * list (option bool)) :=
  match h with [] => Ok (m, []) | o :: r => do (m', b) <- step m o; do (m'', bs) <- steps m' r; Ok (m'', b :: bs) end.
(** process ids are positive C ints *)
Definition pid_ok (p : N) : Prop := (0 < p < 2 ^ 31)%N.
(** histories in which only recorded processes unmap and at most [M] processes are recorded at a time *)
Fixpoint legal (M : nat) (l : list N) (h : list op) : Prop :=
  match h with
  | [] => True
  | o :: r => match o with Attach p => pid_ok p /\ length (fst (spec l o)) <= M | Detach p => In p l end /\ legal M (fst (spec l o)) r
  end.
Definition table (sz : nat) (l : list N) : list N := l ++ repeat 0%N (sz - length l).

Lemma table_nth sz l i : nth i (table sz l) 0%N = nth i l 0%N.
Proof.
  unfold table. destruct (Nat.lt_ge_cases i (length l)); [now rewrite app_nth1|]. rewrite app_nth2 by auto. rewrite (nth_overflow l) by auto.
  generalize (i - length l). generalize (sz - length l). induction n; intros k; destruct k; cbn; auto.
Qed.
Lemma table_len sz l : length l <= sz -> length (table sz l) = sz.
Proof. intros. unfold table. rewrite app_length, repeat_length. lia. Qed.
Lemma upd_app {A} (a : list A) x b y : upd (a ++ x :: b) (length a) y = a ++ y :: b.
Proof. induction a; cbn; auto. now rewrite IHa. Qed.
Lemma mmap_scan pid : forall b a m k, (forall x, In x b -> (0 < x)%N) -> ~ In pid b -> (0 < pid)%N -> mmap_loop m (b ++ a) k pid = mmap_loop m a (k + length b) pid.
Proof.
  induction b as [|x b IH]; intros a m k P N Z; cbn [app mmap_loop length]; [now rewrite Nat.add_0_r|].
  destruct (N.eqb_spec x pid) as [->|]; [exfalso; apply N; now left|]. destruct (N.eqb_spec x 0) as [->|]; [specialize (P 0%N (or_introl eq_refl)); lia|].
  rewrite IH; [f_equal; lia|intros; apply P; now right|intros H; apply N; now right|auto].
Qed.
Lemma mmap_found pid : forall l r m k, In pid l -> (forall x, In x l -> (0 < x)%N) -> mmap_loop m (l ++ r) k pid = (m, false).
Proof.
  induction l as [|x l IH]; intros r m k [] P; cbn; [subst; now rewrite N.eqb_refl|]. destruct (x =? pid)%N; auto. destruct (N.eqb_spec x 0) as [->|]; [specialize (P 0%N (or_introl eq_refl)); lia|]. apply IH; auto. intros; apply P; now right.
Qed.
Lemma attach_ok sz l p : (forall x, In x l -> pid_ok x) -> pid_ok p -> length (fst (spec l (Attach p))) <= sz ->
  have_to_mmap (table sz l) p = Ok (table sz (fst (spec l (Attach p))), match snd (spec l (Attach p)) with Some b => b | None => false end).
Proof.
  intros PL PP LN. unfold pid_ok in *. unfold have_to_mmap. assert (Q : negb (p =? 0)%N = true) by (destruct (N.eqb_spec p 0); [lia|auto]). rewrite Q. cbn [assert_ bind]. cbn [spec] in *.
  destruct (in_dec N.eq_dec p l) as [I|I]; cbn [fst snd] in *.
  - unfold table at 2. rewrite mmap_found; auto. intros x H. apply PL in H. lia.
  - rewrite app_length in LN. cbn in LN. unfold table at 2.
    rewrite mmap_scan; [|intros x H; apply PL in H; lia|auto|lia].
    destruct (sz - length l) as [|k] eqn:K; [lia|]. cbn [repeat mmap_loop]. destruct (N.eqb_spec 0 p); [lia|]. cbn [Nat.add]. f_equal. f_equal.
    unfold table. rewrite K. cbn [repeat]. rewrite upd_app. rewrite <- app_assoc. cbn [app]. f_equal. f_equal. f_equal. rewrite app_length. cbn [length]. clear - K. rewrite N.eqb_refl. do 4 f_equal. lia.
Qed.
Lemma find_in l r k p : In p l -> exists a b, l = a ++ p :: b /\ ~ In p a /\ find_loop (l ++ r) k p = k + length a /\ remove1 p l = a ++ b.
Proof.
  revert k. induction l as [|x l IH]; intros k []; cbn.
  - subst. rewrite N.eqb_refl. exists [], l. cbn. repeat split; auto.
  - destruct (N.eqb_spec x p) as [->|N]; [exists [], l; cbn; repeat split; auto|]. destruct (IH (S k) H) as (a & b & A & B & D & E). exists (x :: a), b. cbn. rewrite E, D. split; [now rewrite A|]. split; [|split; [lia|reflexivity]]. intros [|]; auto.
Qed.
Lemma find_out l : forall k p, ~ In p l -> find_loop l k p = k + length l.
Proof. induction l as [|x l IH]; intros k p N; cbn; [lia|]. destruct (N.eqb_spec x p) as [->|]; [exfalso; apply N; now left|]. rewrite IH; [lia|]. intros H. apply N. now right. Qed.
Lemma list_nth_ext (a b : list N) : length a = length b -> (forall i, i < length a -> nth i a 0%N = nth i b 0%N) -> a = b.
Proof. intros L H. exact (nth_ext a b 0%N 0%N L H). Qed.
Lemma detach_ok M l p : 0 < M -> (forall x, In x l -> pid_ok x) -> length l <= M -> In p l -> mark_unmap (table (8 * M) l) p = Ok (table (8 * M) (remove1 p l)).
Proof.
  intros MP PL LN I. set (sz := 8 * M) in *. assert (LS : length l <= sz) by lia. pose proof (PL p I) as PP. unfold pid_ok in PP.
  unfold mark_unmap. assert (Q : negb (p =? 0)%N = true) by (destruct (N.eqb_spec p 0); [lia|auto]). rewrite Q. cbn [assert_ bind]. rewrite table_len by auto.
  destruct (find_in l (repeat 0%N (sz - length l)) 0 p I) as (a & b & A & B & D & E). change (l ++ repeat 0%N (sz - length l)) with (table sz l) in D. rewrite D, E. cbn [Nat.add]. set (c := length a) in *.
  assert (LL : length l = c + S (length b)) by (rewrite A, app_length; cbn; lia). assert (Qc : (c <? sz) = true) by (apply Nat.ltb_lt; lia). rewrite Qc. cbn [assert_ bind]. f_equal.
  assert (WF : wf (table sz l)).
  { intros i. rewrite table_nth. destruct (Nat.lt_ge_cases i (length l)); [|rewrite nth_overflow by auto; reflexivity]. specialize (PL (nth i l 0%N) (nth_In _ _ H)). unfold pid_ok in PL. assert ((2 ^ 31 < W64)%N) by reflexivity. lia. }
  assert (TL := table_len sz l LS). assert (LR : length (a ++ b) <= sz) by (rewrite app_length; fold c; lia).
  apply list_nth_ext; [rewrite upd_length, mv_length, table_len, table_len; auto|]. rewrite upd_length, mv_length, TL. intros i Hi. rewrite (table_nth sz (a ++ b)).
  destruct (Nat.eq_dec i (sz - 1)) as [->|Ni].
  - rewrite nth_upd_eq by (rewrite mv_length, TL; lia). destruct (Nat.lt_ge_cases (sz - 1) (length (a ++ b))) as [X|X]; [|now rewrite nth_overflow]. rewrite app_length in X. fold c in X. lia.
  - rewrite nth_upd_ne by lia. destruct (Nat.lt_ge_cases i c) as [X|X].
    + rewrite mv_before by (auto; lia). rewrite table_nth, A. rewrite !app_nth1 by auto. reflexivity.
    + assert (NB : nth (i + 1) (table sz l) 0%N = nth i (a ++ b) 0%N).
      { rewrite table_nth, A. rewrite app_nth2 by (fold c; lia). rewrite app_nth2 by auto. fold c. replace (i + 1 - c) with (S (i - c)) by lia. reflexivity. }
      destruct (Nat.le_gt_cases (8 * (i + 1)) (8 * c + (sz - (c + 1)))) as [U|U]; [rewrite mv_inside by (auto; lia); exact NB|].
      destruct (Nat.lt_ge_cases i (length l)) as [Y|Y].
      * (* only when the table holds exactly M processes and the first one leaves *)
        assert (i = length l - 1 /\ c = 0) by lia. destruct H as [Hi1 Hc].
        assert (Z0 : nth (i + 1) (table sz l) 0%N = 0%N) by (rewrite table_nth; apply nth_overflow; lia). rewrite <- NB, Z0. apply mv_edge_zero; auto; try lia.
        rewrite table_nth. specialize (PL (nth i l 0%N) (nth_In _ _ Y)). unfold pid_ok in PL. assert ((2 ^ 31 < 2 ^ 56)%N) by reflexivity. lia.
      * assert (Z0 : nth i (table sz l) 0%N = 0%N) by (rewrite table_nth; apply nth_overflow; lia). assert (Z1 : nth (i + 1) (table sz l) 0%N = 0%N) by (rewrite table_nth; apply nth_overflow; lia).
        rewrite <- NB, Z1. rewrite mv_nth by (rewrite TL; lia). rewrite (glue_ext _ (fun j => byte (table sz l) (8 * i + j))).
        -- rewrite glue_cell by apply WF. exact Z0.
        -- intros j J. destruct ((8 * c <=? 8 * i + j) && (8 * i + j <? 8 * c + (sz - (c + 1)))); auto. rewrite !byte_at by auto. now rewrite Z0, Z1.
Qed.

(** * Properties *)
(** As long as at most M = ARAX_PROC_MAP_SIZE / 8 processes (128 by default) are recorded at a time, every call in
    every history answers as the set of recorded processes does. *)
Theorem C35_table_is_set_partial M h : 0 < M -> legal M [] h -> exists m, steps (repeat 0%N (8 * M)) h = Ok (m, specs [] h).
Proof.
  intros MP H. assert (G : forall h l, (forall x, In x l -> pid_ok x) -> length l <= M -> legal M l h -> exists m, steps (table (8 * M) l) h = Ok (m, specs l h)).
  { clear - MP. induction h as [|o h IH]; intros l PL LN LG; [eexists; reflexivity|]. cbn [legal] in LG. destruct LG as [LO LG]. cbn [steps specs]. destruct o as [p|p]; cbn [step].
    - destruct LO as [PP L1]. rewrite (attach_ok (8 * M) l p) by (auto; lia). cbn [bind]. destruct (IH (fst (spec l (Attach p)))) as (m & A); auto.
      + intros x Hx. cbn [spec] in Hx. destruct (in_dec N.eq_dec p l); cbn in Hx; auto. apply in_app_iff in Hx. destruct Hx as [Hx|[<-|[]]]; auto.
      + rewrite A. cbn [bind]. eexists. cbn [spec]. destruct (in_dec N.eq_dec p l); reflexivity.
    - rewrite (detach_ok M l p) by auto. cbn [bind]. destruct (IH (remove1 p l)) as (m & A); auto.
      + intros x Hx. apply PL. revert Hx. clear. induction l as [|y l IHl]; cbn; auto. destruct (y =? p)%N; cbn; tauto.
      + revert LN. clear. intros LN. assert (length (remove1 p l) <= length l) by (induction l as [|y l IHl]; cbn in *; auto; destruct (y =? p)%N; cbn; [lia|]; assert (length l <= M) by lia; specialize (IHl H); lia). lia.
      + rewrite A. cbn [bind]. eexists. reflexivity. }
  replace (repeat 0%N (8 * M)) with (table (8 * M) []) by (unfold table; cbn [app length]; now rewrite Nat.sub_0_r). apply G; auto; [intros x []|cbn; lia].
Qed.
(** Whatever is in the table, the answer to a process is "map" exactly when no cell before the first empty one
    holds its id. *)
Theorem C35_answer sz l p : (forall x, In x l -> pid_ok x) -> pid_ok p -> length l <= sz ->
  exists m b, have_to_mmap (table sz l) p = Ok (m, b) /\ (b = true <-> ~ In p l).
Proof.
  intros PL PP LN. destruct (in_dec N.eq_dec p l) as [I|I].
  - pose proof (attach_ok sz l p PL PP) as A. cbn [spec] in A. destruct (in_dec N.eq_dec p l); [|tauto]. cbn [fst snd] in A. rewrite A by auto. exists (table sz l), false. split; auto. split; [discriminate|tauto].
  - destruct (Nat.eq_dec (length l) sz) as [F|F].
    + unfold have_to_mmap. unfold pid_ok in *. assert (Q : negb (p =? 0)%N = true) by (destruct (N.eqb_spec p 0); [lia|auto]). rewrite Q. cbn [assert_ bind]. exists (table sz l), true. split; [|tauto].
      assert (T : table sz l = l) by (unfold table; rewrite F, Nat.sub_diag; apply app_nil_r). rewrite T at 2. f_equal. assert (G : forall k m, mmap_loop m l k p = (m, true)); [|apply G]. clear - PL I. induction l as [|x l IH]; intros k m; cbn; auto.
      destruct (N.eqb_spec x p) as [->|]; [exfalso; apply I; now left|]. destruct (N.eqb_spec x 0) as [->|]; [specialize (PL 0%N (or_introl eq_refl)); unfold pid_ok in PL; lia|]. apply IH; [intros; apply PL; now right|intros H; apply I; now right].
    + pose proof (attach_ok sz l p PL PP) as A. cbn [spec] in A. destruct (in_dec N.eq_dec p l); [tauto|]. cbn [fst snd] in A. rewrite A by (rewrite app_length; cbn; lia). eexists. exists true. split; [reflexivity|tauto].
Qed.
(** Whatever the number of processes, as long as the table is not full an unmap loses no other process. *)
Lemma find_bound l : forall k p, k <= find_loop l k p <= k + length l.
Proof. induction l as [|x l IH]; intros k p; cbn; [lia|]. destruct (x =? p)%N; [lia|]. specialize (IH (S k) p). lia. Qed.
Lemma find_least l : forall k p i, i < length l -> nth i l 0%N = p -> find_loop l k p <= k + i.
Proof.
  induction l as [|x l IH]; intros k p i H E; cbn in *; [lia|]. destruct (N.eqb_spec x p) as [|N]; [lia|]. destruct i as [|i]; [congruence|]. specialize (IH (S k) p i). cbn in E. specialize (IH ltac:(lia) E). lia.
Qed.
Lemma find_hit l : forall k p, find_loop l k p < k + length l -> nth (find_loop l k p - k) l 0%N = p.
Proof.
  induction l as [|x l IH]; intros k p H; cbn [find_loop] in *; [cbn in H; lia|]. destruct (N.eqb_spec x p) as [->|N]; [now rewrite Nat.sub_diag|]. cbn [length] in H. pose proof (find_bound l (S k) p). specialize (IH (S k) p ltac:(lia)).
  replace (find_loop l (S k) p - k) with (S (find_loop l (S k) p - S k)) by lia. exact IH.
Qed.
Theorem C35_others_kept m m' p q : wf m -> nth (length m - 1) m 0%N = 0%N -> q <> 0%N -> q <> p -> In q m -> mark_unmap m p = Ok m' -> In q m'.
Proof.
  intros WF LZ Q0 QP I H. unfold mark_unmap in H. destruct (negb (p =? 0)%N); cbn [assert_ bind] in H; [|discriminate]. set (c := find_loop m 0 p) in *. destruct (Nat.ltb_spec c (length m)) as [C|C]; cbn [assert_ bind] in H; [|discriminate]. inversion H; subst m'. clear H.
  apply (In_nth m q 0%N) in I. destruct I as (i & Hi & E). set (n := length m - (c + 1)). pose proof (mv_length m c n) as ML.
  assert (PC : nth c m 0%N = p). { pose proof (find_hit m 0 p) as F. fold c in F. rewrite Nat.sub_0_r in F. apply F. exact C. }
  assert (i <> length m - 1) by congruence. assert (i <> c) by congruence.
  assert (G : forall k, k < length m -> k <> length m - 1 -> nth k (memmove m (8 * c) (8 * (c + 1)) n) 0%N = q -> In q (upd (memmove m (8 * c) (8 * (c + 1)) n) (length m - 1) 0%N)).
  { intros k K1 K2 K3. rewrite <- K3, <- (nth_upd_ne _ (length m - 1) k 0%N) by auto. apply nth_In. rewrite upd_length, ML. exact K1. }
  destruct (Nat.lt_ge_cases i c) as [X|X]; [apply (G i); auto; rewrite mv_before; auto|].
  destruct (Nat.le_gt_cases (8 * i) (8 * c + n)) as [U|U].
  - apply (G (i - 1)); try lia. rewrite mv_inside by (auto; lia). replace (i - 1 + 1) with i by lia. exact E.
  - apply (G i); auto. rewrite mv_after; auto. lia.
Qed.
(** unmapping a process that is not recorded aborts *)
Theorem C35_unknown_aborts m p : ~ In p m -> mark_unmap m p = Abort.
Proof. intros I. unfold mark_unmap. destruct (negb (p =? 0)%N); cbn [assert_ bind]; auto. rewrite find_out by auto. cbn [Nat.add]. now rewrite Nat.ltb_irrefl. Qed.
(** Refutation: with 129 processes recorded in the default table, after the first leaves and then the last leaves,
    the last is still recorded: attaching again (for instance a new process that got the same id) it is told not to
    map. *)
Fixpoint pids (k : nat) : list N := match k with O => [] | S j => pids j ++ [N.of_nat (S j)] end.
Theorem C35_refuted : exists m, steps (repeat 0%N 1024) (map Attach (pids 129) ++ [Detach 1%N; Detach 129%N; Attach 129%N]) = Ok (m, repeat (Some true) 129 ++ [None; None; Some false]).
Proof. eexists. vm_compute. reflexivity. Qed.
(** Refutation: in a full table a process is told to map again and again, it is not recorded, and leaving aborts. *)
Theorem C35_full_refuted : exists m, steps (repeat 0%N 1024) (map Attach (pids 1024) ++ [Attach 2000%N; Attach 2000%N]) = Ok (m, repeat (Some true) 1026) /\ mark_unmap m 2000%N = Abort.
Proof. eexists. split; [vm_compute; reflexivity|]. vm_compute. reflexivity. Qed.
Example C35_nonvacuous : legal 128 [] [Attach 77; Attach 78; Attach 77; Detach 77; Attach 77; Detach 78] /\ specs [] [Attach 77; Attach 78; Attach 77; Detach 77; Attach 77; Detach 78] = [Some true; Some true; Some false; None; Some true; None].
Proof. split; [|reflexivity]. cbn. unfold pid_ok. repeat split; try lia; auto; tauto. Qed.
