(** What the heap tells about itself (property C63): arch_alloc_stats and arch_alloc_inspect, which the web view of arax shows.

    Code modelled
    - [src/alloc/dlmalloc/malloc.c:3569-3609]  internal_mallinfo (without ordblks and usmblks)
    - [src/alloc/dlmalloc/malloc.c:5242-5278]  internal_inspect_all
    - [src/alloc/dlmalloc/malloc.c:5989-6006, 6100-6108]  mspace_inspect_all, mspace_mallinfo
    - [src/alloc/dlmalloc/alloc.c:109-141]     _arch_alloc_mspace_mallinfo, arch_alloc_stats, arch_alloc_inspect
    - [vdf/Views/Allocations.cpp:41-59]        the numbers the view shows

    The heap is the one of [DlModel]; both functions hold its lock (PREACTION), so they see it between two calls. *)
From Verif Require Import Base DlModel DlInv DlAlloc DlSys DlPre DlMalloc DlFree DlFwd DlHist DlProps DlEx.
From Coq Require Import Lia.
Local Open Scope N_scope.
Arguments N.add : simpl never. Arguments N.sub : simpl never. Arguments N.mul : simpl never. Arguments N.div : simpl never.
Arguments N.modulo : simpl never. Arguments N.eqb : simpl never. Arguments N.ltb : simpl never. Arguments N.leb : simpl never.
Arguments N.odd : simpl never.

(** ** The code *)
(** next_chunk, malloc.c:2321 *)
Definition next_chunk (s : ms) (q : N) : N := q + chunksize s q.
(** subtraction of size_t *)
Definition sub64 (a b : N) : N := (a + W - b) mod W.
(** the inner loop of internal_mallinfo, malloc.c:3582-3592: [sum] and [mfree].  A chunk is 32 bytes or more, so the loop of
    a segment of n bytes cannot go on for more than n/32 steps; if it did ([fuel] is used up) it would not end *)
Fixpoint info_loop (fuel : nat) (s : ms) (g : seg) (q sum mfree : N) : outcome (N * N) :=
  if within (sbase g) (ssize g) q && negb (q =? top s) && negb (head s q =? 11) then
    match fuel with
    | O => UB
    | S f => let sz := chunksize s q in
             info_loop f s g (next_chunk s q) (sum + sz) (if is_inuse s q then mfree else mfree + sz)
    end
  else Ok (sum, mfree).
(** the outer loop, malloc.c:3580-3594 *)
Fixpoint info_segs (s : ms) (l : list seg) (sum mfree : N) : outcome (N * N) :=
  match l with
  | [] => Ok (sum, mfree)
  | g :: r => do x <- info_loop (S (N.to_nat (ssize g / 32))) s g (sbase g) sum mfree; info_segs s r (fst x) (snd x)
  end.
(** struct mallinfo, malloc.c:770-782 *)
Record info := mki { arena : N; hblkhd : N; uordblks : N; fordblks : N; keepcost : N }.
(** internal_mallinfo, malloc.c:3569-3609 *)
Definition mallinfo (s : ms) : outcome info :=
  do x <- info_segs s (segs s) (topsize s + TOP_FOOT) (topsize s + TOP_FOOT);
  Ok (mki (fst x) (sub64 (foot s) (fst x)) (sub64 (foot s) (snd x)) (snd x) (topsize s)).
(** unsigned int *)
Definition u32 (n : N) : N := n mod 2 ^ 32.
(** arch_alloc_stats, alloc.c:109-133: total_bytes and used_bytes *)
Definition stats (s : ms) : outcome (N * N) := do i <- mallinfo s; Ok (u32 (arena i), u32 (uordblks i)).
(** what the view shows as Free, Allocations.cpp:54 *)
Definition shown_free (t : N * N) : N := sub64 (fst t) (snd t).
(** what internal_inspect_all passes to the handler for a chunk, malloc.c:5255-5270: start, end, used bytes *)
Definition report (q sz : N) (inuse : bool) : list (N * N * N) :=
  let next := q + sz in
  let used := if inuse then sz - 8 else 0 in
  let start := if inuse then q + 16 else if is_small sz then q + 32 else q + 64 in
  if start <? next then [(start, next, used)] else [].
(** its inner loop, malloc.c:5253-5274 *)
Fixpoint inspect_loop (fuel : nat) (s : ms) (g : seg) (q : N) : outcome (list (N * N * N)) :=
  if within (sbase g) (ssize g) q && negb (head s q =? 11) then
    match fuel with
    | O => UB
    | S f => let here := report q (chunksize s q) (is_inuse s q) in
             if q =? top s then Ok here
             else do r <- inspect_loop f s g (next_chunk s q); Ok (here ++ r)
    end
  else Ok [].
(** its outer loop, malloc.c:5251-5275 *)
Fixpoint inspect_segs (s : ms) (l : list seg) : outcome (list (N * N * N)) :=
  match l with
  | [] => Ok []
  | g :: r => do x <- inspect_loop (S (N.to_nat (ssize g / 32))) s g (sbase g); do y <- inspect_segs s r; Ok (x ++ y)
  end.
(** arch_alloc_inspect, alloc.c:135-141: the calls of the handler, in order *)
Definition inspect (s : ms) : outcome (list (N * N * N)) := inspect_segs s (segs s).

(** ** Specification *)
(** Bytes the program holds, with the 8 bytes of the head of each block. *)
Definition held (L : list block) : N := fold_right (fun x n => size x + 8 + n) 0 L.
(** Segments after the first. *)
Definition later (s : ms) : N := N.of_nat (length (tl (segs s))).
(** Is the block inside a segment?  (Otherwise it has pages of its own: blocks of 256 KB or more.) *)
Definition in_segment (s : ms) (x : block) : Prop := exists g, In g (segs s) /\ sbase g <= addr x /\ addr x < sbase g + ssize g.

(** ** Sums over tiles *)
Fixpoint ksum (p : kind -> bool) (l : list (N * kind)) : N := match l with [] => 0 | (n, k) :: r => (if p k then n else 0) + ksum p r end.
Definition isF (k : kind) : bool := negb (used k).
Definition isU (k : kind) : bool := match k with Us => true | _ => false end.
Definition isX (k : kind) : bool := match k with Fx => true | _ => false end.
Lemma ksum_all l : ksum isF l + ksum isU l + ksum isX l = tot l.
Proof. induction l as [|[n [| |]] r IH]; cbn [ksum tot isF isU isX used negb]; lia. Qed.
Definition gsum (f : gseg -> N) (G : list gseg) : N := fold_right (fun g n => f g + n) 0 G.
Lemma len_tot l : Forall (fun c : N * kind => 32 <= fst c /\ fst c mod 16 = 0) l -> N.of_nat (length l) * 32 <= tot l.
Proof. induction 1 as [|[n k] r (A & B) _ IH]; cbn [tot length fst] in *; lia. Qed.
Lemma head_inuse s c n k pin : mem s (c + 8) = n + 2 * bit (used k) + bit pin -> n mod 16 = 0 -> 32 <= n -> (k = Fr -> pin = true) ->
  chunksize s c = n /\ is_inuse s c = used k /\ (head s c =? 11) = false.
Proof.
  intros H A B F. unfold chunksize, is_inuse, head. rewrite H. rewrite hd_size by exact A. rewrite hd_mod4 by exact A.
  split; [reflexivity|]. split; [|apply N.eqb_neq; destruct (used k), pin; cbn [bit]; lia].
  destruct k; cbn [used bit]; [rewrite (F eq_refl); reflexivity | destruct pin; reflexivity | destruct pin; reflexivity].
Qed.
Lemma info_rep s g e l : forall a pin pe sum mfree fuel, rep (mem s) a pin l e pe -> sbase g <= a -> e <= sbase g + ssize g ->
  top s < a \/ e <= top s -> (e = top s \/ head s e = 11) -> (length l <= fuel)%nat ->
  info_loop fuel s g a sum mfree = Ok (sum + tot l, mfree + ksum isF l).
Proof.
  induction l as [|[n k] r IH]; intros a pin pe sum mfree fuel R B1 B2 T E LF.
  - cbn [rep] in R. destruct R as (-> & _). cbn [tot ksum]. rewrite !N.add_0_r. destruct fuel; cbn [info_loop];
      (replace (negb (e =? top s) && negb (head s e =? 11))%bool with false
        by (destruct E as [-> | ->]; rewrite ?N.eqb_refl, ?andb_false_r; reflexivity)); rewrite <- andb_assoc;
      (replace (negb (e =? top s) && negb (head s e =? 11))%bool with false
        by (destruct E as [-> | ->]; rewrite ?N.eqb_refl, ?andb_false_r; reflexivity)); rewrite andb_false_r; reflexivity.
  - cbn [rep] in R. destruct R as (R1 & R2 & R3 & R4 & R5). cbn [length] in LF. destruct fuel as [|fuel]; [lia|].
    pose proof (rep_end _ _ _ _ _ _ R5) as RE. destruct (head_inuse s a n k pin R3 R2 R1 (fun K => proj1 (R4 K))) as (C & U & NF).
    cbn [info_loop]. replace (within (sbase g) (ssize g) a) with true by (symmetry; apply within_spec; lia).
    replace (a =? top s) with false by (symmetry; apply N.eqb_neq; lia). rewrite NF. cbn [negb andb]. unfold next_chunk. rewrite C, U.
    rewrite (IH (a + n) (used k) pe) by (try exact R5; lia || exact E). cbn [tot ksum]. unfold isF at 2. destruct (used k); cbn [negb]; do 2 f_equal; lia.
Qed.
Definition rpt (c : N * N * kind) : list (N * N * N) := report (fst (fst c)) (snd (fst c)) (used (snd c)).
Lemma inspect_rep s g e l : forall a pin pe fuel, rep (mem s) a pin l e pe -> sbase g <= a -> e <= sbase g + ssize g ->
  top s < a \/ e <= top s -> (length l <= fuel)%nat ->
  inspect_loop fuel s g a = do r <- inspect_loop (fuel - length l) s g e; Ok (flat_map rpt (chunks a l) ++ r).
Proof.
  induction l as [|[n k] r IH]; intros a pin pe fuel R B1 B2 T LF.
  - cbn [rep] in R. destruct R as (-> & _). cbn [length chunks flat_map app]. rewrite Nat.sub_0_r. destruct (inspect_loop fuel s g e); reflexivity.
  - cbn [rep] in R. destruct R as (R1 & R2 & R3 & R4 & R5). cbn [length] in LF. destruct fuel as [|fuel]; [lia|].
    pose proof (rep_end _ _ _ _ _ _ R5) as RE. destruct (head_inuse s a n k pin R3 R2 R1 (fun K => proj1 (R4 K))) as (C & U & NF).
    cbn [inspect_loop length]. replace (within (sbase g) (ssize g) a) with true by (symmetry; apply within_spec; lia).
    replace (a =? top s) with false by (symmetry; apply N.eqb_neq; lia). rewrite NF. cbn [negb andb]. unfold next_chunk. rewrite C, U.
    rewrite (IH (a + n) (used k) pe) by (try exact R5; lia). rewrite Nat.sub_succ. cbn [chunks flat_map]. unfold rpt at 3. cbn [fst snd].
    destruct (inspect_loop (fuel - length r) s g e); cbn [bind]; [rewrite app_assoc|  | ]; reflexivity.
Qed.

(** ** The walks over a heap *)
Definition fence (gl : gseg) : N := ssize (fst gl) - tot (snd gl).
Lemma tail_facts s h t D gl : Inv s (h :: t) D -> In gl t ->
  rep (mem s) (sbase (fst gl)) true (snd gl) (srec (fst gl) + 32) true /\ head s (srec (fst gl) + 32) = 11 /\
  (top s < sbase (fst gl) \/ sbase (fst gl) + ssize (fst gl) <= top s) /\ srec (fst gl) + 32 = sbase (fst gl) + tot (snd gl) /\
  ssize (fst gl) = tot (snd gl) + fence gl /\ (fence gl = 32 \/ fence gl = 48) /\ (length (snd gl) <= N.to_nat (ssize (fst gl) / 32))%nat.
Proof.
  intros I IN. pose proof (i_core _ _ _ I) as C. pose proof (c_segs _ _ _ _ _ _ _ _ C) as S. cbn [segs_ok] in S. destruct S as (H & F). rewrite Forall_forall in F.
  destruct (F _ IN) as (_ & R & Z & _ & _ & FE). pose proof (rep_end _ _ _ _ _ _ R) as RE. destruct H as (_ & H & _).
  split; [exact R|]. split; [unfold head; replace (srec (fst gl) + 32 + 8) with (srec (fst gl) + 40) by lia; exact FE|].
  pose proof (geo_apart [] h t D _ _ gl (c_geo _ _ _ _ _ _ _ _ C) IN) as P. unfold rdisj, reg in P. cbn [fst snd] in P.
  pose proof (c_segs _ _ _ _ _ _ _ _ C) as S. cbn [segs_ok] in S. destruct S as ((HR & _) & _). pose proof (rep_end _ _ _ _ _ _ HR) as HE.
  split; [lia|]. split; [exact RE|]. unfold fence. split; [lia|]. split; [lia|].
  pose proof (len_tot _ (rep_sizes _ _ _ _ _ _ R)) as LT.
  assert (Q : N.of_nat (length (snd gl)) <= ssize (fst gl) / 32) by (apply N.div_le_lower_bound; lia). lia.
Qed.
Lemma head_facts s h t D : Inv s (h :: t) D ->
  rep (mem s) (sbase (fst h)) true (snd h) (top s) true /\ top s = sbase (fst h) + tot (snd h) /\ tot (snd h) + topsize s + 80 = ssize (fst h) /\
  16 <= topsize s /\ topsize s mod 16 = 0 /\ head s (top s) = topsize s + 1 /\ (length (snd h) < S (N.to_nat (ssize (fst h) / 32)))%nat.
Proof.
  intros I. pose proof (i_core _ _ _ I) as C. pose proof (c_segs _ _ _ _ _ _ _ _ C) as S. cbn [segs_ok] in S. destruct S as ((R & T1 & T2 & T3 & T4 & _) & _).
  pose proof (rep_end _ _ _ _ _ _ R) as RE. split; [exact R|]. split; [exact RE|]. split; [lia|]. split; [exact T2|]. split; [exact T3|]. split; [exact T4|].
  pose proof (len_tot _ (rep_sizes _ _ _ _ _ _ R)) as LT.
  assert (Q : N.of_nat (length (snd h)) <= ssize (fst h) / 32) by (apply N.div_le_lower_bound; lia). lia.
Qed.
Lemma info_tail s h t D : Inv s (h :: t) D -> forall l, (forall gl, In gl l -> In gl t) -> forall sum mfree,
  info_segs s (map fst l) sum mfree = Ok (sum + gsum (fun g => tot (snd g)) l, mfree + gsum (fun g => ksum isF (snd g)) l).
Proof.
  intros I l. induction l as [|gl l IH]; intros SB sum mfree; cbn [map info_segs gsum fold_right]; [rewrite !N.add_0_r; reflexivity|].
  destruct (tail_facts s h t D gl I (SB gl (or_introl eq_refl))) as (R & HF & TA & E & Z & FE & LE).
  rewrite (info_rep s (fst gl) (srec (fst gl) + 32) (snd gl) (sbase (fst gl)) true true) by (try exact R; try (right; exact HF); lia).
  cbn [bind fst snd]. rewrite IH by (intros x X; apply SB; now right). unfold gsum. do 2 f_equal; lia.
Qed.
Lemma info_heap s h t D : Inv s (h :: t) D ->
  info_segs s (segs s) (topsize s + TOP_FOOT) (topsize s + TOP_FOOT) =
  Ok (topsize s + 80 + gsum (fun g => tot (snd g)) (h :: t), topsize s + 80 + gsum (fun g => ksum isF (snd g)) (h :: t)).
Proof.
  intros I. rewrite <- (i_segs _ _ _ I). cbn [map info_segs]. destruct (head_facts s h t D I) as (R & E & Z & T1 & T2 & T3 & LE).
  rewrite (info_rep s (fst h) (top s) (snd h) (sbase (fst h)) true true) by (try exact R; try (left; reflexivity); lia).
  cbn [bind fst snd]. rewrite (info_tail s h t D I t) by auto. unfold TOP_FOOT, gsum. cbn [fold_right]. do 2 f_equal; lia.
Qed.
Lemma inspect_end fuel s g e : head s e = 11 -> inspect_loop fuel s g e = Ok [].
Proof. intros H. destruct fuel; cbn [inspect_loop]; rewrite H, N.eqb_refl, andb_false_r; reflexivity. Qed.
Lemma inspect_tail s h t D : Inv s (h :: t) D -> forall l, (forall gl, In gl l -> In gl t) ->
  inspect_segs s (map fst l) = Ok (flat_map rpt (tiles l)).
Proof.
  intros I l. induction l as [|gl l IH]; intros SB; cbn [map inspect_segs]; [reflexivity|].
  destruct (tail_facts s h t D gl I (SB gl (or_introl eq_refl))) as (R & HF & TA & E & Z & FE & LE).
  rewrite (inspect_rep s (fst gl) (srec (fst gl) + 32) (snd gl) (sbase (fst gl)) true true) by (try exact R; lia).
  rewrite inspect_end by exact HF. cbn [bind]. rewrite IH by (intros x X; apply SB; now right). cbn [bind]. unfold tiles. cbn [flat_map].
  rewrite app_nil_r, flat_map_app. reflexivity.
Qed.
Lemma inspect_heap s h t D : Inv s (h :: t) D ->
  inspect s = Ok (flat_map rpt (chunks (sbase (fst h)) (snd h) ++ (top s, topsize s, Fr) :: tiles t)).
Proof.
  intros I. unfold inspect. rewrite <- (i_segs _ _ _ I). cbn [map inspect_segs]. destruct (head_facts s h t D I) as (R & E & Z & T1 & T2 & T3 & LE).
  rewrite (inspect_rep s (fst h) (top s) (snd h) (sbase (fst h)) true true) by (try exact R; lia).
  destruct (S (N.to_nat (ssize (fst h) / 32)) - length (snd h))%nat as [|f] eqn:EF; [lia|]. cbn [inspect_loop].
  replace (within (sbase (fst h)) (ssize (fst h)) (top s)) with true by (symmetry; apply within_spec; lia). rewrite T3, N.eqb_refl.
  replace (topsize s + 1 =? 11) with false by (symmetry; apply N.eqb_neq; lia). cbn [negb andb bind]. rewrite (inspect_tail s h t D I t) by auto. cbn [bind].
  rewrite flat_map_app. cbn [flat_map]. unfold rpt at 4. cbn [fst snd used]. unfold chunksize, is_inuse. rewrite T3.
  pose proof (hd_size (topsize s) false true T2) as Q1. pose proof (hd_mod4 (topsize s) false true T2) as Q2. cbn [bit] in Q1, Q2. rewrite N.mul_0_r, N.add_0_r in Q1, Q2.
  rewrite Q1, Q2. change (negb (0 + 1 =? 1)) with false. rewrite <- app_assoc. reflexivity.
Qed.

(** ** Tiles are apart *)
Lemma FOP_app {A} (R : A -> A -> Prop) l1 l2 :
  ForallOrdPairs R (l1 ++ l2) <-> ForallOrdPairs R l1 /\ ForallOrdPairs R l2 /\ forall x y, In x l1 -> In y l2 -> R x y.
Proof.
  induction l1 as [|a l1 IH]; cbn [app].
  - split; [intros H; split; [constructor | split; [exact H | intros x y []]] | tauto].
  - split.
    + intros H. inversion H as [|? ? F P]; subst. apply IH in P. destruct P as (P1 & P2 & P3). apply Forall_app in F. destruct F as (F1 & F2).
      split; [constructor; assumption|]. split; [exact P2|]. intros x y [<- | X] Y; [rewrite Forall_forall in F2; auto | auto].
    + intros (P1 & P2 & P3). inversion P1 as [|? ? F P]; subst. constructor.
      * apply Forall_app. split; [exact F|]. apply Forall_forall. intros y Y. apply P3; [now left | exact Y].
      * apply IH. split; [exact P|]. split; [exact P2|]. intros x y X Y. apply P3; [now right | exact Y].
Qed.
Lemma FOP_flat {A B} (R : A -> A -> Prop) (Q : B -> B -> Prop) (f : A -> list B) l :
  (forall x, In x l -> ForallOrdPairs Q (f x)) -> (forall x y a b, In x l -> In y l -> R x y -> In a (f x) -> In b (f y) -> Q a b) ->
  ForallOrdPairs R l -> ForallOrdPairs Q (flat_map f l).
Proof.
  intros F H P. induction P as [|x l P1 P2 IH]; cbn [flat_map]; [constructor|]. apply FOP_app. split; [apply F; now left|]. split.
  - apply IH; [intros y Y; apply F; now right | intros y z a b Y Z; apply H; now right].
  - intros a b IA IB. apply in_flat_map in IB. destruct IB as (y & Y & IB). rewrite Forall_forall in P1. apply (H x y); [now left | now right | apply P1, Y | exact IA | exact IB].
Qed.
Lemma FOP_filter {A} (R : A -> A -> Prop) (f : A -> bool) l : ForallOrdPairs R l -> ForallOrdPairs R (filter f l).
Proof.
  induction 1 as [|x l P1 P2 IH]; cbn [filter]; [constructor|]. destruct (f x); [|exact IH]. constructor; [|exact IH].
  rewrite Forall_forall in *. intros y Y. apply filter_In in Y. apply P1, Y.
Qed.
Lemma chunks_FOP l : forall a, ForallOrdPairs apart (chunks a l).
Proof.
  induction l as [|[n k] r IH]; intros a; cbn [chunks]; [constructor|]. constructor; [|apply IH]. apply Forall_forall. intros [[c m] j] I.
  apply chunks_range in I. left. cbn [fst snd]. lia.
Qed.
Definition inside (gl : gseg) : Prop := tot (snd gl) <= ssize (fst gl).
Lemma tiles_FOP G : Forall inside G -> ForallOrdPairs rdisj (map reg G) -> ForallOrdPairs apart (tiles G).
Proof.
  intros F P. assert (P' : ForallOrdPairs (fun x y => rdisj (reg x) (reg y)) G).
  { clear F. induction G as [|g G IH]; [constructor|]. cbn [map] in P. inversion P as [|? ? P1 P2]; subst. constructor; [|apply IH, P2].
    apply Forall_forall. intros y Y. rewrite Forall_forall in P1. apply P1, in_map, Y. }
  refine (FOP_flat _ apart _ G _ _ P').
  - intros x _. apply chunks_FOP.
  - rewrite Forall_forall in F. intros x y [[a n] j] [[b m] k] X Y D IA IB. apply chunks_range in IA, IB. apply F in X, Y. unfold inside in *.
    unfold rdisj, reg, apart in *. cbn [fst snd] in *. lia.
Qed.
(** the segments, with top as the last chunk of the first *)
Definition full (s : ms) (G : list gseg) : list gseg :=
  match G with [] => [] | h :: t => (fst h, snd h ++ [(topsize s, Fr)]) :: t end.
Lemma full_FOP s G D : Inv s G D -> ForallOrdPairs apart (tiles (full s G)).
Proof.
  intros I. pose proof (c_geo _ _ _ _ _ _ _ _ (i_core _ _ _ I)) as (_ & GE). unfold regs in GE. apply FOP_app in GE. destruct GE as (GE & _ & _).
  destruct G as [|h t]; [constructor|]. apply tiles_FOP; [|exact GE]. constructor.
  - destruct (head_facts s h t D I) as (_ & _ & Z & _). unfold inside. cbn [full fst snd]. rewrite tot_app. cbn [tot]. lia.
  - apply Forall_forall. intros gl IN. destruct (tail_facts s h t D gl I IN) as (_ & _ & _ & _ & Z & _). unfold inside. lia.
Qed.
Lemma full_tiles s h t D c : Inv s (h :: t) D -> In c (tiles (full s (h :: t))) <-> In c (tiles (h :: t)) \/ c = (top s, topsize s, Fr).
Proof.
  intros I. destruct (head_facts s h t D I) as (_ & E & _). unfold tiles. cbn [full flat_map fst snd]. rewrite chunks_app. cbn [chunks]. rewrite <- E.
  rewrite !in_app_iff. cbn [In]. intuition congruence.
Qed.
Lemma tiles_sub s G D : Inv s G D -> ForallOrdPairs apart (tiles G).
Proof.
  intros I. pose proof (c_geo _ _ _ _ _ _ _ _ (i_core _ _ _ I)) as (_ & GE). unfold regs in GE. apply FOP_app in GE. destruct GE as (GE & _ & _).
  destruct G as [|h t]; [constructor|]. apply tiles_FOP; [|exact GE]. constructor.
  - destruct (head_facts s h t D I) as (_ & _ & Z & _). unfold inside. lia.
  - apply Forall_forall. intros gl IN. destruct (tail_facts s h t D gl I IN) as (_ & _ & _ & _ & Z & _). unfold inside. lia.
Qed.

(** ** Sums *)
Definition wsum (l : list (N * N)) : N := fold_right (fun p n => snd p + n) 0 l.
Lemma wsum_cons a w l : wsum ((a, w) :: l) = w + wsum l.
Proof. reflexivity. Qed.
Lemma wsum_app a b : wsum (a ++ b) = wsum a + wsum b.
Proof. unfold wsum. induction a as [|x a IH]; cbn [app fold_right]; lia. Qed.
Lemma wsum_le A : forall B, NoDup (map fst A) -> (forall a w, In (a, w) A -> exists v, In (a, v) B /\ w <= v) -> wsum A <= wsum B.
Proof.
  induction A as [|[a w] A IH]; intros B ND H; [cbn; lia|]. cbn [map] in ND. inversion ND as [|? ? N1 N2]; subst.
  destruct (H a w (or_introl eq_refl)) as (v & IV & LE). apply in_split in IV. destruct IV as (B1 & B2 & ->).
  assert (Q : wsum A <= wsum (B1 ++ B2)).
  { apply IH; [exact N2|]. intros b u IU. destruct (H b u (or_intror IU)) as (v' & IV & LE'). exists v'. split; [|exact LE'].
    apply in_app_or in IV. apply in_or_app. destruct IV as [IV | [IV | IV]]; [now left | | now right]. injection IV as <- _. exfalso. apply N1.
    apply (in_map fst) in IU. exact IU. }
  rewrite wsum_app in *. cbn [wsum fold_right snd] in *. fold (wsum A). fold (wsum B2) in *. lia.
Qed.
Definition pick (p : kind -> bool) (T : list (N * N * kind)) : list (N * N) :=
  map (fun c => (fst (fst c) + 16, snd (fst c))) (filter (fun c => p (snd c)) T).
Lemma pick_in p T a n : In (a, n) (pick p T) <-> exists c k, a = c + 16 /\ p k = true /\ In (c, n, k) T.
Proof.
  unfold pick. rewrite in_map_iff. split.
  - intros ([[c m] k] & E & I). apply filter_In in I. cbn [fst snd] in *. injection E as <- <-. exists c, k. tauto.
  - intros (c & k & -> & P & I). exists (c, n, k). split; [reflexivity|]. apply filter_In. auto.
Qed.
Lemma pick_app p A B : pick p (A ++ B) = pick p A ++ pick p B.
Proof. unfold pick. rewrite filter_app, map_app. reflexivity. Qed.
Lemma pick_chunks p l : forall a, wsum (pick p (chunks a l)) = ksum p l.
Proof.
  induction l as [|[n k] r IH]; intros a; [reflexivity|]. cbn [chunks ksum]. unfold pick. cbn [filter snd]. specialize (IH (a + n)). unfold pick in IH.
  destruct (p k); cbn [map wsum fold_right snd fst]; fold (wsum (map (fun c : N * N * kind => (fst (fst c) + 16, snd (fst c))) (filter (fun c => p (snd c)) (chunks (a + n) r)))); lia.
Qed.
Lemma pick_tiles p G : wsum (pick p (tiles G)) = gsum (fun g => ksum p (snd g)) G.
Proof.
  induction G as [|g G IH]; [reflexivity|]. unfold tiles. cbn [flat_map]. rewrite pick_app, wsum_app, pick_chunks. cbn [gsum fold_right]. unfold tiles, gsum in IH. rewrite IH. reflexivity.
Qed.
Lemma pick_nodup p T : (forall c n k, In (c, n, k) T -> 32 <= n) -> ForallOrdPairs apart T -> NoDup (map fst (pick p T)).
Proof.
  intros Z P. induction P as [|[[c n] k] T P1 P2 IH]; [constructor|]. assert (Z' : forall c n k, In (c, n, k) T -> 32 <= n) by (intros c' n' k' I'; apply (Z c' n' k'); now right).
  unfold pick. cbn [filter snd]. specialize (IH Z'). unfold pick in IH. destruct (p k); [|exact IH]. cbn [map fst snd]. constructor; [|exact IH]. intros I.
  apply in_map_iff in I. destruct I as ([a m] & E & I). fold (pick p T) in I. apply pick_in in I. destruct I as (c' & k' & -> & _ & I). cbn [fst] in E.
  rewrite Forall_forall in P1. specialize (P1 _ I). pose proof (Z _ _ _ (or_introl eq_refl)). pose proof (Z' _ _ _ I). unfold apart in P1. cbn [fst snd] in P1. lia.
Qed.
Lemma gsum_add f g h G : (forall x, In x G -> f x + g x = h x) -> gsum f G + gsum g G = gsum h G.
Proof.
  unfold gsum. induction G as [|x G IH]; intros H; [reflexivity|]. cbn [fold_right]. rewrite <- (H x (or_introl eq_refl)), <- IH; [lia | intros y Y; apply H; now right].
Qed.
(** the allocator's own chunks *)
Lemma fx_sum s h t D : Inv s (h :: t) D -> gsum (fun g => ksum isX (snd g)) (h :: t) = 944 + 48 * N.of_nat (length t).
Proof.
  intros I. pose proof (i_core _ _ _ I) as C. rewrite <- pick_tiles.
  assert (ZZ : forall c n k, In (c, n, k) (tiles (h :: t)) -> 32 <= n) by (intros c n k IT; apply (tile_facts _ _ _ _ _ _ _ _ _ _ _ C IT)).
  destruct (c_mst _ _ _ _ _ _ _ _ C) as (cm & EM & IM).
  assert (RT : forall gl, In gl t -> exists c, srec (fst gl) = c + 16 /\ In (c, 48, Fx) (tiles (h :: t)) /\ sbase (fst gl) <= c /\ c < sbase (fst gl) + ssize (fst gl)).
  { intros gl IG. destruct (tail_facts s h t D gl I IG) as (R & _ & _ & E & Z & _).
    pose proof (c_segs _ _ _ _ _ _ _ _ C) as S. cbn [segs_ok] in S. destruct S as (_ & F). rewrite Forall_forall in F. destruct (F _ IG) as ((l' & EL) & _).
    assert (ET : tot (snd gl) = tot l' + 48) by (rewrite EL, tot_app; cbn [tot]; lia).
    exists (sbase (fst gl) + tot l'). split; [lia|]. split; [|lia].
    apply in_flat_map. exists gl. split; [now right|]. rewrite EL. apply chunks_in. }
  set (K := (mst s, 944) :: map (fun gl => (srec (fst gl), 48)) t).
  assert (EK : wsum K = 944 + 48 * N.of_nat (length t)).
  { unfold K. rewrite wsum_cons. f_equal. clear. induction t as [|g t IH]; [reflexivity|]. cbn [map length]. rewrite wsum_cons, IH. lia. }
  rewrite <- EK. apply N.le_antisymm.
  - apply wsum_le; [apply pick_nodup; [exact ZZ | apply (tiles_sub _ _ _ I)]|]. intros a n IA. apply pick_in in IA. destruct IA as (c & k & -> & PK & IA).
    assert (k = Fx) as -> by (destruct k; discriminate || reflexivity). destruct (c_fx _ _ _ _ _ _ _ _ C _ _ IA) as [E | (gl & IG & E)].
    + exists 944. split; [left; congruence|]. assert (c = cm) as -> by lia. destruct (tile_fun _ _ _ _ _ _ _ _ _ _ _ _ _ C IA IM) as (-> & _). lia.
    + cbn [tl] in IG. exists 48. destruct (RT _ IG) as (c' & E' & I' & _). split; [right; apply in_map_iff; exists gl; split; [rewrite E; reflexivity | exact IG]|].
      assert (c = c') as -> by lia. destruct (tile_fun _ _ _ _ _ _ _ _ _ _ _ _ _ C IA I') as (-> & _). lia.
  - apply wsum_le.
    + unfold K. cbn [map fst]. rewrite map_map. cbn [fst]. constructor.
      * intros J. apply in_map_iff in J. destruct J as (gl & E & IG). destruct (RT _ IG) as (c' & E' & I' & _). assert (c' = cm) as -> by lia.
        destruct (tile_fun _ _ _ _ _ _ _ _ _ _ _ _ _ C IM I') as (Q & _). discriminate.
      * destruct (c_geo _ _ _ _ _ _ _ _ C) as (_ & GE). unfold regs in GE. apply FOP_app in GE. destruct GE as (GE & _ & _). cbn [map] in GE. inversion GE as [|? ? _ GT]; subst.
        assert (RT' : forall gl, In gl t -> exists c, srec (fst gl) = c + 16 /\ sbase (fst gl) <= c /\ c < sbase (fst gl) + ssize (fst gl)).
        { intros gl IG. destruct (RT gl IG) as (c1 & E1 & _ & B1). eauto. }
        clear - RT' GT. rename RT' into RT. induction t as [|gl t IH]; [constructor|]. cbn [map] in *. inversion GT as [|? ? P1 P2]; subst. constructor.
        -- intros J. apply in_map_iff in J. destruct J as (g2 & E & IG). destruct (RT gl (or_introl eq_refl)) as (c1 & E1 & B1). destruct (RT g2 (or_intror IG)) as (c2 & E2 & B2).
           rewrite Forall_forall in P1. specialize (P1 _ (in_map reg _ _ IG)). unfold rdisj, reg in P1. cbn [fst snd] in P1. lia.
        -- apply IH; [exact P2|]. intros g2 IG. apply RT. now right.
    + intros a w [J | J].
      * injection J as <- <-. exists 944. split; [apply pick_in; exists cm, Fx; auto | lia].
      * apply in_map_iff in J. destruct J as (gl & E & IG). injection E as <- <-. destruct (RT _ IG) as (c' & E' & I' & _). exists 48. split; [|lia].
        apply pick_in. exists c', Fx. auto.
Qed.
(** what the operating system has given *)
Lemma disj_sum R : forall lo hi, lo <= hi -> ForallOrdPairs rdisj R -> (forall r, In r R -> lo <= fst r /\ fst r + snd r <= hi) -> sizes R <= hi - lo.
Proof.
  induction R as [R IH] using (induction_ltof1 _ (@length _)); unfold ltof in IH. intros lo hi LE P B. destruct R as [|r R]; [cbn; lia|].
  inversion P as [|? ? P1 P2]; subst. rewrite Forall_forall in P1. pose proof (B r (or_introl eq_refl)) as B0.
  set (f := fun q : N * N => fst q + snd q <=? fst r).
  assert (SP : sizes R = sizes (filter f R) + sizes (filter (fun q => negb (f q)) R)).
  { clear. induction R as [|q R IH]; [reflexivity|]. cbn [filter]. destruct (f q); cbn [negb]; unfold sizes in *; cbn [map fold_right] in *; lia. }
  assert (LF : forall f : N * N -> bool, (length (filter f R) < length (r :: R))%nat).
  { clear. intros f. cbn [length]. induction R as [|q R IH]; [cbn; lia|]. cbn [filter length]. destruct (f q); cbn [length]; lia. }
  assert (S1 : sizes (filter f R) <= fst r - lo).
  { apply IH; [apply LF | lia | apply FOP_filter, P2|]. intros q Q. apply filter_In in Q. destruct Q as (Q & Q2). unfold f in Q2. apply N.leb_le in Q2. pose proof (B q (or_intror Q)). lia. }
  assert (S2 : sizes (filter (fun q => negb (f q)) R) <= hi - (fst r + snd r)).
  { apply IH; [apply LF | lia | apply FOP_filter, P2|]. intros q Q. apply filter_In in Q. destruct Q as (Q & Q2). apply negb_true_iff in Q2. unfold f in Q2. apply N.leb_gt in Q2.
    pose proof (B q (or_intror Q)). pose proof (P1 q Q) as D. unfold rdisj in D. lia. }
  assert (E : sizes (r :: R) = snd r + sizes R) by reflexivity. lia.
Qed.
Lemma foot_lt s G D : Inv s G D -> foot s < W.
Proof.
  intros I. pose proof (c_geo _ _ _ _ _ _ _ _ (i_core _ _ _ I)) as (F & P). rewrite Forall_forall in F. rewrite (i_foot _ _ _ I).
  enough (sizes (regs G D) <= W - 4096) by (unfold W in *; lia). apply disj_sum; [discriminate | exact P|]. intros r IR. destruct (F _ IR) as (A & _ & _ & _ & B & _). auto.
Qed.
Definition dsum (D : list (N * N)) : N := fold_right (fun d n => snd d + 32 + n) 0 D.
Lemma foot_parts s h t D : Inv s (h :: t) D -> foot s = topsize s + 80 + gsum (fun g => tot (snd g)) (h :: t) + gsum fence t + dsum D.
Proof.
  intros I. rewrite (i_foot _ _ _ I). unfold regs. cbn [map app].
  assert (SD : sizes (map dreg D) = dsum D) by (clear; induction D as [|d D IH]; [reflexivity|]; unfold sizes in *; cbn [map fold_right dsum dreg snd] in *; fold (dsum D); lia).
  assert (ST : sizes (map reg t) = gsum (fun g => tot (snd g)) t + gsum fence t).
  { assert (Q : forall l, (forall x, In x l -> In x t) -> sizes (map reg l) = gsum (fun g => tot (snd g)) l + gsum fence l); [|apply Q; auto].
    induction l as [|x l IH]; intros SB; [reflexivity|]. destruct (tail_facts s h t D x I (SB x (or_introl eq_refl))) as (_ & _ & _ & _ & Z & _).
    specialize (IH (fun y Y => SB y (or_intror Y))). unfold sizes, gsum in *. cbn [map fold_right reg snd] in *. lia. }
  destruct (head_facts s h t D I) as (_ & _ & Z & _). assert (E : sizes (reg h :: map reg t ++ map dreg D) = ssize (fst h) + sizes (map reg t ++ map dreg D)) by reflexivity.
  rewrite E, sizes_app, SD, ST. cbn [gsum fold_right]. fold (gsum (fun g => tot (snd g)) t). lia.
Qed.
Lemma fence_sum s h t D : Inv s (h :: t) D -> 32 * N.of_nat (length t) <= gsum fence t /\ gsum fence t <= 48 * N.of_nat (length t).
Proof.
  intros I. assert (Q : forall l, (forall x, In x l -> In x t) -> 32 * N.of_nat (length l) <= gsum fence l /\ gsum fence l <= 48 * N.of_nat (length l)); [|apply Q; auto].
  induction l as [|x l IH]; intros SB; [cbn; lia|]. destruct (tail_facts s h t D x I (SB x (or_introl eq_refl))) as (_ & _ & _ & _ & _ & Z & _).
  specialize (IH (fun y Y => SB y (or_intror Y))). unfold gsum in *. cbn [length fold_right]. lia.
Qed.

(** ** Statistics *)
(** Blocks with pages of their own. *)
Definition outside (s : ms) (x : block) : bool := forallb (fun g => negb (within (sbase g) (ssize g) (addr x))) (segs s).
(** Bytes of the blocks that have pages of their own, with the 48 bytes of overhead of each. *)
Definition own_pages (s : ms) (L : list block) : N := fold_right (fun x n => size x + 48 + n) 0 (filter (outside s) L).
Lemma outside_spec s x : outside s x = true <-> ~ in_segment s x.
Proof.
  unfold outside. rewrite forallb_forall. split.
  - intros H (g & IG & A & B). specialize (H g IG). apply negb_true_iff in H. assert (within (sbase g) (ssize g) (addr x) = true) by (apply within_spec; auto). congruence.
  - intros H g IG. apply negb_true_iff. destruct (within (sbase g) (ssize g) (addr x)) eqn:E; [|reflexivity]. exfalso. apply H. apply within_spec in E. exists g. tauto.
Qed.
Lemma tile_inseg s G D c n k : Inv s G D -> In (c, n, k) (tiles G) -> exists g, In g (segs s) /\ sbase g <= c /\ c + n + 32 <= sbase g + ssize g.
Proof.
  intros I IT. apply in_flat_map in IT. destruct IT as (gl & IG & IC). exists (fst gl). split; [rewrite <- (i_segs _ _ _ I); apply in_map, IG|].
  apply (tile_seg _ _ _ _ _ _ _ _ _ _ _ _ (i_core _ _ _ I) IG IC).
Qed.
Lemma sub64_ok a b : b <= a -> a < W -> sub64 a b = a - b.
Proof.
  intros H1 H2. unfold sub64. replace (a + W - b) with (a - b + 1 * W) by lia. rewrite N.mod_add by discriminate. apply N.mod_small. lia.
Qed.
Lemma gsum_le f g G : (forall x, f x <= g x) -> gsum f G <= gsum g G.
Proof. intros H. unfold gsum. induction G as [|x G IH]; [reflexivity|]. cbn [fold_right]. specialize (H x). lia. Qed.
Lemma ksum_le p l : ksum p l <= tot l.
Proof. induction l as [|[n k] r IH]; cbn [ksum tot]; [lia|]. destruct (p k); lia. Qed.
(** the numbers, in full *)
Lemma mallinfo_parts rm s L h t D : J rm s L (h :: t) D -> exists i, mallinfo s = Ok i /\
  arena i = topsize s + 80 + gsum (fun g => tot (snd g)) (h :: t) /\ fordblks i = topsize s + 80 + gsum (fun g => ksum isF (snd g)) (h :: t) /\
  hblkhd i = gsum fence t + dsum D /\
  uordblks i = gsum (fun g => ksum isU (snd g)) (h :: t) + (944 + 48 * N.of_nat (length t)) + gsum fence t + dsum D /\ keepcost i = topsize s.
Proof.
  intros [I _ _ _ _ _]. unfold mallinfo. rewrite (info_heap s h t D I). cbn [bind fst snd]. eexists. split; [reflexivity|]. cbn [arena fordblks hblkhd uordblks keepcost].
  pose proof (foot_lt _ _ _ I) as FL. pose proof (foot_parts s h t D I) as FP. rewrite <- (fx_sum s h t D I).
  pose proof (gsum_le (fun g => ksum isF (snd g)) (fun g => tot (snd g)) (h :: t) (fun x => ksum_le isF (snd x))) as LE.
  assert (SU : gsum (fun g => ksum isF (snd g)) (h :: t) + (gsum (fun g => ksum isU (snd g)) (h :: t) + gsum (fun g => ksum isX (snd g)) (h :: t)) = gsum (fun g => tot (snd g)) (h :: t)).
  { rewrite N.add_assoc. assert (Q : gsum (fun g => ksum isF (snd g)) (h :: t) + gsum (fun g => ksum isU (snd g)) (h :: t) = gsum (fun g => ksum isF (snd g) + ksum isU (snd g)) (h :: t)) by (apply gsum_add; auto).
    rewrite Q. apply gsum_add. intros x _. apply ksum_all. }
  split; [reflexivity|]. split; [reflexivity|]. rewrite !sub64_ok by lia. split; [lia|]. split; [lia | reflexivity].
Qed.
Lemma later_len s h t D : Inv s (h :: t) D -> later s = N.of_nat (length t).
Proof. intros I. unfold later. rewrite <- (i_segs _ _ _ I). cbn [map tl]. rewrite map_length. reflexivity. Qed.
Lemma held_bound rm s L h t D : J rm s L (h :: t) D -> held L <= gsum (fun g => ksum isU (snd g)) (h :: t) + dsum D.
Proof.
  intros [I LV SZ ND _ _]. rewrite <- pick_tiles.
  assert (ED : dsum D = wsum (map (fun d => (fst d + 16, snd d + 32)) D)) by (clear; induction D as [|d D IH]; [reflexivity|]; cbn [dsum fold_right map]; fold (dsum D); rewrite wsum_cons, IH; reflexivity).
  assert (EL : held L = wsum (map (fun x => (addr x, size x + 8)) L)) by (clear; induction L as [|x L IH]; [reflexivity|]; cbn [held fold_right map]; fold (held L); rewrite wsum_cons, IH; reflexivity).
  rewrite ED, EL, <- wsum_app. apply wsum_le; [rewrite map_map; exact ND|]. intros a w IA. apply in_map_iff in IA. destruct IA as (x & E & IX). injection E as <- <-.
  pose proof IX as HB. apply (in_map addr), LV in HB. destruct HB as (r & HB). pose proof (SZ _ _ IX HB) as LE.
  destruct HB as [(c & n & EA & EN & IT) | (c & n & EA & EN & IT)].
  - exists n. split; [|lia]. apply in_or_app. left. apply pick_in. exists c, Us. auto.
  - exists (n + 32). split; [|lia]. apply in_or_app. right. apply in_map_iff. exists (c, n). cbn [fst snd]. rewrite EA. auto.
Qed.
Lemma own_bound rm s L h t D : J rm s L (h :: t) D -> own_pages s L <= dsum D.
Proof.
  intros [I LV SZ ND _ _].
  assert (ED : dsum D = wsum (map (fun d => (fst d + 16, snd d + 32)) D)) by (clear; induction D as [|d D IH]; [reflexivity|]; cbn [dsum fold_right map]; fold (dsum D); rewrite wsum_cons, IH; reflexivity).
  assert (EL : own_pages s L = wsum (map (fun x => (addr x, size x + 48)) (filter (outside s) L))).
  { unfold own_pages. clear. induction (filter (outside s) L) as [|x K IH]; [reflexivity|]. cbn [fold_right map]. rewrite wsum_cons, IH. reflexivity. }
  rewrite ED, EL. apply wsum_le.
  - rewrite map_map. cbn [fst]. clear - ND. induction L as [|x L IH]; [constructor|]. cbn [map] in ND. inversion ND as [|? ? N1 N2]; subst. cbn [filter]. destruct (outside s x); [|auto].
    cbn [map]. constructor; [|auto]. intros IN. apply N1. apply in_map_iff in IN. destruct IN as (y & E & IY). apply filter_In in IY. rewrite <- E. apply in_map, IY.
  - intros a w IA. apply in_map_iff in IA. destruct IA as (x & E & IX). injection E as <- <-. apply filter_In in IX. destruct IX as (IX & OX). apply outside_spec in OX.
    pose proof IX as HB. apply (in_map addr), LV in HB. destruct HB as (r & HB). pose proof (SZ _ _ IX HB) as LE. destruct HB as [(c & n & EA & EN & IT) | (c & n & EA & EN & IT)].
    + exfalso. apply OX. destruct (tile_inseg _ _ _ _ _ _ I IT) as (g & IG & B1 & B2). exists g. split; [exact IG|].
      pose proof (tile_facts _ _ _ _ _ _ _ _ _ _ _ (i_core _ _ _ I) IT). lia.
    + exists (n + 32). split; [|lia]. apply in_map_iff. exists (c, n). cbn [fst snd]. rewrite EA. auto.
Qed.
Lemma J_cons rm s L G D : J rm s L G D -> exists h t, G = h :: t.
Proof. intros [I _ _ _ _ _]. pose proof (c_segs _ _ _ _ _ _ _ _ (i_core _ _ _ I)) as S. destruct G as [|h t]; [destruct S | eauto]. Qed.

(** Whatever was allocated and freed, reading the statistics ends; used and free add up to what the heap has from the page
    allocator, and so do the chunks and the rest; used covers every block the program holds and the allocator's own records;
    the rest ([hblkhd]) covers every block that has its own pages and the ends of the segments. *)
Theorem C63_stats rm s L : hist rm s L -> exists i, mallinfo s = Ok i /\
  uordblks i + fordblks i = foot s /\ arena i + hblkhd i = foot s /\
  held L + 944 + 80 * later s <= uordblks i /\ own_pages s L + 32 * later s <= hblkhd i /\
  keepcost i = topsize s /\ keepcost i + 80 <= fordblks i /\ foot s < W.
Proof.
  intros H. apply hist_inv in H. destruct H as (G & D & Q). destruct (J_cons _ _ _ _ _ Q) as (h & t & ->). pose proof (q_inv _ _ _ _ _ Q) as I.
  destruct (mallinfo_parts _ _ _ _ _ _ Q) as (i & E & A & F & Hb & U & K). exists i. split; [exact E|].
  pose proof (foot_parts s h t D I) as FP. pose proof (held_bound _ _ _ _ _ _ Q) as HB. pose proof (own_bound _ _ _ _ _ _ Q) as OB. pose proof (fence_sum s h t D I) as FS.
  rewrite (later_len s h t D I).
  assert (SU : gsum (fun g => ksum isF (snd g)) (h :: t) + (gsum (fun g => ksum isU (snd g)) (h :: t) + gsum (fun g => ksum isX (snd g)) (h :: t)) = gsum (fun g => tot (snd g)) (h :: t)).
  { rewrite N.add_assoc. assert (Q' : gsum (fun g => ksum isF (snd g)) (h :: t) + gsum (fun g => ksum isU (snd g)) (h :: t) = gsum (fun g => ksum isF (snd g) + ksum isU (snd g)) (h :: t)) by (apply gsum_add; auto).
    rewrite Q'. apply gsum_add. intros x _. apply ksum_all. }
  rewrite (fx_sum s h t D I) in SU. repeat split; try lia. apply (foot_lt _ _ _ I).
Qed.
(** When the program holds nothing, used is the allocator's own: 944 bytes and at most 96 for each segment after the first. *)
Theorem C63_idle rm s : hist rm s [] -> exists i, mallinfo s = Ok i /\ 944 + 80 * later s <= uordblks i /\ uordblks i <= 944 + 96 * later s.
Proof.
  intros H. apply hist_inv in H. destruct H as (G & D & Q). destruct (J_cons _ _ _ _ _ Q) as (h & t & ->). pose proof (q_inv _ _ _ _ _ Q) as I.
  destruct (mallinfo_parts _ _ _ _ _ _ Q) as (i & E & A & F & Hb & U & K). exists i. split; [exact E|]. pose proof (fence_sum s h t D I) as FS.
  rewrite (later_len s h t D I). destruct Q as [_ LV _ _ _ _].
  assert (NB : forall a r, ~ blk (h :: t) D a r) by (intros a r HB; assert (X : In a (map addr [])) by (apply LV; eauto); destruct X).
  assert (ED : D = []).
  { destruct D as [|[c n] D]; [reflexivity|]. exfalso. pose proof (c_dirs _ _ _ _ _ _ _ _ (i_core _ _ _ I)) as DI. rewrite Forall_forall in DI. destruct (DI _ (or_introl eq_refl)) as (_ & _ & _ & D4).
    cbn [snd] in D4. apply (NB (c + 16) (n - 16)). right. exists c, n. repeat split; [lia | now left]. }
  assert (EU : gsum (fun g => ksum isU (snd g)) (h :: t) = 0).
  { rewrite <- pick_tiles. destruct (pick isU (tiles (h :: t))) as [|[a n] r] eqn:EP; [reflexivity|]. exfalso.
    assert (IP : In (a, n) (pick isU (tiles (h :: t)))) by (rewrite EP; now left). apply pick_in in IP. destruct IP as (c & k & -> & PK & IT). destruct k; try discriminate.
    apply (NB (c + 16) (n - 8)). left. exists c, n. pose proof (tile_facts _ _ _ _ _ _ _ _ _ _ _ (i_core _ _ _ I) IT). repeat split; [lia | exact IT]. }
  subst D. cbn [dsum fold_right] in *. lia.
Qed.
(** What the program sees (total_bytes and used_bytes, and the Free of the view), if the heap has less than 4 GB, no block has
    pages of its own and the heap grew contiguously: total is what the heap has, used covers every block and Free is what is free. *)
Theorem C63_view_partial rm s L : hist rm s L -> foot s < 2 ^ 32 -> later s = 0 -> (forall x, In x L -> in_segment s x) ->
  exists t i, stats s = Ok t /\ mallinfo s = Ok i /\ fst t = foot s /\ snd t + fordblks i = foot s /\ held L <= snd t /\ shown_free t = fordblks i.
Proof.
  intros H F32 LT AL. pose proof H as H'. apply hist_inv in H. destruct H as (G & D & Q). destruct (J_cons _ _ _ _ _ Q) as (h & t & ->). pose proof (q_inv _ _ _ _ _ Q) as I.
  destruct (C63_stats rm s L H') as (i & E & S1 & S2 & S3 & S4 & S5 & S6 & S7). destruct (mallinfo_parts _ _ _ _ _ _ Q) as (i' & E' & A & F & Hb & U & K). rewrite E in E'. injection E' as <-.
  unfold stats. rewrite E. cbn [bind]. eexists _, i. split; [reflexivity|]. split; [reflexivity|]. cbn [fst snd shown_free].
  pose proof (later_len s h t D I) as LL. rewrite LT in LL. destruct t as [|g t]; [|cbn in LL; lia]. cbn [gsum fold_right] in Hb.
  assert (ED : D = []).
  { destruct D as [|[c n] D]; [reflexivity|]. exfalso. pose proof (c_dirs _ _ _ _ _ _ _ _ (i_core _ _ _ I)) as DI. rewrite Forall_forall in DI. destruct (DI _ (or_introl eq_refl)) as (_ & _ & _ & D4).
    cbn [snd] in D4. assert (B : blk [h] ((c, n) :: D) (c + 16) (n - 16)) by (right; exists c, n; repeat split; [lia | now left]).
    assert (IX : In (c + 16) (map addr L)) by (apply (q_live _ _ _ _ _ Q); eauto). apply in_map_iff in IX. destruct IX as (x & EX & IX). destruct (AL x IX) as (g & IG & B1 & B2).
    rewrite <- (i_segs _ _ _ I) in IG. destruct IG as [<- | []].
    pose proof (geo_apartD [] h [] ((c, n) :: D) _ _ (c, n) (c_geo _ _ _ _ _ _ _ _ (i_core _ _ _ I)) (or_introl eq_refl)) as P. unfold rdisj, reg, dreg in P. cbn [fst snd] in P. lia. }
  subst D. cbn [dsum fold_right] in Hb. rewrite Hb in S2. unfold u32. rewrite !N.mod_small by lia. split; [lia|]. split; [lia|]. split; [lia|].
  unfold shown_free. cbn [fst snd]. rewrite sub64_ok by lia. lia.
Qed.

(** ** Inspection *)
Lemma report_in q sz u a e b : In (a, e, b) (report q sz u) -> 32 <= sz \/ u = false -> a < e /\ e = q + sz /\ q + 16 <= a /\
  (u = true -> a = q + 16 /\ b = sz - 8) /\ (u = false -> b = 0 /\ q + 32 <= a).
Proof.
  unfold report. intros H Z. destruct (_ <? q + sz) eqn:E in H; [|destruct H]. apply N.ltb_lt in E. destruct H as [H | []]. injection H as <- <- <-.
  destruct u; [repeat split; auto; try discriminate; lia|]. destruct (is_small sz); repeat split; auto; try discriminate; lia.
Qed.
Lemma inspect_full s h t D : Inv s (h :: t) D -> inspect s = Ok (flat_map rpt (tiles (full s (h :: t)))).
Proof.
  intros I. rewrite (inspect_heap s h t D I). f_equal. f_equal. unfold tiles. cbn [full flat_map fst snd]. rewrite chunks_app. cbn [chunks].
  destruct (head_facts s h t D I) as (_ & E & _). rewrite <- E, <- app_assoc. reflexivity.
Qed.
(** Two reports. *)
Definition rapart (x y : N * N * N) : Prop := snd (fst x) <= fst (fst y) \/ snd (fst y) <= fst (fst x).
(** Whatever was allocated and freed, inspection ends and reports ranges that are apart; every block in a segment is reported
    once, at its address and with at least its size; a range reported as used is a block of the program, the allocator's state or the
    record of a segment; a range reported as free touches no block. *)
Theorem C63_inspect rm s L : hist rm s L -> exists R, inspect s = Ok R /\ ForallOrdPairs rapart R /\
  (forall a e u, In (a, e, u) R -> a < e /\ exists g, In g (segs s) /\ sbase g <= a /\ e <= sbase g + ssize g) /\
  (forall x, In x L -> in_segment s x -> exists e u, In (addr x, e, u) R /\ size x <= u /\ addr x + u = e + 8) /\
  (forall a e u, In (a, e, u) R -> u <> 0 -> (exists x, In x L /\ addr x = a /\ size x <= u) \/ a = mst s \/ exists g, In g (tl (segs s)) /\ a = srec g) /\
  (forall a e x, In (a, e, 0) R -> In x L -> off a (e - a) (addr x) (size x)) /\
  (forall a e u x, In (a, e, u) R -> In x L -> ~ in_segment s x -> off a (e - a) (addr x) (size x)).
Proof.
  intros H. apply hist_inv in H. destruct H as (G & D & Q). destruct (J_cons _ _ _ _ _ Q) as (h & t & ->). destruct Q as [I LV SZ ND _ _].
  pose proof (i_core _ _ _ I) as C. destruct (head_facts s h t D I) as (HR & HE & HZ & HT1 & HT2 & HT3 & _).
  exists (flat_map rpt (tiles (full s (h :: t)))). split; [apply (inspect_full s h t D I)|].
  assert (TZ : forall c n k, In (c, n, k) (tiles (full s (h :: t))) -> 32 <= n \/ used k = false).
  { intros c n k IT. apply (full_tiles s h t D _ I) in IT. destruct IT as [IT | E]; [left; apply (tile_facts _ _ _ _ _ _ _ _ _ _ _ C IT) | injection E as -> -> ->; now right]. }
  assert (RI : forall a e u, In (a, e, u) (flat_map rpt (tiles (full s (h :: t)))) -> exists c n k, In (c, n, k) (tiles (full s (h :: t))) /\ In (a, e, u) (report c n (used k))).
  { intros a e u IR. apply in_flat_map in IR. destruct IR as ([[c n] k] & IT & IR). exists c, n, k. auto. }
  assert (HS : In (fst h) (segs s)) by (rewrite <- (i_segs _ _ _ I); now left).
  split; [|split; [|split; [|split; [|split]]]].
  - refine (FOP_flat apart rapart rpt _ _ _ (full_FOP _ _ _ I)).
    + intros [[c n] k] _. unfold rpt, report. destruct (_ <? _); repeat constructor.
    + intros [[c n] k] [[c' n'] k'] [[a e] u] [[a' e'] u'] IT IT' AP IA IB. apply TZ in IT, IT'. unfold rpt in *. cbn [fst snd] in *.
      destruct (report_in _ _ _ _ _ _ IA IT) as (A1 & A2 & A3 & _). destruct (report_in _ _ _ _ _ _ IB IT') as (B1 & B2 & B3 & _). unfold apart in AP. unfold rapart. cbn [fst snd] in *. lia.
  - intros a e u IR. destruct (RI _ _ _ IR) as (c & n & k & IT & IA). pose proof (TZ _ _ _ IT) as Z. destruct (report_in _ _ _ _ _ _ IA Z) as (A1 & A2 & A3 & _). split; [exact A1|].
    apply (full_tiles s h t D _ I) in IT. destruct IT as [IT | E].
    + destruct (tile_inseg _ _ _ _ _ _ I IT) as (g & IG & B1 & B2). exists g. split; [exact IG|]. lia.
    + injection E as -> -> ->. exists (fst h). split; [exact HS|]. lia.
  - intros x IX IS. pose proof IX as HB. apply (in_map addr), LV in HB. destruct HB as (r & HB). pose proof (SZ _ _ IX HB) as LE. destruct HB as [(c & n & EA & EN & IT) | (c & n & EA & EN & IT)].
    + exists (c + n), r. pose proof (tile_facts _ _ _ _ _ _ _ _ _ _ _ C IT) as (F1 & _). split; [|split; lia]. apply in_flat_map. exists (c, n, Us). split; [apply (full_tiles s h t D _ I); now left|].
      unfold rpt, report. cbn [fst snd used]. replace (c + 16 <? c + n) with true by (symmetry; apply N.ltb_lt; lia). left. rewrite EA. do 2 f_equal; lia.
    + exfalso. destruct IS as (g & IG & B1 & B2). rewrite <- (i_segs _ _ _ I) in IG. apply in_map_iff in IG. destruct IG as (gl & <- & IG).
      apply in_split in IG. destruct IG as (G1 & G2 & EG). pose proof (c_geo _ _ _ _ _ _ _ _ C) as GE. rewrite EG in GE. pose proof (geo_apartD _ _ _ _ _ _ _ GE IT) as P.
      unfold rdisj, reg, dreg in P. cbn [fst snd] in P.
      pose proof (c_dirs _ _ _ _ _ _ _ _ C) as DI. rewrite Forall_forall in DI. destruct (DI _ IT) as (_ & _ & _ & D4). cbn [snd] in D4. lia.
  - intros a e u IR NZ. destruct (RI _ _ _ IR) as (c & n & k & IT & IA). pose proof (TZ _ _ _ IT) as Z. destruct (report_in _ _ _ _ _ _ IA Z) as (A1 & A2 & A3 & A4 & A5).
    destruct (used k) eqn:UK; [|destruct (A5 eq_refl); congruence]. destruct (A4 eq_refl) as (-> & ->). apply (full_tiles s h t D _ I) in IT. destruct IT as [IT | E]; [|injection E as -> -> ->; discriminate].
    destruct k; [discriminate | left | right].
    + assert (B : blk (h :: t) D (c + 16) (n - 8)) by (left; exists c, n; repeat split; [lia | exact IT]). assert (IX : In (c + 16) (map addr L)) by (apply LV; eauto). apply in_map_iff in IX.
      destruct IX as (x & EX & IX). exists x. split; [exact IX|]. split; [exact EX|]. rewrite <- EX in B. apply (SZ _ _ IX B).
    + destruct (c_fx _ _ _ _ _ _ _ _ C _ _ IT) as [E | (gl & IG & E)]; [now left|]. right. exists (fst gl). split; [|exact E]. rewrite <- (i_segs _ _ _ I). cbn [map tl] in *. apply in_map, IG.
  - intros a e x IR IX. destruct (RI _ _ _ IR) as (c & n & k & IT & IA). pose proof (TZ _ _ _ IT) as Z. destruct (report_in _ _ _ _ _ _ IA Z) as (A1 & A2 & A3 & A4 & A5).
    pose proof IX as HB. apply (in_map addr), LV in HB. destruct HB as (r & HB). pose proof (SZ _ _ IX HB) as LE.
    destruct (used k) eqn:UK; [destruct (A4 eq_refl) as (_ & E); destruct Z; [lia | discriminate]|]. destruct (A5 eq_refl) as (_ & A6).
    apply (full_tiles s h t D _ I) in IT. destruct IT as [IT | E].
    + pose proof (blk_other _ _ _ _ _ _ _ _ _ _ _ _ _ C HB IT ltac:(intros ->; discriminate)) as P. unfold off in *. lia.
    + injection E as -> -> ->. destruct HB as [(c' & n' & EA & EN & IT') | (c' & n' & EA & EN & IT')]; unfold off.
      * pose proof (top_apart _ _ _ _ _ _ _ _ _ _ _ C IT') as P. lia.
      * pose proof (top_apartD _ _ _ _ _ _ _ _ _ C IT') as P. cbn [fst snd] in P. lia.
  - intros a e u x IR IX NS. destruct (RI _ _ _ IR) as (c & n & k & IT & IA). pose proof (TZ _ _ _ IT) as Z. destruct (report_in _ _ _ _ _ _ IA Z) as (A1 & A2 & A3 & _).
    pose proof IX as HB. apply (in_map addr), LV in HB. destruct HB as (r & HB). pose proof (SZ _ _ IX HB) as LE. destruct HB as [(c' & n' & EA & EN & IT') | (c' & n' & EA & EN & IT')].
    + exfalso. apply NS. destruct (tile_inseg _ _ _ _ _ _ I IT') as (g & IG & B1 & B2). exists g. split; [exact IG|]. pose proof (tile_facts _ _ _ _ _ _ _ _ _ _ _ C IT'). lia.
    + apply (full_tiles s h t D _ I) in IT. unfold off. destruct IT as [IT | E].
      * pose proof (tile_dir _ _ _ _ _ _ _ _ _ _ _ _ C IT IT') as P. cbn [fst snd] in P. lia.
      * injection E as -> -> ->. pose proof (top_apartD _ _ _ _ _ _ _ _ _ C IT') as P. cbn [fst snd] in P. lia.
Qed.

(** Nothing is left out: in a segment, every 65 bytes in a row have a byte that was reported, except in the last 80 bytes of the
    segment.  (Heads of blocks, links of free chunks and free chunks of 32 bytes are not reported.) *)
Lemma covers_rep m l : forall a pin e x, rep m a pin l e true -> a <= x -> x < e ->
  exists b f u, In (b, f, u) (flat_map rpt (chunks a l)) /\ b <= x + 64 /\ x < f.
Proof.
  induction l as [|[n k] r IH]; intros a pin e x R A B; cbn [rep] in R; [lia|]. destruct R as (R1 & R2 & R3 & R4 & R5).
  cbn [chunks flat_map]. destruct (N.lt_ge_cases x (a + n)) as [X | X].
  2:{ destruct (IH _ _ _ _ R5 X B) as (b & f & u & I & P). exists b, f, u. split; [apply in_or_app; now right | exact P]. }
  destruct (used k) eqn:U.
  { exists (a + 16), (a + n), (n - 8). split; [|lia]. apply in_or_app. left. unfold rpt, report. cbn [fst snd]. rewrite U.
    replace (a + 16 <? a + n) with true by (symmetry; apply N.ltb_lt; lia). now left. }
  destruct (N.eq_dec n 32) as [-> | NE].
  - destruct r as [|[n' k'] r]; cbn [rep] in R5; [destruct R5; congruence|]. destruct R5 as (S1 & S2 & S3 & S4 & _).
    assert (U' : used k' = true) by (destruct k'; auto; destruct (S4 eq_refl); congruence).
    exists (a + 32 + 16), (a + 32 + n'), (n' - 8). split; [|lia]. apply in_or_app. right. cbn [chunks flat_map]. apply in_or_app. left.
    unfold rpt, report. cbn [fst snd]. rewrite U'. replace (a + 32 + 16 <? a + 32 + n') with true by (symmetry; apply N.ltb_lt; lia). now left.
  - assert (N48 : 48 <= n). { pose proof (N.div_mod' n 16). lia. }
    destruct (is_small n) eqn:SM.
    + exists (a + 32), (a + n), 0. split; [|lia]. apply in_or_app. left. unfold rpt, report. cbn [fst snd]. rewrite U, SM.
      replace (a + 32 <? a + n) with true by (symmetry; apply N.ltb_lt; lia). now left.
    + assert (256 <= n) by (rewrite is_small_lt in SM; apply N.ltb_ge in SM; exact SM).
      exists (a + 64), (a + n), 0. split; [|lia]. apply in_or_app. left. unfold rpt, report. cbn [fst snd]. rewrite U, SM.
      replace (a + 64 <? a + n) with true by (symmetry; apply N.ltb_lt; lia). now left.
Qed.
Theorem C63_covers rm s L : hist rm s L -> exists R, inspect s = Ok R /\
  forall g x, In g (segs s) -> sbase g <= x -> x + 144 < sbase g + ssize g -> exists a e u, In (a, e, u) R /\ a <= x + 64 /\ x < e.
Proof.
  intros H. apply hist_inv in H. destruct H as (G & D & Q). destruct (J_cons _ _ _ _ _ Q) as (h & t & ->). destruct Q as [I _ _ _ _ _].
  exists (flat_map rpt (tiles (full s (h :: t)))). split; [apply (inspect_full s h t D I)|].
  intros g x IG A B. rewrite <- (i_segs _ _ _ I) in IG. cbn [map] in IG. unfold tiles. cbn [full flat_map fst snd]. rewrite flat_map_app.
  destruct IG as [<- | IG].
  - destruct (head_facts s h t D I) as (R & E & Z & T1 & T2 & _). rewrite chunks_app, <- E. cbn [chunks]. rewrite flat_map_app. destruct (N.lt_ge_cases x (top s)) as [X | X].
    + destruct (covers_rep _ _ _ _ _ _ R A X) as (b & f & u & J & P). exists b, f, u. split; [|exact P]. rewrite !in_app_iff. auto.
    + destruct (is_small (topsize s)) eqn:SM.
      * exists (top s + 32), (top s + topsize s), 0. split; [|lia]. rewrite !in_app_iff. left. right. cbn [flat_map]. rewrite app_nil_r. unfold rpt, report. cbn [fst snd used]. rewrite SM.
        replace (top s + 32 <? top s + topsize s) with true by (symmetry; apply N.ltb_lt; lia). now left.
      * exists (top s + 64), (top s + topsize s), 0. split; [|lia]. rewrite !in_app_iff. left. right. cbn [flat_map]. rewrite app_nil_r. unfold rpt, report. cbn [fst snd used]. rewrite SM.
        replace (top s + 64 <? top s + topsize s) with true by (symmetry; apply N.ltb_lt; lia). now left.
  - apply in_map_iff in IG. destruct IG as (gl & <- & IG). destruct (tail_facts s h t D gl I IG) as (R & _ & _ & E & Z & FE & _).
    destruct (covers_rep _ _ _ _ _ x R A ltac:(lia)) as (b & f & u & J & P). exists b, f, u. split; [|exact P]. apply in_or_app. right.
    apply in_flat_map. apply in_flat_map in J. destruct J as (c & J1 & J2). exists c. split; [|exact J2]. apply in_flat_map. eauto.
Qed.

(** ** Cases *)
Definition okv {A} (o : outcome A) : option A := match o with Ok x => Some x | _ => None end.
(** [script1] of [DlEx]: six blocks in two segments *)
Example script1_info : match run false heap0 script1 with
  | Some (s, L, _) => (okv (mallinfo s), held L, later s, own_pages s L, okv (stats s)) | None => (None, 0, 0, 0, None) end =
  (Some (mki 393184 32 252704 140512 62048), 251648, 1, 0, Some (393184, 252704)).
Proof. vm_compute. reflexivity. Qed.
Example script1_inspect : match run false heap0 script1 with Some (s, _, _) => okv (inspect s) | None => None end = Some
  [(569360, 769360, 200008); (769424, 831408, 0); (65552, 66480, 936); (66496, 66592, 104); (66608, 67104, 504); (67120, 87120, 20008);
   (87184, 106608, 0); (106624, 107616, 1000); (107632, 137632, 30008); (137696, 196528, 0); (196544, 196576, 40)].
Proof. vm_compute. reflexivity. Qed.
(** One block of 300000 bytes in a new heap: used is larger than total, the view shows that more than 2^63 bytes are free, and
    no range that inspection reports touches the block. *)
Theorem C63_large_refuted : exists s x t R, hist false s [x] /\ size x = 300000 /\ stats s = Ok t /\ fst t = 65536 /\ 300000 < snd t /\ 2 ^ 63 < shown_free t /\
  inspect s = Ok R /\ forall a e u, In (a, e, u) R -> off a (e - a) (addr x) (size x).
Proof.
  destruct (run_check false [Alm 300000 4096] (fun s L => match L with [x] => (size x =? 300000) && outside s x &&
    match stats s with Ok t => (fst t =? 65536) && (300000 <? snd t) && (2 ^ 63 <? shown_free t) | _ => false end | _ => false end)%bool) as (s & L & H & E).
  { vm_compute. reflexivity. }
  destruct L as [|x [|y L]]; try discriminate. apply andb_true_iff in E. destruct E as (E & E3). apply andb_true_iff in E. destruct E as (E1 & E2).
  destruct (C63_inspect _ _ _ H) as (R & ER & _ & _ & _ & _ & _ & NO). destruct (stats s) as [t| |] eqn:ES; try discriminate. apply andb_true_iff in E3. destruct E3 as (E3 & E5).
  apply andb_true_iff in E3. destruct E3 as (E3 & E4). exists s, x, t, R. split; [exact H|]. split; [apply N.eqb_eq, E1|]. split; [exact ES|]. split; [apply N.eqb_eq, E3|].
  split; [apply N.ltb_lt, E4|]. split; [apply N.ltb_lt, E5|]. split; [exact ER|]. intros a e u IR. apply (NO a e u x IR); [now left|]. apply outside_spec, E2.
Qed.
(** A program holds a block of 4 GB and the statistics say that less than 64 KB are used. *)
Theorem C63_4gb_refuted : exists s x t, hist false s [x] /\ size x = 2 ^ 32 /\ stats s = Ok t /\ snd t < 65536.
Proof.
  destruct (run_check false [Alm (2 ^ 32) 4096] (fun s L => match L with [x] => (size x =? 2 ^ 32) && match stats s with Ok t => snd t <? 65536 | _ => false end | _ => false end)%bool) as (s & L & H & E).
  { vm_compute. reflexivity. }
  destruct L as [|x [|y L]]; try discriminate. apply andb_true_iff in E. destruct E as (E1 & E2). destruct (stats s) as [t| |] eqn:ES; try discriminate.
  exists s, x, t. split; [exact H|]. split; [apply N.eqb_eq, E1|]. split; [exact ES | apply N.ltb_lt, E2].
Qed.
(** The range reported for a block may end before the block does. *)
Theorem C63_range_refuted : exists s x e u, hist false s [x] /\ inspect s = Ok [(65552, 66480, 936); (addr x, e, u); (66576, 130992, 0)] /\ size x = 24 /\ e < addr x + size x.
Proof.
  pose proof (run_hist false [Al 24]) as H. destruct (run false heap0 [Al 24]) as [[[s L] k]|] eqn:E; [|discriminate E].
  assert (V : match run false heap0 [Al 24] with Some (s, L, _) => (okv (inspect s), map addr L, map size L) | None => (None, [], []) end =
    (Some [(65552, 66480, 936); (66496, 66512, 24); (66576, 130992, 0)], [66496], [24])) by (vm_compute; reflexivity).
  rewrite E in V. injection V as V1 V2 V3. destruct L as [|x [|y L]]; try discriminate. cbn [map] in V2, V3. injection V2 as V2. injection V3 as V3.
  exists s, x, 66512, 24. split; [exact H|]. destruct (inspect s) as [R| |]; try discriminate. cbn in V1. injection V1 as ->. rewrite V2, V3. split; [reflexivity|]. split; [reflexivity | lia].
Qed.
(** The hypotheses of [C63_view_partial] and [C63_idle] hold after real work. *)
Example view_case : exists s L, hist false s L /\ foot s < 2 ^ 32 /\ later s = 0 /\ (forall x, In x L -> in_segment s x) /\ length L = 3%nat.
Proof.
  destruct (run_check false [Al 100; Al 40000; Fre 0 false; Al 1000; Alm 60000 0] (fun s L => (foot s <? 2 ^ 32) && (later s =? 0) && forallb (fun x => negb (outside s x)) L && (length L =? 3)%nat)%bool) as (s & L & H & E).
  { vm_compute. reflexivity. }
  apply andb_true_iff in E. destruct E as (E & E4). apply andb_true_iff in E. destruct E as (E & E3). apply andb_true_iff in E. destruct E as (E1 & E2).
  exists s, L. split; [exact H|]. split; [apply N.ltb_lt, E1|]. split; [apply N.eqb_eq, E2|]. split; [|apply Nat.eqb_eq, E4].
  intros x IX. rewrite forallb_forall in E3. specialize (E3 x IX). unfold outside in E3. apply negb_true_iff in E3.
  destruct (existsb (fun g => within (sbase g) (ssize g) (addr x)) (segs s)) eqn:EX.
  - apply existsb_exists in EX. destruct EX as (g & IG & EW). apply within_spec in EW. exists g. tauto.
  - exfalso. assert (Q : forallb (fun g => negb (within (sbase g) (ssize g) (addr x))) (segs s) = true); [|congruence].
    apply forallb_forall. intros g IG. apply negb_true_iff. destruct (within (sbase g) (ssize g) (addr x)) eqn:EW; [|reflexivity].
    assert (Q : existsb (fun g => within (sbase g) (ssize g) (addr x)) (segs s) = true) by (apply existsb_exists; eauto). congruence.
Qed.
Example idle_case : match run false heap0 (script1 ++ repeat (Fre 0 false) 6) with
  | Some (s, [], _) => match mallinfo s with Ok i => (later s =? 1) && (uordblks i =? 1024) | _ => false end | _ => false end = true.
Proof. vm_compute. reflexivity. Qed.
