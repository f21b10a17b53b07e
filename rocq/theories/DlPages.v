(** Property C64: the heap of [DlModel] on the pages of [AllocModel], from the initialisation of the segment on: arch_alloc_init_once,
    arch_alloc_allocate, _arch_alloc_free and arch_alloc_exit with the real page bitmap underneath.

    Code modelled
    - [src/alloc/dlmalloc/alloc.c:27-54]     arch_alloc_init_once: layout, bitmap, create_mspace(0, 1)
    - [src/alloc/dlmalloc/alloc.c:62-107]    arch_alloc_allocate, _arch_alloc_free, arch_alloc_exit
    - [src/alloc/dlmalloc/alloc.c:143-161]   arax_mmap, arax_ummap as the calls of malloc.c make them
    - [src/alloc/dlmalloc/malloc.c:5553-5572, 5610-5632]  create_mspace, destroy_mspace *)
From Verif Require Import Base AllocModel AllocProps PageMap DlModel DlInv DlAlloc DlSys DlPre DlMalloc DlFree DlFwd DlHist DlProps.
From Coq Require Import Lia.
Local Open Scope N_scope.
Arguments N.add : simpl never. Arguments N.sub : simpl never. Arguments N.mul : simpl never. Arguments N.div : simpl never.
Arguments N.modulo : simpl never. Arguments N.eqb : simpl never. Arguments N.ltb : simpl never. Arguments N.leb : simpl never.
Arguments N.odd : simpl never.

(** ** Model *)
(** What CALL_MMAP gets when the page allocator is in state [a], malloc.c:1744-1757, alloc.c:143-152. *)
Definition answers (a : palloc) (n : N) : option N := match arax_mmap a n with Ok (_, p) => Some p | _ => None end.
(** The calls a function of malloc.c made, carried out on the page allocator in order, alloc.c:143-161. *)
Fixpoint replay (a : palloc) (l : list call) : outcome palloc :=
  match l with
  | [] => Ok a
  | Map b n :: r => do x <- arax_mmap a n; if snd x =? b then replay (fst x) r else UB
  | Unm b n :: r => do a' <- arax_ummap a b n; replay a' r
  end.
(** The calls between two states: what [plog] (DlModel) gained; no code of its own, malloc.c:3921-4471 makes them. *)
Definition calls (s s' : ms) : list call := skipn (length (plog s)) (plog s').
(** arch_alloc_init_once, alloc.c:27-54; [junk]: what the memory of the segment contains; create_mspace(0, 1) asks for 65536 bytes,
    malloc.c:5553-5572 *)
Definition init_once (addr hdr size : N) (junk : N -> N) : outcome (palloc * ms) :=
  do r <- arax_mmap (alloc_init_once addr hdr size) 65536; Ok (fst r, create junk (snd r) 65536).
(** arch_alloc_allocate, alloc.c:62-82; [v]: the answer of the search of the trees *)
Definition allocate (a : palloc) (s : ms) (bytes : N) (v : option N) : outcome (palloc * ms * option N) :=
  do x <- malloc s bytes v (answers a);
  do a' <- replay a (calls s (fst x));
  Ok (a', fst x, snd x).
(** _arch_alloc_free, alloc.c:84-100; [mr]: mremap succeeds *)
Definition release (a : palloc) (s : ms) (p : N) (mr : bool) : outcome (palloc * ms) :=
  do s' <- mspace_free s p mr;
  do a' <- replay a (calls s s');
  Ok (a', s').
(** arch_alloc_exit, alloc.c:102-107 *)
Definition exit_ (a : palloc) (s : ms) : outcome palloc := replay a (calls s (destroy s)).

(** ** Specification *)
(** Every history of the allocator of one segment: the structure is at [base] and has [hdr] bytes, the segment has [len] bytes from
    there.  [rm]: may mremap succeed in sys_trim?  The program stores in blocks it holds and frees blocks it holds. *)
Inductive sys (rm : bool) (base hdr len : N) : palloc -> ms -> list block -> Prop :=
| y_init junk a s : 0 < base -> fits base hdr len -> init_once base hdr len junk = Ok (a, s) -> sys rm base hdr len a s []
| y_alloc a s L bytes v a' s' x : sys rm base hdr len a s L -> tree_answer s (padded bytes) v ->
    allocate a s bytes v = Ok (a', s', Some x) -> sys rm base hdr len a' s' (mkb x bytes (mem s') :: L)
| y_null a s L bytes v a' s' : sys rm base hdr len a s L -> tree_answer s (padded bytes) v ->
    allocate a s bytes v = Ok (a', s', None) -> sys rm base hdr len a' s' L
| y_free a s L1 x L2 mr a' s' : sys rm base hdr len a s (L1 ++ x :: L2) -> (mr = true -> rm = true) ->
    release a s (addr x) mr = Ok (a', s') -> sys rm base hdr len a' s' (L1 ++ L2)
| y_store a s L1 p n d L2 y w : sys rm base hdr len a s (L1 ++ mkb p n d :: L2) -> p <= y -> y < p + n ->
    sys rm base hdr len a (set_mem s (wr_ (mem s) y w)) (L1 ++ mkb p n (wr_ d y w) :: L2).

(** ** What one allocation asks of the page allocator *)
Definition same2 (s s' : ms) : Prop := pg s' = pg s /\ plog s' = plog s.
Definition gets (mm : N -> option N) (s s' : ms) : Prop :=
  same2 s s' \/ exists n b, mm n = Some b /\ plog s' = plog s ++ [Map b n] /\ pg s' = (fun x => within b n x || pg s x)%bool.
Lemma same2_trans s s1 s2 : same2 s s1 -> same2 s1 s2 -> same2 s s2.
Proof. intros (A & B) (C & D). split; congruence. Qed.
Lemma gets_post mm s s1 s2 : gets mm s s1 -> same2 s1 s2 -> gets mm s s2.
Proof.
  intros [H | (n & b & H1 & H2 & H3)] (A & B); [left; apply (same2_trans _ _ _ H); split; assumption|]. right. exists n, b. split; [exact H1|]. split; congruence.
Qed.
Ltac s2 := split; reflexivity.
Lemma unlink_same2 s p n s' : unlink_chunk s p n = Ok s' -> same2 s s'.
Proof.
  unfold unlink_chunk, unlink_small, unlink_large. destruct (is_small n); [destruct (in_dec N.eq_dec p (sb s (small_index n))) | destruct (in_dec N.eq_dec p (tb s))]; intros E; try discriminate; injection E as <-; s2.
Qed.
Lemma unlink_large_same2 s p s' : unlink_large s p = Ok s' -> same2 s s'.
Proof. unfold unlink_large. destruct (in_dec N.eq_dec p (tb s)); intros E; try discriminate; injection E as <-; s2. Qed.
Lemma insert_same2 s p n : same2 s (insert_chunk s p n).
Proof. unfold insert_chunk. destruct (is_small n); s2. Qed.
Lemma replace_same2 s p n : same2 s (replace_dv s p n).
Proof. unfold replace_dv. destruct (dvsize s =? 0); s2. Qed.
Lemma mmap_gets s nb mm s' o : mmap_alloc s nb mm = Ok (s', o) -> gets mm s s'.
Proof.
  unfold mmap_alloc. destruct (nb <? mmap_align ((nb + 63) mod W)); [|intros E; injection E as <- _; left; s2].
  set (sz := mmap_align _). destruct (mm sz) as [b|] eqn:EM; [|discriminate]. intros E. right. exists sz, b. split; [exact EM|].
  pose proof (f_equal (fun o => match o with Ok (s, _) => plog s | _ => [] end) E) as E1. pose proof (f_equal (fun o => match o with Ok (s, _) => pg s | _ => pg s end) E) as E2. cbn beta iota in E1, E2.
  rewrite <- E1, <- E2. destruct ((least _ =? 0) || _); s2.
Qed.
Lemma prepend_same2 s a b nb s' p : prepend_alloc s a b nb = Ok (s', p) -> same2 s s'.
Proof.
  unfold prepend_alloc. destruct (b =? top _); [intros E; injection E as <- _; s2|]. destruct (b =? dv _); [intros E; injection E as <- _; s2|].
  destruct (is_inuse _ b); [intros E; injection E as <- _; eapply same2_trans; [|apply insert_same2]; s2|].
  destruct (unlink_chunk _ _ _) as [s1| |] eqn:EU; cbn [bind]; intros E; try discriminate. injection E as <- _. apply unlink_same2 in EU. eapply same2_trans; [|apply insert_same2].
  eapply same2_trans; [|eapply same2_trans; [exact EU|]]; s2.
Qed.
Lemma add_same2 s a n s' : add_segment s a n = Ok s' -> same2 s s'.
Proof.
  unfold add_segment. destruct (seg_of s (top s)) as [old|]; [|discriminate]. destruct (segs s) as [|cur rest]; [discriminate|]. cbv zeta.
  destruct (_ =? top s); intros E; injection E as <-; [s2|]. eapply same2_trans; [|apply insert_same2]; s2.
Qed.
Lemma sys_gets s nb mm s' o : sys_alloc s nb mm = Ok (s', o) -> gets mm s s'.
Proof.
  unfold sys_alloc. set (m := if _ && _ then mmap_alloc s nb mm else Ok (s, None)).
  assert (M : forall s1 o, m = Ok (s1, o) -> (o <> None -> gets mm s s1) /\ (o = None -> s1 = s)).
  { intros s1 o1 E. unfold m in E. destruct (_ && _); [|injection E as <- <-; split; [congruence | reflexivity]]. split; [intros _; apply (mmap_gets _ _ _ _ _ E)|]. intros ->.
    unfold mmap_alloc in E. destruct (nb <? _) in E; [|injection E as <-; reflexivity]. destruct (mm _) in E; discriminate. }
  clearbody m. destruct m as [[s1 [p|]]| |]; cbn [bind]; try discriminate.
  - intros E. injection E as <- <-. apply (proj1 (M s1 (Some p) eq_refl)). discriminate.
  - rewrite (proj2 (M s1 None eq_refl) eq_refl) in *. clear M s1. cbv zeta. set (n := granularity_align _). destruct (n <=? nb); [intros E; injection E as <- _; left; s2|].
    destruct (mm n) as [b|] eqn:EM; [|discriminate]. set (s1 := set_foot_ _ _).
    assert (G1 : gets mm s s1) by (right; exists n, b; split; [exact EM | s2]).
    assert (FI : forall s2 s' o, same2 s1 s2 -> (if nb <? topsize s2 then let '(s', p) := split_top s2 nb in Ok (s', Some (p + 16)) else Ok (s2, None)) = Ok (s', o) -> same2 s1 s').
    { intros s2 s3 o3 E F. destruct (nb <? topsize s2); injection F as <- _; [|exact E]. apply (same2_trans _ _ _ E). s2. }
    set (s2 := if b <? least s1 then set_least s1 b else s1). assert (S2 : same2 s1 s2) by (unfold s2; destruct (b <? least s1); s2).
    assert (K : match find_seg (fun g => sbase g =? b + n) (segs s2) with
                | Some (g, l1, l2) => do x <- prepend_alloc (set_segs s2 (l1 ++ mkseg b (ssize g + n) (srec g) :: l2)) b (sbase g) nb; Ok (fst x, Some (snd x + 16))
                | None => do s <- add_segment s2 b n; if nb <? topsize s then let '(s', p) := split_top s nb in Ok (s', Some (p + 16)) else Ok (s, None)
                end = Ok (s', o) -> gets mm s s').
    { intros E. apply (gets_post _ _ _ _ G1). destruct (find_seg _ _) as [[[g l1] l2]|].
      - destruct (prepend_alloc _ _ _ _) as [[s3 p]| |] eqn:EP; cbn [bind] in E; try discriminate. injection E as <- _. cbn [fst]. apply prepend_same2 in EP. apply (same2_trans _ _ _ S2). exact EP.
      - destruct (add_segment s2 b n) as [s3| |] eqn:EA; cbn [bind] in E; try discriminate. apply add_same2 in EA. apply (FI s3 s' o); [apply (same2_trans _ _ _ S2 EA) | exact E]. }
    destruct (find_seg (fun g => b =? sbase g + ssize g) (segs s1)) as [[[g l1] l2]|]; [|exact K].
    destruct (within (sbase g) (ssize g) (top s1)); [|exact K]. intros E. apply (gets_post _ _ _ _ G1). eapply FI; [|exact E]. s2.
Qed.
Lemma rest_gets s nb mm s' o : from_rest s nb mm = Ok (s', o) -> gets mm s s'.
Proof.
  unfold from_rest. destruct (nb <=? dvsize s); [destruct (MIN_CHUNK <=? _); intros E; injection E as <- _; left; s2|].
  destruct (nb <? topsize s); [intros E; injection E as <- _; left; s2 | apply sys_gets].
Qed.
Lemma cut_same2 s v nb d s' p : cut s v nb d = Ok (s', p) -> same2 s s'.
Proof.
  unfold cut. destruct (_ && _); [|discriminate]. destruct (unlink_large s v) as [s1| |] eqn:EU; cbn [bind]; try discriminate. apply unlink_large_same2 in EU.
  destruct (_ <? MIN_CHUNK); intros E; injection E as <- _; [apply (same2_trans _ _ _ EU); s2|].
  destruct d; [eapply same2_trans; [|apply replace_same2] | eapply same2_trans; [|apply insert_same2]]; apply (same2_trans _ _ _ EU); s2.
Qed.
Lemma malloc_gets s bytes v mm s' o : malloc s bytes v mm = Ok (s', o) -> gets mm s s'.
Proof.
  unfold malloc. destruct (bytes <=? MAX_SMALL_REQUEST).
  - set (nb := if _ <? _ then _ else _). cbv zeta. destruct (sb s (small_index nb)) as [|p r]; [|intros E; injection E as <- _; left; s2].
    destruct (sb s (small_index nb + 1)) as [|p r]; [|intros E; injection E as <- _; left; s2].
    destruct (dvsize s <? nb); [|apply rest_gets]. destruct (first_bin _ _ _) as [i|].
    + destruct (sb s i) as [|p r]; [discriminate|]. destruct (_ <? MIN_CHUNK); intros E; injection E as <- _; left; [s2|]. eapply same2_trans; [|apply replace_same2]; s2.
    + destruct (tb s); [apply rest_gets|]. unfold tmalloc_small. destruct v as [v|]; [|discriminate]. destruct (cut s v nb true) as [[s1 p]| |] eqn:EC; cbn [bind]; try discriminate.
      intros E. injection E as <- _. left. apply (cut_same2 _ _ _ _ _ _ EC).
  - destruct (MAX_REQUEST <=? bytes); [apply rest_gets|]. cbv zeta. destruct (tb s); [apply rest_gets|]. unfold tmalloc_large. destruct v as [v|]; cbn [bind]; [|apply rest_gets].
    destruct (_ <? _); cbn [bind]; [|apply rest_gets]. destruct (cut s v (pad_request bytes) false) as [[s1 p]| |] eqn:EC; cbn [bind]; try discriminate.
    intros E. injection E as <- _. left. apply (cut_same2 _ _ _ _ _ _ EC).
Qed.

(** ** The page allocator follows *)
Lemma calls_app s s' l : plog s' = plog s ++ l -> calls s s' = l.
Proof. intros E. unfold calls. rewrite E, skipn_app, skipn_all, Nat.sub_diag. reflexivity. Qed.
Lemma within_eq b n x : ((b <=? x) && (x <? b + n))%bool = within b n x.
Proof. reflexivity. Qed.
Lemma prel_ext st len a f g : prel st len a f -> (forall x, g x = f x) -> prel st len a g.
Proof. intros [A B C D E F G] H. constructor; auto. intros y. rewrite H. apply G. Qed.
Lemma replay_unms st len U : forall a f g, prel st len a f -> chain f U g -> exists a', replay a (map (fun r => Unm (fst r) (snd r)) U) = Ok a' /\ prel st len a' g.
Proof.
  induction U as [|[b n] U IH]; intros a f g P; cbn [chain map fst snd replay].
  - intros E. exists a. split; [reflexivity | apply (prel_ext _ _ _ _ _ P E)].
  - intros (A & B & Z & M & C). destruct (ummap_prel _ _ _ _ b n P Z B A M) as (a1 & E1 & P1 & _). rewrite E1. cbn [bind]. apply (IH _ _ _ P1). exact C.
Qed.
(** only whole pages are asked for *)
Definition whole (mm : N -> option N) (n : N) : option N := if (n mod 4096 =? 0) && (0 <? n) then mm n else None.
Lemma whole_malloc s bytes v mm : malloc s bytes v mm = malloc s bytes v (whole mm).
Proof.
  apply C59_asks_pages. intros n A B. unfold whole. replace (n mod 4096 =? 0) with true by (symmetry; apply N.eqb_eq; exact A). replace (0 <? n) with true by (symmetry; apply N.ltb_lt; exact B). reflexivity.
Qed.
Lemma whole_some mm n b : whole mm n = Some b -> mm n = Some b /\ n mod 4096 = 0 /\ 0 < n.
Proof.
  unfold whole. destruct ((n mod 4096 =? 0) && (0 <? n)) eqn:E; [|discriminate]. apply andb_true_iff in E. destruct E as (E1 & E2). apply N.eqb_eq in E1. apply N.ltb_lt in E2. auto.
Qed.
Lemma answers_some st len a f n b : prel st len a f -> 0 < n -> n mod 4096 = 0 -> answers a n = Some b -> fresh f b n /\
  exists a', arax_mmap a n = Ok (a', b) /\ prel st len a' (fun x => within b n x || f x)%bool.
Proof.
  intros P N0 N1 E. unfold answers in E. destruct (mmap_prel _ _ _ _ n P N0 N1) as [(a' & p & E1 & A1 & A2 & A3 & A4 & A5 & A6 & _) | E1]; rewrite E1 in E; [|discriminate].
  injection E as ->. split; [|exists a'; split; [exact E1 | exact A6]]. split; [exact A1|]. split; [exact A2|]. split; [|exact A5].
  pose proof (r_hi _ _ _ _ P). assert (64 * ((len + 63) / 64) <= len + 63) by (apply N.mul_div_le; lia). unfold W. lia.
Qed.
Lemma whole_fresh st len a f n b : prel st len a f -> whole (answers a) n = Some b -> fresh f b n.
Proof. intros P E. apply whole_some in E. destruct E as (E & A & Z). apply (answers_some _ _ _ _ _ _ P Z A E). Qed.
Lemma replay_malloc st len a s bytes v s' o : prel st len a (pg s) -> malloc s bytes v (whole (answers a)) = Ok (s', o) ->
  exists a', replay a (calls s s') = Ok a' /\ prel st len a' (pg s').
Proof.
  intros P E. apply malloc_gets in E. destruct E as [(E1 & E2) | (n & b & EM & E1 & E2)].
  - rewrite (calls_app s s' []) by (rewrite E2, app_nil_r; reflexivity). exists a. split; [reflexivity|]. rewrite E1. exact P.
  - rewrite (calls_app s s' [Map b n] E1). apply whole_some in EM. destruct EM as (EM & A & Z). destruct (answers_some _ _ _ _ _ _ P Z A EM) as (_ & a' & EA & PA).
    cbn [replay]. rewrite EA. cbn [bind fst snd]. rewrite N.eqb_refl. exists a'. split; [reflexivity|]. rewrite E2. exact PA.
Qed.
Lemma free_unms rm s L1 x L2 mr s' : hist rm s (L1 ++ x :: L2) -> mspace_free s (addr x) mr = Ok s' -> unms s s'.
Proof.
  intros H E. apply hist_inv in H. destruct H as (G & D & [I LV _ _ _ _]). assert (IX : In x (L1 ++ x :: L2)) by apply in_elt.
  apply (in_map addr), LV in IX. destruct IX as (r & B). destruct (mspace_free_ok mr s G D (addr x) r I B) as (s1 & G' & D' & E1 & U). rewrite E in E1. injection E1 as <-. apply U.
Qed.

(** ** The invariant *)
Definition start_of (base hdr len : N) : N := a_start (alloc_init_once base hdr len).
Definition npages_of (base hdr len : N) : N := n_pages (alloc_init_once base hdr len).
Lemma sys_inv rm base hdr len a s L : sys rm base hdr len a s L ->
  hist rm s L /\ prel (start_of base hdr len) (npages_of base hdr len) a (pg s) /\ fits base hdr len /\ 0 < base.
Proof.
  induction 1 as [junk a s B F E | a s L bytes v a' s' x H IH V E | a s L bytes v a' s' H IH V E | a s L1 x L2 mr a' s' H IH MR E | a s L1 p n d L2 y w H IH Y1 Y2].
  - unfold init_once in E. destruct (prel_init base hdr len F B) as (P & _). fold (start_of base hdr len) in P. fold (npages_of base hdr len) in P.
    destruct (mmap_prel _ _ _ _ 65536 P ltac:(lia) eq_refl) as [(a' & p & E1 & A1 & A2 & A3 & A4 & A5 & A6 & _) | E1]; rewrite E1 in E; cbn [bind fst snd] in E; [|discriminate].
    injection E as <- <-. pose proof (r_hi _ _ _ _ P). assert (64 * ((npages_of base hdr len + 63) / 64) <= npages_of base hdr len + 63) by (apply N.mul_div_le; lia).
    split; [apply h_create; [exact A1 | exact A2 | unfold W; lia]|]. split; [|auto]. apply (prel_ext _ _ _ _ _ A6). intros x. rewrite within_eq, orb_false_r. reflexivity.
  - destruct IH as (IH & P & F & B). unfold allocate in E. rewrite whole_malloc in E. destruct (malloc s bytes v (whole (answers a))) as [[s1 o]| |] eqn:EM; cbn [bind fst snd] in E; try discriminate.
    destruct (replay_malloc _ _ _ _ _ _ _ _ P EM) as (a1 & ER & P1). rewrite ER in E. cbn [bind] in E. injection E as <- <- ->. split; [|auto].
    apply (h_alloc rm s L bytes v (whole (answers a)) s1 x IH V); [|exact EM]. intros n b. apply (whole_fresh _ _ _ _ _ _ P).
  - destruct IH as (IH & P & F & B). unfold allocate in E. rewrite whole_malloc in E. destruct (malloc s bytes v (whole (answers a))) as [[s1 o]| |] eqn:EM; cbn [bind fst snd] in E; try discriminate.
    destruct (replay_malloc _ _ _ _ _ _ _ _ P EM) as (a1 & ER & P1). rewrite ER in E. cbn [bind] in E. injection E as <- <- ->. split; [|auto].
    apply (h_null rm s L bytes v (whole (answers a)) s1 IH V); [|exact EM]. intros n b. apply (whole_fresh _ _ _ _ _ _ P).
  - destruct IH as (IH & P & F & B). unfold release in E. destruct (mspace_free s (addr x) mr) as [s1| |] eqn:EF; cbn [bind] in E; try discriminate.
    destruct (free_unms _ _ _ _ _ _ _ IH EF) as (U & EU & CU). rewrite (calls_app _ _ _ EU) in E. destruct (replay_unms _ _ _ _ _ _ P CU) as (a1 & ER & P1). rewrite ER in E. cbn [bind] in E. injection E as <- <-.
    split; [apply (h_free rm s L1 x L2 mr s1 IH MR EF) | auto].
  - destruct IH as (IH & P & F & B). split; [apply (h_store rm s L1 p n d L2 y w IH Y1 Y2) | auto].
Qed.

(** ** C64 *)
(** Whatever happened since the segment was initialised, what was proved of the heap on any pages (C59, C60, C61, C63) holds of the
    heap on the real page bitmap. *)
Theorem C64_heap rm base hdr len a s L : sys rm base hdr len a s L -> hist rm s L.
Proof. intros H. apply sys_inv in H. apply H. Qed.
(** An allocation returns a block, or aborts the process because the page allocator has no run of pages for it, or returns NULL
    because of a size near 2^64; the calls of the page allocator it makes never fail in another way. *)
Theorem C64_alloc rm base hdr len a s L bytes v : sys rm base hdr len a s L -> tree_answer s (padded bytes) v ->
  (exists a' s' x, allocate a s bytes v = Ok (a', s', Some x)) \/
  (allocate a s bytes v = Abort /\ exists n, n mod 4096 = 0 /\ bytes < n /\ n < bytes + 65664 /\ arax_mmap a n = Abort) \/
  (allocate a s bytes v = Ok (a, s, None) /\ W <= bytes + 65664).
Proof.
  intros H V. apply sys_inv in H. destruct H as (H & P & F & B). unfold allocate. rewrite whole_malloc.
  destruct (C59_alloc rm s L bytes v (whole (answers a)) H V (fun n b => whole_fresh _ _ _ _ n b P)) as [(s' & x & E) | [(E & n & A1 & A2 & A3 & A4) | (E & Z)]].
  - left. rewrite E. cbn [bind fst snd]. destruct (replay_malloc _ _ _ _ _ _ _ _ P E) as (a' & ER & _). rewrite ER. cbn [bind]. eauto.
  - right. left. rewrite E. split; [reflexivity|]. exists n. split; [exact A1|]. split; [exact A2|]. split; [exact A3|].
    unfold whole in A4. replace (n mod 4096 =? 0) with true in A4 by (symmetry; apply N.eqb_eq; exact A1). replace (0 <? n) with true in A4 by (symmetry; apply N.ltb_lt; lia). cbn [andb] in A4.
    unfold answers in A4. destruct (mmap_prel _ _ _ _ n P ltac:(lia) A1) as [(a' & p & E1 & _) | E1]; [rewrite E1 in A4; discriminate | exact E1].
  - right. right. rewrite E. cbn [bind fst snd]. unfold calls. rewrite skipn_all. cbn [replay bind]. auto.
Qed.
(** A block the program holds can always be freed: neither the heap nor the page allocator aborts or does something undefined. *)
Theorem C64_free rm base hdr len a s L x mr : sys rm base hdr len a s L -> In x L -> exists a' s', release a s (addr x) mr = Ok (a', s').
Proof.
  intros H IX. apply sys_inv in H. destruct H as (H & P & F & B). destruct (C59_free rm s L x mr H IX) as (s' & E). unfold release. rewrite E. cbn [bind].
  apply in_split in IX. destruct IX as (L1 & L2 & ->). destruct (free_unms _ _ _ _ _ _ _ H E) as (U & EU & CU). rewrite (calls_app _ _ _ EU).
  destruct (replay_unms _ _ _ _ _ _ P CU) as (a1 & ER & P1). rewrite ER. cbn [bind]. eauto.
Qed.
(** The bitmap marks exactly the pages that are the heap's. *)
Theorem C64_pages rm base hdr len a s L : sys rm base hdr len a s L -> forall y, pg s y = in_use a y.
Proof. intros H. apply sys_inv in H. destruct H as (_ & P & _). apply (r_pg _ _ _ _ P). Qed.
Lemma in_use_bound st len a f y : prel st len a f -> in_use a y = true -> st <= y /\ y < st + 4096 * (64 * ((len + 63) / 64)).
Proof.
  intros P H. unfold in_use in H. rewrite (r_st _ _ _ _ P) in H. apply andb_true_iff in H. destruct H as (H1 & H2). apply N.leb_le in H1. split; [exact H1|].
  unfold marked, BitmapProof.bit in H2. pose proof (BitmapHist.bi_len _ (r_b _ _ _ _ P)) as BL. change (BitmapModel.bsize (a_bmp a)) with (n_pages a) in BL. rewrite (r_len _ _ _ _ P) in BL. rewrite <- BL.
  destruct (N.lt_ge_cases ((y - st) / 4096 / 64) (N.of_nat (length (BitmapModel.chunks (a_bmp a))))) as [H|H]; [|rewrite nth_overflow in H2 by lia; rewrite N.bits_0 in H2; discriminate].
  rewrite N.div_div in H by discriminate. change (4096 * 64) with 262144 in H. set (k := N.of_nat _) in *. 
  assert (y - st < 262144 * (k - 1 + 1)); [|lia]. pose proof (N.mul_succ_div_gt (y - st) 262144 ltac:(discriminate)) as M. nia.
Qed.
(** Every block lies behind the allocator's structure and its bitmap; and inside the segment if the number of pages is a multiple of
    64 (otherwise it may end up to 63 pages behind the end, [C64_inside_refuted]). *)
Theorem C64_place_partial rm base hdr len a s L x : sys rm base hdr len a s L -> In x L ->
  base + hdr + bitmap_bytes a <= addr x /\ addr x + size x <= base + len + 63 * 4096 /\ (n_pages a mod 64 = 0 -> addr x + size x <= base + len).
Proof.
  intros H IX. apply sys_inv in H. destruct H as (H & P & F & B). pose proof (C05_layout base hdr len F) as (L1 & L2 & L3 & L4).
  fold (start_of base hdr len) in L3, L4. fold (npages_of base hdr len) in L4.
  assert (NP : n_pages a = npages_of base hdr len) by (apply (r_len _ _ _ _ P)).
  assert (BB : bitmap_bytes a = bitmap_bytes (alloc_init_once base hdr len)) by (unfold bitmap_bytes; rewrite NP; reflexivity).
  apply hist_inv in H. destruct H as (G & D & [I LV SZ _ _ _]). pose proof IX as HB. apply (in_map addr), LV in HB. destruct HB as (r & HB). pose proof (SZ _ _ IX HB) as SX.
  destruct (blk_aligned _ _ _ _ _ _ _ _ _ _ (i_core _ _ _ I) HB) as (_ & _ & R24 & PGS).
  assert (Y1 : in_use a (addr x) = true) by (rewrite <- (r_pg _ _ _ _ P); apply PGS; lia). assert (Y2 : in_use a (addr x + r - 1) = true) by (rewrite <- (r_pg _ _ _ _ P); apply PGS; lia).
  apply (in_use_bound _ _ _ _ _ P) in Y1, Y2. rewrite BB, NP. split; [lia|]. 
  assert (64 * ((npages_of base hdr len + 63) / 64) <= npages_of base hdr len + 63) by (apply N.mul_div_le; lia). split; [lia|].
  intros M. assert (EQ : 64 * ((npages_of base hdr len + 63) / 64) = npages_of base hdr len); [|lia].
  pose proof (N.div_mod (npages_of base hdr len) 64 ltac:(discriminate)) as DM. rewrite M, N.add_0_r in DM. set (k := npages_of base hdr len / 64) in *. rewrite DM.
  replace (64 * k + 63) with (63 + k * 64) by lia. rewrite N.div_add by discriminate. lia.
Qed.
(** Without mremap, the number of pages in use is the heap's footprint. *)
Theorem C64_footprint_partial base hdr len a s L : sys false base hdr len a s L -> 4096 * pages_used a = foot s.
Proof.
  intros H. apply sys_inv in H. destruct H as (H & P & F & B). apply hist_inv in H. destruct H as (G & D & [I LV SZ _ _ TI]). specialize (TI eq_refl).
  destruct (c_geo _ _ _ _ _ _ _ _ (i_core _ _ _ I)) as (GF & O). rewrite (i_foot _ _ _ I). pose proof (BitmapHist.bi_used _ (r_b _ _ _ _ P)) as U.
  unfold pages_used, BitmapModel.bitmap_used. rewrite U. unfold BitmapHist.total.
  pose proof (BitmapHist.bi_len _ (r_b _ _ _ _ P)) as BL. change (BitmapModel.bsize (a_bmp a)) with (n_pages a) in BL. rewrite (r_len _ _ _ _ P) in BL.
  rewrite (count_regions (regs G D) (start_of base hdr len) _ (BitmapProof.bit (BitmapModel.chunks (a_bmp a))) (r_al _ _ _ _ P) O).
  - clear TI U. induction (regs G D) as [|[b n] R IH]; [reflexivity|]. cbn [map fold_right snd sizes]. inversion GF; subst. inversion O; subst. rewrite IH by assumption. reflexivity.
  - rewrite Forall_forall in GF |- *. intros r IR. destruct (GF r IR) as (R1 & R2 & R3 & R4 & R5 & R6 & R7). split; [exact R2|]. split; [exact R4|].
    assert (Y1 : in_use a (fst r) = true) by (rewrite <- (r_pg _ _ _ _ P); apply R7; lia). assert (Y2 : in_use a (fst r + snd r - 1) = true) by (rewrite <- (r_pg _ _ _ _ P); apply R7; lia).
    apply (in_use_bound _ _ _ _ _ P) in Y1, Y2. rewrite Nat2N.inj_mul. rewrite BL. change (N.of_nat 64) with 64. lia.
  - intros i. assert (E : BitmapProof.bit (BitmapModel.chunks (a_bmp a)) i = pg s (start_of base hdr len + 4096 * i)).
    { rewrite (r_pg _ _ _ _ P). unfold in_use. rewrite (r_st _ _ _ _ P). rewrite (proj2 (N.leb_le _ _)) by lia. cbn [andb].
      replace (start_of base hdr len + 4096 * i - start_of base hdr len) with (i * 4096) by lia. rewrite N.div_mul by discriminate. reflexivity. }
    rewrite E. destruct (existsb _ _) eqn:EX.
    + apply existsb_exists in EX. destruct EX as (r & IR & HR). rewrite Forall_forall in GF. destruct (GF r IR) as (_ & _ & _ & _ & _ & _ & R7). apply andb_true_iff in HR. destruct HR as (H1 & H2). apply N.leb_le in H1. apply N.ltb_lt in H2. auto.
    + destruct (pg s _) eqn:EP; [|reflexivity]. destruct (TI _ EP) as (r & R1 & R2). assert (X : existsb (fun r => (fst r <=? start_of base hdr len + 4096 * i) && (start_of base hdr len + 4096 * i <? fst r + snd r)) (regs G D) = true); [|congruence].
      apply existsb_exists. exists r. split; [exact R1|]. apply andb_true_iff. rewrite N.leb_le, N.ltb_lt. exact R2.
Qed.
Lemma destroy_log l : forall s, plog (fold_left (fun s g => unmapped s (sbase g) (ssize g)) l s) = plog s ++ map (fun r => Unm (fst r) (snd r)) (map (fun g => (sbase g, ssize g)) l).
Proof. induction l as [|g l IH]; intros s; cbn [fold_left map]; [symmetry; apply app_nil_r|]. rewrite IH. cbn [unmapped set_pg plog fst snd]. rewrite <- app_assoc. reflexivity. Qed.
Lemma destroy_chain (l : list seg) : forall s, ForallOrdPairs rdisj (map (fun g => (sbase g, ssize g)) l) ->
  Forall (fun g => sbase g mod 4096 = 0 /\ ssize g mod 4096 = 0 /\ 0 < ssize g /\ forall x, sbase g <= x -> x < sbase g + ssize g -> pg s x = true) l ->
  chain (pg s) (map (fun g => (sbase g, ssize g)) l) (pg (fold_left (fun s g => unmapped s (sbase g) (ssize g)) l s)).
Proof.
  induction l as [|g l IH]; intros s O F; cbn [fold_left map chain]; [reflexivity|]. inversion F as [|? ? (F1 & F2 & F3 & F4) F5]; subst. cbn [map] in O. inversion O as [|? ? O1 O2]; subst.
  split; [exact F1|]. split; [exact F2|]. split; [exact F3|]. split; [exact F4|]. apply (IH (unmapped s (sbase g) (ssize g)) O2).
  rewrite Forall_forall in F5, O1 |- *. intros h IH1. destruct (F5 h IH1) as (K1 & K2 & K3 & K4). split; [exact K1|]. split; [exact K2|]. split; [exact K3|].
  intros x X1 X2. cbn [unmapped set_pg pg]. rewrite K4 by assumption. rewrite andb_true_r. apply negb_true_iff. destruct (within (sbase g) (ssize g) x) eqn:EW; [|reflexivity].
  apply within_spec in EW. pose proof (O1 (sbase h, ssize h) (in_map (fun g => (sbase g, ssize g)) _ _ IH1)) as P. unfold rdisj in P. cbn [fst snd] in P. lia.
Qed.
Lemma FOP_left {A} (R : A -> A -> Prop) l l' : ForallOrdPairs R (l ++ l') -> ForallOrdPairs R l.
Proof. induction l as [|x l IH]; cbn [app]; [constructor|]. intros H. inversion H as [|? ? H1 H2]; subst. constructor; [apply Forall_app in H1; apply H1 | apply IH, H2]. Qed.
Lemma exit_inv rm base hdr len a s L : sys rm base hdr len a s L -> exists a', exit_ a s = Ok a' /\ prel (start_of base hdr len) (npages_of base hdr len) a' (pg (destroy s)).
Proof.
  intros H. apply sys_inv in H. destruct H as (H & P & F & B). apply hist_inv in H. destruct H as (G & D & [I LV SZ _ _ _]).
  destruct (c_geo _ _ _ _ _ _ _ _ (i_core _ _ _ I)) as (GF & O). unfold exit_. rewrite (calls_app s (destroy s) _ (destroy_log (segs s) s)).
  assert (ER : map reg G = map (fun g => (sbase g, ssize g)) (segs s)) by (rewrite <- (i_segs _ _ _ I), map_map; reflexivity).
  unfold regs in GF, O. rewrite ER in GF, O. apply FOP_left in O. apply Forall_app in GF. destruct GF as (GF & _).
  assert (CH : chain (pg s) (map (fun g => (sbase g, ssize g)) (segs s)) (pg (destroy s))).
  { apply (destroy_chain (segs s) s O). apply Forall_forall. intros g IG. rewrite Forall_forall in GF. destruct (GF (sbase g, ssize g)) as (R1 & R2 & R3 & R4 & R5 & R6 & R7); [apply (in_map (fun g => (sbase g, ssize g)) _ _ IG)|].
    cbn [fst snd] in *. split; [exact R2|]. split; [exact R4|]. split; [lia | exact R7]. }
  exact (replay_unms _ _ _ _ _ _ P CH).
Qed.
(** Tearing the allocator down never fails; what stays marked are the pages it still had that are in no segment. *)
Theorem C64_exit rm base hdr len a s L : sys rm base hdr len a s L -> exists a', exit_ a s = Ok a' /\
  forall y, in_use a' y = true <-> in_use a y = true /\ forall g, In g (segs s) -> ~ (sbase g <= y /\ y < sbase g + ssize g).
Proof.
  intros H. destruct (exit_inv _ _ _ _ _ _ _ H) as (a' & E & P'). exists a'. split; [exact E|]. intros y. rewrite <- (r_pg _ _ _ _ P'), <- (C64_pages _ _ _ _ _ _ _ H). unfold destroy. rewrite destroy_pg. rewrite andb_true_iff, negb_true_iff.
  split; intros (H1 & H2).
  - split; [exact H2|]. intros g IG Y. assert (existsb (fun g => within (sbase g) (ssize g) y) (segs s) = true); [|congruence]. apply existsb_exists. exists g. split; [exact IG | apply within_spec, Y].
  - split; [|exact H1]. destruct (existsb _ _) eqn:EX; [|reflexivity]. apply existsb_exists in EX. destruct EX as (g & IG & Y). apply within_spec in Y. now apply H2 in Y.
Qed.
(** Without mremap: tearing down the allocator of a program that freed everything leaves no page marked. *)
Theorem C64_exit_empty_partial base hdr len a s : sys false base hdr len a s [] -> exists a', exit_ a s = Ok a' /\ pages_used a' = 0 /\ forall y, in_use a' y = false.
Proof.
  intros H. destruct (exit_inv _ _ _ _ _ _ _ H) as (a' & E & P'). exists a'. split; [exact E|].
  assert (Z : forall y, in_use a' y = false) by (intros y; rewrite <- (r_pg _ _ _ _ P'); apply C60_destroy_empty_partial, (C64_heap _ _ _ _ _ _ _ H)).
  split; [|exact Z]. pose proof (BitmapHist.bi_used _ (r_b _ _ _ _ P')) as U. unfold pages_used, BitmapModel.bitmap_used. rewrite U. unfold BitmapHist.total.
  assert (K : forall k, BitmapProof.count (BitmapProof.bit (BitmapModel.chunks (a_bmp a'))) k = 0); [|apply K].
  induction k as [|k IH]; cbn [BitmapProof.count]; [reflexivity|]. rewrite IH.
  assert (EB : BitmapProof.bit (BitmapModel.chunks (a_bmp a')) (N.of_nat k) = false); [|rewrite EB; reflexivity].
  specialize (Z (start_of base hdr len + 4096 * N.of_nat k)). unfold in_use in Z. rewrite (r_st _ _ _ _ P') in Z. rewrite (proj2 (N.leb_le _ _)) in Z by lia. cbn [andb] in Z.
  replace (start_of base hdr len + 4096 * N.of_nat k - start_of base hdr len) with (N.of_nat k * 4096) in Z by lia. rewrite N.div_mul in Z by discriminate. exact Z.
Qed.
