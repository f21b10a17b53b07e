(** What a program relies on of the heap of [DlModel]: properties C59 and C60, over the histories of [DlHist].
    No code of its own. *)
From Verif Require Import Base DlModel DlInv DlAlloc DlSys DlPre DlMalloc DlFree DlFwd DlHist.
From Coq Require Import Lia.
Local Open Scope N_scope.
Arguments N.add : simpl never. Arguments N.sub : simpl never. Arguments N.mul : simpl never. Arguments N.div : simpl never.
Arguments N.modulo : simpl never. Arguments N.eqb : simpl never. Arguments N.ltb : simpl never. Arguments N.leb : simpl never.
Arguments N.odd : simpl never.

Lemma kept_tile s G D c : Inv s G D -> kept s c -> In (c, chunksize s c, Fr) (tiles G).
Proof.
  intros I K. assert (IT : exists n, In (c, n, Fr) (tiles G)).
  { destruct K as [(i & K) | [K | (-> & K)]].
    - destruct (b_sb _ _ _ _ _ _ (i_bins _ _ _ I) i c K) as (H & _). eauto.
    - destruct (b_tb _ _ _ _ _ _ (i_bins _ _ _ I) c K) as (_ & _ & n & H & _). eauto.
    - destruct (b_dv _ _ _ _ _ _ (i_bins _ _ _ I)) as [(_ & H) | (H & _)]; [congruence | eauto]. }
  destruct IT as (n & IT). rewrite (free_size _ _ _ _ _ I IT). exact IT.
Qed.
Lemma tile_kept s G D c n : Inv s G D -> In (c, n, Fr) (tiles G) -> kept s c.
Proof.
  intros I IT. destruct (b_all _ _ _ _ _ _ (i_bins _ _ _ I) c n IT) as [-> | [(_ & H) | [(_ & H) | []]]].
  - right. right. split; [reflexivity|]. destruct (b_dv _ _ _ _ _ _ (i_bins _ _ _ I)) as [(H & _) | (H & _)].
    + pose proof (tile_facts _ _ _ _ _ _ _ _ _ _ _ (i_core _ _ _ I) IT). lia.
    + pose proof (tile_facts _ _ _ _ _ _ _ _ _ _ _ (i_core _ _ _ I) H). lia.
  - left. eauto.
  - right. now left.
Qed.

(** ** C59: blocks *)
(** At every moment: every block the program holds is aligned, mapped, still contains what the program stored, and shares no
    byte with another one, with the allocator's state and segment records, nor with the part of free chunks the allocator uses
    (size, links and foot). *)
Theorem C59_blocks rm s L : hist rm s L ->
  (forall x, In x L -> addr x mod 16 = 0 /\ addr x <> 0 /\ forall y, addr x <= y -> y < addr x + size x -> pg s y = true /\ mem s y = data x y) /\
  ForallOrdPairs (fun x z => addr x <> addr z /\ off (addr x) (size x) (addr z) (size z)) L /\
  (forall x, In x L -> off (addr x) (size x) (mst s) 936) /\
  (forall x g, In x L -> In g (segs s) -> off (addr x) (size x) (srec g) 32) /\
  (forall x c, In x L -> kept s c -> off (addr x) (size x) (c + 8) (chunksize s c)).
Proof.
  intros H. apply hist_inv in H. destruct H as (G & D & [I LV SZ ND DT _]). pose proof (i_core _ _ _ I) as C.
  assert (BL : forall x, In x L -> exists r, blk G D (addr x) r /\ size x <= r).
  { intros x HX. pose proof (in_map addr _ _ HX) as H. apply LV in H. destruct H as (r & H). exists r. split; [exact H | apply (SZ _ _ HX H)]. }
  assert (MS : exists c, mst s = c + 16 /\ In (c, 944, Fx) (tiles G)) by apply (c_mst _ _ _ _ _ _ _ _ C). destruct MS as (cm & EM & IM).
  assert (OM : forall x, In x L -> off (addr x) (size x) (mst s) 936).
  { intros x HX. destruct (BL x HX) as (r & B & SX). pose proof (blk_other _ _ _ _ _ _ _ _ _ _ _ _ _ C B IM ltac:(discriminate)) as P. unfold off in *. lia. }
  split; [|split; [|split; [exact OM | split]]].
  - intros x HX. destruct (BL x HX) as (r & B & SX). destruct (blk_aligned _ _ _ _ _ _ _ _ _ _ C B) as (A1 & A2 & _ & A3).
    split; [exact A1|]. split; [lia|]. intros y Y1 Y2. split; [apply A3; lia | apply DT; assumption].
  - clear LV SZ DT OM. induction L as [|x L IH]; [constructor|]. cbn [map] in ND. inversion ND as [|? ? N1 N2]; subst. constructor.
    + apply Forall_forall. intros z HZ. assert (NE : addr x <> addr z) by (intros E; apply N1; rewrite E; apply in_map, HZ). split; [exact NE|].
      destruct (BL x (or_introl eq_refl)) as (r & B & SX). destruct (BL z (or_intror HZ)) as (r' & B' & SX').
      pose proof (blk_apart _ _ _ _ _ _ _ _ _ _ _ _ C B B' NE) as P. unfold off in *. lia.
    + apply IH; [exact N2|]. intros z HZ. apply BL. now right.
  - intros x g HX HG. rewrite <- (i_segs _ _ _ I) in HG. apply in_map_iff in HG. destruct HG as (gl & <- & HG).
    destruct G as [|h t]; [destruct HG|]. destruct HG as [<- | HG].
    + pose proof (c_rec _ _ _ _ _ _ _ _ C) as RC. cbn beta iota in RC. pose proof (OM x HX) as P. unfold off in *. lia.
    + pose proof (c_segs _ _ _ _ _ _ _ _ C) as S. cbn [segs_ok] in S. destruct S as (_ & S). rewrite Forall_forall in S. destruct (S _ HG) as ((l' & EL) & R & _).
      destruct (BL x HX) as (r & B & SX). rewrite EL in R. pose proof (rep_end _ _ _ _ _ _ R) as RE. rewrite tot_app in RE. cbn [tot] in RE.
      assert (IT : In (srec (fst gl) - 16, 48, Fx) (tiles (h :: t))).
      { apply in_flat_map. exists gl. split; [now right|]. rewrite EL. replace (srec (fst gl) - 16) with (sbase (fst gl) + tot l') by lia. apply chunks_in. }
      pose proof (blk_other _ _ _ _ _ _ _ _ _ _ _ _ _ C B IT ltac:(discriminate)) as P.
      pose proof (tile_facts _ _ _ _ _ _ _ _ _ _ _ C IT) as (_ & _ & _ & T & _). unfold off in *. lia.
  - intros x c HX K. destruct (BL x HX) as (r & B & SX). pose proof (blk_other _ _ _ _ _ _ _ _ _ _ _ _ _ C B (kept_tile _ _ _ _ I K) ltac:(discriminate)) as P.
    unfold off in *. lia.
Qed.

(** What arax_mmap is asked for. *)
Section Pages.
  Local Ltac Zify.zify_post_hook ::= Z.to_euclidean_division_equations.
  Lemma gran_pages n : granularity_align n mod 4096 = 0.
  Proof. unfold granularity_align. set (k := (n + 65535) mod W). clearbody k. lia. Qed.
  Lemma mmap_pages n : mmap_align n mod 4096 = 0.
  Proof. unfold mmap_align. set (k := (n + 4095) mod W). clearbody k. lia. Qed.
End Pages.
Definition agree (mm mm' : N -> option N) : Prop := forall n, n mod 4096 = 0 -> 0 < n -> mm n = mm' n.
Lemma mmap_alloc_agree s nb mm mm' : agree mm mm' -> mmap_alloc s nb mm = mmap_alloc s nb mm'.
Proof.
  intros A. unfold mmap_alloc. destruct (nb <? mmap_align ((nb + 63) mod W)) eqn:E; [|reflexivity]. apply N.ltb_lt in E.
  rewrite A; [reflexivity | apply mmap_pages | lia].
Qed.
Lemma sys_alloc_agree s nb mm mm' : agree mm mm' -> sys_alloc s nb mm = sys_alloc s nb mm'.
Proof.
  intros A. unfold sys_alloc. rewrite (mmap_alloc_agree _ _ _ _ A). destruct ((MMAP_THRESHOLD <=? nb) && negb (topsize s =? 0)).
  - destruct (mmap_alloc s nb mm') as [[s1 [p|]]| |]; cbn [bind]; try reflexivity.
    destruct (granularity_align ((nb + 96) mod W) <=? nb) eqn:E; [reflexivity|]. apply N.leb_gt in E. rewrite A; [reflexivity | apply gran_pages | lia].
  - cbn [bind]. destruct (granularity_align ((nb + 96) mod W) <=? nb) eqn:E; [reflexivity|]. apply N.leb_gt in E. rewrite A; [reflexivity | apply gran_pages | lia].
Qed.
Lemma from_rest_agree s nb mm mm' : agree mm mm' -> from_rest s nb mm = from_rest s nb mm'.
Proof. intros A. unfold from_rest. rewrite (sys_alloc_agree _ _ _ _ A). reflexivity. Qed.
(** arax_mmap is only ever asked for a whole number of pages (its assertion, alloc.c:145, holds), and at least one. *)
Theorem C59_asks_pages s bytes v mm mm' : (forall n, n mod 4096 = 0 -> 0 < n -> mm n = mm' n) -> malloc s bytes v mm = malloc s bytes v mm'.
Proof.
  intros A. unfold malloc. destruct (bytes <=? MAX_SMALL_REQUEST).
  - rewrite (from_rest_agree _ _ _ _ A). reflexivity.
  - rewrite !(from_rest_agree _ _ mm mm' A). destruct (MAX_REQUEST <=? bytes); [reflexivity|]. destruct (tb s); [reflexivity|].
    destruct (tmalloc_large s (pad_request bytes) v) as [[s1 [p|]]| |]; cbn [bind]; try reflexivity. apply (from_rest_agree _ _ _ _ A).
Qed.
(** At every moment an allocation returns a block, or aborts because arax_mmap has no run of pages for the request and the
    allocator's overhead, or returns NULL because the size is within 65664 of 2^64; nothing else can happen. *)
Theorem C59_alloc rm s L bytes v mm : hist rm s L -> tree_answer s (padded bytes) v -> (forall n b, mm n = Some b -> fresh (pg s) b n) ->
  (exists s' a, malloc s bytes v mm = Ok (s', Some a)) \/
  (malloc s bytes v mm = Abort /\ exists n, n mod 4096 = 0 /\ bytes < n /\ n < bytes + 65664 /\ mm n = None) \/
  (malloc s bytes v mm = Ok (s, None) /\ W <= bytes + 65664).
Proof.
  intros H V FR. apply hist_inv in H. destruct H as (G & D & [I _ _ _ _ _]).
  destruct (malloc_ok s G D bytes v mm I V FR) as [(s' & a & E & _) | [E | E]]; [left; eauto | right; left; exact E | right; right; exact E].
Qed.
(** A block the program holds can always be freed; free(NULL) does nothing. *)
Theorem C59_free rm s L x mr : hist rm s L -> In x L -> exists s', mspace_free s (addr x) mr = Ok s'.
Proof.
  intros H HX. apply hist_inv in H. destruct H as (G & D & [I LV _ _ _ _]). apply (in_map addr), LV in HX. destruct HX as (r & B).
  destruct (mspace_free_ok mr s G D (addr x) r I B) as (s' & _ & _ & E & _). eauto.
Qed.
Theorem C59_free_null s mr : mspace_free s 0 mr = Ok s.
Proof. reflexivity. Qed.
(** A search of the trees always has an answer, so none of this is vacuous. *)
Theorem C59_search_exists rm s L nb : hist rm s L -> exists v, best_fit s nb v /\ tree_answer s nb v.
Proof.
  intros H. apply hist_inv in H. destruct H as (G & D & [I _ _ _ _ _]). enough (exists v, best_fit s nb v) as (v & V) by (exists v; split; [exact V | apply (best_answer _ _ _ _ _ I V)]). clear I.
  unfold best_fit. generalize (tb s). intros l. 
  assert (K : (exists a, In a l /\ nb <= chunksize s a /\ forall c, In c l -> nb <= chunksize s c -> chunksize s a <= chunksize s c) \/ (forall c, In c l -> chunksize s c < nb)).
  { induction l as [|a l [(b & B1 & B2 & B3) | N]].
    - right. intros c [].
    - destruct (N.le_gt_cases nb (chunksize s a)) as [H|H].
      + destruct (N.le_gt_cases (chunksize s a) (chunksize s b)) as [H'|H'].
        * left. exists a. split; [now left|]. split; [exact H|]. intros c [<- | IC] NC; [lia|]. specialize (B3 c IC NC). lia.
        * left. exists b. split; [now right|]. split; [exact B2|]. intros c [<- | IC] NC; [lia|]. auto.
      + left. exists b. split; [now right|]. split; [exact B2|]. intros c [<- | IC] NC; [lia|]. auto.
    - destruct (N.le_gt_cases nb (chunksize s a)) as [H|H].
      + left. exists a. split; [now left|]. split; [exact H|]. intros c [<- | IC] NC; [lia|]. specialize (N c IC). lia.
      + right. intros c [<- | IC]; [exact H | auto]. }
  destruct K as [(a & K) | K]; [exists (Some a) | exists None]; exact K.
Qed.

(** ** C60: pages and reuse *)
(** Does a list of regions contain the address? *)
Definition covers (R : list (N * N)) (y : N) : Prop := exists r, In r R /\ fst r <= y /\ y < fst r + snd r.
(** Without mremap: the pages the allocator holds are disjoint regions of whole pages, its segments and the large blocks, and
    its footprint is their total size. *)
Theorem C60_accounting_partial s L : hist false s L -> exists R,
  ForallOrdPairs (fun r q => off (fst r) (snd r) (fst q) (snd q)) R /\ Forall (fun r => fst r mod 4096 = 0 /\ snd r mod 4096 = 0 /\ fst r + snd r <= W) R /\
  (forall y, pg s y = true <-> covers R y) /\ foot s = fold_right N.add 0 (map snd R) /\
  (forall r, In r R -> (exists g, In g (segs s) /\ r = (sbase g, ssize g)) \/ exists x, In x L /\ fst r + 16 = addr x /\ size x <= snd r - 48).
Proof.
  intros H. apply hist_inv in H. destruct H as (G & D & [I LV SZ _ _ TI]). specialize (TI eq_refl). exists (regs G D).
  destruct (c_geo _ _ _ _ _ _ _ _ (i_core _ _ _ I)) as (GF & O). split; [|split; [|split; [|split]]].
  - exact O.
  - eapply Forall_impl; [|exact GF]. intros r (_ & H2 & _ & H4 & H5 & _). auto.
  - intros y. split; [intros HY; apply (TI y HY)|]. intros (r & R1 & R2 & R3). rewrite Forall_forall in GF. destruct (GF r R1) as (_ & _ & _ & _ & _ & _ & P). apply P; assumption.
  - rewrite (i_foot _ _ _ I). induction (regs G D) as [|[a n] R IH]; [reflexivity|]. cbn [sizes map fold_right snd]. f_equal.
    inversion GF; subst. inversion O; subst. auto.
  - intros r IR. apply in_app_or in IR. destruct IR as [IR | IR]; apply in_map_iff in IR.
    + destruct IR as (gl & <- & IR). left. exists (fst gl). split; [rewrite <- (i_segs _ _ _ I); apply in_map, IR | reflexivity].
    + destruct IR as ([c n] & <- & IR). right. unfold dreg. cbn [fst snd].
      pose proof (c_dirs _ _ _ _ _ _ _ _ (i_core _ _ _ I)) as DI. rewrite Forall_forall in DI. destruct (DI _ IR) as (_ & _ & _ & D4). cbn [fst snd] in D4.
      assert (B : blk G D (c + 16) (n - 16)) by (right; exists c, n; repeat split; [lia | exact IR]).
      assert (IX : In (c + 16) (map addr L)) by (apply LV; eauto). apply in_map_iff in IX. destruct IX as (x & EX & HX). exists x. split; [exact HX|]. split; [auto|].
      rewrite <- EX in B. pose proof (SZ _ _ HX B). lia.
Qed.
Lemma destroy_pg l : forall s y, pg (fold_left (fun s g => unmapped s (sbase g) (ssize g)) l s) y =
  (negb (existsb (fun g => within (sbase g) (ssize g) y) l) && pg s y)%bool.
Proof.
  induction l as [|g l IH]; intros s y; cbn [fold_left existsb]; [reflexivity|]. rewrite IH. cbn [unmapped set_pg pg].
  destruct (within (sbase g) (ssize g) y), (existsb (fun g0 => within (sbase g0) (ssize g0) y) l); cbn [negb andb orb]; reflexivity.
Qed.
(** Without mremap: destroying the heap gives back every page, except those of the large blocks that were not freed. *)
Theorem C60_destroy_partial s L y : hist false s L -> pg (destroy s) y = true ->
  exists x b n, In x L /\ addr x = b + 16 /\ size x + 48 <= n /\ b <= y /\ y < b + n /\ forall z, b <= z -> z < b + n -> pg (destroy s) z = true.
Proof.
  intros H HY. apply hist_inv in H. destruct H as (G & D & [I LV SZ _ _ TI]). specialize (TI eq_refl). pose proof (i_core _ _ _ I) as C.
  unfold destroy in *. rewrite destroy_pg in HY. apply andb_true_iff in HY. destruct HY as (HY1 & HY2). apply negb_true_iff in HY1.
  destruct (TI y HY2) as (r & R1 & R2 & R3). apply in_app_or in R1. destruct R1 as [R1 | R1]; apply in_map_iff in R1.
  - exfalso. destruct R1 as (gl & <- & R1). cbn [reg fst snd] in *. assert (HX : existsb (fun g => within (sbase g) (ssize g) y) (segs s) = true); [|congruence].
    apply existsb_exists. exists (fst gl). split; [rewrite <- (i_segs _ _ _ I); apply in_map, R1 | apply within_spec; auto].
  - destruct R1 as ([c n] & <- & R1). unfold dreg in *. cbn [fst snd] in *.
    pose proof (c_dirs _ _ _ _ _ _ _ _ C) as DI. rewrite Forall_forall in DI. destruct (DI _ R1) as (_ & _ & _ & D4). cbn [fst snd] in D4.
    assert (B : blk G D (c + 16) (n - 16)) by (right; exists c, n; repeat split; [lia | exact R1]).
    assert (IX : In (c + 16) (map addr L)) by (apply LV; eauto). apply in_map_iff in IX. destruct IX as (x & EX & HX).
    rewrite <- EX in B. pose proof (SZ _ _ HX B). exists x, c, (n + 32). repeat split; auto; [lia|]. intros z Z1 Z2. rewrite destroy_pg.
    destruct (c_geo _ _ _ _ _ _ _ _ C) as (GF & _). rewrite Forall_forall in GF.
    destruct (GF (dreg (c, n))) as (_ & _ & _ & _ & _ & _ & F7); [apply in_or_app; right; apply (in_map dreg _ _ R1)|]. unfold dreg in F7. cbn [fst snd] in F7.
    rewrite F7 by assumption. rewrite andb_true_r. apply negb_true_iff. destruct (existsb (fun g => within (sbase g) (ssize g) z) (segs s)) eqn:E; [|reflexivity]. exfalso.
    apply existsb_exists in E. destruct E as (g & G1 & G2). rewrite <- (i_segs _ _ _ I) in G1. apply in_map_iff in G1. destruct G1 as (gl & <- & G1).
    apply in_split in G1. destruct G1 as (Ga & Gb & ->). pose proof (geo_apartD _ _ _ _ _ _ _ (c_geo _ _ _ _ _ _ _ _ C) R1) as P. unfold rdisj, reg, dreg in P. cbn [fst snd] in P.
    apply within_spec in G2. lia.
Qed.
Theorem C60_destroy_empty_partial s : hist false s [] -> forall y, pg (destroy s) y = false.
Proof. intros H y. destruct (pg (destroy s) y) eqn:E; [|reflexivity]. destruct (C60_destroy_partial _ _ _ H E) as (x & _ & _ & [] & _). Qed.
(** Neighbouring free chunks are always merged: no two free chunks touch, and none touches top. *)
Theorem C60_coalesced rm s L c d : hist rm s L -> kept s c -> kept s d -> c + chunksize s c <> d /\ c + chunksize s c <> top s.
Proof.
  intros H KC KD. apply hist_inv in H. destruct H as (G & D & [I _ _ _ _ _]). pose proof (i_core _ _ _ I) as C.
  apply (kept_tile _ _ _ _ I) in KC, KD. revert KC KD. generalize (chunksize s c) as n. generalize (chunksize s d) as k. intros k n KC KD.
  destruct (tiles_split _ _ _ _ KC) as (G1 & g & l1 & l2 & G2 & -> & ->).
  destruct (free_tile _ _ _ _ _ _ _ _ _ _ _ _ _ C) as (_ & _ & n2 & k2 & l3 & -> & K2 & _).
  assert (IN : In (sbase g + tot l1 + n, n2, k2) (tiles (G1 ++ (g, l1 ++ (n, Fr) :: (n2, k2) :: l3) :: G2))).
  { replace (sbase g + tot l1 + n) with (sbase g + tot (l1 ++ [(n, Fr)])) by (rewrite tot_app; cbn [tot]; lia).
    replace (l1 ++ (n, Fr) :: (n2, k2) :: l3) with ((l1 ++ [(n, Fr)]) ++ (n2, k2) :: l3) by (rewrite <- app_assoc; reflexivity). apply tiles_mid. }
  split.
  - intros <-. destruct (tile_fun _ _ _ _ _ _ _ _ _ _ _ _ _ C IN KD) as (_ & ->). cbn in K2. congruence.
  - intros E. pose proof (top_apart _ _ _ _ _ _ _ _ _ _ _ C IN) as P. pose proof (tile_facts _ _ _ _ _ _ _ _ _ _ _ C IN). rewrite E in P. lia.
Qed.
(** The allocator asks for pages only if no free chunk, nor top, is large enough: then the answer of arax_mmap does not matter. *)
Theorem C60_reuse_partial rm s L bytes v mm mm' : hist rm s L -> best_fit s (padded bytes) v ->
  ((exists c, kept s c /\ padded bytes <= chunksize s c) \/ padded bytes < topsize s) -> malloc s bytes v mm = malloc s bytes v mm'.
Proof.
  intros H V K. apply hist_inv in H. destruct H as (G & D & [I _ _ _ _ _]). pose proof (i_core _ _ _ I) as C.
  destruct (padded_facts bytes) as (P1 & P2 & P3 & P4).
  assert (FR : forall nb, nb <= dvsize s \/ nb < topsize s -> from_rest s nb mm = from_rest s nb mm').
  { intros nb [H|H]; unfold from_rest; [apply N.leb_le in H; rewrite H; reflexivity|]. apply N.ltb_lt in H. rewrite H. reflexivity. }
  assert (KS : forall c, kept s c -> (exists i, In c (sb s i) /\ chunksize s c = 8 * i /\ i < 32) \/ In c (tb s) \/ chunksize s c <= dvsize s).
  { intros c KC. pose proof (kept_tile _ _ _ _ I KC) as IT. destruct KC as [(i & KC) | [KC | (-> & KC)]].
    - destruct (b_sb _ _ _ _ _ _ (i_bins _ _ _ I) i c KC) as (H & H1 & _). left. exists i. destruct (tile_fun _ _ _ _ _ _ _ _ _ _ _ _ _ C IT H) as (H2 & _). auto.
    - right. now left.
    - right. right. destruct (b_dv _ _ _ _ _ _ (i_bins _ _ _ I)) as [(_ & H) | (H & _)]; [congruence|]. destruct (tile_fun _ _ _ _ _ _ _ _ _ _ _ _ _ C IT H) as (-> & _). lia. }
  unfold malloc. destruct (bytes <=? MAX_SMALL_REQUEST) eqn:EB.
  - apply N.leb_le in EB. unfold MAX_SMALL_REQUEST in EB. pose proof (padded_small bytes EB) as P5.
    change (if bytes <? MIN_REQUEST then MIN_CHUNK else pad_request bytes) with (padded bytes). set (nb := padded bytes) in *.
    unfold small_index. pose proof (idx_size _ P2) as IS.
    destruct (sb s (nb / 8)) as [|p r] eqn:E1; [|reflexivity]. destruct (sb s (nb / 8 + 1)) as [|p r] eqn:E2; [|reflexivity].
    destruct (dvsize s <? nb) eqn:ED; [|apply N.ltb_ge in ED; apply FR; now left]. apply N.ltb_lt in ED.
    destruct (first_bin s (nb / 8 + 1) (N.to_nat (32 - (nb / 8 + 1)))) as [i|] eqn:EF; [reflexivity|].
    destruct (tb s) as [|t tr] eqn:ETB; [|reflexivity]. apply FR. right. destruct K as [(c & KC & LC) | K]; [|exact K]. exfalso.
    destruct (KS c KC) as [(i & IC & EC & LI) | [[] | KC']]; [|lia].
    assert (LE : nb / 8 <= i) by lia. destruct (N.eq_dec (nb / 8) i) as [<- | NE]; [rewrite E1 in IC; destruct IC|].
    rewrite (first_bin_none _ _ _ i EF) in IC by lia. destruct IC.
  - apply N.leb_gt in EB. unfold MAX_SMALL_REQUEST in EB. rewrite padded_big in * by exact EB.
    destruct (MAX_REQUEST <=? bytes); [rewrite !(from_rest_huge _ _ _ _ I); reflexivity|]. set (nb := pad_request bytes) in *.
    assert (NB : 256 <= nb) by (unfold nb, pad_request; clear - EB; pose proof (N.div_le_mono 256 (bytes + 23) 16 ltac:(discriminate) ltac:(lia)) as H; change (256 / 16) with 16 in H; lia).
    assert (TB : (forall c, In c (tb s) -> chunksize s c < nb) -> from_rest s nb mm = from_rest s nb mm').
    { intros N. apply FR. destruct K as [(c & KC & LC) | K]; [|now right]. left.
      destruct (KS c KC) as [(i & IC & EC & LI) | [KC' | KC']]; [lia | specialize (N c KC'); lia | lia]. }
    destruct (tb s) as [|t tr] eqn:ETB; [apply TB; intros c []|]. unfold tmalloc_large. destruct v as [v|]; [|cbn [bind]; rewrite <- ETB in TB; apply TB; unfold best_fit in V; exact V].
    destruct V as (V1 & V2 & V3). destruct (chunksize s v - nb <? (dvsize s + W - nb) mod W) eqn:ES.
    + destruct (cut s v nb false) as [[s1 p]| |]; reflexivity.
    + cbn [bind]. apply N.ltb_ge in ES. apply FR. left. destruct (N.le_gt_cases nb (dvsize s)) as [H|H]; [exact H|]. exfalso.
      destruct (tree_tile _ _ _ _ I V1) as (IV & _). pose proof (tile_facts _ _ _ _ _ _ _ _ _ _ _ C IV) as (_ & _ & _ & T1 & _ & T2).
      rewrite N.mod_small in ES by lia. lia.
Qed.

(** ** When every block was freed *)
Lemma fixed_run m a pin l e pe : rep m a pin l e pe -> (forall n k, In (n, k) l -> k = Fr) -> l = [] \/ exists n, l = [(n, Fr)] /\ pin = true /\ pe = false.
Proof.
  intros R F. destruct l as [|[n k] l]; [now left|]. right. exists n. assert (k = Fr) as -> by (apply (F n); now left). cbn [rep] in R. destruct R as (_ & _ & _ & R1 & R2).
  destruct (R1 eq_refl) as (-> & _). destruct l as [|[n' k'] l]; [destruct R2; auto|]. assert (k' = Fr) as -> by (apply (F n'); right; now left).
  cbn [rep used] in R2. destruct R2 as (_ & _ & _ & R3 & _). destruct (R3 eq_refl). discriminate.
Qed.
(** If the program holds no block, a request that fits in a segment the allocator has (with 128 bytes of overhead; not the segment that
    has the allocator's state) takes no new page. *)
Theorem C60_reuse_empty_partial rm s g bytes v mm mm' : hist rm s [] -> In g (segs s) -> off (sbase g) (ssize g) (mst s) 1 -> padded bytes + 128 <= ssize g ->
  best_fit s (padded bytes) v -> malloc s bytes v mm = malloc s bytes v mm'.
Proof.
  intros H IG OM LE V. apply (C60_reuse_partial rm s [] bytes v mm mm' H V). pose proof H as H'. apply hist_inv in H'. destruct H' as (G & D & [I LV _ _ _ _]).
  pose proof (i_core _ _ _ I) as C. rewrite <- (i_segs _ _ _ I) in IG. apply in_map_iff in IG. destruct IG as ([g' l] & E & IG). cbn [fst] in E. subst g'.
  apply in_split in IG. destruct IG as (G1 & G2 & ->).
  assert (NU : forall c n, ~ In (c, n, Us) (tiles (G1 ++ (g, l) :: G2))).
  { intros c n IT. assert (X : In (c + 16) (map addr [])) by (apply LV; exists (n - 8); left; exists c, n; repeat split; [pose proof (tile_facts _ _ _ _ _ _ _ _ _ _ _ C IT); lia | exact IT]). destruct X. }
  assert (IL : forall l1 n k l2, l = l1 ++ (n, k) :: l2 -> In (sbase g + tot l1, n, k) (tiles (G1 ++ (g, l) :: G2))) by (intros l1 n k l2 ->; apply tiles_mid).
  assert (NM : forall l1 n l2, l = l1 ++ (n, Fx) :: l2 -> sbase g + tot l1 + 16 <> mst s).
  { intros l1 n l2 -> E. destruct (tile_in _ _ _ _ _ _ _ _ _ _ _ _ _ _ C) as (_ & _ & _ & _ & _ & T & _). unfold off in OM. lia. }
  pose proof (segs_ok_pos _ _ _ _ _ _ (c_segs _ _ _ _ _ _ _ _ C)) as P. destruct (padded_facts bytes) as (P1 & P2 & P3 & P4).
  (* a record in this segment is its own last chunk *)
  assert (FX : forall l1 n l2, l = l1 ++ (n, Fx) :: l2 -> G1 <> [] /\ l2 = []).
  { intros l1 n l2 EL. pose proof (IL _ _ _ _ EL) as IT. destruct (c_fx _ _ _ _ _ _ _ _ C _ _ IT) as [E | (gl & IGL & E)]; [destruct (NM _ _ _ EL E)|].
    destruct (tile_in _ _ _ _ _ _ _ _ _ _ _ _ _ _ ltac:(rewrite EL in C; exact C)) as (_ & _ & _ & _ & _ & T & _).
    (* the segment gl has this record *)
    assert (IGL' : In gl (G1 ++ (g, l) :: G2)) by (destruct G1; cbn [app tl] in *; [now right | now right]).
    pose proof (c_segs _ _ _ _ _ _ _ _ C) as S. assert (SG : seg_ok (mem s) gl).
    { destruct G1 as [|h t]; cbn [app tl segs_ok] in *; destruct S as (_ & S); rewrite Forall_forall in S; apply S; exact IGL. }
    destruct SG as ((l' & EL') & R & R2 & _). pose proof (rep_end _ _ _ _ _ _ R) as RE. rewrite EL', tot_app in RE. cbn [tot] in RE.
    assert (EG : gl = (g, l)).
    { apply in_app_or in IGL'. assert (K : gl = (g, l) \/ In gl (G1 ++ G2)) by (rewrite in_app_iff; cbn [In] in IGL'; intuition).
      destruct K as [K | K]; [exact K|]. pose proof (geo_apart _ _ _ _ _ _ _ (c_geo _ _ _ _ _ _ _ _ C) K) as Q. unfold rdisj, reg in Q. cbn [fst snd] in Q. exfalso.
      lia. }
    subst gl. cbn [fst snd] in *. split.
    - intros ->. cbn [app tl] in IGL. apply in_split in IGL. destruct IGL as (Ga & Gb & ->). cbn [app] in C.
      pose proof (geo_apart [] _ _ _ _ _ (g, l) (c_geo _ _ _ _ _ _ _ _ C) (in_elt _ _ _)) as Q. unfold rdisj, reg in Q. cbn [fst snd] in Q. lia.
    - rewrite EL in EL'. destruct l2 as [|z l2]; [reflexivity|]. exfalso.
      destruct (@exists_last _ (z :: l2)) as (l3 & z' & E3); [discriminate|]. rewrite E3 in EL'.
      assert (EL3 : (l1 ++ (n, Fx) :: l3) ++ [z'] = l' ++ [(48, Fx)]) by (rewrite <- EL', <- app_assoc; reflexivity).
      apply app_inj_tail in EL3. destruct EL3 as (<- & _). rewrite tot_app in RE. cbn [tot] in RE.
      pose proof (tile_facts _ _ _ _ _ _ _ _ _ _ _ C IT). lia. }
  destruct G1 as [|h t]; cbn [pos_ok] in P.
  - right. destruct P as (R & T1 & T2 & T3 & T4 & T5). cbn [fst snd] in *.
    assert (FRL : forall n k, In (n, k) l -> k = Fr).
    { intros n k IN. apply in_split in IN. destruct IN as (l1 & l2 & EL). destruct k; [reflexivity | destruct (NU _ _ (IL _ _ _ _ EL)) | destruct (FX _ _ _ EL) as (Q & _); congruence]. }
    destruct (fixed_run _ _ _ _ _ _ R FRL) as [-> | (n & -> & _ & Q)]; [|discriminate]. cbn [rep] in R. destruct R as (R & _). lia.
  - left. destruct P as ((l' & EL) & R & T1 & _). cbn [fst snd] in *. rewrite EL in R. apply rep_app in R. destruct R as (q & R1 & R2). cbn [rep] in R2. destruct R2 as (_ & _ & _ & _ & R2 & _).
    assert (FRL : forall n k, In (n, k) l' -> k = Fr).
    { intros n k IN. apply in_split in IN. destruct IN as (l1 & l2 & EL'). assert (EL2 : l = l1 ++ (n, k) :: (l2 ++ [(48, Fx)])) by (rewrite EL, EL', <- app_assoc; reflexivity).
      destruct k; [reflexivity | destruct (NU _ _ (IL _ _ _ _ EL2)) | destruct (FX _ _ _ EL2) as (_ & Q); destruct l2; discriminate]. }
    destruct (fixed_run _ _ _ _ _ _ R1 FRL) as [-> | (n & -> & _ & _)]; cbn [tot] in *; [exfalso; lia|].
    assert (IT : In (sbase g + 0, n, Fr) (tiles ((h :: t) ++ (g, l) :: G2))) by (apply (IL [] n Fr [(48, Fx)]); rewrite EL; reflexivity).
    exists (sbase g + 0). split; [apply (tile_kept _ _ _ _ _ I IT)|]. rewrite (free_size _ _ _ _ _ I IT). lia.
Qed.
