(** The pages of the shared segment, address by address: what arax_mmap and arax_ummap of [AllocModel] do to the set of addresses
    whose page is marked in the bitmap (used by property C64).  No code of its own. *)
From Verif Require Import Base BitmapModel BitmapProof BitmapHist AllocModel AllocProps.
Local Open Scope N_scope.
Ltac Zify.zify_post_hook ::= Z.div_mod_to_equations.
Arguments N.add : simpl never. Arguments N.sub : simpl never. Arguments N.mul : simpl never. Arguments N.div : simpl never.
Arguments N.modulo : simpl never. Arguments N.pow : simpl never.
Local Opaque popcount count alloc_bits free_bits bitmap_init.

(** Is page number [i] marked as in use? *)
Definition marked (a : palloc) (i : N) : bool := bit (chunks (a_bmp a)) i.
(** How many pages the bitmap says are in use. *)
Definition pages_used (a : palloc) : N := bitmap_used (a_bmp a).
(** Is address [y] in a page that is marked? *)
Definition in_use (a : palloc) (y : N) : bool := (a_start a <=? y) && marked a ((y - a_start a) / 4096).

Record prel (st len : N) (a : palloc) (pgf : N -> bool) : Prop := {
  r_b : binv (a_bmp a); r_st : a_start a = st; r_len : n_pages a = len;
  r_al : st mod 4096 = 0; r_lo : 4096 <= st; r_hi : st + 4096 * (len + 63) <= 2 ^ 64;
  r_pg : forall y, pgf y = in_use a y }.
Lemma bit_zero n i : bit (repeat 0 n) i = false.
Proof.
  unfold bit. rewrite <- (N.bits_0 (i mod 64)). f_equal. generalize (N.to_nat (i / 64)). induction n as [|n IH]; intros [|k]; cbn [repeat nth]; auto.
Qed.
Transparent bitmap_init.
Lemma prel_init addr hdr size : fits addr hdr size -> 0 < addr ->
  let a := alloc_init_once addr hdr size in prel (a_start a) (n_pages a) a (fun _ => false) /\ pages_used a = 0.
Proof.
  intros F P a. pose proof (C05_layout addr hdr size F) as (L1 & L2 & L3 & L4). fold a in L1, L2, L3, L4. destruct (init_pages addr hdr size F) as (E1 & E2 & E3 & E4). fold a in E1, E2, E3.
  set (b := _ - _) in E3. clearbody b. destruct F as (F1 & F2).
  assert (NB : n_pages a = b) by (unfold n_pages; rewrite E3; reflexivity).
  split; [|unfold pages_used; rewrite E3; reflexivity]. constructor; auto.
  - rewrite E3. apply init_inv. lia.
  - rewrite E1. lia.
  - lia.
  - intros y. unfold in_use, marked. rewrite E3. cbn [bitmap_init chunks]. rewrite bit_zero. destruct (_ <=? y); reflexivity.
Qed.
Opaque bitmap_init.
Lemma len_bits b : binv b -> 64 * N.of_nat (length (chunks b)) <= bsize b + 63.
Proof. intros [_ L _ _ _ _]. rewrite L. lia. Qed.
Lemma mmap_prel st len a pgf n : prel st len a pgf -> 0 < n -> n mod 4096 = 0 ->
  (exists a' p, arax_mmap a n = Ok (a', p) /\ 4096 <= p /\ p mod 4096 = 0 /\ st <= p /\ p + n <= st + 4096 * (64 * ((len + 63) / 64)) /\
     (forall x, p <= x -> x < p + n -> pgf x = false) /\ prel st len a' (fun x => (p <=? x) && (x <? p + n) || pgf x) /\ pages_used a' = pages_used a + n / 4096) \/
  arax_mmap a n = Abort.
Proof.
  intros [B ST LN AL LO HI PG] N0 N1. unfold arax_mmap, assert_. replace (n mod 4096 =? 0) with true by (symmetry; apply N.eqb_eq; exact N1). cbn [bind].
  change BLOCK with 4096. destruct (alloc_spec (a_bmp a) (n / 4096) B) as (b' & r & E & B' & SZ & P). rewrite E. cbn [bind snd fst]. destruct r as [s|]; [|now right]. left.
  destruct P as ((A1 & A2 & A3 & A4 & A5) & U). pose proof (len_bits _ B) as LB. unfold n_pages, bitmap_size in LN. 
  pose proof (bi_len _ B) as BL. rewrite BL, LN in A3. rewrite LN in LB.
  assert (HS : 4096 * s + n <= 4096 * (64 * ((len + 63) / 64))) by lia. assert (HB : 64 * ((len + 63) / 64) <= len + 63) by lia.
  rewrite ST. rewrite (add64_small st) by lia.
  exists (mkpalloc st (a_bits a) b'), (st + s * 4096). split; [reflexivity|]. split; [lia|]. split; [lia|]. split; [lia|]. split; [lia|].
  assert (PGE : forall x, (st + s * 4096 <=? x) && (x <? st + s * 4096 + n) = (st <=? x) && inr s (n / 4096) ((x - st) / 4096)).
  { intros x. unfold inr. destruct (N.leb_spec st x); cbn [andb]; [|destruct (N.leb_spec (st + s * 4096) x); cbn [andb]; [lia | reflexivity]].
    destruct (N.leb_spec (st + s * 4096) x), (N.leb_spec s ((x - st) / 4096)), (N.ltb_spec x (st + s * 4096 + n)), (N.ltb_spec ((x - st) / 4096) (s + n / 4096)); cbn [andb]; try reflexivity; lia. }
  split; [|split].
  - intros x X1 X2. rewrite PG. unfold in_use, marked. rewrite ST. assert (H : (st + s * 4096 <=? x) && (x <? st + s * 4096 + n) = true) by lia.
    rewrite PGE in H. apply andb_true_iff in H. destruct H as (_ & H). rewrite (A4 _ H). destruct (st <=? x); reflexivity.
  - constructor; cbn [a_bmp a_start]; auto.
    + unfold n_pages, bitmap_size. cbn [a_bmp]. congruence.
    + intros y. rewrite PGE, PG. unfold in_use, marked. cbn [a_bmp a_start]. rewrite ST, A5. destruct (st <=? y); cbn [andb]; [apply orb_comm | reflexivity].
  - unfold pages_used, bitmap_used. cbn [a_bmp]. exact U.
Qed.
Lemma ummap_prel st len a pgf p n : prel st len a pgf -> 0 < n -> n mod 4096 = 0 -> p mod 4096 = 0 -> (forall x, p <= x -> x < p + n -> pgf x = true) ->
  exists a', arax_ummap a p n = Ok a' /\ prel st len a' (fun x => negb ((p <=? x) && (x <? p + n)) && pgf x) /\ pages_used a = pages_used a' + n / 4096.
Proof.
  intros [B ST LN AL LO HI PG] N0 N1 P1 M. unfold arax_ummap. change BLOCK with 4096. rewrite ST.
  assert (SP : st <= p). { assert (H : pgf p = true) by (apply M; lia). rewrite PG in H. unfold in_use in H. rewrite ST in H. apply andb_true_iff in H. destruct H. lia. }
  pose proof (len_bits _ B) as LB. unfold n_pages, bitmap_size in LN. rewrite LN in LB.
  assert (IN : forall i, inr ((p - st) / 4096) (n / 4096) i = true -> bit (chunks (a_bmp a)) i = true).
  { intros i Hi. unfold inr in Hi. assert (H : pgf (st + i * 4096) = true) by (apply M; lia). rewrite PG in H. unfold in_use, marked in H. rewrite ST in H. apply andb_true_iff in H. destruct H as (_ & H).
    replace ((st + i * 4096 - st) / 4096) with i in H by lia. exact H. }
  assert (EN : forall i, 64 * N.of_nat (length (chunks (a_bmp a))) <= i -> bit (chunks (a_bmp a)) i = false).
  { intros i Hi. unfold bit. rewrite nth_overflow by lia. apply N.bits_0. }
  assert (RG : (p - st) / 4096 + n / 4096 <= 64 * N.of_nat (length (chunks (a_bmp a)))).
  { destruct (N.le_gt_cases ((p - st) / 4096 + n / 4096) (64 * N.of_nat (length (chunks (a_bmp a))))) as [H|H]; [exact H|]. exfalso.
    assert (Z : bit (chunks (a_bmp a)) ((p - st) / 4096 + n / 4096 - 1) = true) by (apply IN; unfold inr; lia). rewrite EN in Z by lia. discriminate. }
  assert (PB : p < 2 ^ 64) by lia. rewrite sub64_small by lia.
  destruct (free_live (a_bmp a) ((p - st) / 4096) (n / 4096) B ltac:(lia) RG IN) as (b' & E & B' & (A1 & A2 & A3) & SZ & U). rewrite E. cbn [bind].
  eexists. split; [reflexivity|]. split; [|unfold pages_used, bitmap_used; cbn [a_bmp]; exact U].
  constructor; cbn [a_bmp a_start]; auto.
  - unfold n_pages, bitmap_size. cbn [a_bmp]. congruence.
  - intros y. rewrite PG. unfold in_use, marked. cbn [a_bmp a_start]. rewrite ST, A3.
    destruct (N.leb_spec st y) as [Y|Y]; cbn [andb]; [|destruct (negb _); reflexivity].
    replace ((p <=? y) && (y <? p + n)) with (inr ((p - st) / 4096) (n / 4096) ((y - st) / 4096)); [apply andb_comm|].
    unfold inr. destruct (N.leb_spec p y), (N.leb_spec ((p - st) / 4096) ((y - st) / 4096)), (N.ltb_spec y (p + n)), (N.ltb_spec ((y - st) / 4096) ((p - st) / 4096 + n / 4096)); cbn [andb]; try reflexivity; lia.
Qed.
(** Disjoint regions of whole pages that cover exactly the marked pages have as many pages as are marked. *)
Lemma count_regions (R : list (N * N)) : forall st m (f : N -> bool), st mod 4096 = 0 ->
  ForallOrdPairs (fun r q => fst r + snd r <= fst q \/ fst q + snd q <= fst r) R ->
  Forall (fun r => fst r mod 4096 = 0 /\ snd r mod 4096 = 0 /\ st <= fst r /\ fst r + snd r <= st + 4096 * N.of_nat m) R ->
  (forall i, f i = existsb (fun r => (fst r <=? st + 4096 * i) && (st + 4096 * i <? fst r + snd r)) R) ->
  4096 * count f m = fold_right N.add 0 (map snd R).
Proof.
  induction R as [|[b n] R IH]; intros st m f AL O F E; cbn [map fold_right snd].
  - rewrite (count_ext _ (fun _ => false)) by (intros i _; apply E). assert (Z : forall k, count (fun _ => false) k = 0).
    { Transparent count. induction k as [|k IHk]; cbn [count]; [reflexivity|]. rewrite IHk. reflexivity. }
    rewrite Z. reflexivity.
  - inversion O as [|? ? O1 O2]; subst. inversion F as [|? ? (F1 & F2 & F3 & F4) FR]; subst. cbn [fst snd] in *.
    set (g := fun i => existsb (fun r => (fst r <=? st + 4096 * i) && (st + 4096 * i <? fst r + snd r)) R).
    rewrite <- (IH st m g AL O2 FR (fun i => eq_refl)).
    assert (C : count f m = count g m + n / 4096).
    { apply (count_set_range g f ((b - st) / 4096) (n / 4096) m).
      - lia.
      - intros i Hi. unfold g. destruct (existsb _ R) eqn:EX; [|reflexivity]. exfalso. apply existsb_exists in EX. destruct EX as (r & IR & HR).
        rewrite Forall_forall in O1. pose proof (O1 r IR) as P. cbn [fst snd] in P. apply andb_true_iff in HR. destruct HR as (H1 & H2). unfold inr in Hi. apply andb_true_iff in Hi. destruct Hi as (H3 & H4).
        apply N.leb_le in H1, H3. apply N.ltb_lt in H2, H4. lia.
      - intros i. rewrite E. cbn [existsb fst snd]. fold (g i). rewrite orb_comm. f_equal. unfold inr.
        destruct (N.leb_spec b (st + 4096 * i)), (N.leb_spec ((b - st) / 4096) i), (N.ltb_spec (st + 4096 * i) (b + n)), (N.ltb_spec i ((b - st) / 4096 + n / 4096)); cbn [andb]; try reflexivity; lia. }
    rewrite C. lia.
Qed.
