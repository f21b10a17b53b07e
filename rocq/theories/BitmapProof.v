(** Proofs about the page bitmap model. *)
From Verif Require Import Base BitmapModel.
Local Open Scope N_scope.
Ltac Zify.zify_post_hook ::= Z.div_mod_to_equations.
Arguments N.add : simpl never.
Arguments N.sub : simpl never.
Arguments N.mul : simpl never.
Arguments N.div : simpl never.
Arguments N.modulo : simpl never.
Arguments N.pow : simpl never.
Arguments N.ones : simpl never.

(** Bit [i] of the whole bitmap. *)
Definition bit (cs : list N) (i : N) : bool :=
  N.testbit (nth (N.to_nat (i / 64)) cs 0) (i mod 64).
Definition wfc (cs : list N) : Prop := Forall (fun c => c < 2 ^ 64) cs.
(** i in [s, s+n) *)
Definition inr (s n i : N) : bool := (s <=? i) && (i <? s + n).

(** ** Words *)
Lemma two64_eq : two64 = 2 ^ 64. Proof. reflexivity. Qed.

Lemma tb_high c j : c < 2 ^ 64 -> 64 <= j -> N.testbit c j = false.
Proof.
  intros H Hj. rewrite <- (N.mod_small c (2 ^ 64) H). apply N.mod_pow2_bits_high. lia.
Qed.

Lemma tb_ones j : N.testbit all_ones j = (j <? 64).
Proof.
  unfold all_ones. destruct (N.ltb_spec j 64).
  - apply N.ones_spec_low; lia.
  - apply N.ones_spec_high; lia.
Qed.

Lemma word_bound c : (forall j, 64 <= j -> N.testbit c j = false) -> c < 2 ^ 64.
Proof.
  intros H. destruct (N.eq_dec c 0) as [->|Hc]; [reflexivity|].
  destruct (N.lt_ge_cases c (2 ^ 64)) as [|Hge]; auto. exfalso.
  assert (Hl : 64 <= N.log2 c).
  { apply N.log2_le_pow2; lia. }
  specialize (H _ Hl). rewrite N.bit_log2 in H; [discriminate|auto].
Qed.

Lemma ones_bound : all_ones < 2 ^ 64. Proof. reflexivity. Qed.

Lemma shl_ok x n : n < 64 -> shl x n = Ok (N.land (N.shiftl x n) all_ones).
Proof. intros H. unfold shl. apply N.ltb_lt in H. now rewrite H. Qed.

Lemma tb_shl x n j :
  N.testbit (N.land (N.shiftl x n) all_ones) j =
  (n <=? j) && (j <? 64) && N.testbit x (j - n).
Proof.
  rewrite N.land_spec, tb_ones.
  destruct (N.leb_spec n j).
  - rewrite N.shiftl_spec_high' by lia. simpl. apply andb_comm.
  - rewrite N.shiftl_spec_low by lia. reflexivity.
Qed.

(** [(1 << bits) - 1] *)
Lemma low_mask bits : bits < 64 ->
  sub64 (N.land (N.shiftl 1 bits) all_ones) 1 = N.ones bits.
Proof.
  intros H. unfold all_ones. rewrite N.land_ones, N.shiftl_1_l.
  assert (H1 : 2 ^ bits < 2 ^ 64) by (apply N.pow_lt_mono_r; lia).
  assert (H0 : 0 < 2 ^ bits) by (apply N.neq_0_lt_0, N.pow_nonzero; lia).
  rewrite N.mod_small by assumption. unfold sub64, two64.
  rewrite N.ones_equiv. rewrite <- N.sub_1_r.
  rewrite (N.mod_small 1 (2^64)) by reflexivity.
  replace (2 ^ bits + 2 ^ 64 - 1) with ((2 ^ bits - 1) + 1 * 2 ^ 64) by lia.
  rewrite N.mod_add by discriminate. apply N.mod_small. lia.
Qed.

Lemma tb_onesn n j : N.testbit (N.ones n) j = (j <? n).
Proof.
  destruct (N.ltb_spec j n).
  - apply N.ones_spec_low; lia.
  - apply N.ones_spec_high; lia.
Qed.

Lemma land0 a b : N.land a b = 0 <-> forall j, N.testbit a j && N.testbit b j = false.
Proof.
  split.
  - intros H j. rewrite <- N.land_spec, H. apply N.bits_0.
  - intros H. apply N.bits_inj. intros j. rewrite N.land_spec, N.bits_0. apply H.
Qed.

Lemma land0b a b : (N.land a b =? 0) = true <-> forall j, N.testbit a j && N.testbit b j = false.
Proof. rewrite N.eqb_eq. apply land0. Qed.

Lemma land0b_false a b : (N.land a b =? 0) = false ->
  exists j, N.testbit a j = true /\ N.testbit b j = true.
Proof.
  intros H. apply N.eqb_neq in H.
  exists (N.log2 (N.land a b)).
  pose proof (N.bit_log2 _ H) as Hb. rewrite N.land_spec in Hb.
  now apply andb_true_iff in Hb.
Qed.

Lemma tb_not64 x j : N.testbit (not64 x) j = xorb (N.testbit x j) (j <? 64).
Proof. unfold not64. now rewrite N.lxor_spec, tb_ones. Qed.

Lemma clz_spec c : c <> 0 -> c < 2 ^ 64 ->
  clz c < 64 /\ (forall j, 64 - clz c <= j -> N.testbit c j = false) /\
  N.testbit c (63 - clz c) = true.
Proof.
  intros Hc Hb. unfold clz.
  assert (Hs : N.size c = N.succ (N.log2 c)) by (apply N.size_log2; auto).
  assert (Hl : N.log2 c < 64) by (apply N.log2_lt_pow2; lia).
  rewrite Hs. repeat split; try lia.
  - intros j Hj. apply N.bits_above_log2. lia.
  - replace (63 - (64 - N.succ (N.log2 c))) with (N.log2 c) by lia.
    now apply N.bit_log2.
Qed.

(** ** Counting *)
Fixpoint count (f : N -> bool) (m : nat) : N :=
  match m with
  | O => 0
  | S k => count f k + (if f (N.of_nat k) then 1 else 0)
  end.

Lemma popcount_count x : popcount x = count (N.testbit x) 64.
Proof.
  unfold popcount. generalize 64%nat as k. induction k as [|k IH]; cbn [popcount_upto count]; auto.
  now rewrite IH.
Qed.

Lemma count_ext f g m : (forall i, i < N.of_nat m -> f i = g i) -> count f m = count g m.
Proof.
  induction m as [|m IH]; intros H; cbn [count]; auto.
  rewrite IH by (intros; apply H; lia). rewrite H by lia. reflexivity.
Qed.

Lemma count_add f m k :
  count f (m + k) = count f m + count (fun i => f (N.of_nat m + i)) k.
Proof.
  induction k as [|k IH]; cbn [count].
  - rewrite Nat.add_0_r. lia.
  - rewrite Nat.add_succ_r. cbn [count]. rewrite IH.
    replace (N.of_nat (m + k)) with (N.of_nat m + N.of_nat k) by lia. lia.
Qed.

Lemma count_le f m : count f m <= N.of_nat m.
Proof. induction m as [|m IH]; cbn [count]; [lia|]. destruct (f (N.of_nat m)); lia. Qed.

(** setting a clear range adds its length *)
Lemma count_set_range f f' s n m :
  s + n <= N.of_nat m ->
  (forall i, inr s n i = true -> f i = false) ->
  (forall i, f' i = f i || inr s n i) ->
  count f' m = count f m + n.
Proof.
  intros Hm Hclear Hset.
  assert (H : forall k, count f' k = count f k +
    (if N.of_nat k <=? s then 0 else if N.of_nat k <=? s + n then N.of_nat k - s else n)).
  { induction k as [|k IH]; cbn [count].
    - destruct (N.leb_spec (N.of_nat 0) s); lia.
    - rewrite IH, Hset. specialize (Hclear (N.of_nat k)). unfold inr in *.
      destruct (N.leb_spec (N.of_nat k) s), (N.leb_spec (N.of_nat (S k)) s),
               (N.leb_spec (N.of_nat k) (s + n)), (N.leb_spec (N.of_nat (S k)) (s + n)),
               (N.leb_spec s (N.of_nat k)), (N.ltb_spec (N.of_nat k) (s + n));
      simpl in *; try lia; try rewrite Hclear by reflexivity; simpl;
      destruct (f (N.of_nat k)); simpl; try lia. }
  rewrite H. destruct (N.leb_spec (N.of_nat m) s), (N.leb_spec (N.of_nat m) (s + n)); lia.
Qed.

(** ** Bits of the chunk array *)
Lemma bit_split q r cs : r < 64 -> bit cs (64 * q + r) = N.testbit (nth (N.to_nat q) cs 0) r.
Proof.
  intros H. unfold bit.
  replace ((64 * q + r) / 64) with q by lia.
  replace ((64 * q + r) mod 64) with r by lia. reflexivity.
Qed.

Lemma bit_upd cs k v i : (k < length cs)%nat ->
  bit (upd cs k v) i = if i / 64 =? N.of_nat k then N.testbit v (i mod 64) else bit cs i.
Proof.
  intros H. unfold bit. destruct (N.eqb_spec (i / 64) (N.of_nat k)) as [E|E].
  - rewrite E, Nat2N.id, nth_upd_eq by assumption. reflexivity.
  - rewrite nth_upd_ne; [reflexivity|]. lia.
Qed.

Lemma bit_out cs i : N.of_nat (length cs) * 64 <= i -> bit cs i = false.
Proof.
  intros H. unfold bit. rewrite nth_overflow by lia. apply N.bits_0.
Qed.

Lemma wfc_nth cs k : wfc cs -> nth k cs 0 < 2 ^ 64.
Proof.
  intros H. destruct (Nat.lt_ge_cases k (length cs)) as [Hk|Hk].
  - unfold wfc in H. rewrite Forall_forall in H. apply H. now apply nth_In.
  - rewrite nth_overflow by assumption. reflexivity.
Qed.

Lemma wfc_upd cs k v : wfc cs -> v < 2 ^ 64 -> wfc (upd cs k v).
Proof.
  intros H Hv. unfold wfc in *. revert k. induction H as [|c cs Hc Hcs IH]; intros [|k]; simpl;
  constructor; auto.
Qed.

Lemma lor_bound a b : a < 2 ^ 64 -> b < 2 ^ 64 -> N.lor a b < 2 ^ 64.
Proof.
  intros Ha Hb. apply word_bound. intros j Hj. rewrite N.lor_spec, !tb_high by assumption. reflexivity.
Qed.

Lemma land_bound a b : a < 2 ^ 64 -> N.land a b < 2 ^ 64.
Proof.
  intros Ha. apply word_bound. intros j Hj. rewrite N.land_spec, tb_high by assumption. reflexivity.
Qed.

Lemma shlones_bound x n : N.land (N.shiftl x n) all_ones < 2 ^ 64.
Proof.
  apply word_bound. intros j Hj. rewrite tb_shl.
  destruct (N.ltb_spec j 64); [lia|]. now rewrite andb_false_r.
Qed.

Lemma ones_le_bound n : n <= 64 -> N.ones n < 2 ^ 64.
Proof. intros H. apply word_bound. intros j Hj. rewrite tb_onesn. lia. Qed.

(** ** The abstract effect of a successful allocation *)
Definition alloc_post (cs cs' : list N) (n s : N) : Prop :=
  length cs' = length cs /\ wfc cs' /\
  s + n <= 64 * N.of_nat (length cs) /\
  (forall i, inr s n i = true -> bit cs i = false) /\
  (forall i, bit cs' i = bit cs i || inr s n i).

(** one chunk, mask = ones n << sh *)
Lemma post_one cs k n sh m :
  wfc cs -> (k < length cs)%nat -> sh + n <= 64 ->
  (forall j, N.testbit m j = inr sh n j) ->
  (forall j, N.testbit m j && N.testbit (nth k cs 0) j = false) ->
  alloc_post cs (upd cs k (N.lor (nth k cs 0) m)) n (N.of_nat k * 64 + sh).
Proof.
  intros Hwf Hk Hn Hm Hd.
  assert (Hmb : m < 2 ^ 64).
  { apply word_bound. intros j Hj. rewrite Hm. unfold inr. lia. }
  repeat split.
  - apply upd_length.
  - apply wfc_upd; auto. apply lor_bound; auto. now apply wfc_nth.
  - lia.
  - intros i Hi. unfold bit, inr in *.
    assert (E : i / 64 = N.of_nat k) by lia.
    rewrite E, Nat2N.id. specialize (Hd (i mod 64)). rewrite Hm in Hd. unfold inr in Hd.
    replace ((sh <=? i mod 64) && (i mod 64 <? sh + n)) with true in Hd by lia. exact Hd.
  - intros i. rewrite bit_upd by assumption. unfold bit, inr.
    destruct (N.eqb_spec (i / 64) (N.of_nat k)) as [E|E].
    + rewrite N.lor_spec, Hm, E, Nat2N.id. unfold inr. f_equal. lia.
    + replace ((N.of_nat k * 64 + sh <=? i) && (i <? N.of_nat k * 64 + sh + n)) with false by lia.
      now rewrite orb_false_r.
Qed.

(** ** find_end_small *)
Lemma find_end_small_spec bits c : bits <= 64 -> c < 2 ^ 64 ->
  exists r, find_end_small bits c = Ok r /\
  match r with
  | Some c' => c' = N.lor c (N.ones bits) /\ forall j, j < bits -> N.testbit c j = false
  | None => exists j, j < bits /\ N.testbit c j = true
  end.
Proof.
  intros Hb Hc. unfold find_end_small.
  assert (Hm : (if bits =? 64 then Ok all_ones else do s <- shl 1 bits; Ok (sub64 s 1))
               = Ok (N.ones bits)).
  { destruct (N.eqb_spec bits 64) as [->|Hne]; [reflexivity|].
    rewrite shl_ok by lia. cbn [bind]. rewrite low_mask by lia. reflexivity. }
  rewrite Hm. cbn [bind].
  destruct (N.land (N.ones bits) c =? 0) eqn:E; eexists; split; try reflexivity; cbv beta iota.
  - split; auto. intros j Hj. rewrite land0b in E. specialize (E j). rewrite tb_onesn in E.
    replace (j <? bits) with true in E by lia. exact E.
  - apply land0b_false in E. destruct E as (j & E1 & E2). rewrite tb_onesn in E1.
    exists j. split; [lia|auto].
Qed.

(** ** slide *)
Lemma slide_spec usable bits : forall fuel shift mask,
  (forall j, N.testbit mask j = inr shift bits j) ->
  shift + bits + N.of_nat fuel <= 65 ->
  match slide usable mask shift fuel with
  | Some (sh, m) => (shift <= sh < shift + N.of_nat fuel /\ (bits = 0 -> sh = shift)) /\
      (forall j, N.testbit m j = inr sh bits j) /\
      (forall j, N.testbit m j && N.testbit usable j = false)
  | None => forall sh, shift <= sh < shift + N.of_nat fuel ->
      exists j, inr sh bits j = true /\ N.testbit usable j = true
  end.
Proof.
  induction fuel as [|fuel IH]; intros shift mask Hm Hf; cbn [slide].
  - intros sh Hsh. lia.
  - destruct (N.land mask usable =? 0) eqn:E.
    + split; [lia|]. split; auto. now apply land0b.
    + apply land0b_false in E. destruct E as (j0 & E1 & E2). rewrite Hm in E1.
      destruct fuel as [|fuel'].
      { cbn [slide]. intros sh Hsh. assert (sh = shift) by lia. subst. eauto. }
      specialize (IH (shift + 1) (N.land (N.shiftl mask 1) all_ones)).
      assert (Hm' : forall j, N.testbit (N.land (N.shiftl mask 1) all_ones) j = inr (shift + 1) bits j).
      { intros j. rewrite tb_shl, Hm. unfold inr. lia. }
      specialize (IH Hm' ltac:(lia)).
      destruct (slide usable _ (shift + 1) (S fuel')) as [[sh m]|].
      * destruct IH as (I1 & I2 & I3). split; [unfold inr in E1; lia|]. auto.
      * intros sh Hsh. destruct (N.eq_dec sh shift) as [->|Hne]; eauto.
        apply IH. lia.
Qed.

Lemma popcount_zero_free x : popcount x = 0 -> x < 2 ^ 64 -> x = 0.
Proof.
  rewrite popcount_count. intros H Hb. apply N.bits_inj. intros j. rewrite N.bits_0.
  destruct (N.lt_ge_cases j 64) as [Hj|Hj]; [|now apply tb_high].
  destruct (N.testbit x j) eqn:E; auto. exfalso.
  assert (G : forall m, j < N.of_nat m -> 1 <= count (N.testbit x) m).
  { induction m as [|m IH]; intros Hm; [lia|]. cbn [count].
    destruct (N.eq_dec j (N.of_nat m)) as [Ej|Ej].
    - rewrite <- Ej, E. lia.
    - specialize (IH ltac:(lia)). destruct (N.testbit x (N.of_nat m)); lia. }
  specialize (G 64%nat ltac:(lia)). lia.
Qed.

(** trailing free bits are counted among the free bits *)
Lemma popcount_clz x e : e <= 64 -> (forall j, e <= j -> N.testbit x j = false) -> popcount x <= e.
Proof.
  intros He H. rewrite popcount_count.
  replace 64%nat with (N.to_nat e + (64 - N.to_nat e))%nat by lia.
  rewrite count_add.
  rewrite (count_ext (fun i => N.testbit x (N.of_nat (N.to_nat e) + i)) (fun _ => false)).
  - pose proof (count_le (N.testbit x) (N.to_nat e)).
    assert (Z : forall m, count (fun _ => false) m = 0).
    { induction m as [|m IH]; cbn [count]; lia. }
    rewrite Z. lia.
  - intros i _. apply H. lia.
Qed.

(** two adjacent pieces *)
Lemma post_two cs k n fe :
  wfc cs -> (k + 1 < length cs)%nat -> fe <= 64 -> fe <= n -> n - fe <= 64 ->
  (forall j, 64 - fe <= j -> N.testbit (nth k cs 0) j = false) ->
  (forall j, j < n - fe -> N.testbit (nth (k + 1) cs 0) j = false) ->
  forall m1, (forall j, N.testbit m1 j = (64 - fe <=? j) && (j <? 64)) ->
  alloc_post cs (upd (upd cs (k + 1) (N.lor (nth (k + 1) cs 0) (N.ones (n - fe))))
                     k (N.lor (nth k cs 0) m1))
             n (N.of_nat k * 64 + (64 - fe)).
Proof.
  intros Hwf Hk Hfe Hn Hr H1 H2 m1 Hm1.
  assert (Hmb : m1 < 2 ^ 64).
  { apply word_bound. intros j Hj. rewrite Hm1. lia. }
  repeat split.
  - now rewrite !upd_length.
  - apply wfc_upd; [apply wfc_upd; auto|]; apply lor_bound; auto using wfc_nth.
    apply ones_le_bound. lia.
  - lia.
  - intros i Hi. unfold bit, inr in *.
    destruct (N.eq_dec (i / 64) (N.of_nat k)) as [E|E].
    + rewrite E, Nat2N.id. apply H1. lia.
    + assert (E' : i / 64 = N.of_nat (k + 1)) by lia. rewrite E', Nat2N.id. apply H2. lia.
  - intros i. rewrite bit_upd by (rewrite upd_length; lia).
    rewrite bit_upd by lia. unfold bit, inr.
    destruct (N.eqb_spec (i / 64) (N.of_nat k)) as [E|E].
    + rewrite N.lor_spec, Hm1, E, Nat2N.id. f_equal. lia.
    + destruct (N.eqb_spec (i / 64) (N.of_nat (k + 1))) as [E'|E'].
      * rewrite N.lor_spec, tb_onesn, E', Nat2N.id. f_equal. lia.
      * replace ((N.of_nat k * 64 + (64 - fe) <=? i) && (i <? N.of_nat k * 64 + (64 - fe) + n))
          with false by lia.
        now rewrite orb_false_r.
Qed.

Local Opaque popcount count.

(** result shape shared by the finders *)
Definition fs_post (b b' : bmp) (n s : N) : Prop :=
  alloc_post (chunks b) (chunks b') n s /\
  bsize b' = bsize b /\ free_p b' = free_p b /\ used b' = add64 (used b) n.

(** ** find_start_small *)
Lemma find_start_small_spec b bits ci :
  wfc (chunks b) -> (ci < length (chunks b))%nat -> bits <= 64 -> 
  exists r, find_start_small b bits ci = Ok r /\
  match r with
  | Some (b', s) => fs_post b b' bits s /\ s / 64 = N.of_nat ci
  | None =>
    let c := nth ci (chunks b) 0 in
    let lim := if Nat.eqb (ci + 1) (length (chunks b)) && negb (bsize b mod 64 =? 0)
               then bsize b mod 64 else 64 in
    (* no run of [bits] inside the usable part of this chunk, and no run straddling into
       the next one unless the chunk itself still has at least [bits] free bits *)
    (1 <= bits -> (forall sh, sh + bits <= lim -> exists j, inr sh bits j = true /\ N.testbit c j = true)) /\
    (64 - popcount c < bits -> (ci + 1 < length (chunks b))%nat ->
       forall sh, sh < 64 -> 64 < sh + bits ->
       (exists j, sh <= j < 64 /\ N.testbit c j = true) \/
       (exists j, j < sh + bits - 64 /\ N.testbit (nth (ci + 1) (chunks b) 0) j = true))
  end.
Proof.
  intros Hwf Hci Hbits. unfold find_start_small. cbv zeta.
  set (cs := chunks b) in *. set (c := nth ci cs 0).
  rewrite (rd_ok cs ci 0 Hci). fold c. cbn [bind].
  assert (Hc : c < 2 ^ 64) by now apply wfc_nth.
  set (last := Nat.eqb (ci + 1) (length cs)).
  set (lim := if last && negb (bsize b mod 64 =? 0) then bsize b mod 64 else 64).
  assert (Hlim : 1 <= lim <= 64).
  { unfold lim. destruct last; simpl; [|lia]. destruct (N.eqb_spec (bsize b mod 64) 0); simpl; lia. }
  (* usable = c plus the bits from lim upward *)
  assert (Hus : exists us, (if last then
       if bsize b mod 64 =? 0 then Ok c else do m <- shl all_ones (bsize b mod 64); Ok (N.lor c m)
     else Ok c) = Ok us /\ us < 2 ^ 64 /\
     (forall j, N.testbit us j = N.testbit c j || ((lim <=? j) && (j <? 64)))).
  { assert (Hid : forall j, N.testbit c j = N.testbit c j || ((64 <=? j) && (j <? 64))).
    { intros j. replace ((64 <=? j) && (j <? 64)) with false by lia. now rewrite orb_false_r. }
    unfold lim. destruct last; simpl.
    - destruct (N.eqb_spec (bsize b mod 64) 0) as [E|E]; simpl.
      + exists c. auto.
      + rewrite shl_ok by lia. cbn [bind]. eexists; split; [reflexivity|]. split.
        * apply lor_bound; auto. apply shlones_bound.
        * intros j. rewrite N.lor_spec, tb_shl, tb_ones. f_equal. lia.
    - exists c. auto. }
  destruct Hus as (us & Eus & Hub & Hut). rewrite Eus. cbn [bind].
  destruct (N.eqb_spec us 0) as [Eu|Eu].
  { (* empty chunk *)
    assert (Hc0 : c = 0).
    { apply N.bits_inj. intros j. rewrite N.bits_0. specialize (Hut j).
      rewrite Eu, N.bits_0 in Hut. destruct (N.testbit c j); [discriminate|reflexivity]. }
    assert (Hl64 : lim = 64).
    { specialize (Hut lim). rewrite Eu, N.bits_0 in Hut. destruct (N.testbit c lim); [discriminate|].
      simpl in Hut. lia. }
    assert (Hm : (if bits =? 64 then Ok all_ones else do s <- shl 1 bits; Ok (sub64 s 1))
                 = Ok (N.ones bits)).
    { destruct (N.eqb_spec bits 64) as [->|Hne]; [reflexivity|].
      rewrite shl_ok by lia. cbn [bind]. rewrite low_mask by lia. reflexivity. }
    rewrite Hm. cbn [bind]. rewrite wr_ok by assumption. cbn [bind].
    eexists; split; [reflexivity|]. cbv beta iota. split; [|lia].
    split; [|auto]. cbn [chunks].
    replace (N.ones bits) with (N.lor c (N.ones bits)) by (rewrite Hc0; apply N.lor_0_l).
    unfold c. replace (N.of_nat ci * 64) with (N.of_nat ci * 64 + 0) by lia.
    apply post_one; auto; try lia.
    - intros j. rewrite tb_onesn. unfold inr. lia.
    - intros j. fold c. rewrite Hc0, N.bits_0. apply andb_false_r. }
  destruct (N.eqb_spec c all_ones) as [Ef|Ef].
  { eexists; split; [reflexivity|]. cbv beta iota zeta. split.
    - intros Hb1 sh Hsh. exists sh. split; [unfold inr; lia|]. rewrite Ef, tb_ones. lia.
    - intros _ _ sh Hsh1 Hsh2. left. exists sh. split; [lia|]. rewrite Ef, tb_ones. lia. }
  destruct (N.leb_spec bits (64 - popcount us)) as [Hfb|Hfb].
  { assert (Hb63 : bits < 64).
    { assert (popcount us <> 0).
      { intros E. apply Eu. exact (popcount_zero_free us E Hub). }
      lia. }
    rewrite shl_ok by lia. cbn [bind]. rewrite low_mask by lia.
    pose proof (slide_spec us bits (N.to_nat (64 - bits) + 1) 0 (N.ones bits)) as HS.
    assert (HS1 : forall j, N.testbit (N.ones bits) j = inr 0 bits j).
    { intros j. rewrite tb_onesn. unfold inr. lia. }
    specialize (HS HS1 ltac:(lia)).
    destruct (slide us (N.ones bits) 0 (N.to_nat (64 - bits) + 1)) as [[sh m]|].
    - destruct HS as (HS2 & HS3 & HS4). rewrite wr_ok by assumption. cbn [bind].
      eexists; split; [reflexivity|]. cbv beta iota. 
      assert (P : alloc_post cs (upd cs ci (N.lor (nth ci cs 0) m)) bits (N.of_nat ci * 64 + sh)).
      { apply post_one; auto; try lia.
        intros j. specialize (HS4 j). rewrite Hut in HS4. fold c.
        destruct (N.testbit m j), (N.testbit c j); simpl in *; auto. }
      split.
      + split; [exact P|auto].
      + (* sh + bits <= 64; when bits = 0, sh = 0 since the first probe succeeds *)
        destruct (N.eq_dec sh 64) as [E64|N64]; lia.
    - eexists; split; [reflexivity|]. cbv beta iota zeta. split.
      + intros Hb1 sh Hsh. fold c.
        destruct (HS sh ltac:(lia)) as (j & Hj1 & Hj2).
        exists j. split; auto. rewrite Hut in Hj2. unfold inr in Hj1.
        fold last lim in Hsh. replace (lim <=? j) with false in Hj2 by lia. simpl in Hj2.
        now rewrite orb_false_r in Hj2.
      + intros Hp Hl. exfalso.
        assert (last = false) by (unfold last; lia).
        assert (us = c).
        { rewrite H in Eus. congruence. }
        subst us. fold c in Hp. lia. }
  (* not enough bits in this chunk *)
  set (fe := if c =? 0 then 64 else clz c).
  assert (Hfe : fe <= 64 /\ (forall j, 64 - fe <= j -> N.testbit c j = false) /\
                (fe < 64 -> N.testbit c (63 - fe) = true)).
  { unfold fe. destruct (N.eqb_spec c 0) as [E|E].
    - split; [lia|]. split; [intros; rewrite E; apply N.bits_0|lia].
    - destruct (clz_spec c E Hc) as (C1 & C2 & C3). split; [lia|]. auto. }
  destruct Hfe as (F1 & F2 & F3).
  assert (Hnorun : 1 <= bits -> forall sh, sh + bits <= lim ->
            exists j, inr sh bits j = true /\ N.testbit c j = true).
  { (* a run of [bits] would give at least [bits] free bits *)
    intros Hb1 sh Hsh.
    destruct (find (fun j => N.testbit c j) (map N.of_nat (seq (N.to_nat sh) (N.to_nat bits)))) as [j|] eqn:Ef1.
    - apply find_some in Ef1. destruct Ef1 as [I1 I2]. apply in_map_iff in I1.
      destruct I1 as (k & <- & I1). apply in_seq in I1. exists (N.of_nat k). split; auto.
      unfold inr. lia.
    - exfalso. 
      assert (Hfree : forall j, inr sh bits j = true -> N.testbit us j = false).
      { intros j Hj. unfold inr in Hj. rewrite Hut.
        pose proof (find_none _ _ Ef1 j) as Hnn. cbv beta in Hnn.
        rewrite Hnn.
        - fold last lim in Hsh. simpl. lia.
        - apply in_map_iff. exists (N.to_nat j). split; [lia|]. apply in_seq. lia. }
      assert (C : count (fun i => N.testbit us i || inr sh bits i) 64 = count (N.testbit us) 64 + bits).
      { apply count_set_range with (s := sh); auto. lia. }
      pose proof (count_le (fun i => N.testbit us i || inr sh bits i) 64).
      rewrite popcount_count in Hfb. lia. }
  assert (Hst0 : forall sh, sh < 64 - fe -> exists j, sh <= j < 64 /\ N.testbit c j = true).
  { intros sh Hsh. exists (63 - fe). split; [lia|]. apply F3. lia. }
  destruct (N.eqb_spec fe 0) as [E0|E0].
  { eexists; split; [reflexivity|]. cbv beta iota zeta. split; [exact Hnorun|].
    intros _ _ sh Hsh1 Hsh2. left. apply Hst0. lia. }
  destruct last eqn:Elast.
  { eexists; split; [reflexivity|]. cbv beta iota zeta. split; [exact Hnorun|].
    intros _ Hl. unfold last in Elast. lia. }
  assert (Hci1 : (ci + 1 < length cs)%nat) by (unfold last in Elast; lia).
  assert (Eusc : us = c) by congruence. subst us.
  assert (Hpc : popcount c <= 64 - fe) by (apply popcount_clz; [lia|auto]).
  rewrite (rd_ok cs (ci + 1) 0 Hci1). cbn [bind].
  assert (Hc1 : nth (ci + 1) cs 0 < 2 ^ 64) by now apply wfc_nth.
  destruct (find_end_small_spec (bits - fe) (nth (ci + 1) cs 0) ltac:(lia) Hc1) as (r & Er & Hr).
  rewrite Er. cbn [bind]. destruct r as [c1'|].
  - destruct Hr as (-> & Hr).
    rewrite wr_ok by assumption. cbn [bind]. rewrite shl_ok by lia. cbn [bind].
    rewrite wr_ok by (rewrite upd_length; assumption). cbn [bind].
    eexists; split; [reflexivity|]. cbv beta iota. split; [|lia].
    split; [|auto]. cbn [chunks]. fold cs. unfold c.
    apply post_two; auto; try lia.
    intros j. rewrite tb_shl, tb_ones. lia.
  - eexists; split; [reflexivity|]. cbv beta iota zeta. split; [exact Hnorun|].
    intros _ _ sh Hsh1 Hsh2.
    destruct (N.lt_ge_cases sh (64 - fe)) as [Hlt|Hge]; [left; auto|].
    right. destruct Hr as (j & Hj1 & Hj2). exists j. split; [lia|auto].
Qed.

(** ** find_start_big *)
Lemma nonzero_bit c : c <> 0 -> c < 2 ^ 64 -> exists j, j < 64 /\ N.testbit c j = true.
Proof.
  intros Hc Hb. exists (N.log2 c). split; [|now apply N.bit_log2].
  apply N.log2_lt_pow2; lia.
Qed.

Lemma all_zero_spec cs : forall cnt from, (from + cnt <= length cs)%nat ->
  exists z, all_zero cs from cnt = Ok z /\
  if z then forall k, (from <= k < from + cnt)%nat -> nth k cs 0 = 0
  else exists k, (from <= k < from + cnt)%nat /\ nth k cs 0 <> 0.
Proof.
  induction cnt as [|cnt IH]; intros from H; cbn [all_zero].
  - exists true. split; [reflexivity|]. intros; lia.
  - rewrite (rd_ok cs from 0) by lia. cbn [bind].
    destruct (N.eqb_spec (nth from cs 0) 0) as [E|E].
    + destruct (IH (S from) ltac:(lia)) as (z & Ez & Hz). exists z. split; auto.
      destruct z.
      * intros k Hk. destruct (Nat.eq_dec k from) as [->|]; auto. apply Hz. lia.
      * destruct Hz as (k & Hk1 & Hk2). exists k. split; [lia|auto].
    + exists false. split; [reflexivity|]. exists from. split; [lia|auto].
Qed.

Definition fillf (cs : list N) (from cnt : nat) (v : N) : list N :=
  firstn from cs ++ repeat v cnt ++ skipn (from + cnt) cs.

Lemma fill_ok cs from cnt v : (from + cnt <= length cs)%nat -> fill cs from cnt v = Ok (fillf cs from cnt v).
Proof. intros H. unfold fill, fillf. apply Nat.leb_le in H. now rewrite H. Qed.

Lemma fillf_length cs from cnt v : (from + cnt <= length cs)%nat -> length (fillf cs from cnt v) = length cs.
Proof.
  intros H. unfold fillf. rewrite !app_length, repeat_length, firstn_length, skipn_length. lia.
Qed.

Lemma nth_firstn_lt {A} (l : list A) k n d : (k < n)%nat -> nth k (firstn n l) d = nth k l d.
Proof.
  revert k l; induction n as [|n IH]; intros [|k] [|h t] H; simpl; auto; try lia. apply IH; lia.
Qed.
Lemma nth_skipn' {A} (l : list A) k n d : nth k (skipn n l) d = nth (n + k) l d.
Proof.
  revert l; induction n as [|n IH]; intros [|h t]; simpl; auto; destruct k; auto.
Qed.
Lemma nth_repeat_lt {A} (v : A) n k d : (k < n)%nat -> nth k (repeat v n) d = v.
Proof. revert k; induction n as [|n IH]; intros [|k] H; simpl; auto; try lia. apply IH; lia. Qed.

Lemma nth_fillf cs from cnt v k : (from + cnt <= length cs)%nat ->
  nth k (fillf cs from cnt v) 0 =
  if (from <=? k)%nat && (k <? from + cnt)%nat then v else nth k cs 0.
Proof.
  intros H. unfold fillf.
  assert (Lf : length (firstn from cs) = from) by (rewrite firstn_length; lia).
  destruct (Nat.leb_spec from k) as [H1|H1]; simpl.
  - rewrite app_nth2 by lia. rewrite Lf.
    destruct (Nat.ltb_spec k (from + cnt)) as [H2|H2].
    + rewrite app_nth1 by (rewrite repeat_length; lia). apply nth_repeat_lt. lia.
    + rewrite app_nth2 by (rewrite repeat_length; lia). rewrite repeat_length, nth_skipn'.
      f_equal. lia.
  - rewrite app_nth1 by lia. now apply nth_firstn_lt.
Qed.

Lemma wfc_alt cs : wfc cs <-> forall k, nth k cs 0 < 2 ^ 64.
Proof.
  split.
  - intros H k. now apply wfc_nth.
  - intros H. unfold wfc. rewrite Forall_forall. intros x Hx.
    apply (In_nth _ _ 0) in Hx. destruct Hx as (k & _ & <-). apply H.
Qed.

Lemma land63 r : N.land r 63 = r mod 64.
Proof. change 63 with (N.ones 6). rewrite N.land_ones. reflexivity. Qed.

(** tail of chunk k, [span] whole chunks, [lr] bits of the next one *)
Lemma post_many cs k n fe span lr cs1 m1 :
  wfc cs -> 1 <= fe <= 64 -> n = fe + 64 * N.of_nat span + lr -> lr < 64 ->
  (k + span + (if (lr =? 0)%N then 0 else 1) < length cs)%nat ->
  (forall j, 64 - fe <= j -> N.testbit (nth k cs 0) j = false) ->
  (forall q, (k + 1 <= q < k + 1 + span)%nat -> nth q cs 0 = 0) ->
  (forall j, j < lr -> N.testbit (nth (k + 1 + span) cs 0) j = false) ->
  (forall j, N.testbit m1 j = (64 - fe <=? j) && (j <? 64)) ->
  cs1 = (if lr =? 0 then cs
         else upd cs (k + 1 + span) (N.lor (nth (k + 1 + span) cs 0) (N.ones lr))) ->
  alloc_post cs (upd (fillf cs1 (k + 1) span all_ones) k (N.lor (nth k cs 0) m1))
             n (N.of_nat k * 64 + (64 - fe)).
Proof.
  intros Hwf Hfe Hn Hlr Hlen H1 H2 H3 Hm1 E1.
  assert (L1 : length cs1 = length cs).
  { subst cs1. destruct (lr =? 0); auto. apply upd_length. }
  assert (Hmb : m1 < 2 ^ 64).
  { apply word_bound. intros j Hj. rewrite Hm1. lia. }
  assert (Hfl : (k + 1 + span <= length cs1)%nat).
  { rewrite L1. destruct (lr =? 0); lia. }
  assert (Hkl : (k < length (fillf cs1 (k + 1) span all_ones))%nat).
  { rewrite fillf_length by assumption. lia. }
  (* chunk q after the update *)
  assert (Hnth : forall q, nth q (upd (fillf cs1 (k + 1) span all_ones) k (N.lor (nth k cs 0) m1)) 0 =
    if Nat.eqb q k then N.lor (nth k cs 0) m1
    else if (k + 1 <=? q)%nat && (q <? k + 1 + span)%nat then all_ones
    else if Nat.eqb q (k + 1 + span) && negb (lr =? 0)
         then N.lor (nth q cs 0) (N.ones lr)
    else nth q cs 0).
  { intros q. destruct (Nat.eqb_spec q k) as [->|Hq].
    - now apply nth_upd_eq.
    - rewrite nth_upd_ne by auto. rewrite nth_fillf by assumption.
      destruct ((k + 1 <=? q)%nat && (q <? k + 1 + span)%nat) eqn:Eq; auto.
      subst cs1. destruct (N.eqb_spec lr 0) as [El|El]; simpl.
      + rewrite andb_false_r. reflexivity.
      + destruct (Nat.eqb_spec q (k + 1 + span)) as [->|Hq2]; simpl.
        * apply nth_upd_eq. lia.
        * rewrite nth_upd_ne by auto. reflexivity. }
  repeat split.
  - rewrite upd_length, fillf_length by assumption. exact L1.
  - apply wfc_alt. intros q. rewrite Hnth.
    destruct (Nat.eqb q k). { apply lor_bound; auto. now apply wfc_nth. }
    destruct ((k + 1 <=? q)%nat && (q <? k + 1 + span)%nat); [apply ones_bound|].
    destruct (Nat.eqb q (k + 1 + span) && negb (lr =? 0)); [|now apply wfc_nth].
    apply lor_bound; [now apply wfc_nth|]. apply ones_le_bound. lia.
  - destruct (N.eqb_spec lr 0); lia.
  - intros i Hi. unfold inr in Hi. unfold bit.
    destruct (N.eq_dec (i / 64) (N.of_nat k)) as [E|E].
    + rewrite E, Nat2N.id. apply H1. lia.
    + destruct (N.lt_ge_cases (i / 64) (N.of_nat (k + 1 + span))) as [E2|E2].
      * rewrite H2 by lia. apply N.bits_0.
      * assert (E3 : i / 64 = N.of_nat (k + 1 + span)) by lia.
        rewrite E3, Nat2N.id. apply H3. lia.
  - intros i. unfold bit. rewrite Hnth. unfold inr.
    destruct (Nat.eqb_spec (N.to_nat (i / 64)) k) as [Eq|Hq].
    + rewrite N.lor_spec, Hm1, Eq. f_equal. lia.
    + destruct ((k + 1 <=? N.to_nat (i / 64))%nat && (N.to_nat (i / 64) <? k + 1 + span)%nat) eqn:Eq2.
      * rewrite tb_ones.
        replace (i mod 64 <? 64) with true by lia.
        replace ((N.of_nat k * 64 + (64 - fe) <=? i) && (i <? N.of_nat k * 64 + (64 - fe) + n))
          with true by lia.
        now rewrite orb_true_r.
      * destruct (Nat.eqb_spec (N.to_nat (i / 64)) (k + 1 + span)) as [Eq3|Hq3]; simpl.
        -- destruct (N.eqb_spec lr 0) as [El|El]; simpl.
           ++ replace ((N.of_nat k * 64 + (64 - fe) <=? i) && (i <? N.of_nat k * 64 + (64 - fe) + n))
                with false by lia.
              now rewrite orb_false_r.
           ++ rewrite N.lor_spec, tb_onesn. f_equal. lia.
        -- replace ((N.of_nat k * 64 + (64 - fe) <=? i) && (i <? N.of_nat k * 64 + (64 - fe) + n))
             with false by lia.
           now rewrite orb_false_r.
Qed.

Lemma find_start_big_spec b bits ci :
  wfc (chunks b) -> (ci < length (chunks b))%nat -> 65 <= bits ->
  exists r, find_start_big b bits ci = Ok r /\
  match r with
  | Some (b', s) => fs_post b b' bits s /\ s / 64 = N.of_nat ci
  | None => forall sh, sh < 64 ->
      64 * N.of_nat ci + sh + bits <= 64 * N.of_nat (length (chunks b)) ->
      exists i, inr (64 * N.of_nat ci + sh) bits i = true /\ bit (chunks b) i = true
  end.
Proof.
  intros Hwf Hci Hbits. unfold find_start_big. cbv zeta.
  set (cs := chunks b) in *. set (c := nth ci cs 0).
  rewrite (rd_ok cs ci 0 Hci). fold c. cbn [bind].
  assert (Hc : c < 2 ^ 64) by now apply wfc_nth.
  assert (Hbitc : forall j, j < 64 -> bit cs (64 * N.of_nat ci + j) = N.testbit c j).
  { intros j Hj. rewrite bit_split by assumption. now rewrite Nat2N.id. }
  destruct (N.eqb_spec c all_ones) as [Ef|Ef].
  { eexists; split; [reflexivity|]. intros sh Hsh Hlen.
    exists (64 * N.of_nat ci + sh). split; [unfold inr; lia|].
    rewrite Hbitc, Ef, tb_ones by assumption. lia. }
  set (fe := if c =? 0 then 64 else clz c).
  assert (Hfe : fe <= 64 /\ (forall j, 64 - fe <= j -> N.testbit c j = false) /\
                (fe < 64 -> N.testbit c (63 - fe) = true)).
  { unfold fe. destruct (N.eqb_spec c 0) as [E|E].
    - split; [lia|]. split; [intros; rewrite E; apply N.bits_0|lia].
    - destruct (clz_spec c E Hc) as (C1 & C2 & C3). split; [lia|]. auto. }
  destruct Hfe as (F1 & F2 & F3).
  assert (Htrip : exists fm, (if c =? 0 then Ok (all_ones, bits - 64, 0)
       else do fm <- (if clz c =? 0 then Ok 0 else shl all_ones (64 - clz c));
            Ok (fm, bits - clz c, 64 - clz c)) = Ok (fm, bits - fe, 64 - fe) /\
     (if fe =? 0 then fm = 0 else fm <> 0 /\ forall j, N.testbit fm j = (64 - fe <=? j) && (j <? 64))).
  { unfold fe. destruct (N.eqb_spec c 0) as [E|E].
    - exists all_ones. split; [reflexivity|]. change (64 =? 0) with false. cbv iota. split; [discriminate|].
      intros j. rewrite tb_ones. lia.
    - destruct (clz_spec c E Hc) as (C1 & _ & _).
      destruct (N.eqb_spec (clz c) 0) as [E0|E0].
      + exists 0. auto.
      + rewrite shl_ok by lia. cbn [bind]. eexists; split; [reflexivity|].
        assert (T : forall j, N.testbit (N.land (N.shiftl all_ones (64 - clz c)) all_ones) j =
                    (64 - clz c <=? j) && (j <? 64)).
        { intros j. rewrite tb_shl, tb_ones. lia. }
        split; auto. intros Z. specialize (T 63). rewrite Z, N.bits_0 in T. lia. }
  destruct Htrip as (fm & Etrip & Hfm). rewrite Etrip. cbn [bind].
  assert (Hst0 : forall sh, sh < 64 - fe -> 
     exists i, inr (64 * N.of_nat ci + sh) bits i = true /\ bit cs i = true).
  { intros sh Hsh. exists (64 * N.of_nat ci + (63 - fe)). split; [unfold inr; lia|].
    rewrite Hbitc by lia. apply F3. lia. }
  destruct (N.eqb_spec fe 0) as [E0|E0].
  { subst fm. cbn [N.eqb]. eexists; split; [reflexivity|]. intros sh Hsh _. apply Hst0. lia. }
  destruct Hfm as (Hfm0 & Hfm). destruct (N.eqb_spec fm 0) as [Ez|_]; [contradiction|].
  destruct (Nat.eqb_spec (ci + 1) (length cs)) as [El|El].
  { eexists; split; [reflexivity|]. intros sh Hsh Hlen. lia. }
  assert (Hci1 : (ci + 1 < length cs)%nat) by lia.
  destruct (N.ltb_spec (bits - fe) 65) as [Hrem|Hrem].
  { rewrite (rd_ok cs (ci + 1) 0 Hci1). cbn [bind].
    assert (Hc1 : nth (ci + 1) cs 0 < 2 ^ 64) by now apply wfc_nth.
    destruct (find_end_small_spec (bits - fe) (nth (ci + 1) cs 0) ltac:(lia) Hc1) as (r & Er & Hr).
    rewrite Er. cbn [bind]. destruct r as [c1'|].
    - destruct Hr as (-> & Hr).
      rewrite wr_ok by assumption. cbn [bind].
      rewrite wr_ok by (rewrite upd_length; assumption). cbn [bind].
      eexists; split; [reflexivity|]. cbv beta iota. split; [|lia].
      split; [|auto]. cbn [chunks]. fold cs. unfold c.
      apply post_two; auto; try lia.
    - eexists; split; [reflexivity|]. cbv beta iota.
      intros sh Hsh Hlen.
      destruct (N.lt_ge_cases sh (64 - fe)) as [Hlt|Hge]; [auto|].
      destruct Hr as (j & Hj1 & Hj2). exists (64 * N.of_nat (ci + 1) + j).
      split; [unfold inr; lia|]. rewrite bit_split, Nat2N.id by lia. exact Hj2. }
  set (rem := bits - fe) in *.
  rewrite land63. set (span := rem / 64). set (lr := rem mod 64).
  assert (Hlm : (do s <- shl (if lr =? 0 then 0 else 1) lr; Ok (sub64 s 1)) =
                Ok (if lr =? 0 then sub64 0 1 else N.ones lr)).
  { rewrite shl_ok by lia. cbn [bind]. destruct (N.eqb_spec lr 0) as [E|E].
    - rewrite E. reflexivity.
    - rewrite low_mask by lia. reflexivity. }
  rewrite Hlm. cbn [bind].
  destruct (N.leb_spec (N.of_nat (length cs)) (N.of_nat ci + span + (if lr =? 0 then 0 else 1))) as [Hend|Hend].
  { eexists; split; [reflexivity|]. intros sh Hsh Hlen.
    destruct (N.lt_ge_cases sh (64 - fe)) as [Hlt|Hge]; [auto|]. exfalso.
    destruct (N.eqb_spec lr 0); lia. }
  assert (Hsl : (ci + 1 + N.to_nat span <= length cs)%nat) by (destruct (lr =? 0); lia).
  destruct (all_zero_spec cs (N.to_nat span) (ci + 1) Hsl) as (z & Ez & Hz).
  rewrite Ez. cbn [bind]. destruct z; cbn [negb].
  2:{ eexists; split; [reflexivity|]. intros sh Hsh Hlen.
      destruct (N.lt_ge_cases sh (64 - fe)) as [Hlt|Hge]; [auto|].
      destruct Hz as (k & Hk1 & Hk2).
      destruct (nonzero_bit _ Hk2 (wfc_nth cs k Hwf)) as (j & Hj1 & Hj2).
      exists (64 * N.of_nat k + j). split; [unfold inr; lia|].
      rewrite bit_split, Nat2N.id by lia. exact Hj2. }
  (* last partial chunk *)
  assert (Hlast : exists lst,
    (if lr =? 0 then Ok (Some cs)
     else do c0 <- rd cs (ci + 1 + N.to_nat span);
          if N.land c0 (if lr =? 0 then sub64 0 1 else N.ones lr) =? 0
          then do cs' <- wr cs (ci + 1 + N.to_nat span) (N.lor c0 (if lr =? 0 then sub64 0 1 else N.ones lr));
               Ok (Some cs')
          else Ok None) = Ok lst /\
    match lst with
    | Some cs1 => cs1 = (if lr =? 0 then cs
         else upd cs (ci + 1 + N.to_nat span) (N.lor (nth (ci + 1 + N.to_nat span) cs 0) (N.ones lr))) /\
         forall j, j < lr -> N.testbit (nth (ci + 1 + N.to_nat span) cs 0) j = false
    | None => exists j, j < lr /\ N.testbit (nth (ci + 1 + N.to_nat span) cs 0) j = true
    end).
  { destruct (N.eqb_spec lr 0) as [E|E].
    - eexists; split; [reflexivity|]. cbv beta iota. split; auto. intros; lia.
    - rewrite (rd_ok cs _ 0) by lia. cbn [bind].
      destruct (N.land (nth (ci + 1 + N.to_nat span) cs 0) (N.ones lr) =? 0) eqn:El2.
      + rewrite wr_ok by lia. cbn [bind]. eexists; split; [reflexivity|]. cbv beta iota. split; auto.
        intros j Hj. rewrite land0b in El2. specialize (El2 j). rewrite tb_onesn in El2.
        replace (j <? lr) with true in El2 by lia. now rewrite andb_true_r in El2.
      + eexists; split; [reflexivity|]. cbv beta iota. apply land0b_false in El2.
        destruct El2 as (j & Hj1 & Hj2). rewrite tb_onesn in Hj2. exists j. split; [lia|auto]. }
  destruct Hlast as (lst & Elst & Hlst). rewrite Elst. cbn [bind].
  destruct lst as [cs1|].
  - destruct Hlst as (E1 & Hlst).
    assert (L1 : length cs1 = length cs).
    { subst cs1. destruct (lr =? 0); auto. apply upd_length. }
    rewrite fill_ok by (rewrite L1; exact Hsl). cbn [bind].
    rewrite wr_ok by (rewrite fillf_length by (rewrite L1; exact Hsl); rewrite L1; exact Hci).
    cbn [bind]. eexists; split; [reflexivity|]. cbv beta iota. split; [|lia].
    split; [|auto]. cbn [chunks]. fold cs. unfold c.
    apply post_many with (lr := lr); auto; try lia.
    destruct (N.eqb_spec lr 0); lia.
  - eexists; split; [reflexivity|]. intros sh Hsh Hlen.
    destruct (N.lt_ge_cases sh (64 - fe)) as [Hlt|Hge]; [auto|].
    destruct Hlst as (j & Hj1 & Hj2).
    exists (64 * N.of_nat (ci + 1 + N.to_nat span) + j). split; [unfold inr; lia|].
    rewrite bit_split, Nat2N.id by lia. exact Hj2.
Qed.
