(** Whole-history facts about the page bitmap: allocation, freeing and client histories. *)
From Verif Require Import Base BitmapModel BitmapProof.
Local Open Scope N_scope.
Ltac Zify.zify_post_hook ::= Z.div_mod_to_equations.
Arguments N.add : simpl never.
Arguments N.sub : simpl never.
Arguments N.mul : simpl never.
Arguments N.div : simpl never.
Arguments N.modulo : simpl never.
Arguments N.pow : simpl never.
Arguments N.ones : simpl never.
Arguments N.testbit : simpl never.

(** Representation invariant of a bitmap. *)
Definition total (cs : list N) : N := count (bit cs) (64 * length cs).
Record binv (b : bmp) : Prop := {
  bi_wf   : wfc (chunks b);
  bi_len  : N.of_nat (length (chunks b)) = (bsize b + 63) / 64;
  bi_fp   : (free_p b <= length (chunks b))%nat;
  bi_size : bsize b < 2 ^ 63;
  bi_used : used b = total (chunks b);
  bi_le   : used b <= bsize b
}.

Lemma sub64_small a b : b <= a -> a < 2 ^ 64 -> sub64 a b = a - b.
Proof.
  intros H Ha. unfold sub64, two64. rewrite (N.mod_small b) by lia.
  replace (a + 2 ^ 64 - b) with ((a - b) + 1 * 2 ^ 64) by lia.
  rewrite N.mod_add by discriminate. apply N.mod_small. lia.
Qed.
Lemma add64_small a b : a + b < 2 ^ 64 -> add64 a b = a + b.
Proof. intros H. unfold add64. apply N.mod_small. exact H. Qed.

Lemma total_zero n : total (repeat 0 n) = 0.
Proof.
  unfold total. rewrite (count_ext _ (fun _ => false)).
  - assert (Z : forall m, count (fun _ => false) m = 0)
      by (induction m as [|m IH]; [reflexivity | cbn [count]; rewrite IH; reflexivity]).
    apply Z.
  - intros i _. unfold bit. rewrite nth_repeat. apply N.bits_0.
Qed.

Lemma init_inv size : size < 2 ^ 63 -> binv (bitmap_init size).
Proof.
  intros H. constructor; cbn [chunks bsize used free_p bitmap_init].
  - apply wfc_alt. intros k. rewrite nth_repeat. reflexivity.
  - rewrite repeat_length. lia.
  - lia.
  - exact H.
  - now rewrite total_zero.
  - lia.
Qed.

Lemma total_post cs cs' n s : alloc_post cs cs' n s -> total cs' = total cs + n.
Proof.
  intros (L & _ & Hb & Hc & Hs). unfold total. rewrite L.
  apply count_set_range with (s := s); auto. lia.
Qed.

(** What a failed probe of chunk [ci] tells us. *)
Definition miss (b : bmp) (n : N) (ci : nat) : Prop :=
  find_start b n ci = Ok None.

Lemma scan_spec b n : wfc (chunks b) -> forall idx,
  (forall ci, In ci idx -> (ci < length (chunks b))%nat) ->
  exists r, scan b n idx = Ok r /\
  match r with
  | Some (b', s) => fs_post b b' n s /\ s / 64 < N.of_nat (length (chunks b))
  | None => forall ci, In ci idx -> miss b n ci
  end.
Proof.
  intros Hwf. induction idx as [|ci rest IH]; intros Hin; cbn [scan].
  - exists None. split; [reflexivity|]. intros ci [].
  - assert (Hci : (ci < length (chunks b))%nat) by (apply Hin; now left).
    assert (F : exists r, find_start b n ci = Ok r /\
      match r with Some (b', s) => fs_post b b' n s /\ s / 64 = N.of_nat ci | None => True end).
    { unfold find_start. destruct (N.ltb_spec n 65).
      - destruct (find_start_small_spec b n ci Hwf Hci ltac:(lia)) as (r & E & P).
        exists r. split; auto. destruct r as [[b' s]|]; auto.
      - destruct (find_start_big_spec b n ci Hwf Hci ltac:(lia)) as (r & E & P).
        exists r. split; auto. destruct r as [[b' s]|]; auto. }
    destruct F as (r & E & P). rewrite E. cbn [bind]. destruct r as [[b' s]|].
    + exists (Some (b', s)). split; auto. destruct P as [P1 P2]. split; auto. lia.
    + destruct (IH (fun c Hc => Hin c (or_intror Hc))) as (r & E2 & P2).
      exists r. split; auto. destruct r as [[b' s]|]; auto.
      intros c [<-|Hc]; auto.
Qed.

Lemma find_start_free_p b p n ci :
  find_start (set_free_p b p) n ci =
  match find_start b n ci with
  | Ok (Some (b', s)) => Ok (Some (set_free_p b' p, s))
  | o => o
  end.
Proof.
  unfold find_start, find_start_small, find_start_big, set_free_p, bind. cbn [chunks bsize used free_p].
  destruct (n <? 65).
  - repeat (match goal with
    | |- context [match ?x with _ => _ end] => destruct x
    end; try reflexivity).
  - repeat (match goal with
    | |- context [match ?x with _ => _ end] => destruct x
    end; try reflexivity).
Qed.

(** utils_bitmap_alloc_bits *)
Lemma alloc_spec b n : binv b ->
  exists b' r, alloc_bits b n = Ok (b', r) /\ binv b' /\ bsize b' = bsize b /\
  match r with
  | Some s => alloc_post (chunks b) (chunks b') n s /\ used b' = used b + n
  | None => chunks b' = chunks b /\ used b' = used b /\
            (bsize b < used b + n \/
             forall ci, (ci < length (chunks b))%nat -> miss b n ci)
  end.
Proof.
  intros HI. destruct HI as [Hwf Hlen Hfp Hsz Hus Hle].
  unfold alloc_bits. cbv zeta.
  set (b0 := if Nat.eqb (free_p b) (length (chunks b)) then set_free_p b 0 else b).
  assert (E0 : chunks b0 = chunks b /\ used b0 = used b /\ bsize b0 = bsize b /\
               (free_p b0 <= length (chunks b))%nat).
  { unfold b0. destruct (Nat.eqb_spec (free_p b) (length (chunks b))); cbn; repeat split; lia. }
  destruct E0 as (E1 & E2 & E3 & E4).
  assert (I0 : binv b0).
  { constructor; rewrite ?E1, ?E2, ?E3; auto. }
  unfold bitmap_free. rewrite E2, E3, sub64_small by lia.
  destruct (N.ltb_spec (bsize b - used b) n) as [Hf|Hf].
  - exists b0, None. repeat split; try (rewrite ?E1, ?E2, ?E3); auto; try apply I0. left. lia.
  - rewrite E1.
    destruct (scan_spec b0 n ltac:(rewrite E1; auto)
       (seq (free_p b0) (length (chunks b) - free_p b0) ++ seq 0 (free_p b0))) as (r & Es & P).
    { intros ci Hin. rewrite E1. apply in_app_or in Hin. rewrite !in_seq in Hin. lia. }
    rewrite Es. cbn [bind]. destruct r as [[b1 s]|].
    + destruct P as ((P1 & P2 & P3 & P4) & P5). rewrite E1 in *.
      eexists; exists (Some s). split; [reflexivity|].
      assert (U : used b1 = used b + n).
      { rewrite P4, E2. apply add64_small. lia. }
      destruct P1 as (A1 & A2 & A3 & A4 & A5).
      assert (AP : alloc_post (chunks b) (chunks b1) n s) by (repeat split; auto).
      split; [|split; [cbn [set_free_p bsize]; congruence|split; [exact AP|exact U]]].
      pose proof (total_post _ _ _ _ AP) as T.
      constructor; cbn [set_free_p chunks used bsize free_p].
      * exact A2.
      * rewrite A1, P2, E3. exact Hlen.
      * rewrite A1. lia.
      * rewrite P2, E3. exact Hsz.
      * rewrite U, T. lia.
      * rewrite U, P2, E3. lia.
    + exists b0, None. split; [reflexivity|].
      repeat split; auto; try apply I0. right. intros ci Hci.
      assert (M : miss b0 n ci).
      { apply P. apply in_or_app. rewrite !in_seq. lia. }
      unfold miss in *. unfold b0 in M.
      destruct (Nat.eqb (free_p b) (length (chunks b))); auto.
      rewrite find_start_free_p in M.
      destruct (find_start b n ci) as [[[b' s]|]| |]; auto; discriminate.
Qed.

(** ** Freeing *)
Definition free_post (cs cs' : list N) (n s : N) : Prop :=
  length cs' = length cs /\ wfc cs' /\
  (forall i, bit cs' i = bit cs i && negb (inr s n i)).

Lemma mask_set c m : (forall j, N.testbit m j = true -> N.testbit c j = true) -> N.land c m = m.
Proof.
  intros H. apply N.bits_inj. intros j. rewrite N.land_spec. specialize (H j).
  destruct (N.testbit m j); [rewrite H by auto; reflexivity|apply andb_false_r].
Qed.

Lemma tb_andnot c m j : c < 2 ^ 64 ->
  N.testbit (N.land c (not64 m)) j = N.testbit c j && negb (N.testbit m j).
Proof.
  intros Hc. rewrite N.land_spec, tb_not64.
  destruct (N.ltb_spec j 64).
  - now rewrite xorb_true_r.
  - rewrite (tb_high c j) by assumption. reflexivity.
Qed.

Lemma free_one cs k n sh m :
  wfc cs -> (k < length cs)%nat -> sh + n <= 64 ->
  (forall j, N.testbit m j = inr sh n j) ->
  free_post cs (upd cs k (N.land (nth k cs 0) (not64 m))) n (N.of_nat k * 64 + sh).
Proof.
  intros Hwf Hk Hn Hm. repeat split.
  - apply upd_length.
  - apply wfc_upd; auto. apply land_bound. now apply wfc_nth.
  - intros i. rewrite bit_upd by assumption. unfold bit, inr.
    destruct (N.eqb_spec (i / 64) (N.of_nat k)) as [E|E].
    + rewrite tb_andnot by (now apply wfc_nth). rewrite Hm, E, Nat2N.id. unfold inr.
      do 2 f_equal. lia.
    + replace ((N.of_nat k * 64 + sh <=? i) && (i <? N.of_nat k * 64 + sh + n)) with false by lia.
      now rewrite andb_true_r.
Qed.

Lemma total_free cs cs' n s :
  free_post cs cs' n s -> s + n <= 64 * N.of_nat (length cs) ->
  (forall i, inr s n i = true -> bit cs i = true) ->
  total cs = total cs' + n.
Proof.
  intros (L & _ & Hf) Hb Hs. unfold total. rewrite L.
  apply count_set_range with (s := s).
  - lia.
  - intros i Hi. rewrite Hf, Hi. apply andb_false_r.
  - intros i. rewrite Hf. destruct (inr s n i) eqn:E; simpl.
    + rewrite Hs by assumption. reflexivity.
    + now rewrite andb_true_r, orb_false_r.
Qed.

Lemma rdN_ok cs i : i < N.of_nat (length cs) -> rdN cs i = Ok (nth (N.to_nat i) cs 0).
Proof.
  intros H. unfold rdN. replace (i <? N.of_nat (length cs)) with true by lia.
  apply rd_ok. lia.
Qed.
Lemma wrN_ok cs i v : i < N.of_nat (length cs) -> wrN cs i v = Ok (upd cs (N.to_nat i) v).
Proof.
  intros H. unfold wrN. replace (i <? N.of_nat (length cs)) with true by lia.
  apply wr_ok. lia.
Qed.

Lemma shr_ones_ok n : n < 64 -> exists m, shr_ones n = Ok m /\ forall j, N.testbit m j = (j <? 64 - n).
Proof.
  intros H. unfold shr_ones. replace (n <? 64) with true by lia. eexists; split; [reflexivity|].
  intros j. rewrite N.shiftr_spec', tb_ones. lia.
Qed.

(** the exact behaviour of utils_bitmap_free_bits on an in-range, non-empty request *)
Lemma free_spec b s n : wfc (chunks b) -> N.of_nat (length (chunks b)) < 2 ^ 58 ->
  1 <= n -> s + n <= 64 * N.of_nat (length (chunks b)) ->
  let checked i := inr s n i && negb (n =? 1) &&
                   ((i / 64 =? s / 64) || (i / 64 =? (s + n - 1) / 64)) in
  ((forall i, checked i = true -> bit (chunks b) i = true) ->
     exists b', free_bits b s n = Ok b' /\ free_post (chunks b) (chunks b') n s /\
       bsize b' = bsize b /\ free_p b' = free_p b /\ used b' = sub64 (used b) n) /\
  ((exists i, checked i = true /\ bit (chunks b) i = false) -> free_bits b s n = Abort).
Proof.
  intros Hwf HL Hn Hr checked. unfold free_bits. cbv zeta.
  set (cs := chunks b) in *.
  destruct (N.eqb_spec n 1) as [E1|E1].
  { (* single bit: no check at all *)
    split.
    2:{ intros (i & Hi & _). unfold checked in Hi. rewrite E1 in Hi.
        change (1 =? 1) with true in Hi. simpl in Hi. rewrite andb_false_r in Hi. discriminate. }
    intros _. rewrite rdN_ok by lia. cbn [bind].
    rewrite land63. rewrite shl_ok by lia. cbn [bind]. rewrite wrN_ok by lia. cbn [bind].
    eexists; split; [reflexivity|]. cbn [chunks bsize free_p used].
    split; [|rewrite E1; auto].
    assert (F : free_post cs (upd cs (N.to_nat (s / 64))
       (N.land (nth (N.to_nat (s / 64)) cs 0) (not64 (N.land (N.shiftl 1 (s mod 64)) all_ones))))
       n (N.of_nat (N.to_nat (s / 64)) * 64 + s mod 64)).
    { apply free_one; auto; try lia.
      intros j. rewrite tb_shl. unfold inr. rewrite E1.
      destruct (N.leb_spec (s mod 64) j); simpl; [|reflexivity].
      destruct (N.eq_dec j (s mod 64)) as [->|Hj].
      - rewrite N.sub_diag. change (N.testbit 1 0) with true. lia.
      - rewrite (N.bits_above_log2 1) by (change (N.log2 1) with 0; lia). lia. }
    replace (N.of_nat (N.to_nat (s / 64)) * 64 + s mod 64) with s in F by lia. exact F. }
  assert (EA : add64 s n = s + n) by (apply add64_small; lia).
  rewrite EA. rewrite sub64_small by lia. rewrite !land63.
  assert (Hck : forall i, checked i = true <-> inr s n i = true /\ (i / 64 = s / 64 \/ i / 64 = (s + n - 1) / 64)).
  { intros i. unfold checked. destruct (N.eqb_spec n 1); [contradiction|]. simpl.
    rewrite andb_true_r, andb_true_iff, orb_true_iff, !N.eqb_eq. tauto. }
  set (sc := s / 64) in *. set (ec := (s + n - 1) / 64) in *.
  destruct (N.eqb_spec sc ec) as [Es|Es].
  { (* single chunk *)
    assert (Hm : exists m, (if n =? 64 then Ok all_ones else do m1 <- shl 1 n; shl (sub64 m1 1) (s mod 64)) = Ok m
      /\ forall j, N.testbit m j = inr (s mod 64) n j).
    { destruct (N.eqb_spec n 64) as [E64|E64].
      - eexists; split; [reflexivity|]. intros j. rewrite tb_ones. unfold inr. lia.
      - rewrite shl_ok by lia. cbn [bind]. rewrite low_mask by lia. rewrite shl_ok by lia.
        eexists; split; [reflexivity|]. intros j. rewrite tb_shl, tb_onesn. unfold inr. lia. }
    destruct Hm as (m & Em & Hm). rewrite Em. cbn [bind]. rewrite rdN_ok by lia. cbn [bind].
    split.
    - intros Hall.
      rewrite mask_set.
      2:{ intros j Hj. rewrite Hm in Hj. unfold inr in Hj.
          specialize (Hall (64 * sc + j)). rewrite bit_split in Hall by lia. apply Hall.
          apply Hck. unfold inr. split; [lia|]. left. lia. }
      rewrite N.eqb_refl. cbn [assert_ bind]. rewrite wrN_ok by lia. cbn [bind].
      eexists; split; [reflexivity|]. cbn [chunks bsize free_p used]. split; [|auto].
      assert (F : free_post cs (upd cs (N.to_nat sc) (N.land (nth (N.to_nat sc) cs 0) (not64 m)))
                 n (N.of_nat (N.to_nat sc) * 64 + s mod 64)).
      { apply free_one; auto; lia. }
      replace (N.of_nat (N.to_nat sc) * 64 + s mod 64) with s in F by lia. exact F.
    - intros (i & Hi & Hb). apply Hck in Hi. destruct Hi as (Hi & Hi2).
      destruct (N.eqb_spec (N.land (nth (N.to_nat sc) cs 0) m) m) as [Ex|Ex]; [|reflexivity].
      exfalso. unfold bit in Hb. replace (i / 64) with sc in Hb by lia.
      assert (T : N.testbit m (i mod 64) = true) by (rewrite Hm; unfold inr in *; lia).
      rewrite <- Ex, N.land_spec, Hb in T. discriminate. }
  (* several chunks *)
  rewrite shl_ok by lia. cbn [bind].
  set (sm := N.land (N.shiftl all_ones (s mod 64)) all_ones).
  assert (Hsm : forall j, N.testbit sm j = (s mod 64 <=? j) && (j <? 64)).
  { intros j. unfold sm. rewrite tb_shl, tb_ones. lia. }
  assert (Hem : exists em, (if (s + n) mod 64 =? 0 then Ok all_ones else shr_ones (64 - (s + n) mod 64)) = Ok em
     /\ forall j, N.testbit em j = (j <? (s + n - 1) mod 64 + 1)).
  { destruct (N.eqb_spec ((s + n) mod 64) 0) as [E|E].
    - eexists; split; [reflexivity|]. intros j. rewrite tb_ones. lia.
    - destruct (shr_ones_ok (64 - (s + n) mod 64) ltac:(lia)) as (m & Em & Hm).
      exists m. split; auto. intros j. rewrite Hm. lia. }
  destruct Hem as (em & Eem & Hem). rewrite Eem. cbn [bind].
  rewrite rdN_ok by lia. cbn [bind].
  set (c1 := nth (N.to_nat sc) cs 0). set (c2 := nth (N.to_nat ec) cs 0).
  assert (Hc1 : c1 < 2 ^ 64) by now apply wfc_nth.
  assert (Hc2 : c2 < 2 ^ 64) by now apply wfc_nth.
  split.
  - intros Hall.
    assert (Hl1 : N.land c1 sm = sm).
    { apply mask_set. intros j Hj. rewrite Hsm in Hj.
      specialize (Hall (64 * sc + j)). rewrite bit_split in Hall by lia. apply Hall.
      apply Hck. unfold inr. split; [lia|]. left. lia. }
    rewrite Hl1, N.eqb_refl. cbn [assert_ bind]. rewrite rdN_ok by lia. cbn [bind].
    assert (Hl2 : N.land c2 em = em).
    { apply mask_set. intros j Hj. rewrite Hem in Hj.
      specialize (Hall (64 * ec + j)). rewrite bit_split in Hall by lia. apply Hall.
      apply Hck. unfold inr. split; [lia|]. right. lia. }
    fold c2. rewrite Hl2, N.eqb_refl. cbn [assert_ bind]. rewrite wrN_ok by lia. cbn [bind].
    rewrite rdN_ok by (rewrite upd_length; lia). cbn [bind].
    rewrite wrN_ok by (rewrite upd_length; lia). cbn [bind].
    rewrite nth_upd_ne by lia. fold c2.
    set (cs2 := upd (upd cs (N.to_nat sc) (N.land c1 (not64 sm))) (N.to_nat ec) (N.land c2 (not64 em))).
    assert (L2 : length cs2 = length cs) by (unfold cs2; now rewrite !upd_length).
    rewrite (sub64_small ec sc) by lia. rewrite (sub64_small (ec - sc) 1) by lia.
    set (span := ec - sc - 1).
    assert (Hf : exists cs3, (if span =? 0 then Ok cs2 else if N.of_nat (length cs) <? span then UB
        else fill cs2 (N.to_nat sc + 1) (N.to_nat span) 0) = Ok cs3 /\ length cs3 = length cs /\
        forall q, nth q cs3 0 = if (N.to_nat sc + 1 <=? q)%nat && (q <? N.to_nat ec)%nat then 0 else nth q cs2 0).
    { destruct (N.eqb_spec span 0) as [Ez|Ez].
      - exists cs2. repeat split; auto. intros q.
        replace ((N.to_nat sc + 1 <=? q)%nat && (q <? N.to_nat ec)%nat) with false by lia. reflexivity.
      - replace (N.of_nat (length cs) <? span) with false by lia.
        rewrite fill_ok by lia. eexists; split; [reflexivity|]. split.
        + rewrite fillf_length by lia. exact L2.
        + intros q. rewrite nth_fillf by lia.
          replace (N.to_nat sc + 1 + N.to_nat span)%nat with (N.to_nat ec) by lia. reflexivity. }
    destruct Hf as (cs3 & Ef & L3 & Hn3). rewrite Ef. cbn [bind].
    eexists; split; [reflexivity|]. cbn [chunks bsize free_p used]. split; [|auto].
    assert (Hnth : forall q, nth q cs3 0 =
       if Nat.eqb q (N.to_nat sc) then N.land c1 (not64 sm)
       else if Nat.eqb q (N.to_nat ec) then N.land c2 (not64 em)
       else if (N.to_nat sc + 1 <=? q)%nat && (q <? N.to_nat ec)%nat then 0 else nth q cs 0).
    { intros q. rewrite Hn3. unfold cs2.
      destruct (Nat.eqb_spec q (N.to_nat sc)) as [->|Q1].
      - replace ((N.to_nat sc + 1 <=? N.to_nat sc)%nat && (N.to_nat sc <? N.to_nat ec)%nat) with false by lia.
        rewrite nth_upd_ne by lia. apply nth_upd_eq. lia.
      - destruct (Nat.eqb_spec q (N.to_nat ec)) as [->|Q2].
        + replace ((N.to_nat sc + 1 <=? N.to_nat ec)%nat && (N.to_nat ec <? N.to_nat ec)%nat) with false by lia.
          apply nth_upd_eq. rewrite upd_length. lia.
        + destruct ((N.to_nat sc + 1 <=? q)%nat && (q <? N.to_nat ec)%nat); auto.
          rewrite !nth_upd_ne by lia. reflexivity. }
    repeat split; auto.
    + apply wfc_alt. intros q. rewrite Hnth.
      destruct (Nat.eqb q (N.to_nat sc)); [now apply land_bound|].
      destruct (Nat.eqb q (N.to_nat ec)); [now apply land_bound|].
      destruct ((N.to_nat sc + 1 <=? q)%nat && (q <? N.to_nat ec)%nat); [reflexivity|now apply wfc_nth].
    + intros i. unfold bit. rewrite Hnth. unfold inr.
      destruct (Nat.eqb_spec (N.to_nat (i / 64)) (N.to_nat sc)) as [Q1|Q1].
      * rewrite tb_andnot, Hsm by assumption. unfold c1. rewrite <- Q1. do 2 f_equal. lia.
      * destruct (Nat.eqb_spec (N.to_nat (i / 64)) (N.to_nat ec)) as [Q2|Q2].
        -- rewrite tb_andnot, Hem by assumption. unfold c2. rewrite <- Q2. do 2 f_equal. lia.
        -- destruct ((N.to_nat sc + 1 <=? N.to_nat (i / 64))%nat && (N.to_nat (i / 64) <? N.to_nat ec)%nat) eqn:Q3.
           ++ rewrite N.bits_0. replace ((s <=? i) && (i <? s + n)) with true by lia.
              now rewrite andb_false_r.
           ++ replace ((s <=? i) && (i <? s + n)) with false by lia. now rewrite andb_true_r.
  - intros (i & Hi & Hb). apply Hck in Hi. destruct Hi as (Hi & Hi2). unfold inr in Hi.
    destruct (N.eqb_spec (N.land c1 sm) sm) as [Ex|Ex]; [|reflexivity].
    cbn [assert_ bind]. rewrite rdN_ok by lia. cbn [bind]. fold c2.
    destruct (N.eqb_spec (N.land c2 em) em) as [Ex2|Ex2]; [|reflexivity].
    exfalso. unfold bit in Hb. destruct Hi2 as [Q|Q]; rewrite Q in Hb.
    + assert (T : N.testbit sm (i mod 64) = true) by (rewrite Hsm; lia).
      rewrite <- Ex, N.land_spec in T. fold c1 in Hb. rewrite Hb in T. discriminate.
    + assert (T : N.testbit em (i mod 64) = true) by (rewrite Hem; lia).
      rewrite <- Ex2, N.land_spec in T. fold c2 in Hb. rewrite Hb in T. discriminate.
Qed.

Lemma free_live b s n : binv b -> 1 <= n -> s + n <= 64 * N.of_nat (length (chunks b)) ->
  (forall i, inr s n i = true -> bit (chunks b) i = true) ->
  exists b', free_bits b s n = Ok b' /\ binv b' /\ free_post (chunks b) (chunks b') n s /\
    bsize b' = bsize b /\ used b = used b' + n.
Proof.
  intros [Hwf Hlen Hfp Hsz Hus Hle] Hn Hr Hall.
  assert (HL : N.of_nat (length (chunks b)) < 2 ^ 58) by (rewrite Hlen; lia).
  destruct (free_spec b s n Hwf HL Hn Hr) as (F & _).
  destruct F as (b' & E & P & P1 & P2 & P3).
  { intros i Hi. apply Hall. destruct (inr s n i); auto. }
  assert (T : total (chunks b) = total (chunks b') + n) by (eapply total_free; eauto).
  assert (U : used b' = used b - n) by (rewrite P3; apply sub64_small; lia).
  exists b'. split; auto. split; [|repeat split; auto; try apply P; lia].
  destruct P as (A1 & A2 & A3).
  constructor; rewrite ?A1, ?P1, ?P2; auto; lia.
Qed.

(** ** Client histories *)
Inductive bop := BAlloc (n : N) | BFree (k : nat).

Fixpoint remove_nth {A} (k : nat) (l : list A) : list A :=
  match l, k with
  | [], _ => []
  | _ :: t, O => t
  | h :: t, S j => h :: remove_nth j t
  end.

(** One client call; [live] lists the (start, length) ranges the client currently owns.
    [BFree k] frees the k-th of them (nothing happens if there is no such range). *)
Definition bstep (st : bmp * list (N * N)) (op : bop) : outcome (bmp * list (N * N)) :=
  let '(b, live) := st in
  match op with
  | BAlloc n =>
    do r <- alloc_bits b n;
    match snd r with
    | Some s => Ok (fst r, live ++ [(s, n)])
    | None => Ok (fst r, live)
    end
  | BFree k =>
    match nth_error live k with
    | None => Ok (b, live)
    | Some (s, n) => do b' <- free_bits b s n; Ok (b', remove_nth k live)
    end
  end.

Fixpoint brun (st : bmp * list (N * N)) (ops : list bop) : outcome (bmp * list (N * N)) :=
  match ops with
  | [] => Ok st
  | op :: rest => do st' <- bstep st op; brun st' rest
  end.

(** two ranges do not share a page *)
Definition apart (r1 r2 : N * N) : Prop :=
  fst r1 + snd r1 <= fst r2 \/ fst r2 + snd r2 <= fst r1.
Definition covered (live : list (N * N)) (i : N) : bool :=
  existsb (fun r => inr (fst r) (snd r) i) live.
Definition sum_len (live : list (N * N)) : N := fold_right (fun r a => snd r + a) 0 live.

Record hinv (b : bmp) (live : list (N * N)) : Prop := {
  hi_b    : binv b;
  hi_pos  : Forall (fun r => 1 <= snd r) live;
  hi_in   : Forall (fun r => fst r + snd r <= 64 * N.of_nat (length (chunks b))) live;
  hi_dis  : ForallOrdPairs apart live;
  hi_bits : forall i, bit (chunks b) i = covered live i;
  hi_sum  : used b = sum_len live
}.

Lemma FOP_app_one {A} (R : A -> A -> Prop) l x :
  ForallOrdPairs R l -> Forall (fun y => R y x) l -> ForallOrdPairs R (l ++ [x]).
Proof.
  induction 1 as [|a l Ha Hl IH]; intros Hx; simpl.
  - constructor; constructor.
  - inversion Hx; subst. constructor; auto. apply Forall_app. split; auto.
Qed.

Lemma remove_nth_In {A} (l : list A) : forall k x, In x (remove_nth k l) -> In x l.
Proof.
  induction l as [|y l IH]; intros [|k] x Hx; simpl in *; auto.
  destruct Hx as [->|Hx]; eauto.
Qed.

Lemma FOP_remove {A} (R : A -> A -> Prop) l k : ForallOrdPairs R l -> ForallOrdPairs R (remove_nth k l).
Proof.
  intros H. revert k. induction H as [|a l Ha Hl IH]; intros [|k]; simpl; try constructor; auto.
  rewrite Forall_forall in *. intros x Hx. apply Ha.
  eapply remove_nth_In; eauto.
Qed.

Lemma Forall_remove {A} (P : A -> Prop) l k : Forall P l -> Forall P (remove_nth k l).
Proof. intros H. revert k. induction H; intros [|k]; simpl; auto. Qed.

Lemma covered_app l r i : covered (l ++ [r]) i = covered l i || inr (fst r) (snd r) i.
Proof. unfold covered. rewrite existsb_app. simpl. now rewrite orb_false_r. Qed.

Lemma sum_app l r : sum_len (l ++ [r]) = sum_len l + snd r.
Proof. induction l as [|a l IH]; cbn [sum_len fold_right app]; [lia|]. unfold sum_len in IH. rewrite IH. lia. Qed.

Lemma apart_inr r1 r2 i : apart r1 r2 -> inr (fst r1) (snd r1) i = true -> inr (fst r2) (snd r2) i = false.
Proof. unfold apart, inr. lia. Qed.

Lemma remove_covered l k r i : ForallOrdPairs apart l -> nth_error l k = Some r ->
  covered (remove_nth k l) i = covered l i && negb (inr (fst r) (snd r) i).
Proof.
  intros H. revert k. induction H as [|a l Ha Hl IH]; intros [|k] E; simpl in *; try discriminate.
  - inversion E; subst a. unfold covered in *. simpl.
    destruct (inr (fst r) (snd r) i) eqn:Ei; simpl.
    + destruct (existsb (fun r0 => inr (fst r0) (snd r0) i) l) eqn:Ex; auto.
      apply existsb_exists in Ex. destruct Ex as (x & Hx & Hxi).
      rewrite Forall_forall in Ha. specialize (Ha x Hx).
      rewrite (apart_inr r x i Ha Ei) in Hxi. discriminate.
    + now rewrite andb_true_r.
  - unfold covered in *. simpl. rewrite IH by assumption.
    destruct (inr (fst a) (snd a) i) eqn:Ei; simpl; auto.
    rewrite Forall_forall in Ha. specialize (Ha r (nth_error_In _ _ E)).
    rewrite (apart_inr a r i Ha Ei). reflexivity.
Qed.

Lemma remove_sum l k r : nth_error l k = Some r -> sum_len l = sum_len (remove_nth k l) + snd r.
Proof.
  revert k; induction l as [|a l IH]; intros [|k] E; simpl in *; try discriminate.
  - inversion E; subst. lia.
  - specialize (IH _ E). unfold sum_len in *. simpl. lia.
Qed.

Lemma bstep_inv b live op : hinv b live ->
  (match op with BAlloc n => 1 <= n | BFree _ => True end) ->
  exists b' live', bstep (b, live) op = Ok (b', live') /\ hinv b' live' /\ bsize b' = bsize b.
Proof.
  intros HI Hop. destruct HI as [Hb Hpos Hin Hdis Hbits Hsum].
  destruct op as [n|k]; cbn [bstep].
  - destruct (alloc_spec b n Hb) as (b' & r & E & Hb' & Hs & P). rewrite E. cbn [bind fst snd].
    destruct r as [s|].
    + exists b', (live ++ [(s, n)]). split; [reflexivity|]. split; auto.
      destruct P as ((L & _ & R & C & S) & U).
      constructor; auto.
      * apply Forall_app. split; auto.
      * rewrite L. apply Forall_app. split; auto.
      * apply FOP_app_one; auto. rewrite Forall_forall. intros [s2 n2] Hx.
        rewrite Forall_forall in Hpos. specialize (Hpos _ Hx). simpl in Hpos.
        unfold apart; simpl.
        destruct (N.le_gt_cases (s2 + n2) s) as [|G1]; auto.
        destruct (N.le_gt_cases (s + n) s2) as [|G2]; auto. exfalso.
        (* a common page *)
        set (p := N.max s s2).
        assert (C1 : bit (chunks b) p = true).
        { rewrite Hbits. unfold covered. apply existsb_exists. exists (s2, n2). split; auto.
          unfold inr, p; simpl. lia. }
        rewrite C in C1; [discriminate|]. unfold inr, p. lia.
      * intros i. rewrite S, Hbits, covered_app. reflexivity.
      * rewrite U, Hsum, sum_app. reflexivity.
    + destruct P as (P1 & P2 & _). exists b', live. split; [reflexivity|]. split; auto.
      constructor; rewrite ?P1, ?P2; auto.
  - destruct (nth_error live k) as [[s n]|] eqn:E.
    2:{ exists b, live. repeat split; auto; try apply Hb. }
    pose proof (nth_error_In _ _ E) as Hx.
    pose proof (proj1 (Forall_forall _ _) Hpos _ Hx) as Hn. simpl in Hn.
    pose proof (proj1 (Forall_forall _ _) Hin _ Hx) as Hr. simpl in Hr.
    destruct (free_live b s n Hb Hn Hr) as (b' & Ef & Hb' & P & Hs & U).
    { intros i Hi. rewrite Hbits. unfold covered. apply existsb_exists. exists (s, n). auto. }
    rewrite Ef. cbn [bind]. exists b', (remove_nth k live). split; [reflexivity|]. split; auto.
    destruct P as (L & _ & F).
    constructor; rewrite ?L; auto using Forall_remove, FOP_remove.
    + intros i. rewrite F, Hbits. now rewrite (remove_covered live k (s, n)).
    + pose proof (remove_sum _ _ _ E) as Q. simpl in Q. lia.
Qed.

Definition nonzero_op (op : bop) : Prop := match op with BAlloc n => 1 <= n | BFree _ => True end.

Lemma brun_inv ops : forall b live, hinv b live -> Forall nonzero_op ops ->
  exists b' live', brun (b, live) ops = Ok (b', live') /\ hinv b' live' /\ bsize b' = bsize b.
Proof.
  induction ops as [|op ops IH]; intros b live HI Hops; cbn [brun].
  - exists b, live. auto.
  - inversion Hops; subst. destruct (bstep_inv b live op HI) as (b1 & l1 & E & G1 & S1); auto.
    rewrite E. cbn [bind]. destruct (IH b1 l1 G1) as (b2 & l2 & E2 & H2' & S2); auto.
    exists b2, l2. split; [auto|split; [auto|congruence]].
Qed.

Lemma hinv_init size : size < 2 ^ 63 -> hinv (bitmap_init size) [].
Proof.
  intros H. constructor; try constructor; auto using init_inv; try apply init_inv; auto.
  intros i. unfold bitmap_init; cbn [chunks]. unfold bit. rewrite nth_repeat. apply N.bits_0.
Qed.

(** count_allocated is the number of set bits *)
Local Opaque popcount count.
Lemma count_chunks cs : fold_right (fun c acc => popcount c + acc) 0 cs = total cs.
Proof.
  unfold total. induction cs as [|c cs IH]; [symmetry; apply N.le_0_r; apply (count_le _ 0)|].
  cbn [fold_right length]. rewrite IH.
  replace (64 * S (length cs))%nat with (64 + 64 * length cs)%nat by lia.
  rewrite count_add. apply f_equal2.
  - rewrite popcount_count. apply count_ext. intros i Hi. unfold bit.
    replace (i / 64) with 0 by lia. replace (i mod 64) with i by lia. reflexivity.
  - apply count_ext. intros i _. unfold bit.
    replace ((N.of_nat 64 + i) / 64) with (1 + i / 64) by lia.
    replace ((N.of_nat 64 + i) mod 64) with (i mod 64) by lia.
    replace (N.to_nat (1 + i / 64)) with (S (N.to_nat (i / 64))) by lia. reflexivity.
Qed.

Lemma count_allocated_used b : binv b -> count_allocated b = used b.
Proof. intros H. unfold count_allocated. rewrite count_chunks. symmetry. apply H. Qed.

(** ** Completeness of the search *)
Definition free_run (cs : list N) (s n : N) : Prop := forall i, inr s n i = true -> bit cs i = false.

(** number of free pages of the 64-page group [q] *)
Definition group_free (b : bmp) (q : N) : N := 64 - popcount (nth (N.to_nat q) (chunks b) 0).

Lemma run_space b s n : binv b -> s + n <= 64 * N.of_nat (length (chunks b)) -> 
  bsize b mod 64 = 0 -> free_run (chunks b) s n -> used b + n <= bsize b.
Proof.
  intros HI Hr Hm Hf.
  assert (C : count (fun i => bit (chunks b) i || inr s n i) (64 * length (chunks b)) = total (chunks b) + n).
  { unfold total. apply count_set_range with (s := s); auto. lia. }
  pose proof (count_le (fun i => bit (chunks b) i || inr s n i) (64 * length (chunks b))).
  destruct HI as [_ Hlen _ _ Hus _]. rewrite Hus. lia.
Qed.

Lemma fail_complete b n b' : binv b -> bsize b mod 64 = 0 -> 1 <= n ->
  alloc_bits b n = Ok (b', None) ->
  forall s, s + n <= bsize b -> free_run (chunks b) s n ->
  n <= 64 /\ s / 64 <> (s + n - 1) / 64 /\ n <= group_free b (s / 64).
Proof.
  intros HI Hm Hn E s Hs Hf.
  destruct (alloc_spec b n HI) as (b1 & r & E1 & _ & _ & P).
  rewrite E in E1. inversion E1; subst b1 r. destruct P as (_ & _ & P).
  pose proof (bi_len _ HI) as Hlen. pose proof (bi_wf _ HI) as Hwf.
  assert (Hs' : s + n <= 64 * N.of_nat (length (chunks b))) by lia.
  pose proof (run_space b s n HI Hs' Hm Hf) as Hsp.
  destruct P as [P|P]; [lia|].
  set (ci := N.to_nat (s / 64)).
  assert (Hci : (ci < length (chunks b))%nat) by lia.
  specialize (P ci Hci). unfold miss, find_start in P.
  destruct (N.ltb_spec n 65) as [Hlt|Hge].
  - destruct (find_start_small_spec b n ci Hwf Hci ltac:(lia)) as (r & Er & Pr).
    rewrite P in Er. inversion Er; subst r. destruct Pr as (P1 & P2).
    rewrite Hm in P1. change (0 =? 0) with true in P1. simpl negb in P1. rewrite andb_false_r in P1.
    assert (Hrun : forall j, inr (s mod 64) n j = true -> j < 64 -> N.testbit (nth ci (chunks b) 0) j = false).
    { intros j Hj Hj2. specialize (Hf (64 * (s / 64) + j)).
      rewrite bit_split in Hf by assumption. apply Hf. unfold inr in *. lia. }
    split; [lia|].
    destruct (N.eq_dec (s / 64) ((s + n - 1) / 64)) as [Eq|Neq].
    + exfalso. destruct (P1 Hn (s mod 64) ltac:(lia)) as (j & Hj1 & Hj2).
      rewrite Hrun in Hj2; [discriminate|auto|unfold inr in Hj1; lia].
    + split; auto. unfold group_free. fold ci.
      destruct (N.le_gt_cases n (64 - popcount (nth ci (chunks b) 0))) as [|Hgt]; auto. exfalso.
      destruct (P2 Hgt ltac:(lia) (s mod 64) ltac:(lia) ltac:(lia)) as [(j & Hj1 & Hj2)|(j & Hj1 & Hj2)].
      * rewrite Hrun in Hj2; [discriminate|unfold inr; lia|lia].
      * specialize (Hf (64 * N.of_nat (ci + 1) + j)). rewrite bit_split, Nat2N.id in Hf by lia.
        rewrite Hf in Hj2; [discriminate|]. unfold inr. lia.
  - exfalso. destruct (find_start_big_spec b n ci Hwf Hci ltac:(lia)) as (r & Er & Pr).
    rewrite P in Er. inversion Er; subst r.
    destruct (Pr (s mod 64) ltac:(lia) ltac:(lia)) as (i & Hi1 & Hi2).
    replace (64 * N.of_nat ci + s mod 64) with s in Hi1 by lia.
    rewrite Hf in Hi2; [discriminate|auto].
Qed.
