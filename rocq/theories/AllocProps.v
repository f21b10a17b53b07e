(** Property C05: placement of allocator metadata and pages; arax_mmap addresses. *)
From Verif Require Import Base BitmapModel BitmapProof BitmapHist AllocModel.
Local Open Scope N_scope.
Ltac Zify.zify_post_hook ::= Z.div_mod_to_equations.
Arguments N.add : simpl never.
Arguments N.sub : simpl never.
Arguments N.mul : simpl never.
Arguments N.div : simpl never.
Arguments N.modulo : simpl never.
Arguments N.pow : simpl never.
Local Opaque popcount count alloc_bits free_bits bitmap_init.

(** "large enough to hold the headers": the first page boundary after the structure is inside *)
Definition fits (addr hdr size : N) : Prop :=
  addr + size < 2 ^ 63 /\ (addr + hdr + 4095) / 4096 * 4096 <= addr + size.

Definition n_pages (a : palloc) : N := bitmap_size (a_bmp a).
(** bytes of the page bitmap *)
Definition bitmap_bytes (a : palloc) : N := 8 * ((n_pages a + 63) / 64).

Transparent bitmap_init.
Lemma init_pages addr hdr size : fits addr hdr size ->
  let a := alloc_init_once addr hdr size in
  let a0 := (addr + hdr + 4095) / 4096 * 4096 in
  let ap := (addr + size - a0) / 4096 in
  let bp := (ap + 32767) / 32768 in
  a_start a = a0 + 4096 * bp /\ a_bits a = addr + hdr /\ a_bmp a = bitmap_init (ap - bp) /\ bp <= ap.
Proof.
  intros (H1 & H2) a a0 ap bp. unfold a, alloc_init_once. cbv zeta.
  rewrite (add64_small addr hdr) by lia. rewrite (add64_small (addr + hdr) 4095) by lia.
  fold a0. rewrite (sub64_small a0 addr) by lia. rewrite (sub64_small size) by lia.
  replace (size - (a0 - addr)) with (addr + size - a0) by lia.
  change BLOCK with 4096. change (BITS_PER_PAGE - 1) with 32767. change BITS_PER_PAGE with 32768.
  fold ap. fold bp.
  assert (bp <= ap) by lia. 
  rewrite add64_small by lia. rewrite sub64_small by lia. cbn [a_start a_bits a_bmp].
  auto.
Qed.

Theorem C05_layout : forall addr hdr size, fits addr hdr size ->
  let a := alloc_init_once addr hdr size in
  a_start a mod 4096 = 0 /\
  addr + hdr <= a_bits a /\
  a_bits a + bitmap_bytes a <= a_start a /\
  a_start a + 4096 * n_pages a <= addr + size.
Proof.
  intros addr hdr size F a. destruct (init_pages addr hdr size F) as (E1 & E2 & E3 & E4).
  destruct F as (F1 & F2). unfold bitmap_bytes, n_pages, bitmap_size. fold a in E1, E2, E3.
  rewrite E1, E2, E3. cbn [bitmap_init bsize].
  set (a0 := (addr + hdr + 4095) / 4096 * 4096) in *.
  set (ap := (addr + size - a0) / 4096) in *.
  set (bp := (ap + 32767) / 32768) in *.
  assert (A0 : a0 mod 4096 = 0) by (unfold a0; lia).
  assert (A1 : addr + hdr <= a0) by (unfold a0; lia).
  assert (A2 : ap * 4096 <= addr + size - a0) by (unfold ap; lia).
  assert (A3 : ap <= 32768 * bp) by (unfold bp; lia).
  clearbody a0 ap bp. repeat split; lia.
Qed.

Opaque bitmap_init.

(** relation between the address-level history and the page-level one *)
Definition to_pages (st : N) (r : N * N) : N * N := ((fst r - st) / 4096, snd r / 4096).
Record minv (st : N) (a : palloc) (live : list (N * N)) : Prop := {
  mi_st  : a_start a = st;
  mi_h   : hinv (a_bmp a) (map (to_pages st) live);
  mi_al  : Forall (fun r => st <= fst r /\ (fst r - st) mod 4096 = 0 /\ snd r mod 4096 = 0) live
}.

Lemma map_drop {A B} (f : A -> B) l k : map f (drop_nth k l) = remove_nth k (map f l).
Proof. revert k; induction l as [|h t IH]; intros [|k]; simpl; auto. now rewrite IH. Qed.
Lemma Forall_drop {A} (P : A -> Prop) l k : Forall P l -> Forall P (drop_nth k l).
Proof. intros H. revert k. induction H; intros [|k]; simpl; auto. Qed.

Definition mop_ok (op : mop) : Prop := match op with MMap s => 0 < s | MUnmap _ => True end.

(** Every step either succeeds keeping the invariant or aborts (out of pages / unaligned size);
    it is never undefined behaviour. *)
Lemma mstep_inv st a live op : minv st a live -> mop_ok op ->
  st + 4096 * (n_pages a + 64) < 2 ^ 64 ->
  match mstep (a, live) op with
  | Ok (a', live') => minv st a' live' /\ n_pages a' = n_pages a
  | Abort => True
  | UB => False
  end.
Proof.
  intros [Hst Hh Hal] Hop Hsz. destruct op as [s|k]; cbn [mstep].
  - unfold arax_mmap. destruct (N.eqb_spec (s mod 4096) 0) as [Es|]; cbn [assert_ bind]; auto.
    change BLOCK with 4096.
    destruct (bstep_inv _ _ (BAlloc (s / 4096)) Hh) as (b' & live' & E & H' & Z).
    { cbn in Hop. lia. }
    cbn [bstep] in E. destruct (alloc_bits (a_bmp a) (s / 4096)) as [[b1 r]| |] eqn:Ea; cbn [bind fst snd] in *; try discriminate.
    destruct r as [off|]; cbn [bind]; auto. inversion E; subst b1 live'. cbn [fst snd].
    assert (Hoff : off + s / 4096 <= 64 * N.of_nat (length (chunks b'))).
    { pose proof (hi_in _ _ H') as Hin. rewrite Forall_forall in Hin.
      specialize (Hin (off, s / 4096)). cbn in Hin. apply Hin. apply in_or_app. right. now left. }
    pose proof (bi_len _ (hi_b _ _ H')) as L. unfold n_pages, bitmap_size in *.
    rewrite Z in L.
    assert (Ad : add64 (a_start a) (off * 4096) = st + off * 4096).
    { rewrite Hst. apply add64_small. lia. }
    rewrite Ad. split; [|cbn [a_bmp]; exact Z].
    constructor; cbn [a_start a_bmp]; auto.
    + rewrite map_app. cbn [map]. unfold to_pages at 2. cbn [fst snd].
      replace (st + off * 4096 - st) with (off * 4096) by lia.
      rewrite N.div_mul by lia. exact H'.
    + apply Forall_app. split; auto. constructor; auto. cbn [fst snd]. repeat split; try lia.
  - destruct (nth_error live k) as [[p s]|] eqn:Ek.
    2:{ split; [constructor; auto|reflexivity]. }
    pose proof (nth_error_In _ _ Ek) as Hx.
    pose proof (proj1 (Forall_forall _ _) Hal _ Hx) as (A1 & A2 & A3). cbn in A1, A2, A3.
    destruct (bstep_inv _ _ (BFree k) Hh I) as (b' & live' & E & H' & Z).
    cbn [bstep] in E. rewrite nth_error_map, Ek in E. cbn [option_map to_pages fst snd] in E.
    unfold arax_ummap. rewrite Hst. change BLOCK with 4096.
    pose proof (hi_in _ _ Hh) as Hin. rewrite Forall_forall in Hin.
    specialize (Hin (to_pages st (p, s)) ltac:(now apply in_map)). cbn [to_pages fst snd] in Hin.
    pose proof (bi_len _ (hi_b _ _ Hh)) as L. unfold n_pages, bitmap_size in *.
    rewrite sub64_small by lia.
    destruct (free_bits (a_bmp a) ((p - st) / 4096) (s / 4096)) as [b1| |] eqn:Ef; cbn [bind] in *; try discriminate.
    inversion E; subst b1 live'. split; [|exact Z].
    constructor; cbn [a_start a_bmp]; auto using Forall_drop.
    rewrite map_drop. exact H'.
Qed.

Lemma mrun_inv st ops : forall a live, minv st a live -> Forall mop_ok ops ->
  st + 4096 * (n_pages a + 64) < 2 ^ 64 ->
  match mrun (a, live) ops with
  | Ok (a', live') => minv st a' live' /\ n_pages a' = n_pages a
  | Abort => True
  | UB => False
  end.
Proof.
  induction ops as [|op ops IH]; intros a live HI Hops Hsz; cbn [mrun]; [auto|].
  inversion Hops; subst. pose proof (mstep_inv st a live op HI H1 Hsz) as P.
  destruct (mstep (a, live) op) as [[a' live']| |]; cbn [bind]; auto. destruct P as (P1 & P2).
  specialize (IH a' live' P1 H2). rewrite P2 in IH. apply IH. exact Hsz.
Qed.

Definition range_in (r : N * N) (p : N) : Prop := fst r <= p < fst r + snd r.

(** Every mapping owned by clients is page aligned, lies after the allocator's structure and
    bitmap, no byte belongs to two mappings; and it is inside the segment when the number of pages
    is a multiple of 64 (otherwise see the refutation).  No history triggers undefined behaviour. *)
Theorem C05_mmap_partial : forall addr hdr size ops, fits addr hdr size ->
  (forall s, In (MMap s) ops -> 0 < s) ->
  let a := alloc_init_once addr hdr size in
  match mrun (a, []) ops with
  | Ok (a', live) =>
    (forall r, In r live -> fst r mod 4096 = 0 /\ a_bits a + bitmap_bytes a <= fst r /\
                (n_pages a mod 64 = 0 -> fst r + snd r <= addr + size)) /\
    (forall i j r1 r2, i <> j -> nth_error live i = Some r1 -> nth_error live j = Some r2 ->
       forall x, ~ (range_in r1 x /\ range_in r2 x))
  | Abort => True
  | UB => False
  end.
Proof.
  intros addr hdr size ops F Hops a.
  destruct (C05_layout addr hdr size F) as (L1 & L2 & L3 & L4). fold a in L1, L2, L3, L4.
  assert (F' := F). destruct F' as (F1 & F2).
  assert (HI : minv (a_start a) a []).
  { destruct (init_pages addr hdr size F) as (E1 & E2 & E3 & E4). fold a in E1, E2, E3.
    constructor; auto. cbn [map]. rewrite E3. apply hinv_init. lia. }
  assert (Hm : Forall mop_ok ops).
  { apply Forall_forall. intros [s|k] Hx; simpl; auto. }
  pose proof (mrun_inv (a_start a) ops a [] HI Hm ltac:(lia)) as P.
  destruct (mrun (a, []) ops) as [[a' live]| |]; auto.
  destruct P as ([M1 M2 M3] & P2). rewrite Forall_forall in M3.
  assert (PG : forall r, In r live -> fst r = a_start a + 4096 * fst (to_pages (a_start a) r) /\
                                      snd r = 4096 * snd (to_pages (a_start a) r)).
  { intros r Hr. destruct (M3 r Hr) as (Q1 & Q2 & Q3). unfold to_pages; cbn [fst snd]. lia. }
  split.
  - intros r Hr. destruct (PG r Hr) as (G1 & G2). destruct (M3 r Hr) as (Q1 & Q2 & Q3).
    repeat split; try lia. intros Hmod.
    pose proof (hi_in _ _ M2) as Hin. rewrite Forall_forall in Hin.
    specialize (Hin _ (in_map (to_pages (a_start a)) _ _ Hr)). cbv beta in Hin.
    pose proof (bi_len _ (hi_b _ _ M2)) as L. unfold n_pages, bitmap_size in *. rewrite P2 in L. lia.
  - intros i j r1 r2 Hij E1 E2 x (X1 & X2).
    assert (A : forall l, ForallOrdPairs apart l -> forall i j x y, i <> j ->
      nth_error l i = Some x -> nth_error l j = Some y -> apart x y).
    { clear. intros l H. induction H as [|a l Ha Hl IH]; intros [|i] [|j] x y Hij Ex Ey; simpl in *; try discriminate; try congruence.
      - inversion Ex; subst. rewrite Forall_forall in Ha. apply Ha. eapply nth_error_In; eauto.
      - inversion Ey; subst. rewrite Forall_forall in Ha. apply nth_error_In in Ex.
        specialize (Ha x Ex). unfold apart in *. tauto.
      - apply (IH i j); auto. }
    specialize (A _ (hi_dis _ _ M2) i j (to_pages (a_start a) r1) (to_pages (a_start a) r2) Hij).
    rewrite !nth_error_map, E1, E2 in A. specialize (A eq_refl eq_refl).
    destruct (PG r1 (nth_error_In _ _ E1)) as (G1 & G2).
    destruct (PG r2 (nth_error_In _ _ E2)) as (G3 & G4).
    unfold range_in in *. unfold apart in A. lia.
Qed.

(** The claim "inside the segment" is false in general: a segment with 65 pages. *)
Theorem C05_inside_refuted :
  exists addr hdr size ops a' live, fits addr hdr size /\ (forall s, In (MMap s) ops -> 0 < s) /\
    mrun (alloc_init_once addr hdr size, []) ops = Ok (a', live) /\
    exists r, In r live /\ addr + size < fst r + snd r.
Proof.
  exists 8392704, 72, (4096 * 67), [MMap 4096; MMap (61 * 4096); MUnmap 0; MMap (4 * 4096)].
  eexists; eexists. split; [split; vm_compute; [reflexivity|discriminate]|]. split.
  { intros s. simpl. intros H. decompose [or] H; try discriminate; try tauto;
    match goal with h : MMap _ = MMap _ |- _ => inversion h; lia end. }
  split; [vm_compute; reflexivity|].
  eexists. split; [right; left; reflexivity|]. vm_compute. reflexivity.
Qed.

(** Unmapping less than a page is undefined behaviour (0-page free). *)
Theorem C05_unmap_small_refuted : exists addr hdr size a p,
  fits addr hdr size /\ arax_mmap (alloc_init_once addr hdr size) (64 * 4096) = Ok (a, p) /\ arax_ummap a p 100 = UB.
Proof.
  exists 8392704, 72, (4096 * 66). eexists; eexists. split; [split; vm_compute; [reflexivity|discriminate]|].
  split; vm_compute; reflexivity.
Qed.

Example C05_case : fits 8392704 72 (4096 * 130) /\
  let a := alloc_init_once 8392704 72 (4096 * 130) in
  n_pages a = 128 /\ exists a', mrun (a, []) [MMap 8192; MMap 40960] = Ok (a', [(8400896, 8192); (8409088, 40960)]).
Proof. split; [split; vm_compute; [reflexivity|discriminate]|]. split; [vm_compute; reflexivity|]. eexists. vm_compute. reflexivity. Qed.

Print Assumptions C05_layout.
Print Assumptions C05_mmap_partial.
