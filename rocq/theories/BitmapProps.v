(** Property theorems C01-C04: the shared page allocator (src/utils/bitmap.c). *)
From Verif Require Import Base BitmapModel BitmapProof BitmapHist.
Local Open Scope N_scope.
Ltac Zify.zify_post_hook ::= Z.div_mod_to_equations.
Local Opaque popcount count.

(** ** Specification vocabulary *)
(** page [p] is marked allocated in the bitmap's storage *)
Definition page_marked (b : bmp) (p : N) : Prop :=
  N.testbit (nth (N.to_nat (p / 64)) (chunks b) 0) (p mod 64) = true.
(** page [p] belongs to the range (start, length) *)
Definition page_in (r : N * N) (p : N) : Prop := fst r <= p < fst r + snd r.
(** no page belongs to two different live ranges *)
Definition pairwise_disjoint (live : list (N * N)) : Prop :=
  forall i j r1 r2, i <> j -> nth_error live i = Some r1 -> nth_error live j = Some r2 ->
  forall p, ~ (page_in r1 p /\ page_in r2 p).
(** a client history: requests of at least one page, frees of ranges it owns *)
Definition client_history (ops : list bop) : Prop :=
  forall n, In (BAlloc n) ops -> 1 <= n.

Lemma client_nonzero ops : client_history ops -> Forall nonzero_op ops.
Proof. intros H. apply Forall_forall. intros [n|k] Hx; simpl; auto. Qed.

Lemma FOP_nth {A} (R : A -> A -> Prop) l : (forall x y, R x y -> R y x) -> ForallOrdPairs R l ->
  forall i j x y, i <> j -> nth_error l i = Some x -> nth_error l j = Some y -> R x y.
Proof.
  intros Hs H. induction H as [|a l Ha Hl IH]; intros [|i] [|j] x y Hij Ex Ey; simpl in *; try discriminate; try congruence.
  - inversion Ex; subst. rewrite Forall_forall in Ha. apply Ha. eapply nth_error_In; eauto.
  - inversion Ey; subst. rewrite Forall_forall in Ha. apply Hs, Ha. eapply nth_error_In; eauto.
  - apply (IH i j); auto.
Qed.

Lemma hinv_disjoint b live : hinv b live -> pairwise_disjoint live.
Proof.
  intros H i j r1 r2 Hij E1 E2 p (P1 & P2).
  assert (A : apart r1 r2).
  { apply (FOP_nth apart live) with (i := i) (j := j); auto; [|apply H]. unfold apart. tauto. }
  unfold apart, page_in in *. lia.
Qed.

Lemma hinv_marked b live : hinv b live -> forall p, page_marked b p <-> exists r, In r live /\ page_in r p.
Proof.
  intros H p. unfold page_marked. pose proof (hi_bits _ _ H p) as B. unfold bit in B. rewrite B.
  unfold covered. rewrite existsb_exists. unfold inr, page_in.
  split; intros (r & H1 & H2); exists r; split; auto; lia.
Qed.

(** ** C01 *)
Theorem C01_live_ranges_disjoint : forall size ops, size < 2 ^ 63 -> client_history ops ->
  exists b live, brun (bitmap_init size, []) ops = Ok (b, live) /\ pairwise_disjoint live.
Proof.
  intros size ops Hs Hc.
  destruct (brun_inv ops _ _ (hinv_init size Hs) (client_nonzero _ Hc)) as (b & live & E & H & _).
  exists b, live. split; auto. eapply hinv_disjoint; eauto.
Qed.

(** With a number of pages that is a multiple of 64 every live range is inside [0,size);
    for other sizes it is only inside the next multiple of 64 (see the refutation). *)
Theorem C01_live_ranges_inside_partial : forall size ops, size < 2 ^ 63 -> client_history ops ->
  exists b live, brun (bitmap_init size, []) ops = Ok (b, live) /\
    forall r, In r live -> fst r + snd r <= (size + 63) / 64 * 64 /\
                           (size mod 64 = 0 -> fst r + snd r <= size).
Proof.
  intros size ops Hs Hc.
  destruct (brun_inv ops _ _ (hinv_init size Hs) (client_nonzero _ Hc)) as (b & live & E & H & S).
  exists b, live. split; auto. intros r Hr.
  pose proof (proj1 (Forall_forall _ _) (hi_in _ _ H) _ Hr) as Hin. simpl in Hin.
  pose proof (bi_len _ (hi_b _ _ H)) as L. rewrite S in L. cbn [bitmap_init bsize] in L. lia.
Qed.

(** The English claim "inside [0,size)" is false for other sizes: 65 pages, 4 calls. *)
Theorem C01_inside_refuted :
  exists size ops b live, size < 2 ^ 63 /\ client_history ops /\
    brun (bitmap_init size, []) ops = Ok (b, live) /\
    exists r, In r live /\ size < fst r + snd r.
Proof.
  exists 65, [BAlloc 1; BAlloc 61; BFree 0; BAlloc 4].
  eexists; eexists. split; [reflexivity|]. split.
  { intros n. simpl. intros [H|[H|[H|[H|[]]]]]; inversion H; lia. }
  split; [vm_compute; reflexivity|].
  exists (62, 4). split; [simpl; auto|]. simpl. lia.
Qed.

Example C01_case : exists b, brun (bitmap_init 256, []) [BAlloc 10; BAlloc 100; BFree 0; BAlloc 64; BAlloc 3]
  = Ok (b, [(10, 100); (110, 64); (174, 3)]).
Proof. eexists. vm_compute. reflexivity. Qed.

(** ** C02 *)
Theorem C02_accounting_exact : forall size ops, size < 2 ^ 63 -> client_history ops ->
  exists b live, brun (bitmap_init size, []) ops = Ok (b, live) /\
    (forall p, page_marked b p <-> exists r, In r live /\ page_in r p) /\
    bitmap_used b = fold_right (fun r a => snd r + a) 0 live /\
    bitmap_used b = count_allocated b /\
    bitmap_used b + bitmap_free b = size /\ bitmap_size b = size.
Proof.
  intros size ops Hs Hc.
  destruct (brun_inv ops _ _ (hinv_init size Hs) (client_nonzero _ Hc)) as (b & live & E & H & S).
  exists b, live. split; auto. pose proof (hi_b _ _ H) as HB.
  split; [eapply hinv_marked; eauto|]. split; [apply H|].
  split; [symmetry; now apply count_allocated_used|].
  cbn [bitmap_init bsize] in S. unfold bitmap_used, bitmap_free, bitmap_size.
  pose proof (bi_le _ HB). pose proof (bi_size _ HB).
  rewrite sub64_small by lia. lia.
Qed.

(** a refused request changes no page and no figure *)
Theorem C02_failed_alloc_no_effect : forall size ops n, size < 2 ^ 63 -> client_history ops ->
  exists b live b' r, brun (bitmap_init size, []) ops = Ok (b, live) /\
    alloc_bits b n = Ok (b', r) /\
    (r = None -> chunks b' = chunks b /\ bitmap_used b' = bitmap_used b /\
                 bitmap_free b' = bitmap_free b /\ bitmap_size b' = bitmap_size b) /\
    (forall s, r = Some s -> bitmap_used b' = bitmap_used b + n /\
       forall p, page_marked b' p <-> (page_marked b p \/ page_in (s, n) p)).
Proof.
  intros size ops n Hs Hc.
  destruct (brun_inv ops _ _ (hinv_init size Hs) (client_nonzero _ Hc)) as (b & live & E & H & S).
  destruct (alloc_spec b n (hi_b _ _ H)) as (b' & r & Ea & _ & Sz & P).
  exists b, live, b', r. split; auto. split; auto. split.
  - intros ->. destruct P as (P1 & P2 & _). unfold bitmap_used, bitmap_free, bitmap_size.
    rewrite P1, P2, Sz. auto.
  - intros s ->. destruct P as ((_ & _ & _ & _ & P) & P2). split; auto.
    intros p. specialize (P p). unfold bit in P. unfold page_marked, page_in; cbn [fst snd].
    rewrite P, orb_true_iff. unfold inr. split; intros [|]; auto; right; lia.
Qed.

Example C02_case : exists b, brun (bitmap_init 128, []) [BAlloc 100; BAlloc 100; BAlloc 5; BFree 0]
  = Ok (b, [(100, 5)]) /\ bitmap_used b = 5 /\ bitmap_free b = 123.
Proof. eexists. split; [vm_compute; reflexivity|]. split; vm_compute; reflexivity. Qed.

(** ** C03 *)
(** [p .. p+n) is a run of free pages *)
Definition free_pages (b : bmp) (s n : N) : Prop := forall p, s <= p < s + n -> ~ page_marked b p.

(** Partial: sizes that are a multiple of 64, and the run is either longer than 64 pages,
    or inside one 64-page group, or its first group has fewer than [n] free pages. *)
Theorem C03_alloc_complete_partial : forall size ops n s, size < 2 ^ 63 -> size mod 64 = 0 ->
  client_history ops -> 1 <= n ->
  exists b live b' r, brun (bitmap_init size, []) ops = Ok (b, live) /\
    alloc_bits b n = Ok (b', r) /\
    (s + n <= size -> free_pages b s n ->
     64 < n \/ s / 64 = (s + n - 1) / 64 \/
     64 - popcount (nth (N.to_nat (s / 64)) (chunks b) 0) < n ->
     r <> None).
Proof.
  intros size ops n s Hs Hm Hc Hn.
  destruct (brun_inv ops _ _ (hinv_init size Hs) (client_nonzero _ Hc)) as (b & live & E & H & S).
  destruct (alloc_spec b n (hi_b _ _ H)) as (b' & r & Ea & _ & Sz & P).
  exists b, live, b', r. split; auto. split; auto. intros Hr Hf HC ->.
  cbn [bitmap_init bsize] in S.
  assert (FR : free_run (chunks b) s n).
  { intros i Hi. destruct (bit (chunks b) i) eqn:B; auto. exfalso.
    apply (Hf i); [unfold inr in Hi; lia|exact B]. }
  destruct (fail_complete b n b' (hi_b _ _ H) ltac:(now rewrite S) Hn Ea s ltac:(lia) FR)
    as (Q1 & Q2 & Q3).
  unfold group_free in Q3. lia.
Qed.

(** Corollary: a single page can be had whenever one is free. *)
Theorem C03_single_page : forall size ops p, size < 2 ^ 63 -> size mod 64 = 0 ->
  client_history ops ->
  exists b live b' r, brun (bitmap_init size, []) ops = Ok (b, live) /\
    alloc_bits b 1 = Ok (b', r) /\ (p < size -> ~ page_marked b p -> r <> None).
Proof.
  intros size ops p Hs Hm Hc.
  destruct (C03_alloc_complete_partial size ops 1 p Hs Hm Hc ltac:(lia)) as (b & live & b' & r & E1 & E2 & P).
  exists b, live, b', r. repeat split; auto. intros Hp Hf. apply P; [lia| |right; left; f_equal; lia].
  intros q Hq. replace q with p by lia. exact Hf.
Qed.

(** The full claim is false: 12 free consecutive pages, request for 12 refused. *)
Theorem C03_refuted :
  exists size ops n s b live b', size mod 64 = 0 /\ client_history ops /\
    brun (bitmap_init size, []) ops = Ok (b, live) /\
    s + n <= size /\ free_pages b s n /\ alloc_bits b n = Ok (b', None).
Proof.
  exists 128, [BAlloc 10; BAlloc 50; BAlloc 12; BAlloc 56; BFree 0; BFree 1], 12, 60.
  eexists; eexists; eexists. split; [reflexivity|]. split.
  { intros n. simpl. intros H. decompose [or] H; try discriminate; try tauto;
    match goal with h : BAlloc _ = BAlloc _ |- _ => inversion h; lia end. }
  split; [vm_compute; reflexivity|]. split; [lia|]. split; [|vm_compute; reflexivity].
  intros p Hp. unfold page_marked. cbn [chunks].
  assert (A : forallb (fun k => negb (N.testbit (nth (N.to_nat ((60 + N.of_nat k) / 64))
     [1152921504606845952; 18446744073709551360] 0) ((60 + N.of_nat k) mod 64))) (seq 0 12) = true)
    by (vm_compute; reflexivity).
  rewrite forallb_forall in A. specialize (A (N.to_nat (p - 60))). rewrite in_seq in A.
  specialize (A ltac:(lia)). replace (60 + N.of_nat (N.to_nat (p - 60))) with p in A by lia.
  destruct (N.testbit _ _); [discriminate|]. discriminate.
Qed.

(** ** C04 *)
Theorem C04_free_exact : forall size ops k, size < 2 ^ 63 -> client_history ops ->
  exists b live, brun (bitmap_init size, []) ops = Ok (b, live) /\
  forall s n, nth_error live k = Some (s, n) ->
  exists b', free_bits b s n = Ok b' /\
    (forall p, page_marked b' p <-> (page_marked b p /\ ~ page_in (s, n) p)) /\
    bitmap_used b = bitmap_used b' + n /\ bitmap_size b' = bitmap_size b.
Proof.
  intros size ops k Hs Hc.
  destruct (brun_inv ops _ _ (hinv_init size Hs) (client_nonzero _ Hc)) as (b & live & E & H & S).
  exists b, live. split; auto. intros s n En.
  pose proof (nth_error_In _ _ En) as Hx.
  pose proof (proj1 (Forall_forall _ _) (hi_pos _ _ H) _ Hx) as Hn. simpl in Hn.
  pose proof (proj1 (Forall_forall _ _) (hi_in _ _ H) _ Hx) as Hr. simpl in Hr.
  destruct (free_live b s n (hi_b _ _ H) Hn Hr) as (b' & Ef & _ & P & Z & U).
  { intros i Hi. rewrite (hi_bits _ _ H). unfold covered. apply existsb_exists. exists (s, n). auto. }
  exists b'. split; auto. split; auto. intros p. destruct P as (_ & _ & P). specialize (P p).
  unfold bit in P. unfold page_marked, page_in; cbn [fst snd]. rewrite P, andb_true_iff. unfold inr.
  split; intros (A & B); split; auto; lia.
Qed.

(** Double free / free of something not allocated.  What the code checks: for n >= 2, every page
    of the range that is in the first or the last 64-page group touched.  If one of those is not
    allocated the call aborts; the accounting is untouched. *)
Theorem C04_bad_free_aborts_partial : forall size ops s n p, size < 2 ^ 63 -> client_history ops ->
  2 <= n -> s + n <= size -> s <= p < s + n ->
  p / 64 = s / 64 \/ p / 64 = (s + n - 1) / 64 ->
  exists b live, brun (bitmap_init size, []) ops = Ok (b, live) /\
    (~ page_marked b p -> free_bits b s n = Abort).
Proof.
  intros size ops s n p Hs Hc Hn Hr Hp Hg.
  destruct (brun_inv ops _ _ (hinv_init size Hs) (client_nonzero _ Hc)) as (b & live & E & H & S).
  exists b, live. split; auto. intros Hm.
  cbn [bitmap_init bsize] in S.
  pose proof (hi_b _ _ H) as [Hwf Hlen _ Hsz _ _].
  destruct (free_spec b s n Hwf ltac:(rewrite Hlen, S; lia) ltac:(lia) ltac:(lia)) as (_ & F).
  apply F. exists p. split; [unfold inr; lia|].
  destruct (bit (chunks b) p) eqn:B; auto. contradiction.
Qed.

(** in particular double frees of ranges of 2..128 pages are always caught *)
Theorem C04_double_free_aborts : forall size ops k, size < 2 ^ 63 -> client_history ops ->
  exists b live, brun (bitmap_init size, []) ops = Ok (b, live) /\
  forall s n, nth_error live k = Some (s, n) -> 2 <= n ->
  exists b', free_bits b s n = Ok b' /\ free_bits b' s n = Abort.
Proof.
  intros size ops k Hs Hc.
  destruct (brun_inv ops _ _ (hinv_init size Hs) (client_nonzero _ Hc)) as (b & live & E & H & S).
  exists b, live. split; auto. intros s n En Hn2.
  pose proof (nth_error_In _ _ En) as Hx.
  pose proof (proj1 (Forall_forall _ _) (hi_in _ _ H) _ Hx) as Hr. simpl in Hr.
  destruct (free_live b s n (hi_b _ _ H) ltac:(lia) Hr) as (b' & Ef & HB & P & Z & U).
  { intros i Hi. rewrite (hi_bits _ _ H). unfold covered. apply existsb_exists. exists (s, n). auto. }
  exists b'. split; auto. destruct P as (L & _ & P).
  pose proof HB as [Hwf Hlen _ Hsz _ _].
  destruct (free_spec b' s n Hwf ltac:(rewrite Hlen; lia) ltac:(lia) ltac:(rewrite L; lia)) as (_ & F).
  apply F. exists s. split; [unfold inr; lia|].
  rewrite P. replace (inr s n s) with true by (unfold inr; lia). apply andb_false_r.
Qed.

(** The full claim is false: freeing a free single page is accepted and makes the figures wrong. *)
Theorem C04_single_refuted :
  exists size ops b live b' s, client_history ops /\
    brun (bitmap_init size, []) ops = Ok (b, live) /\ ~ page_marked b s /\ s < size /\
    free_bits b s 1 = Ok b' /\ bitmap_used b' <> count_allocated b'.
Proof.
  exists 128, [BAlloc 10; BFree 0]. eexists; eexists; eexists; exists 3. split.
  { intros n. simpl. intros H. decompose [or] H; try discriminate; try tauto.
    match goal with h : BAlloc _ = BAlloc _ |- _ => inversion h; lia end. }
  split; [vm_compute; reflexivity|]. split; [vm_compute; discriminate|]. split; [lia|].
  split; [vm_compute; reflexivity|]. vm_compute. discriminate.
Qed.

(** ... and interior groups of a long range are not checked either. *)
Theorem C04_interior_refuted :
  exists size ops b live b' s n p, client_history ops /\
    brun (bitmap_init size, []) ops = Ok (b, live) /\ s <= p < s + n /\ s + n <= size /\
    ~ page_marked b p /\
    free_bits b s n = Ok b' /\ bitmap_used b' <> count_allocated b'.
Proof.
  exists 192, [BAlloc 64; BAlloc 64; BAlloc 64; BFree 1]. eexists; eexists; eexists; exists 0, 192, 100. split.
  { intros n. simpl. intros H. decompose [or] H; try discriminate; try tauto;
    match goal with h : BAlloc _ = BAlloc _ |- _ => inversion h; lia end. }
  split; [vm_compute; reflexivity|]. split; [lia|]. split; [lia|].
  split; [vm_compute; discriminate|].
  split; [vm_compute; reflexivity|]. vm_compute. discriminate.
Qed.

Example C04_case : exists b b' live, brun (bitmap_init 256, []) [BAlloc 10; BAlloc 100] = Ok (b, live) /\
  nth_error live 1 = Some (10, 100) /\ free_bits b 10 100 = Ok b' /\ bitmap_used b' = 10.
Proof.
  do 3 eexists. split; [vm_compute; reflexivity|]. split; [reflexivity|].
  split; vm_compute; reflexivity.
Qed.

Print Assumptions C01_live_ranges_disjoint.
Print Assumptions C01_live_ranges_inside_partial.
Print Assumptions C02_accounting_exact.
Print Assumptions C02_failed_alloc_no_effect.
Print Assumptions C03_alloc_complete_partial.
Print Assumptions C04_free_exact.
Print Assumptions C04_bad_free_aborts_partial.
Print Assumptions C04_double_free_aborts.
