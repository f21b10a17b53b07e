(** The page bitmap of [BitmapModel] with many callers at once (property C69).

    Code modelled
    - [src/utils/bitmap.c:217-253]  utils_bitmap_alloc_bits: one step each for the wrap of free_p, the test of the free count, the probe
      of a chunk with its stores of bits, the update of used_bits, the update of free_p
    - [src/utils/bitmap.c:255-296]  utils_bitmap_free_bits: one step for the bits, one for used_bits
    A probe of a chunk ([find_start]) is one step: it reads and writes up to [bits] / 64 + 2 words, all between lock and unlock. *)
From Verif Require Import Base BitmapModel BitmapProof BitmapHist BitmapProps Locked.
From Coq Require Import Lia Permutation.
Local Open Scope N_scope.
Local Opaque popcount count.

(** ** Calls one at a time *)
(** A request for pages, at least one; giving back a range (first page, pages) that a request got. *)
Inductive pop := Take (n : positive) | Give (r : N * N).
Inductive pret := Got (s : option N) | Freed.
(** the calls of [BitmapModel], bitmap.c:217-296 *)
Definition pseq (o : pop) (b b' : bmp) (r : pret) : Prop :=
  match o with
  | Take n => exists s, alloc_bits b (N.pos n) = Ok (b', s) /\ r = Got s
  | Give x => free_bits b (fst x) (snd x) = Ok b' /\ r = Freed
  end.
(** Callers give back ranges that are theirs, once: bitmap.c:255-296 *)
Definition pneeds (o : pop) : list (N * N) := match o with Take _ => [] | Give x => [x] end.
Definition pgives (o : pop) (r : pret) : list (N * N) := match o, r with Take n, Got (Some s) => [(s, N.pos n)] | _, _ => [] end.
Definition pobj (size : N) : obj := mkobj bmp pop pret (N * N) pneeds pgives pseq (bitmap_init size).

(** ** Calls step by step *)
Inductive ploc :=
| Wrap (n : N)                  (* bitmap.c:224-226 *)
| Space (n : N)                 (* bitmap.c:228 *)
| Probe (n : N) (l : list nat)  (* bitmap.c:231-241: the chunks still to look at *)
| CountUp (n s : N)             (* used_bits += bits, bitmap.c:76-205 *)
| Point (n s : N)               (* bitmap.c:246 *)
| Clear (s n : N)               (* bitmap.c:258-293, the bits *)
| CountDown (n : N)             (* bitmap.c:259, 277, 293 *)
| PFin (r : pret).
(** One step, bitmap.c:217-296; [None]: the assertion fails, or an access is out of bounds. *)
Definition pstep (l : ploc) (b : bmp) : option (ploc * bmp) :=
  match l with
  | Wrap n => Some (Space n, if Nat.eqb (free_p b) (length (chunks b)) then set_free_p b 0 else b)
  | Space n => Some (if bitmap_free b <? n then PFin (Got None) else Probe n (List.seq (free_p b) (length (chunks b) - free_p b) ++ List.seq 0 (free_p b)), b)
  | Probe n [] => Some (PFin (Got None), b)
  | Probe n (ci :: l') => match find_start b n ci with
                          | Ok (Some (b', s)) => Some (CountUp n s, set_chunks b (chunks b'))
                          | Ok None => Some (Probe n l', b)
                          | _ => None
                          end
  | CountUp n s => Some (Point n s, set_used b (add64 (used b) n))
  | Point n s => Some (PFin (Got (Some s)), set_free_p b (N.to_nat (s / 64)))
  | Clear s n => match free_bits b s n with Ok b' => Some (CountDown n, set_chunks b (chunks b')) | _ => None end
  | CountDown n => Some (PFin Freed, set_used b (sub64 (used b) n))
  | PFin _ => None
  end.
Definition pstart (o : pop) : ploc := match o with Take n => Wrap (N.pos n) | Give x => Clear (fst x) (snd x) end.
Definition pbody (size : N) : body (pobj size) :=
  mkbody (pobj size) ploc pstart (fun l s l' s' => pstep l s = Some (l', s')) (fun l => match l with PFin r => Some r | _ => None end).

(** ** The steps of a call are the call *)
Ltac ob H := match type of H with
  | bind ?m _ = Ok _ => let E := fresh "E" in destruct m eqn:E; cbn [bind] in H; try discriminate
  | (if ?c then _ else _) = Ok _ => destruct c
  | match ?c with _ => _ end = Ok _ => destruct c
  end.
Lemma find_start_shape b n ci b' s : find_start b n ci = Ok (Some (b', s)) -> b' = mkbmp (chunks b') (free_p b) (add64 (used b) n) (bsize b).
Proof.
  intros H. unfold find_start in H. destruct (n <? 65); [unfold find_start_small in H | unfold find_start_big in H]; cbv zeta in H; repeat (ob H; try discriminate); injection H as <- <-; reflexivity.
Qed.
Lemma free_bits_shape b s n b' : free_bits b s n = Ok b' -> b' = mkbmp (chunks b') (free_p b) (sub64 (used b) n) (bsize b).
Proof.
  intros H. unfold free_bits in H. destruct (N.eqb_spec n 1) as [->|]; cbv zeta in H; repeat (ob H; try discriminate); injection H as <-; reflexivity.
Qed.
(** bitmap.c:224-226 *)
Definition wrapped (b : bmp) : bmp := if Nat.eqb (free_p b) (length (chunks b)) then set_free_p b 0 else b.
Definition order (b : bmp) : list nat := List.seq (free_p b) (length (chunks b) - free_p b) ++ List.seq 0 (free_p b).
Definition pmid (o : pop) (b : bmp) (l : ploc) (b1 : bmp) : Prop :=
  match l with
  | Wrap n => exists p, o = Take p /\ n = N.pos p /\ b1 = b
  | Space n => exists p, o = Take p /\ n = N.pos p /\ b1 = wrapped b
  | Probe n l => exists p, o = Take p /\ n = N.pos p /\ b1 = wrapped b /\ (bitmap_free b1 <? n) = false /\ scan b1 n (order b1) = scan b1 n l /\ exists l0, order b1 = l0 ++ l
  | CountUp n s => exists p b2, o = Take p /\ n = N.pos p /\ (bitmap_free (wrapped b) <? n) = false /\ scan (wrapped b) n (order (wrapped b)) = Ok (Some (b2, s)) /\ b1 = set_chunks (wrapped b) (chunks b2) /\
                     b2 = set_used b1 (add64 (used b1) n)
  | Point n s => exists p, o = Take p /\ n = N.pos p /\ (bitmap_free (wrapped b) <? n) = false /\ scan (wrapped b) n (order (wrapped b)) = Ok (Some (b1, s))
  | Clear s n => o = Give (s, n) /\ b1 = b
  | CountDown n => exists s b2, o = Give (s, n) /\ free_bits b s n = Ok b2 /\ b1 = set_chunks b (chunks b2)
  | PFin r => pseq o b b1 r
  end.
Lemma pmid_step o b l b1 l' b2 : pmid o b l b1 -> pstep l b1 = Some (l', b2) -> pmid o b l' b2.
Proof.
  destruct l as [n | n | n l | n s | n s | s n | n | r]; cbn [pmid pstep]; intros M E.
  - injection E as <- <-. destruct M as (p & -> & -> & ->). cbn [pmid]. exists p. auto.
  - injection E as <- <-. destruct M as (p & -> & -> & ->). destruct (bitmap_free (wrapped b) <? N.pos p) eqn:EF; cbn [pmid pseq].
    + exists None. split; [|reflexivity]. unfold alloc_bits. fold (wrapped b). cbv zeta. rewrite EF. reflexivity.
    + exists p. split; [reflexivity|]. split; [reflexivity|]. split; [reflexivity|]. split; [exact EF|]. split; [reflexivity|]. exists []. reflexivity.
  - destruct M as (p & -> & -> & -> & EF & ES & l0 & EO). destruct l as [|ci l].
    + injection E as <- <-. cbn [pmid pseq]. exists None. split; [|reflexivity]. unfold alloc_bits. fold (wrapped b). cbv zeta. rewrite EF. fold (order (wrapped b)). rewrite ES. reflexivity.
    + cbn [scan] in ES. destruct (find_start (wrapped b) (N.pos p) ci) as [[[b3 s]|]| |] eqn:EP; try discriminate; injection E as <- <-; cbn [bind] in ES; cbn [pmid].
      * exists p, b3. do 3 (split; [auto|]). split; [exact ES|]. split; [reflexivity|]. apply find_start_shape in EP. rewrite EP at 1. reflexivity.
      * exists p. do 5 (split; [auto|]). exists (l0 ++ [ci]). rewrite <- app_assoc. exact EO.
  - injection E as <- <-. destruct M as (p & b3 & -> & -> & EF & ES & EB & E3). cbn [pmid]. exists p. rewrite <- E3. auto.
  - injection E as <- <-. destruct M as (p & -> & -> & EF & ES). cbn [pmid pseq]. exists (Some s). split; [|reflexivity]. unfold alloc_bits. fold (wrapped b). cbv zeta. rewrite EF. fold (order (wrapped b)). rewrite ES. reflexivity.
  - destruct M as (-> & ->). destruct (free_bits b s n) as [b3| |] eqn:EB; try discriminate. injection E as <- <-. cbn [pmid]. eauto.
  - injection E as <- <-. destruct M as (s & b3 & -> & EB & ->). cbn [pmid pseq fst snd]. split; [|reflexivity]. rewrite EB. f_equal. apply free_bits_shape in EB. rewrite EB at 1. reflexivity.
  - discriminate.
Qed.
Lemma pmid_runs size o s l s' : runs (pbody size) (pstart o) s l s' -> pmid o s l s'.
Proof.
  remember (pstart o) as l0 eqn:E0. intros R. change (loc (pbody size)) with ploc in l0. revert E0. induction R as [l s | l s l1 s1 l2 s2 R IH _ M]; intros E0.
  - rewrite E0. destruct o as [n | [a n]]; cbn [pstart pmid fst snd]; eauto.
  - apply (pmid_step _ _ _ _ _ _ (IH E0) M).
Qed.
Theorem C69_pages_steps size : sound (pobj size) (pbody size).
Proof.
  intros s T R l0 o l s' r _ _ RR EF. apply pmid_runs in RR. destruct l; try discriminate. cbn [pbody fin] in EF. injection EF as <-. exact RR.
Qed.

(** ** Ranges *)
Lemma covered_perm l l' i : Permutation l l' -> covered l i = covered l' i.
Proof.
  intros P. unfold covered. destruct (existsb _ l') eqn:E.
  - apply existsb_exists in E. destruct E as (x & I & E). apply existsb_exists. exists x. split; [apply (Permutation_in x (Permutation_sym P) I) | exact E].
  - destruct (existsb _ l) eqn:E1; [|reflexivity]. apply existsb_exists in E1. destruct E1 as (x & I & E1). rewrite <- E. symmetry. apply existsb_exists. exists x. split; [apply (Permutation_in x P I) | exact E1].
Qed.
Lemma sum_perm l l' : Permutation l l' -> sum_len l = sum_len l'.
Proof. induction 1; unfold sum_len in *; cbn [fold_right]; lia. Qed.
Lemma FOP_perm {A} (R : A -> A -> Prop) l l' : (forall x y, R x y -> R y x) -> Permutation l l' -> ForallOrdPairs R l -> ForallOrdPairs R l'.
Proof.
  intros SY P. induction P as [| x l l' P IH | x y l | l l' l'' P1 IH1 P2 IH2]; intros F; auto.
  - inversion F as [|? ? F1 F2]; subst. constructor; [|auto]. apply Forall_forall. intros z I. rewrite Forall_forall in F1. apply F1, (Permutation_in z (Permutation_sym P) I).
  - inversion F as [|? ? F1 F2]; subst. inversion F2 as [|? ? F3 F4]; subst. inversion F1; subst. constructor; [constructor; auto | constructor; auto].
Qed.
Lemma hinv_perm b l l' : Permutation l l' -> hinv b l -> hinv b l'.
Proof.
  intros P [H1 H2 H3 H4 H5 H6]. constructor; auto.
  - apply Forall_forall. intros x I. rewrite Forall_forall in H2. apply H2, (Permutation_in x (Permutation_sym P) I).
  - apply Forall_forall. intros x I. rewrite Forall_forall in H3. apply H3, (Permutation_in x (Permutation_sym P) I).
  - apply (FOP_perm apart l l'); auto. unfold apart. tauto.
  - intros i. rewrite H5. apply covered_perm, P.
  - rewrite H6. apply sum_perm, P.
Qed.
Lemma serial_hinv size b T l : size < 2 ^ 63 -> serial (pobj size) b T l -> hinv b T /\ bsize b = size.
Proof.
  intros SZ. induction 1 as [| b T R o b' r l H IH P E]; [split; [apply hinv_init, SZ | reflexivity]|]. destruct IH as (HI & BS). cbn [pobj Locked.seq needs gives] in *. destruct o as [n | [s n]]; cbn [pseq pneeds pgives app fst snd] in *.
  - destruct E as (q & E & ->). apply (hinv_perm _ _ _ P) in HI. assert (N1 : 1 <= N.pos n) by lia. destruct (bstep_inv b R (BAlloc (N.pos n)) HI N1) as (b1 & l1 & E1 & H1 & S1). cbn [bstep] in E1. rewrite E in E1. cbn [bind fst snd] in E1.
    destruct q as [s|]; injection E1 as <- <-; (split; [|congruence]).
    + cbn [app]. apply (hinv_perm _ _ _ (Permutation_app_comm _ _) H1).
    + exact H1.
  - destruct E as (E & ->). apply (hinv_perm _ _ _ P) in HI. destruct (bstep_inv b ((s, n) :: R) (BFree 0) HI Logic.I) as (b1 & l1 & E1 & H1 & S1). cbn [bstep nth_error] in E1. rewrite E in E1. cbn [bind remove_nth] in E1.
    injection E1 as <- <-. split; [exact H1 | congruence].
Qed.

(** ** Specification *)
(** the pages of the ranges, counted *)
Definition pages (l : list (N * N)) : N := fold_right (fun r a => snd r + a) 0 l.

(** ** Theorems *)
(** Whatever the callers do at the same time, what they see is requests and frees that take effect one at a time. *)
Theorem C69_pages_linearizable size c : reach (pbody size) c -> linearizable (pobj size) (trace c).
Proof. apply C69_locked_linearizable, C69_pages_steps. Qed.
(** At every moment no page is in two of: the ranges callers hold, the ranges being given back, the ranges being handed over. *)
Theorem C69_pages_disjoint size c : size < 2 ^ 63 -> reach (pbody size) c -> pairwise_disjoint (all c) /\ forall r, In r (all c) -> 1 <= snd r /\ fst r + snd r <= (size + 63) / 64 * 64.
Proof.
  intros SZ R. destruct (C69_locked_state _ _ (C69_pages_steps size) c R) as (s0 & T0 & l0 & H & P & _). destruct (serial_hinv _ _ _ _ SZ H) as (HI & BS). apply (hinv_perm _ _ _ P) in HI. split; [apply (hinv_disjoint _ _ HI)|].
  intros r I. pose proof (proj1 (Forall_forall _ _) (hi_pos _ _ HI) _ I) as H1. pose proof (proj1 (Forall_forall _ _) (hi_in _ _ HI) _ I) as H2. cbn beta in *. pose proof (bi_len _ (hi_b _ _ HI)) as L. rewrite BS in L. split; [exact H1 | lia].
Qed.
(** While no call is inside, the marks and the counts are exactly those ranges. *)
Theorem C69_pages_exact size c : size < 2 ^ 63 -> reach (pbody size) c -> lock c = false ->
  (forall p, page_marked (state c) p <-> exists r, In r (all c) /\ page_in r p) /\
  bitmap_used (state c) = pages (all c) /\ bitmap_used (state c) = count_allocated (state c) /\ bitmap_used (state c) + bitmap_free (state c) = size.
Proof.
  intros SZ R LK. destruct (C69_locked_state _ _ (C69_pages_steps size) c R) as (s0 & T0 & l0 & H & P & L). rewrite LK in L. destruct (serial_hinv _ _ _ _ SZ H) as (HI & BS). apply (hinv_perm _ _ _ P) in HI. rewrite <- L in *.
  pose proof (hi_b _ _ HI) as HB. split; [apply (hinv_marked _ _ HI)|]. split; [apply HI|]. split; [symmetry; apply count_allocated_used, HB|].
  unfold bitmap_used, bitmap_free. pose proof (bi_le _ HB). pose proof (bi_size _ HB). rewrite sub64_small by lia. lia.
Qed.
(** A page of a range that a caller holds stays marked at every moment, whatever is going on inside; so does a page of a range that
    is being handed over. *)
Theorem C69_pages_kept size c r p : size < 2 ^ 63 -> reach (pbody size) c -> In r (all c) -> page_in r p ->
  page_marked (state c) p \/ exists i l, nth_error (ths c) i = Some (@Inside (pobj size) (pbody size) (Give r) l).
Proof.
  intros SZ R I PI. destruct (C69_locked_state _ _ (C69_pages_steps size) c R) as (s0 & T0 & l0 & H & P & L). destruct (serial_hinv _ _ _ _ SZ H) as (HI & BS). apply (hinv_perm _ _ _ P) in HI.
  assert (M0 : bit (chunks s0) p = true). { rewrite (hi_bits _ _ HI). unfold covered. apply existsb_exists. exists r. split; [exact I|]. unfold inr, page_in in *. lia. }
  destruct (lock c); [|left; rewrite L; exact M0]. destruct L as (i & o & l & E & RR). apply pmid_runs in RR.
  assert (GV : forall a n b2, o = Give (a, n) -> free_bits s0 a n = Ok b2 -> bit (chunks b2) p = true \/ exists i l, nth_error (ths c) i = Some (@Inside (pobj size) (pbody size) (Give r) l)).
  { intros a n b2 -> EB. assert (IG : In (a, n) (all c)). { unfold all. apply in_or_app. right. apply in_flat_map. exists (@Inside (pobj size) (pbody size) (Give (a, n)) l). split; [apply (nth_error_In _ _ E) | now left]. }
    pose proof (proj1 (Forall_forall _ _) (hi_pos _ _ HI) _ IG) as H1. pose proof (proj1 (Forall_forall _ _) (hi_in _ _ HI) _ IG) as H2. cbn in H1, H2.
    destruct (free_live s0 a n (hi_b _ _ HI) H1 H2) as (b3 & EF & _ & (_ & _ & F) & _). { intros j Hj. rewrite (hi_bits _ _ HI). unfold covered. apply existsb_exists. exists (a, n). split; [exact IG | exact Hj]. }
    rewrite EB in EF. injection EF as <-. rewrite F, M0. cbn [andb]. destruct (inr a n p) eqn:EI; [|left; reflexivity]. right. exists i, l.
    enough ((a, n) = r) as <- by exact E. destruct (In_nth_error _ _ IG) as (x & EX). destruct (In_nth_error _ _ I) as (y & EY). destruct (Nat.eq_dec x y) as [-> | NE]; [assert (Q : Some (a, n) = Some r) by (etransitivity; [symmetry; exact EX | exact EY]); injection Q; auto|].
    exfalso. apply (hinv_disjoint _ _ HI x y _ _ NE EX EY p). split; [|exact PI]. unfold inr, page_in in *. cbn [fst snd]. lia. }
  assert (TK : forall n q b2, alloc_bits s0 n = Ok (b2, q) -> bit (chunks b2) p = true).
  { intros n q b2 EA. destruct (alloc_spec s0 n (hi_b _ _ HI)) as (b3 & q' & EA' & _ & _ & A). rewrite EA in EA'. injection EA' as <- <-. destruct q as [s|]; [destruct A as ((_ & _ & _ & _ & A) & _); rewrite A, M0; reflexivity|].
    destruct A as (A & _). rewrite A. exact M0. }
  assert (WR : chunks (wrapped s0) = chunks s0) by (unfold wrapped; destruct (Nat.eqb _ _); reflexivity).
  change (bit (chunks (state c)) p = true \/ exists i l, nth_error (ths c) i = Some (@Inside (pobj size) (pbody size) (Give r) l)).
  destruct l as [n | n | n l | n s | n s | s n | n | q]; cbn [pmid] in RR.
  - destruct RR as (x & _ & _ & ->). left. exact M0.
  - destruct RR as (x & _ & _ & ->). left. rewrite WR. exact M0.
  - destruct RR as (x & _ & _ & -> & _). left. rewrite WR. exact M0.
  - destruct RR as (x & b2 & -> & -> & EF & ES & -> & _). left. cbn [chunks set_chunks]. apply (TK (N.pos x) (Some s) (set_free_p b2 (N.to_nat (s / 64)))). unfold alloc_bits. fold (wrapped s0). cbv zeta. rewrite EF. fold (order (wrapped s0)). rewrite ES. reflexivity.
  - destruct RR as (x & -> & -> & EF & ES). left. apply (TK (N.pos x) (Some s) (set_free_p (state c) (N.to_nat (s / 64)))). unfold alloc_bits. fold (wrapped s0). cbv zeta. rewrite EF. fold (order (wrapped s0)). rewrite ES. reflexivity.
  - destruct RR as (_ & ->). left. exact M0.
  - destruct RR as (s & b2 & EO & EB & ->). cbn [chunks set_chunks]. apply (GV _ _ _ EO EB).
  - destruct o as [x | [a n]]; cbn [pseq fst snd] in RR.
    + destruct RR as (s & EA & _). left. apply (TK _ _ _ EA).
    + destruct RR as (EB & _). apply (GV _ _ _ eq_refl EB).
Qed.
(** A call that is inside always has a next step, without a failed assertion or an access out of bounds, or is done. *)
Theorem C69_pages_never_stuck size c i o l : size < 2 ^ 63 -> reach (pbody size) c -> nth_error (ths c) i = Some (Inside o l) -> (exists r, l = PFin r) \/ exists l' s', pstep l (state c) = Some (l', s').
Proof.
  intros SZ R E. destruct (C69_locked_state _ _ (C69_pages_steps size) c R) as (s0 & T0 & l0 & H & P & L). destruct (C69_locked_one _ _ (C69_pages_steps size) c i i o l o l R E E) as (_ & LK). rewrite LK in L.
  destruct L as (j & o' & l' & EJ & RR). destruct (C69_locked_one _ _ (C69_pages_steps size) c i j o l o' l' R E EJ) as (<- & _). rewrite E in EJ. injection EJ as <- <-.
  destruct (serial_hinv _ _ _ _ SZ H) as (HI & BS). apply (hinv_perm _ _ _ P) in HI. apply pmid_runs in RR. destruct l as [n | n | n l | n s | n s | s n | n | q]; cbn [pmid pstep] in *; eauto; right.
  - destruct l as [|ci l]; [eauto|]. destruct RR as (x & _ & _ & EW & _ & _ & l1 & EO). rewrite EW in *.
    assert (CI : (ci < length (chunks (wrapped s0)))%nat).
    { assert (I : In ci (order (wrapped s0))) by (rewrite EO; apply in_or_app; right; now left). unfold order in I. apply in_app_or in I. pose proof (bi_fp _ (hi_b _ _ HI)) as FP.
      assert (FW : (free_p (wrapped s0) <= length (chunks (wrapped s0)))%nat) by (unfold wrapped; destruct (Nat.eqb _ _); cbn; lia). destruct I as [I | I]; apply in_seq in I; lia. }
    assert (WF : wfc (chunks (wrapped s0))) by (unfold wrapped; destruct (Nat.eqb _ _); apply (bi_wf _ (hi_b _ _ HI))).
    destruct (scan_spec (wrapped s0) n WF [ci]) as (q & EQ & _); [intros z [<- | []]; exact CI|]. cbn [scan] in EQ. destruct (find_start (wrapped s0) n ci) as [[[b s]|]| |]; cbn [bind] in EQ; try discriminate; eauto.
  - destruct RR as (-> & ->). assert (IG : In (s, n) (all c)). { unfold all. apply in_or_app. right. apply in_flat_map. exists (@Inside (pobj size) (pbody size) (Give (s, n)) (Clear s n)). split; [apply (nth_error_In _ _ E) | now left]. }
    pose proof (proj1 (Forall_forall _ _) (hi_pos _ _ HI) _ IG) as H1. pose proof (proj1 (Forall_forall _ _) (hi_in _ _ HI) _ IG) as H2. cbn in H1, H2.
    destruct (free_live s0 s n (hi_b _ _ HI) H1 H2) as (b3 & EF & _). { intros j Hj. rewrite (hi_bits _ _ HI). unfold covered. apply existsb_exists. exists (s, n). split; [exact IG | exact Hj]. }
    rewrite EF. eauto.
Qed.
(** The count that utils_bitmap_used reads without the lock (bitmap.c:48-51) is that of before or of after the call that is inside. *)
Theorem C69_pages_used size c : size < 2 ^ 63 -> reach (pbody size) c ->
  bitmap_used (state c) = pages (all c) \/
  (exists i n l, nth_error (ths c) i = Some (@Inside (pobj size) (pbody size) (Take n) l) /\ bitmap_used (state c) = pages (all c) + N.pos n) \/
  (exists i r l, nth_error (ths c) i = Some (@Inside (pobj size) (pbody size) (Give r) l) /\ bitmap_used (state c) + snd r = pages (all c)).
Proof.
  intros SZ R. destruct (C69_locked_state _ _ (C69_pages_steps size) c R) as (s0 & T0 & l0 & H & P & L). destruct (serial_hinv _ _ _ _ SZ H) as (HI & BS). apply (hinv_perm _ _ _ P) in HI.
  assert (U0 : used s0 = pages (all c)) by apply HI. unfold bitmap_used. destruct (lock c); [|left; rewrite L; exact U0]. destruct L as (i & o & l & E & RR). apply pmid_runs in RR.
  assert (WR : used (wrapped s0) = used s0) by (unfold wrapped; destruct (Nat.eqb _ _); reflexivity).
  assert (TK : forall n q b2, alloc_bits s0 n = Ok (b2, q) -> used b2 = match q with Some _ => used s0 + n | None => used s0 end).
  { intros n q b2 EA. destruct (alloc_spec s0 n (hi_b _ _ HI)) as (b3 & q' & EA' & _ & _ & A). rewrite EA in EA'. injection EA' as <- <-. destruct q as [s|]; tauto. }
  destruct l as [n | n | n l | n s | n s | s n | n | q]; cbn [pmid] in RR.
  - destruct RR as (x & _ & _ & ->). auto.
  - destruct RR as (x & _ & _ & ->). left. congruence.
  - destruct RR as (x & _ & _ & -> & _). left. congruence.
  - destruct RR as (x & b2 & _ & _ & _ & _ & -> & _). left. cbn [used set_chunks]. congruence.
  - destruct RR as (x & -> & -> & EF & ES). right. left. exists i, x, (Point (N.pos x) s). split; [exact E|]. rewrite <- U0.
    apply (TK (N.pos x) (Some s) (set_free_p (state c) (N.to_nat (s / 64)))). unfold alloc_bits. fold (wrapped s0). cbv zeta. rewrite EF. fold (order (wrapped s0)). rewrite ES. reflexivity.
  - destruct RR as (_ & ->). auto.
  - destruct RR as (s & b2 & _ & _ & ->). auto.
  - destruct o as [x | [a n]]; cbn [pseq fst snd] in RR.
    + destruct RR as (s & EA & _). apply TK in EA. destruct s as [s|]; [|left; congruence]. right. left. exists i, x, (PFin q). split; [exact E | congruence].
    + destruct RR as (EB & _). right. right. exists i, (a, n), (PFin q). split; [exact E|]. cbn [snd]. rewrite <- U0.
      assert (IG : In (a, n) (all c)). { unfold all. apply in_or_app. right. apply in_flat_map. exists (@Inside (pobj size) (pbody size) (Give (a, n)) (PFin q)). split; [apply (nth_error_In _ _ E) | now left]. }
      pose proof (proj1 (Forall_forall _ _) (hi_pos _ _ HI) _ IG) as H1. pose proof (proj1 (Forall_forall _ _) (hi_in _ _ HI) _ IG) as H2. cbn in H1, H2.
      destruct (free_live s0 a n (hi_b _ _ HI) H1 H2) as (b3 & EF & _ & _ & _ & U). { intros j Hj. rewrite (hi_bits _ _ HI). unfold covered. apply existsb_exists. exists (a, n). split; [exact IG | exact Hj]. }
      rewrite EB in EF. injection EF as <-. symmetry. exact U.
Qed.

(** ** A concrete case *)
Definition pgive (o : pop) (H : list (N * N)) : option (list (N * N)) :=
  match o, H with Take _, _ => Some H | Give r, x :: H' => if (fst r =? fst x) && (snd r =? snd x) then Some H' else None | Give _, [] => None end.
Definition pscheds (size : N) (n : nat) (l : list (nat * option pop)) : option (conf (pobj size) (pbody size)) :=
  scheds (pobj size) (pbody size) pstep pgive (mkc (init (pobj size)) false [] (repeat Idle n) []) l.
Lemma pscheds_reach size n l c : pscheds size n l = Some c -> reach (pbody size) c.
Proof.
  apply (scheds_reach (pobj size) (pbody size) pstep pgive); [auto|]. intros o H H' E. destruct o as [n0 | [a m]]; cbn [pgive] in E; [injection E as <-; apply Permutation_refl|].
  destruct H as [|[a' m'] H]; [discriminate|]. cbn [fst snd] in E. destruct (N.eqb_spec a a') as [<-|]; [|discriminate]. destruct (N.eqb_spec m m') as [<-|]; [|discriminate]. injection E as <-. apply Permutation_refl.
Qed.
Definition pview (c : conf (pobj 256) (pbody 256)) : list N * N * bool * list (N * N) := (chunks (state c), used (state c), lock c, mine c).
(** Thread 0 took 3 pages and then 70; it gives the 70 back and is inside with the bits cleared and the count not; thread 1 called for
    100 pages and waits. *)
Definition pcase : list (nat * option pop) :=
  let t0 := (0%nat, None) in
  [(0%nat, Some (Take 3)); t0; t0; t0; t0; t0; t0; t0; t0; t0] ++ [(0%nat, Some (Take 70)); t0; t0; t0; t0; t0; t0; t0; t0; t0] ++
  [(0%nat, Some (Give (3, 70))); t0; t0; (1%nat, Some (Take 100)); (1%nat, None); t0].
(** where a thread is *)
Definition pwhere (p : pc (pobj 256) (pbody 256)) : option (pop * option ploc) := match p with Idle => None | Spin o | Cas o => Some (o, None) | Inside o l => Some (o, Some l) | Back o r => None end.
Definition psum (c : conf (pobj 256) (pbody 256)) := (pview c, map pwhere (ths c), all c).
Example C69_pages_case : exists c, reach (pbody 256) c /\ pview c = ([7; 0; 0; 0], 73, true, [(0, 3)]) /\ map pwhere (ths c) = [Some (Give (3, 70), Some (CountDown 70)); Some (Take 100, None)] /\ all c = [(0, 3); (3, 70)].
Proof.
  assert (Q : option_map psum (pscheds 256 2 pcase) = Some (([7; 0; 0; 0], 73, true, [(0, 3)]), [Some (Give (3, 70), Some (CountDown 70)); Some (Take 100, None)], [(0, 3); (3, 70)])) by (vm_compute; reflexivity).
  destruct (pscheds 256 2 pcase) as [c|] eqn:E; [|discriminate]. exists c. split; [apply (pscheds_reach _ _ _ _ E)|]. cbn [option_map] in Q. unfold psum in Q.
  assert (G : forall A (x y : A), Some x = Some y -> x = y) by (intros A x y; congruence). apply G in Q. clear G E.
  assert (G : forall A B C (a a' : A) (b b' : B) (c c' : C), (a, b, c) = (a', b', c') -> a = a' /\ b = b' /\ c = c') by (intros; split; [|split]; congruence). apply G in Q. exact Q.
Qed.
