(** Allocation in the heap of [DlModel]: sys_alloc, the use of dv and top, and mspace_malloc keep the invariant of [DlInv].  No code of
    its own. *)
From Verif Require Import Base DlModel DlInv DlAlloc DlSys DlPre.
From Coq Require Import Lia.
Local Open Scope N_scope.
Arguments N.add : simpl never. Arguments N.sub : simpl never. Arguments N.mul : simpl never. Arguments N.div : simpl never.
Arguments N.modulo : simpl never. Arguments N.eqb : simpl never. Arguments N.ltb : simpl never. Arguments N.leb : simpl never.
Arguments N.odd : simpl never.


Lemma map_split (G : list gseg) a g b : map fst G = a ++ g :: b -> exists G1 l G2, G = G1 ++ (g, l) :: G2 /\ map fst G1 = a /\ map fst G2 = b.
Proof.
  intros H. apply map_eq_app in H. destruct H as (G1 & G' & -> & <- & H). apply map_eq_cons in H. destruct H as ([g' l] & G2 & -> & <- & <-).
  exists G1, l, G2. auto.
Qed.
(** the segment that has top is the first *)
Lemma top_first m tp ts lst pgf mst G1 g l G2 D : core m tp ts lst pgf mst (G1 ++ (g, l) :: G2) D -> within (sbase g) (ssize g) tp = true -> G1 = [].
Proof.
  intros C HW. apply within_spec in HW. destruct G1 as [|[h lh] t]; [reflexivity|]. exfalso. cbn [app] in C.
  destruct (head_reg _ _ _ _ _ _ _ _ _ _ C) as (E & E2 & E3 & _).
  pose proof (geo_apart [] _ _ _ _ _ (g, l) (c_geo _ _ _ _ _ _ _ _ C) (in_elt _ _ _)) as P. unfold rdisj, reg in P. cbn [fst snd] in P. lia.
Qed.
Definition answer (s : ms) (G : list gseg) (D : list (N * N)) (mm : N -> option N) (bytes : N) (o : outcome (ms * option N)) : Prop :=
  (exists s' a, o = Ok (s', Some a) /\ got s G D s' bytes a) \/ (o = Abort /\ exists n, n mod 4096 = 0 /\ bytes < n /\ n < bytes + 65664 /\ mm n = None) \/ (o = Ok (s, None) /\ W <= bytes + 65664).
Lemma sys_alloc_ok s G D nb bytes mm : Inv s G D -> 32 <= nb -> nb mod 16 = 0 -> nb < W -> bytes + 8 <= nb -> nb < bytes + 33 ->
  (forall n b, mm n = Some b -> fresh (pg s) b n) ->
  answer s G D mm bytes (sys_alloc s nb mm).
Proof.
  intros I N1 N2 N3 N4 N5 FR. pose proof (i_core _ _ _ I) as C. unfold sys_alloc.
  assert (K : answer s G D mm bytes
    (let asize := granularity_align ((nb + 96) mod W) in
    if asize <=? nb then Ok (s, None)
    else
      match mm asize with
      | None => Abort
      | Some tbase =>
          let s := mapped s tbase asize in
          let s := set_foot_ s (foot s + asize) in
          let finish s := if nb <? topsize s then let '(s', p) := split_top s nb in Ok (s', Some (p + 16)) else Ok (s, None) in
          match find_seg (fun g => tbase =? sbase g + ssize g) (segs s) with
          | Some (g, l1, l2) =>
              if within (sbase g) (ssize g) (top s) then
                let s := set_segs s (l1 ++ mkseg (sbase g) (ssize g + asize) (srec g) :: l2) in
                finish (init_top s (top s) (topsize s + asize))
              else
                let s := if tbase <? least s then set_least s tbase else s in
                match find_seg (fun g => sbase g =? tbase + asize) (segs s) with
                | Some (g, l1, l2) =>
                    let s := set_segs s (l1 ++ mkseg tbase (ssize g + asize) (srec g) :: l2) in
                    do x <- prepend_alloc s tbase (sbase g) nb; Ok (fst x, Some (snd x + 16))
                | None => do s <- add_segment s tbase asize; finish s
                end
          | None =>
              let s := if tbase <? least s then set_least s tbase else s in
              match find_seg (fun g => sbase g =? tbase + asize) (segs s) with
              | Some (g, l1, l2) =>
                  let s := set_segs s (l1 ++ mkseg tbase (ssize g + asize) (srec g) :: l2) in
                  do x <- prepend_alloc s tbase (sbase g) nb; Ok (fst x, Some (snd x + 16))
              | None => do s <- add_segment s tbase asize; finish s
              end
          end
      end)).
  { cbv zeta. set (asize := granularity_align ((nb + 96) mod W)). destruct (asize <=? nb) eqn:EL.
    { right. right. split; [reflexivity|]. apply N.leb_le in EL. destruct (N.le_gt_cases W (bytes + 65664)) as [H|H]; [exact H|]. exfalso.
      unfold asize in EL. rewrite N.mod_small in EL by lia. pose proof (gran_ge (nb + 96) ltac:(lia)). lia. }
    apply N.leb_gt in EL. pose proof (gran_nowrap nb N3 EL) as NW. fold asize in NW. pose proof (gran_al ((nb + 96) mod W)) as AL. fold asize in AL.
    destruct (mm asize) as [b|] eqn:EM; [|right; left; split; [reflexivity|]; exists asize; pose proof (gran_le ((nb + 96) mod W)) as LE; fold asize in LE; pose proof (N.mod_le (nb + 96) W ltac:(discriminate)); pose proof (N.mod_le ((nb + 96) mod W + 65535) W ltac:(discriminate)); repeat split; try assumption; [apply (proj1 (al65536 _ AL)) | lia | lia]]. left. apply FR in EM.
    change (set_foot_ (mapped s b asize) (foot (mapped s b asize) + asize)) with (grown s b asize).
    assert (K2 : exists s' a, (match find_seg (fun g => sbase g =? b + asize) (segs (if b <? least (grown s b asize) then set_least (grown s b asize) b else grown s b asize)) with
                | Some (g, l1, l2) =>
                    do x <- prepend_alloc (set_segs (if b <? least (grown s b asize) then set_least (grown s b asize) b else grown s b asize) (l1 ++ mkseg b (ssize g + asize) (srec g) :: l2)) b (sbase g) nb; Ok (fst x, Some (snd x + 16))
                | None => do s <- add_segment (if b <? least (grown s b asize) then set_least (grown s b asize) b else grown s b asize) b asize; if nb <? topsize s then let '(s', p) := split_top s nb in Ok (s', Some (p + 16)) else Ok (s, None)
                end) = Ok (s', Some a) /\ got s G D s' bytes a).
    { assert (LP : 0 < least s).
      { destruct (c_geo _ _ _ _ _ _ _ _ C) as (RG & _). destruct G as [|gl GT]; [destruct (c_segs _ _ _ _ _ _ _ _ C)|]. inversion RG as [|? ? R0 _]; subst. apply R0. }
      set (lst' := if b <? least s then b else least s).
      assert (EL2 : (if b <? least (grown s b asize) then set_least (grown s b asize) b else grown s b asize) = set_least (grown s b asize) lst').
      { unfold lst'. change (least (grown s b asize)) with (least s). destruct (b <? least s); reflexivity. }
      rewrite EL2. assert (LL : lst' <= least s /\ lst' <= b /\ 0 < lst').
      { unfold lst'. destruct EM as (B1 & _). destruct (b <? least s) eqn:EB; [apply N.ltb_lt in EB | apply N.ltb_ge in EB]; lia. }
      destruct LL as (LL1 & LL2 & LL3). change (segs (set_least (grown s b asize) lst')) with (segs s).
      destruct (find_seg (fun g => sbase g =? b + asize) (segs s)) as [[[g l1] l2]|] eqn:EF.
      - apply find_seg_some in EF. destruct EF as (ES & EG). apply N.eqb_eq in EG. pose proof (i_segs _ _ _ I) as IS. rewrite ES in IS.
        destruct (map_split _ _ _ _ IS) as (G1 & l & G2 & -> & <- & <-).
        destruct (prepend_ok s G1 g l G2 D b asize nb bytes lst' I EM AL EG LL1 LL2 LL3 N1 N2 NW N4) as (s' & P1 & P2).
        rewrite P1. cbn [bind fst snd]. eauto.
      - destruct G as [|[g l] GT]; [destruct (c_segs _ _ _ _ _ _ _ _ C)|].
        destruct (add_segment_ok s g l GT D b asize nb bytes lst' I EM AL N1 N2 N4 NW LL1 LL2 LL3) as (s2 & s' & A1 & A2 & A3 & A4).
        rewrite A1. cbn [bind]. apply N.ltb_lt in A2. rewrite A2, A3. eauto. }
    change (segs (grown s b asize)) with (segs s). change (top (grown s b asize)) with (top s).
    destruct (find_seg (fun g => b =? sbase g + ssize g) (segs s)) as [[[g l1] l2]|] eqn:EF; [|exact K2].
    destruct (within (sbase g) (ssize g) (top s)) eqn:EW; [|exact K2].
    apply find_seg_some in EF. destruct EF as (ES & EG). apply N.eqb_eq in EG. pose proof (i_segs _ _ _ I) as IS. rewrite ES in IS.
    destruct (map_split _ _ _ _ IS) as (G1 & l & G2 & -> & <- & <-). pose proof (top_first _ _ _ _ _ _ _ _ _ _ _ C EW) as ->. subst b.
    destruct (append_ok s g l G2 D asize nb bytes I EM AL N1 N2 N4 NW) as (A2 & s' & A3 & A4). cbn [map app] in *.
    apply N.ltb_lt in A2. rewrite A2. rewrite A3. eauto. }
  destruct ((MMAP_THRESHOLD <=? nb) && negb (topsize s =? 0)).
  - destruct (mmap_alloc_ok s G D nb bytes mm I N1 N3 ltac:(lia) FR) as [(s' & a & H1 & H2) | [(H1 & H2) | H1]]; rewrite H1; cbn [bind].
    + left. eauto.
    + right. left. split; [reflexivity|]. destruct H2 as (n & HA & HB & HC & HD). exists n. repeat split; try assumption; lia.
    + exact K.
  - cbn [bind]. exact K.
Qed.
Lemma from_rest_ok s G D nb bytes mm : Inv s G D -> 32 <= nb -> nb mod 16 = 0 -> nb < W -> bytes + 8 <= nb -> nb < bytes + 33 ->
  (forall n b, mm n = Some b -> fresh (pg s) b n) -> answer s G D mm bytes (from_rest s nb mm).
Proof.
  intros I N1 N2 N3 N4 N5 FR. destruct (N.le_gt_cases nb (dvsize s)) as [H|H].
  - destruct (dv_ok s G D nb bytes mm I N1 N2 N4 H) as (s' & H1 & H2). left. eauto.
  - unfold from_rest. replace (nb <=? dvsize s) with false by (symmetry; apply N.leb_gt; exact H).
    destruct (nb <? topsize s) eqn:ET; [|apply sys_alloc_ok; assumption].
    apply N.ltb_lt in ET. destruct (split_top_ok s G D nb bytes I N1 N2 N4 ET) as (s' & H1 & H2). rewrite H1. left. eauto.
Qed.
Lemma from_rest_huge s G D mm : Inv s G D -> from_rest s (W - 1) mm = Ok (s, None).
Proof.
  intros I. pose proof (i_core _ _ _ I) as C. unfold from_rest.
  assert (D1 : dvsize s < W - 1).
  { destruct (b_dv _ _ _ _ _ _ (i_bins _ _ _ I)) as [(_ & H) | (H & _)]; [rewrite H; unfold W; lia|].
    pose proof (tile_facts _ _ _ _ _ _ _ _ _ _ _ C H) as (_ & _ & _ & _ & _ & T). unfold W in *. lia. }
  replace (W - 1 <=? dvsize s) with false by (symmetry; apply N.leb_gt; exact D1).
  destruct G as [|[g l] GT]; [destruct (c_segs _ _ _ _ _ _ _ _ C)|].
  destruct (head_reg _ _ _ _ _ _ _ _ _ _ C) as (_ & E2 & _ & _ & _ & _ & _ & RG). destruct RG as (_ & _ & _ & _ & RG & _). cbn [fst snd] in RG.
  replace (W - 1 <? topsize s) with false by (symmetry; apply N.ltb_ge; lia).
  unfold sys_alloc. assert (MA : mmap_alloc s (W - 1) mm = Ok (s, None)) by reflexivity. rewrite MA.
  destruct ((MMAP_THRESHOLD <=? W - 1) && negb (topsize s =? 0)); cbn [bind]; reflexivity.
Qed.

(** ** mspace_malloc *)
(** the size of the chunk for a request, malloc.c:2275-2281 *)
Definition padded (bytes : N) : N := if bytes <? MIN_REQUEST then MIN_CHUNK else pad_request bytes.
Section Pad.
  Local Ltac Zify.zify_post_hook ::= Z.to_euclidean_division_equations.
  Lemma padded_facts bytes : 32 <= padded bytes /\ padded bytes mod 16 = 0 /\ bytes + 8 <= padded bytes /\ padded bytes < bytes + 33.
  Proof. unfold padded, MIN_REQUEST, MIN_CHUNK, pad_request. destruct (bytes <? 23) eqn:E; lia. Qed.
  Lemma padded_lt bytes : bytes < 2 ^ 64 - 128 -> padded bytes < 2 ^ 64.
  Proof. unfold padded, MIN_REQUEST, MIN_CHUNK, pad_request. destruct (bytes <? 23) eqn:E; lia. Qed.
  Lemma padded_small bytes : bytes <= 232 -> padded bytes <= 240.
  Proof. unfold padded, MIN_REQUEST, MIN_CHUNK, pad_request. destruct (bytes <? 23) eqn:E; lia. Qed.
  Lemma padded_big bytes : 232 < bytes -> padded bytes = pad_request bytes.
  Proof. unfold padded, MIN_REQUEST. destruct (bytes <? 23) eqn:E; lia. Qed.
End Pad.
Lemma malloc_ok s G D bytes v mm : Inv s G D -> tree_answer s (padded bytes) v -> (forall n b, mm n = Some b -> fresh (pg s) b n) ->
  answer s G D mm bytes (malloc s bytes v mm).
Proof.
  intros I V FR. pose proof (i_core _ _ _ I) as C. destruct (padded_facts bytes) as (P1 & P2 & P3 & P4).
  assert (LF : bytes < 2 ^ 64 - 128 -> answer s G D mm bytes (from_rest s (padded bytes) mm)).
  { intros H. apply from_rest_ok; auto. apply padded_lt. exact H. }
  unfold malloc. destruct (bytes <=? MAX_SMALL_REQUEST) eqn:EB.
  - apply N.leb_le in EB. unfold MAX_SMALL_REQUEST in EB. pose proof (padded_small bytes EB) as P5.
    change (if bytes <? MIN_REQUEST then MIN_CHUNK else pad_request bytes) with (padded bytes). set (nb := padded bytes) in *.
    unfold small_index. pose proof (idx_size _ P2) as IS.
    destruct (sb s (nb / 8)) as [|p r] eqn:E1.
    + destruct (sb s (nb / 8 + 1)) as [|p r] eqn:E2.
      * destruct (dvsize s <? nb) eqn:ED; [|apply LF; lia]. apply N.ltb_lt in ED.
        destruct (first_bin s (nb / 8 + 1) (N.to_nat (32 - (nb / 8 + 1)))) as [i|] eqn:EF.
        -- apply first_bin_some in EF. destruct EF as (F1 & F2 & F3). destruct (sb s i) as [|p r] eqn:E3; [congruence|].
           destruct (pop_loose _ _ _ _ _ _ I E3) as (L1 & L2 & L3). left.
           destruct (8 * i - nb <? MIN_CHUNK) eqn:EM.
           ++ eexists _, _. split; [reflexivity|]. apply take_whole; auto. lia.
           ++ apply N.ltb_ge in EM. unfold MIN_CHUNK in EM. eexists _, _. split; [reflexivity|].
              set (s0 := set_sb s i r) in *. set (n := 8 * i) in *. set (s1 := set_free_chunk (set_inuse_chunk s0 p nb) (p + nb) (n - nb)).
              assert (MS1 : mem s1 = wr_ (wr_ (wr_ (mem s) (p + 8) (nb + 3)) (p + nb + 8) (n - nb + 1)) (p + nb + (n - nb)) (n - nb)) by reflexivity.
              apply (take_part s s0 G D p n nb bytes (mem s1)); auto; try (rewrite MS1); try lia.
              ** rewrite !wr_other by lia. apply wr_same.
              ** rewrite wr_other by lia. apply wr_same.
              ** replace (p + n) with (p + nb + (n - nb)) by lia. apply wr_same.
              ** intros y Y1 Y2 Y3. rewrite !wr_other by lia. reflexivity.
              ** unfold replace_dv. destruct (dvsize s1 =? 0); reflexivity.
              ** intros T TK IT BT. destruct (replace_dv_ok s1 T (p + nb) (n - nb) TK IT) as (s' & <- & _ & H); [change (dvsize s1) with (dvsize s); lia | exact BT | exact H].
        -- destruct (tb s) as [|t tr] eqn:ETB; [apply LF; lia|]. left.
           assert (T256 : forall c, In c (t :: tr) -> nb <= chunksize s c).
           { intros c IC. rewrite <- ETB in IC. destruct (tree_tile _ _ _ _ I IC) as (_ & H & _). lia. }
           destruct v as [v|]; [|cbn [tree_answer] in V; rewrite ETB in V; specialize (V ltac:(lia)); discriminate].
           destruct V as (V1 & V2). unfold tmalloc_small.
           destruct (cut_ok s G D v nb true bytes I V1 P1 P2 V2 P3 ltac:(lia)) as (s' & H1 & H2). rewrite H1. cbn [bind fst snd]. eauto.
      * destruct (pop_loose _ _ _ _ _ _ I E2) as (L1 & L2 & L3). left. eexists _, _. split; [reflexivity|]. apply take_whole; auto. lia.
    + destruct (pop_loose _ _ _ _ _ _ I E1) as (L1 & L2 & L3). left. eexists _, _. split; [reflexivity|]. apply take_whole; auto. lia.
  - apply N.leb_gt in EB. unfold MAX_SMALL_REQUEST in EB. rewrite padded_big in * by exact EB. unfold MAX_REQUEST.
    destruct (2 ^ 64 - 128 <=? bytes) eqn:EX.
    + apply N.leb_le in EX. right. right. split; [apply (from_rest_huge _ _ _ _ I) | unfold W; lia].
    + apply N.leb_gt in EX. destruct (tb s) as [|t tr] eqn:ETB; [apply LF; exact EX|]. clear ETB t tr.
      unfold tmalloc_large. destruct v as [v|]; [|apply LF; exact EX].
      destruct V as (V1 & V2). destruct (chunksize s v - pad_request bytes <? (dvsize s + W - pad_request bytes) mod W); [|apply LF; exact EX].
      destruct (cut_ok s G D v (pad_request bytes) false bytes I V1 P1 P2 V2 P3 ltac:(discriminate)) as (s' & H1 & H2). rewrite H1. cbn [bind fst snd]. left. eauto.
Qed.
