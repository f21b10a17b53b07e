(** Top and system allocation in the heap of [DlModel]: sys_alloc keeps the invariant of [DlInv].  No code of its own. *)
From Verif Require Import Base DlModel DlInv DlAlloc.
From Coq Require Import Lia.
Local Open Scope N_scope.
Arguments N.add : simpl never. Arguments N.sub : simpl never. Arguments N.mul : simpl never. Arguments N.div : simpl never.
Arguments N.modulo : simpl never. Arguments N.eqb : simpl never. Arguments N.ltb : simpl never. Arguments N.leb : simpl never.
Arguments N.odd : simpl never.

(** ** Regions *)
Definition fresh (pgf : N -> bool) (b n : N) : Prop :=
  4096 <= b /\ b mod 4096 = 0 /\ b + n <= W /\ forall x, b <= x -> x < b + n -> pgf x = false.
Lemma fresh_disj R pgf lst b n r : geo R pgf lst -> fresh pgf b n -> 0 < n -> In r R -> rdisj (b, n) r.
Proof.
  intros (F & _) (A & B & C & D) Z I. rewrite Forall_forall in F. destruct (F _ I) as (F1 & F2 & F3 & F4 & F5 & F6 & F7).
  unfold rdisj. cbn [fst snd].
  destruct (N.le_gt_cases (b + n) (fst r)) as [H|H]; [now left|]. destruct (N.le_gt_cases (fst r + snd r) b) as [H'|H']; [now right|]. exfalso.
  destruct (N.le_gt_cases b (fst r)) as [H0|H0].
  - assert (pgf (fst r) = true) by (apply F7; lia). assert (pgf (fst r) = false) by (apply D; lia). congruence.
  - assert (pgf b = true) by (apply F7; lia). assert (pgf b = false) by (apply D; lia). congruence.
Qed.
Lemma geo_mid A r B pgf lst r' pgf' lst' : geo (A ++ r :: B) pgf lst -> reg_ok pgf' lst' r' -> (forall q, In q (A ++ B) -> rdisj r' q) ->
  (forall x, pgf x = true -> pgf' x = true) -> lst' <= lst -> geo (A ++ r' :: B) pgf' lst'.
Proof.
  intros (F & O) K H P L. split.
  - assert (0 < lst') by apply K. apply Forall_forall. intros q I. apply in_app_or in I. destruct I as [I | [<- | I]]; [| exact K |];
      (rewrite Forall_forall in F; destruct (F q) as (F1 & F2 & F3 & F4 & F5 & F6 & F7);
       [apply in_or_app; cbn [In]; tauto | repeat split; try assumption; try lia; intros; apply P, F7; assumption]).
  - apply FOP_mid in O. apply FOP_mid. split; [apply O|]. apply Forall_forall. exact H.
Qed.
Lemma geo_new A B pgf lst r' pgf' lst' : geo (A ++ B) pgf lst -> reg_ok pgf' lst' r' -> (forall q, In q (A ++ B) -> rdisj r' q) ->
  (forall x, pgf x = true -> pgf' x = true) -> lst' <= lst -> geo (A ++ r' :: B) pgf' lst'.
Proof.
  intros (F & O) K H P L. split.
  - assert (0 < lst') by apply K. apply Forall_forall. intros q I. apply in_app_or in I. destruct I as [I | [<- | I]]; [| exact K |];
      (rewrite Forall_forall in F; destruct (F q) as (F1 & F2 & F3 & F4 & F5 & F6 & F7);
       [apply in_or_app; cbn [In]; tauto | repeat split; try assumption; try lia; intros; apply P, F7; assumption]).
  - apply FOP_mid. split; [exact O|]. apply Forall_forall. exact H.
Qed.
Lemma regs_mid G1 gl G2 D : regs (G1 ++ gl :: G2) D = map reg G1 ++ reg gl :: (map reg G2 ++ map dreg D).
Proof. unfold regs. rewrite map_app. cbn [map]. rewrite <- app_assoc. reflexivity. Qed.
Lemma sizes_app A B : sizes (A ++ B) = sizes A + sizes B.
Proof. induction A as [|r A IH]; cbn [app sizes]; lia. Qed.
Lemma within_spec b n x : within b n x = true <-> b <= x /\ x < b + n.
Proof. unfold within. rewrite andb_true_iff, N.leb_le, N.ltb_lt. tauto. Qed.

(** ** Top *)
Lemma head_reg m tp ts lst pgf mst g l GT D : core m tp ts lst pgf mst ((g, l) :: GT) D ->
  tp = sbase g + tot l /\ tp + ts + 80 = sbase g + ssize g /\ 16 <= ts /\ ts mod 16 = 0 /\ m (tp + 8) = ts + 1 /\ tp mod 16 = 0 /\
  rep m (sbase g) true l tp true /\ reg_ok pgf lst (sbase g, ssize g).
Proof.
  intros C. destruct (c_segs _ _ _ _ _ _ _ _ C) as ((A & B & E & F & H & _) & _). cbn [fst snd] in *.
  pose proof (rep_end _ _ _ _ _ _ A) as EA. 
  assert (RG : reg_ok pgf lst (reg (g, l))) by (eapply geo_reg; [exact C | now left]).
  repeat (split; [assumption|]). split; [|split; [exact A | exact RG]].
  rewrite EA. apply al_add; [apply pg16, RG | apply al_tot, (rep_sizes _ _ _ _ _ _ A)].
Qed.
Lemma top_apart m tp ts lst pgf mst G D c n k : core m tp ts lst pgf mst G D -> In (c, n, k) (tiles G) -> c + n <= tp \/ tp + ts + 80 <= c.
Proof.
  intros C I. destruct G as [|[g l] GT]; [destruct I|]. destruct (head_reg _ _ _ _ _ _ _ _ _ _ C) as (A & B & _).
  cbn [tiles flat_map fst snd] in I. apply in_app_or in I. destruct I as [I | I]; [apply chunks_range in I; lia|].
  apply in_flat_map in I. destruct I as (h & I & J).
  pose proof (tile_seg _ _ _ _ _ _ _ _ _ _ _ _ C (or_intror I) J) as R.
  pose proof (geo_apart [] _ _ _ _ _ _ (c_geo _ _ _ _ _ _ _ _ C) I) as P. unfold rdisj, reg in P. cbn [fst snd] in P. lia.
Qed.
Lemma top_apartD m tp ts lst pgf mst G D d : core m tp ts lst pgf mst G D -> In d D -> fst d + snd d + 32 <= tp \/ tp + ts + 80 <= fst d.
Proof.
  intros C I. destruct G as [|[g l] GT]; [destruct (c_segs _ _ _ _ _ _ _ _ C)|]. destruct (head_reg _ _ _ _ _ _ _ _ _ _ C) as (A & B & _).
  pose proof (geo_apartD [] _ _ _ _ _ _ (c_geo _ _ _ _ _ _ _ _ C) I) as P. unfold rdisj, reg, dreg in P. cbn [fst snd] in P. lia.
Qed.
(** A change of memory that keeps to top and to pages that are not mapped leaves all blocks alone. *)
Lemma keeps_top m tp ts lst pgf mst G D m' : core m tp ts lst pgf mst G D ->
  (forall y, y < tp + 8 \/ tp + ts + 80 <= y -> pgf y = true -> m' y = m y) -> keeps G D (fun _ => True) m m'.
Proof.
  intros C F a r y [(c & n & -> & E & I) | (c & n & -> & E & I)] _ Y1 Y2.
  - pose proof (top_apart _ _ _ _ _ _ _ _ _ _ _ C I) as T. apply F; [lia|].
    destruct (tiles_split _ _ _ _ I) as (G1 & g & l1 & l2 & G2 & -> & ->).
    destruct (tile_in _ _ _ _ _ _ _ _ _ _ _ _ _ _ C) as (A1 & A2 & A3 & A4 & A5 & A6 & A7 & _ & A8). apply A8; lia.
  - pose proof (top_apartD _ _ _ _ _ _ _ _ _ C I) as T. cbn [fst snd] in T. apply F; [lia|].
    destruct (c_geo _ _ _ _ _ _ _ _ C) as (RG & _). rewrite Forall_forall in RG. destruct (RG (dreg (c, n))) as (_ & _ & _ & _ & _ & _ & R).
    + apply in_or_app. right. apply in_map, I.
    + unfold dreg in R. cbn [fst snd] in R. apply R; lia.
Qed.
Lemma got_tiles s s' G G' D p k bytes : Inv s' G' D ->
  (forall c n, In (c, n, Us) (tiles G') <-> In (c, n, Us) (tiles G) \/ (c = p /\ n = k)) -> (forall n, ~ In (p, n, Us) (tiles G)) ->
  bytes + 8 <= k -> keeps G D (fun _ => True) (mem s) (mem s') -> (tight s G D -> tight s' G' D) -> mst s' = mst s ->
  got s G D s' bytes (p + 16).
Proof.
  intros I E N0 Z K T M. exists G', D, (k - 8). split; [exact I|]. split; [lia|]. split; [|split; [|auto]].
  - intros a r. unfold blk. split.
    + intros [(c & n & -> & H & J) | H]; [|now left; right]. apply E in J. destruct J as [J | (-> & ->)]; [left; left; eauto | right; lia].
    + intros [[(c & n & -> & H & J) | H] | (-> & ->)].
      * left. exists c, n. rewrite E. auto.
      * now right.
      * left. exists p, k. rewrite E. split; [reflexivity|]. split; [lia | auto].
  - intros r [(c & n & H & _ & J) | (c & n & H & _ & J)].
    + assert (c = p) as -> by lia. now apply N0 in J.
    + assert (c = p) as -> by lia. assert (JP : In (p, k, Us) (tiles G')) by (apply E; auto).
      pose proof (tile_dir _ _ _ _ _ _ _ _ _ _ _ _ (i_core _ _ _ I) JP J) as P. cbn [fst snd] in P.
      pose proof (tile_facts _ _ _ _ _ _ _ _ _ _ _ (i_core _ _ _ I) JP) as (F1 & _).
      pose proof (proj1 (Forall_forall _ _) (c_dirs _ _ _ _ _ _ _ _ (i_core _ _ _ I)) _ J) as (_ & _ & _ & DD). cbn [snd] in DD. lia.
Qed.
Lemma core_top_split m tp ts lst pgf mst g l GT D nb m' : core m tp ts lst pgf mst ((g, l) :: GT) D ->
  32 <= nb -> nb mod 16 = 0 -> nb < ts -> m' (tp + 8) = nb + 3 -> m' (tp + nb + 8) = ts - nb + 1 ->
  (forall y, y <> tp + 8 -> y <> tp + nb + 8 -> m' y = m y) ->
  core m' (tp + nb) (ts - nb) lst pgf mst ((g, l ++ [(nb, Us)]) :: GT) D.
Proof.
  intros C N1 N2 N3 H1 H2 F. destruct (head_reg _ _ _ _ _ _ _ _ _ _ C) as (E & E2 & T1 & T2 & T3 & T4 & R & RG).
  assert (N4 : nb + 16 <= ts) by (apply al_lt; auto).
  assert (CH : forall c n, In (c, n, Fx) (tiles ((g, l ++ [(nb, Us)]) :: GT)) <-> In (c, n, Fx) (tiles ((g, l) :: GT))).
  { intros c n. cbn [tiles flat_map fst snd]. rewrite chunks_app, !in_app_iff. cbn [chunks In]. split; [intros [[H | [H | []]] | H]; auto; congruence | tauto]. }
  assert (FR : forall h, rdisj (sbase g, ssize g) h -> forall y, fst h <= y -> y < fst h + snd h -> m' y = m y).
  { intros h HD y Y1 Y2. unfold rdisj in HD. cbn [fst snd] in HD. apply F; lia. }
  destruct C as [S DI GE MS FX RC]. constructor.
  - apply (segs_ok_upd m tp ts [] (g, l) GT m' _ _ (g, l ++ [(nb, Us)]) S); [| now left |].
    + intros h I y. apply (FR (reg h)). exact (geo_apart [] _ _ _ _ _ _ GE I).
    + cbn [pos_ok]. destruct S as ((A & B & K & H & J & Q) & _). cbn [fst snd] in *.
      split; [|split; [|split; [|split; [|split; [|exact Q]]]]]; cbn [fst snd]; try lia; try (apply al_sub; assumption).
      apply rep_app. exists true. rewrite <- E. split; [apply (rep_frame m); [intros y Y1 Y2; apply F; lia | exact A]|].
        cbn [rep used bit]. split; [exact N1|]. split; [exact N2|]. split; [rewrite H1; lia|]. split; [discriminate|]. auto.
  - apply Forall_forall. intros d I. rewrite Forall_forall in DI. apply (dir_frame m); [|apply DI, I].
    intros y. apply (FR (dreg d)). exact (geo_apartD [] _ _ _ _ _ _ GE I).
  - exact GE.
  - destruct MS as (c & K & I). exists c. split; [exact K | apply CH, I].
  - intros c n I. apply CH, FX in I. exact I.
  - exact RC.
Qed.
Lemma split_top_ok s G D nb bytes : Inv s G D -> 32 <= nb -> nb mod 16 = 0 -> bytes + 8 <= nb -> nb < topsize s ->
  exists s', split_top s nb = (s', top s) /\ got s G D s' bytes (top s + 16).
Proof.
  intros I N1 N2 N3 N4. pose proof (i_core _ _ _ I) as C. destruct G as [|[g l] GT]; [destruct (c_segs _ _ _ _ _ _ _ _ C)|].
  destruct (head_reg _ _ _ _ _ _ _ _ _ _ C) as (E & E2 & T1 & T2 & T3 & T4 & R & RG).
  eexists. split; [reflexivity|]. set (s' := set_inuse_chunk _ _ _).
  assert (C' : core_s s' ((g, l ++ [(nb, Us)]) :: GT) D).
  { apply (core_top_split (mem s) _ _ _ _ _ _ _ _ _ _ _ C N1 N2 N4); cbn [s' set_inuse_chunk set_head set_mem set_top mem].
    - apply wr_same.
    - rewrite wr_other by lia. apply wr_same.
    - intros y Y1 Y2. rewrite !wr_other by lia. reflexivity. }
  assert (IN : forall c, In c (tiles ((g, l ++ [(nb, Us)]) :: GT)) <-> In c (tiles ((g, l) :: GT)) \/ In c [(top s, nb, Us)]).
  { intros c. cbn [tiles flat_map fst snd]. rewrite chunks_app, !in_app_iff, <- E. cbn [chunks]. tauto. }
  apply (got_tiles s s' _ ((g, l ++ [(nb, Us)]) :: GT) D (top s) nb).
  - constructor; [exact (i_segs _ _ _ I) | exact C' | | exact (i_foot _ _ _ I)].
    refine (bins_tiles _ _ _ _ (tiles ((g, l) :: GT)) _ (fun c => In c (tiles ((g, l) :: GT))) [] [(top s, nb, Us)] none none _ IN _ _ _ (i_bins _ _ _ I)).
    + intros c. cbn [In]. tauto.
    + unfold none. tauto.
    + intros a n [].
    + intros a n [H | []]. congruence.
  - intros c n. rewrite IN. cbn [In]. split; [intros [H | [H | []]]; [auto | injection H as <- <-; auto] | intros [H | (-> & ->)]; auto].
  - intros n J. pose proof (tile_facts _ _ _ _ _ _ _ _ _ _ _ C J) as (F1 & _). pose proof (top_apart _ _ _ _ _ _ _ _ _ _ _ C J). lia.
  - exact N3.
  - apply (keeps_top _ _ _ _ _ _ _ _ _ C). intros y Y _. cbn [s' set_inuse_chunk set_head set_mem set_top mem]. rewrite !wr_other by lia. reflexivity.
  - intros H. exact H.
  - reflexivity.
Qed.
(** an intermediate step that leaves the blocks alone *)
Lemma got_step s s1 s' G G1 D D1 bytes a : got s1 G1 D1 s' bytes a -> (forall a r, blk G1 D1 a r <-> blk G D a r) ->
  keeps G D (fun _ => True) (mem s) (mem s1) -> (tight s G D -> tight s1 G1 D1) -> mst s1 = mst s -> got s G D s' bytes a.
Proof.
  intros (G' & D' & r & I & Z & B & N0 & K & T & M) E K1 T1 M1. exists G', D', r. split; [exact I|]. split; [exact Z|].
  split; [intros a' r'; rewrite B, E; tauto|]. split; [intros r' H; apply (N0 r'), E, H|].
  split; [|split; [auto | congruence]]. intros a' r' y H _ Y1 Y2. rewrite (K a' r' y); [apply (K1 a' r' y H Logic.I Y1 Y2) | apply E, H | exact Logic.I | exact Y1 | exact Y2].
Qed.

(** ** A direct mapping *)
Section Arith.
  Local Ltac Zify.zify_post_hook ::= Z.to_euclidean_division_equations.
  Lemma gran_al x : granularity_align x mod 65536 = 0.
  Proof. unfold granularity_align. generalize ((x + 65535) mod W). intros. lia. Qed.
  Lemma gran_ge x : (x + 65535) < W -> x <= granularity_align x.
  Proof. intros H. unfold granularity_align. rewrite N.mod_small by exact H. lia. Qed.
  Lemma gran_small x : granularity_align x < W.
  Proof. unfold granularity_align. assert ((x + 65535) mod W < W) by (apply N.mod_lt; unfold W; lia). unfold W in *. lia. Qed.
  Lemma gran_le x : granularity_align x <= (x + 65535) mod W.
  Proof. unfold granularity_align. lia. Qed.
  Lemma mmap_al x : mmap_align x mod 4096 = 0.
  Proof. unfold mmap_align. generalize ((x + 4095) mod W). intros. lia. Qed.
  Lemma mmap_ge x : (x + 4095) < W -> x <= mmap_align x.
  Proof. intros H. unfold mmap_align. rewrite N.mod_small by exact H. lia. Qed.
  Lemma mmap_le x : mmap_align x <= (x + 4095) mod W.
  Proof. unfold mmap_align. lia. Qed.
  Lemma al65536 x : x mod 65536 = 0 -> x mod 4096 = 0 /\ x mod 16 = 0.
  Proof. lia. Qed.
  Lemma al65536_add x y : x mod 65536 = 0 -> y mod 65536 = 0 -> (x + y) mod 65536 = 0.
  Proof. lia. Qed.
  Lemma al4096_add x y : x mod 4096 = 0 -> y mod 4096 = 0 -> (x + y) mod 4096 = 0.
  Proof. lia. Qed.
  Lemma al4096_sub x : x mod 4096 = 0 -> (x - 32) mod 16 = 0.
  Proof. lia. Qed.
  Lemma pos65536 x : 0 < x -> x mod 65536 = 0 -> 65536 <= x.
  Proof. lia. Qed.
  Lemma pos4096 x : 0 < x -> x mod 4096 = 0 -> 4096 <= x.
  Proof. lia. Qed.
End Arith.
(** If the aligned size is larger than the request, nothing has wrapped. *)
Lemma gran_nowrap nb : nb < W -> nb < granularity_align ((nb + 96) mod W) -> nb + 96 <= granularity_align ((nb + 96) mod W).
Proof.
  intros H L. destruct (N.le_gt_cases W (nb + 96)) as [A|A].
  - exfalso. assert (E : (nb + 96) mod W = nb + 96 - W). { symmetry. apply (N.mod_unique _ _ 1); unfold W in *; lia. }
    rewrite E in L. pose proof (gran_le (nb + 96 - W)) as G. rewrite N.mod_small in G by (unfold W in *; lia). unfold W in *. lia.
  - rewrite N.mod_small in L |- * by exact A. destruct (N.le_gt_cases W (nb + 96 + 65535)) as [B|B].
    + exfalso. pose proof (gran_le (nb + 96)) as G. assert (E : (nb + 96 + 65535) mod W = nb + 96 + 65535 - W).
      { symmetry. apply (N.mod_unique _ _ 1); unfold W in *; lia. } rewrite E in G. unfold W in *. lia.
    + apply gran_ge. exact B.
Qed.
Lemma mmap_nowrap nb : nb < W -> nb < mmap_align ((nb + 63) mod W) -> nb + 63 <= mmap_align ((nb + 63) mod W).
Proof.
  intros H L. destruct (N.le_gt_cases W (nb + 63)) as [A|A].
  - exfalso. assert (E : (nb + 63) mod W = nb + 63 - W). { symmetry. apply (N.mod_unique _ _ 1); unfold W in *; lia. }
    rewrite E in L. pose proof (mmap_le (nb + 63 - W)) as G. rewrite N.mod_small in G by (unfold W in *; lia). unfold W in *. lia.
  - rewrite N.mod_small in L |- * by exact A. destruct (N.le_gt_cases W (nb + 63 + 4095)) as [B|B].
    + exfalso. pose proof (mmap_le (nb + 63)) as G. assert (E : (nb + 63 + 4095) mod W = nb + 63 + 4095 - W).
      { symmetry. apply (N.mod_unique _ _ 1); unfold W in *; lia. } rewrite E in G. unfold W in *. lia.
    + apply mmap_ge. exact B.
Qed.
(** memory that changes outside all regions *)
Lemma core_frame m tp ts lst pgf mst G D m' : core m tp ts lst pgf mst G D ->
  (forall y, pgf y = true -> m' y = m y) -> core m' tp ts lst pgf mst G D.
Proof.
  intros C F.
  assert (FR : forall r, In r (regs G D) -> forall y, fst r <= y -> y < fst r + snd r -> m' y = m y).
  { intros r I y Y1 Y2. apply F. destruct (c_geo _ _ _ _ _ _ _ _ C) as (RG & _). rewrite Forall_forall in RG. apply (RG _ I); assumption. }
  destruct C as [S DI GE MS FX RC]. constructor; try assumption.
  - destruct G as [|h t]; [exact S|]. destruct S as (S1 & S2). split.
    + apply (head_frame m); [|exact S1]. apply (FR (reg h)). now left.
    + apply Forall_forall. intros x I. rewrite Forall_forall in S2. apply (seg_frame m); [|apply S2, I]. apply (FR (reg x)).
      apply in_or_app. left. right. apply in_map, I.
  - apply Forall_forall. intros d I. rewrite Forall_forall in DI. apply (dir_frame m); [|apply DI, I]. apply (FR (dreg d)).
    apply in_or_app. right. apply in_map, I.
Qed.
Lemma core_env m tp ts lst pgf mst G D lst' pgf' : core m tp ts lst pgf mst G D -> lst' <= lst -> 0 < lst' ->
  (forall x, pgf x = true -> pgf' x = true) -> core m tp ts lst' pgf' mst G D.
Proof.
  intros [S DI GE MS FX RC] L L0 P. constructor; try assumption. destruct GE as (F & O). split; [|exact O].
  apply Forall_forall. intros q I. rewrite Forall_forall in F. destruct (F q I) as (F1 & F2 & F3 & F4 & F5 & F6 & F7).
  repeat split; try assumption; try lia; intros; apply P, F7; assumption.
Qed.
Lemma mmap_alloc_ok s G D nb bytes mm : Inv s G D -> 32 <= nb -> nb < W -> bytes <= nb ->
  (forall n b, mm n = Some b -> fresh (pg s) b n) ->
  (exists s' a, mmap_alloc s nb mm = Ok (s', Some a) /\ got s G D s' bytes a) \/ (mmap_alloc s nb mm = Abort /\ exists n, n mod 4096 = 0 /\ nb < n /\ n <= nb + 4158 /\ mm n = None) \/
  mmap_alloc s nb mm = Ok (s, None).
Proof.
  intros I N1 N2 N3 FR. unfold mmap_alloc. set (sz := mmap_align ((nb + 63) mod W)). destruct (nb <? sz) eqn:EL; [|auto].
  apply N.ltb_lt in EL. pose proof (mmap_nowrap nb N2 EL) as NW. fold sz in NW. pose proof (mmap_al ((nb + 63) mod W)) as AL. fold sz in AL.
  destruct (mm sz) as [b|] eqn:EM; [left | right; left; split; [reflexivity|]; exists sz; pose proof (mmap_le ((nb + 63) mod W)) as LE; fold sz in LE; pose proof (N.mod_le (nb + 63) W ltac:(discriminate)); pose proof (N.mod_le ((nb + 63) mod W + 4095) W ltac:(discriminate)); repeat split; try assumption; lia]. apply FR in EM.
  pose proof (i_core _ _ _ I) as C. pose proof (c_geo _ _ _ _ _ _ _ _ C) as GE.
  assert (DJ : forall r, In r (regs G D) -> rdisj (b, sz) r) by (intros r; apply (fresh_disj _ _ _ _ _ _ GE EM); lia).
  destruct EM as (B1 & B2 & B3 & B4).
  set (s1 := set_head (set_head (set_head (set_mem (mapped s b sz) (wr_ (mem (mapped s b sz)) b 0)) b (sz - 32)) (b + (sz - 32)) 11) (b + (sz - 32) + 8) 0).
  set (s2 := if (least s1 =? 0) || (b <? least s1) then set_least s1 b else s1).
  exists (set_foot_ s2 (foot s2 + sz)), (b + 16). split; [reflexivity|].
  assert (M2 : mem s2 = mem s1) by (unfold s2; destruct ((least s1 =? 0) || (b <? least s1)); reflexivity).
  assert (MS1 : mem s1 = wr_ (wr_ (wr_ (wr_ (mem s) b 0) (b + 8) (sz - 32)) (b + (sz - 32) + 8) 11) (b + (sz - 32) + 8 + 8) 0) by reflexivity.
  assert (LP : 0 < least s).
  { destruct GE as (RG & _). destruct G as [|gl GT]; [destruct (c_segs _ _ _ _ _ _ _ _ C)|]. inversion RG as [|? ? R0 _]; subst. apply R0. }
  assert (L2 : least s2 <= least s /\ least s2 <= b /\ 0 < least s2).
  { unfold s2. change (least s1) with (least s). destruct (N.eqb_spec (least s) 0); [lia|]. cbn [orb].
    destruct (b <? least s) eqn:EB; cbn [set_least least]; [apply N.ltb_lt in EB; lia | apply N.ltb_ge in EB; change (least s1) with (least s); lia]. }
  assert (ES : s2 = mk (mem s1) (segs s) (top s) (topsize s) (dv s) (dvsize s) (sb s) (tb s) (least s2) (rchk s) (trimc s) (foot s) (mst s) (pg s1) (plog s1)).
  { unfold s2. destruct ((least s1 =? 0) || (b <? least s1)); reflexivity. }
  assert (PG : forall x, pg s x = true -> pg s1 x = true).
  { intros x H. change (pg s1 x) with (within b sz x || pg s x)%bool. rewrite H. apply orb_true_r. }
  assert (MF : forall y, pg s y = true -> mem s1 y = mem s y).
  { intros y H. assert (NW1 : ~ (b <= y /\ y < b + sz)) by (intros (Y1 & Y2); rewrite B4 in H by assumption; discriminate).
    rewrite MS1. rewrite !wr_other by lia. reflexivity. }
  assert (C1 : core (mem s1) (top s) (topsize s) (least s2) (pg s1) (mst s) G D).
  { apply (core_env _ _ _ (least s) (pg s)); [apply (core_frame (mem s)); assumption | lia | lia | exact PG]. }
  assert (R1 : reg_ok (pg s1) (least s2) (dreg (b, sz - 32))).
  { unfold reg_ok, dreg. cbn [fst snd]. replace (sz - 32 + 32) with sz by lia.
    split; [exact B1|]. split; [exact B2|]. split; [apply pos4096; [lia | exact AL]|]. split; [exact AL|]. split; [exact B3|]. split; [lia|].
    intros x X1 X2. change (pg s1 x) with (within b sz x || pg s x)%bool. rewrite (proj2 (within_spec b sz x)) by lia. reflexivity. }
  assert (NB : forall a r, blk G D a r -> a <> b + 16).
  { intros a r [(c & n & -> & H & J) | (c & n & -> & H & J)] HE; assert (c = b) as -> by lia.
    - destruct (tiles_split _ _ _ _ J) as (G1 & g & l1 & l2 & G2 & EG & EC). pose proof C as C0. rewrite EG in C0.
      destruct (tile_in _ _ _ _ _ _ _ _ _ _ _ _ _ _ C0) as (A1 & A2 & A3 & A4 & A5 & A6 & A7 & _).
      specialize (DJ (reg (g, l1 ++ (n, Us) :: l2))). unfold rdisj, reg in DJ. cbn [fst snd] in DJ.
      assert (HI : In (sbase g, ssize g) (regs G D)) by (rewrite EG, regs_mid; apply in_or_app; right; left; reflexivity).
      apply DJ in HI. lia.
    - specialize (DJ (dreg (b, n))). unfold rdisj, dreg in DJ. cbn [fst snd] in DJ.
      assert (HI : In (b, n + 32) (regs G D)) by (apply in_or_app; right; apply (in_map dreg) in J; exact J). apply DJ in HI. lia. }
  exists G, ((b, sz - 32) :: D), (sz - 32 - 16). split; [|split; [lia|split; [|split; [|split; [|split]]]]].
  - constructor.
    + rewrite ES. apply (i_segs _ _ _ I).
    + unfold core_s. rewrite ES. cbn [set_foot_ mem top topsize least pg mst]. destruct C1 as [S DI GE1 MS FX RC]. constructor; try assumption.
      * constructor; [|exact DI]. unfold dir_ok. cbn [fst snd]. rewrite MS1. rewrite !wr_other by lia. rewrite wr_same.
        split; [reflexivity|]. rewrite !wr_other by lia. rewrite wr_same. split; [reflexivity|]. split; [apply al4096_sub; exact AL | lia].
      * unfold regs. cbn [map]. apply (geo_new (map reg G) (map dreg D) (pg s1) (least s2)); [exact GE1 | exact R1 | | auto | lia].
        intros q HQ. unfold dreg. cbn [fst snd]. replace (sz - 32 + 32) with sz by lia. apply DJ. exact HQ.
    + rewrite ES. exact (i_bins _ _ _ I).
    + cbn [set_foot_ foot]. rewrite ES. cbn [foot]. rewrite (i_foot _ _ _ I). unfold regs. cbn [map]. rewrite !sizes_app. cbn [sizes dreg snd fst]. lia.
  - intros a r. unfold blk. split.
    + intros [H | (c & n & -> & H & [J | J])]; [left; left; exact H | injection J as <- <-; right; lia | left; right; eauto].
    + intros [[H | (c & n & -> & H & J)] | (-> & ->)]; [now left | right; exists c, n; cbn [In]; auto |].
      right. exists b, (sz - 32). split; [reflexivity|]. split; [lia | now left].
  - intros r H. now apply NB in H.
  - intros a r y H _ Y1 Y2. rewrite ES. cbn [set_foot_ mem]. apply MF. 
    destruct H as [(c & n & -> & E & J) | (c & n & -> & E & J)].
    + destruct (tiles_split _ _ _ _ J) as (G1 & g & l1 & l2 & G2 & EG & EC). pose proof C as C0. rewrite EG in C0.
      destruct (tile_in _ _ _ _ _ _ _ _ _ _ _ _ _ _ C0) as (A1 & A2 & A3 & A4 & A5 & A6 & A7 & _ & A8). apply A8; lia.
    + destruct GE as (RG & _). rewrite Forall_forall in RG. destruct (RG (dreg (c, n))) as (_ & _ & _ & _ & _ & _ & R).
      * apply in_or_app. right. apply in_map, J.
      * unfold dreg in R. cbn [fst snd] in R. apply R; lia.
  - intros T x HX. rewrite ES in HX. cbn [set_foot_ pg] in HX. change (pg s1 x) with (within b sz x || pg s x)%bool in HX.
    apply orb_true_iff in HX. destruct HX as [HX | HX].
    + exists (dreg (b, sz - 32)). split; [apply in_or_app; right; now left|]. apply within_spec in HX. unfold dreg. cbn [fst snd]. lia.
    + destruct (T x HX) as (r & R2 & R3). exists r. split; [|exact R3]. unfold regs in *. apply in_app_or in R2. apply in_or_app.
      destruct R2; [now left | right; now right].
  - rewrite ES. reflexivity.
Qed.

(** ** Top grows *)
Lemma core_append m tp ts lst pgf mst g l GT D asize m' pgf' :
  core m tp ts lst pgf mst ((g, l) :: GT) D -> fresh pgf (sbase g + ssize g) asize -> asize mod 65536 = 0 -> 0 < asize ->
  (forall x, pgf' x = within (sbase g + ssize g) asize x || pgf x)%bool -> m' (tp + 8) = ts + asize + 1 ->
  (forall y, y <> tp + 8 -> pgf y = true -> m' y = m y) ->
  core m' tp (ts + asize) lst pgf' mst ((mkseg (sbase g) (ssize g + asize) (srec g), l) :: GT) D.
Proof.
  intros C FS AL AP PG H1 F. pose proof (c_geo _ _ _ _ _ _ _ _ C) as GE. destruct (head_reg _ _ _ _ _ _ _ _ _ _ C) as (E & E2 & T1 & T2 & T3 & T4 & R & RG).
  assert (DJ : forall r, In r (regs ((g, l) :: GT) D) -> rdisj (sbase g + ssize g, asize) r) by (intros r; apply (fresh_disj _ _ _ _ _ _ GE FS AP)).
  destruct (al65536 _ AL) as (AL2 & AL3).
  assert (FR : forall r, In r (map reg GT ++ map dreg D) -> rdisj (sbase g, ssize g) r -> forall y, fst r <= y -> y < fst r + snd r -> m' y = m y).
  { intros r IR HD y Y1 Y2. unfold rdisj in HD. cbn [fst snd] in HD. apply F; [lia|]. destruct GE as (GF & _). rewrite Forall_forall in GF.
    apply (GF r); [right; exact IR | exact Y1 | exact Y2]. }
  destruct C as [S DI _ MS FX RC]. constructor; try assumption.
  - apply (segs_ok_upd m tp ts [] (g, l) GT m' _ _ (mkseg (sbase g) (ssize g + asize) (srec g), l) S); [| now left |].
    + intros h I y. apply (FR (reg h)); [apply in_or_app; left; apply in_map, I | exact (geo_apart [] _ _ _ _ _ _ GE I)].
    + cbn [pos_ok]. destruct S as ((A & B & K & H & J & Q1 & Q2) & _). unfold head_ok. cbn [fst snd sbase ssize] in *.
      split; [apply (rep_frame m); [intros y Y1 Y2; apply F; [lia | apply RG; cbn [fst snd]; lia] | exact A]|].
      split; [lia|]. split; [lia|]. split; [apply al_add; assumption|]. split; [exact H1|]. split; [lia | apply al65536_add; assumption].
  - apply Forall_forall. intros d I. rewrite Forall_forall in DI. apply (dir_frame m); [|apply DI, I].
    intros y. apply (FR (dreg d)); [apply in_or_app; right; apply in_map, I | exact (geo_apartD [] _ _ _ _ _ _ GE I)].
  - change (geo ([] ++ (sbase g, ssize g + asize) :: (map reg GT ++ map dreg D)) pgf' lst).
    apply (geo_mid [] (sbase g, ssize g) _ pgf lst); [exact GE | | | | lia].
    + destruct RG as (G1 & G2 & G3 & G4 & G5 & G6 & G7). destruct FS as (S1 & S2 & S3 & S4). unfold reg_ok. cbn [fst snd] in *.
      split; [exact G1|]. split; [exact G2|]. split; [lia|]. split; [apply al4096_add; assumption|]. split; [lia|]. split; [exact G6|].
      intros x X1 X2. rewrite PG. destruct (N.lt_ge_cases x (sbase g + ssize g)); [rewrite G7 by lia; apply orb_true_r|].
      rewrite (proj2 (within_spec _ _ _)) by lia. reflexivity.
    + cbn [app]. intros q I. destruct GE as (GF & O). pose proof (DJ q (or_intror I)) as D2. inversion O as [|? ? O1 O2]; subst.
      rewrite Forall_forall in O1. pose proof (O1 q I) as D1. unfold rdisj, reg in *. cbn [fst snd] in *.
      assert (RQ : 4096 <= snd q) by (rewrite Forall_forall in GF; apply (GF q); right; exact I).
      lia.
    + intros x X. rewrite PG, X. apply orb_true_r.
Qed.

(** ** A new segment *)
Lemma fences_out n : forall m p y, y < p + 8 \/ p + 8 * N.of_nat n < y -> fences m p n y = m y.
Proof.
  induction n as [|n IH]; intros m p y H; cbn [fences]; [reflexivity|]. rewrite IH by lia. apply wr_other. lia.
Qed.
Lemma fences_first n m p : (0 < n)%nat -> fences m p n (p + 8) = 11.
Proof. destruct n as [|n]; [lia|]. intros _. cbn [fences]. rewrite fences_out by lia. apply wr_same. Qed.
(** the old first segment: what was top becomes a free chunk, if it is large enough, and the record *)
Definition old_top_tiles (ts : N) : list (N * kind) := if ts <? 32 then [(48, Fx)] else [(ts, Fr); (48, Fx)].
Lemma core_add_segment m tp ts lst pgf mst g l GT D b asize m' pgf' lst' csp :
  core m tp ts lst pgf mst ((g, l) :: GT) D -> fresh pgf b asize -> asize mod 65536 = 0 -> 0 < asize ->
  (forall x, pgf' x = within b asize x || pgf x)%bool -> lst' <= lst -> lst' <= b -> 0 < lst' ->
  csp = (if ts <? 32 then tp else tp + ts) ->
  m' (b + 8) = asize - 80 + 1 -> (ts < 32 -> m' (csp + 8) = 51) -> (32 <= ts -> m' (csp + 8) = 50 /\ m' (tp + 8) = ts + 1 /\ m' csp = ts) ->
  m' (csp + 56) = 11 ->
  (forall y, y < tp + 8 \/ tp + ts + 80 <= y -> pgf y = true -> m' y = m y) ->
  core m' b (asize - 80) lst' pgf' mst
    ((mkseg b asize (srec g), []) :: (mkseg (sbase g) (ssize g) (csp + 16), l ++ old_top_tiles ts) :: GT) D.
Proof.
  intros C FS AL AP PG LL1 LL2 LL3 EC H1 H2 H3 HF F. pose proof (c_geo _ _ _ _ _ _ _ _ C) as GE. destruct (head_reg _ _ _ _ _ _ _ _ _ _ C) as (E & E2 & T1 & T2 & T3 & T4 & R & RG).
  assert (DJ : forall r, In r (regs ((g, l) :: GT) D) -> rdisj (b, asize) r) by (intros r; apply (fresh_disj _ _ _ _ _ _ GE FS AP)).
  pose proof (pos65536 _ AP AL) as AS. destruct (al65536 _ AL) as (AL2 & AL3).
  assert (FR : forall r, In r (map reg GT ++ map dreg D) -> rdisj (sbase g, ssize g) r -> forall y, fst r <= y -> y < fst r + snd r -> m' y = m y).
  { intros r IR HD y Y1 Y2. unfold rdisj in HD. cbn [fst snd] in HD. apply F; [lia|]. destruct GE as (GF & _). rewrite Forall_forall in GF.
    apply (GF r); [right; exact IR | exact Y1 | exact Y2]. }
  assert (TS : ts < 32 -> ts = 16).
  { intros HT. destruct (N.le_gt_cases 17 ts); [|lia]. exfalso. pose proof (al_lt 16 ts eq_refl T2). lia. }
  destruct C as [S DI _ MS FX RC].
  assert (TL : forall c, In c (tiles ((mkseg b asize (srec g), []) :: (mkseg (sbase g) (ssize g) (csp + 16), l ++ old_top_tiles ts) :: GT)) <->
                        In c (tiles ((g, l) :: GT)) \/ In c (chunks tp (old_top_tiles ts))).
  { intros c. cbn [tiles flat_map fst snd sbase chunks app]. rewrite chunks_app, !in_app_iff, <- E. tauto. }
  assert (TF : forall c n, In (c, n, Fx) (chunks tp (old_top_tiles ts)) -> c = csp).
  { intros c n. unfold old_top_tiles. rewrite EC. destruct (ts <? 32); cbn [chunks In]; [intros [H | []] | intros [H | [H | []]]]; congruence. }
  constructor.
  - destruct S as ((A & B & K & H & J & Q1 & Q2) & S2). cbn [fst snd] in *. split; [|constructor].
    + unfold head_ok. cbn [fst snd sbase ssize rep]. split; [auto|]. split; [lia|]. split; [lia|]. split; [apply al_sub; [exact AL3 | reflexivity]|].
      split; [exact H1|]. auto.
    + unfold seg_ok. cbn [fst snd sbase ssize srec].
      assert (LR : rep m' (sbase g) true l tp true) by (apply (rep_frame m); [intros y Y1 Y2; apply F; [lia | apply RG; cbn [fst snd]; lia] | exact A]).
      split; [|split; [|split; [|split; [auto|split; [auto | replace (csp + 16 + 40) with (csp + 56) by lia; exact HF]]]]].
      * unfold old_top_tiles. destruct (ts <? 32); [exists l; reflexivity|]. exists (l ++ [(ts, Fr)]). rewrite <- app_assoc. reflexivity.
      * apply rep_app. exists true. rewrite <- E. split; [exact LR|]. unfold old_top_tiles. destruct (ts <? 32) eqn:ET.
        -- apply N.ltb_lt in ET. subst csp. cbn [rep used bit]. split; [lia|]. split; [reflexivity|]. split; [rewrite (H2 ET); reflexivity|].
           split; [discriminate|]. split; [lia | reflexivity].
        -- apply N.ltb_ge in ET. subst csp. destruct (H3 ET) as (H31 & H32 & H33). cbn [rep used bit]. split; [exact ET|]. split; [exact T2|].
           split; [rewrite H32; lia|]. split; [auto|]. split; [lia|]. split; [reflexivity|]. split; [rewrite H31; reflexivity|].
           split; [discriminate|]. split; [lia | reflexivity].
      * destruct (ts <? 32) eqn:ET; [right; apply N.ltb_lt in ET; specialize (TS ET); lia | left; lia].
    + apply Forall_forall. intros h I. rewrite Forall_forall in S2. apply (seg_frame m); [|apply S2, I].
      intros y. apply (FR (reg h)); [apply in_or_app; left; apply in_map, I | exact (geo_apart [] _ _ _ _ _ _ GE I)].
  - apply Forall_forall. intros d I. rewrite Forall_forall in DI. apply (dir_frame m); [|apply DI, I].
    intros y. apply (FR (dreg d)); [apply in_or_app; right; apply in_map, I | exact (geo_apartD [] _ _ _ _ _ _ GE I)].
  - change (geo ([] ++ (b, asize) :: regs ((g, l) :: GT) D) pgf' lst'). apply (geo_new [] _ pgf lst); [exact GE | | exact DJ | | exact LL1].
    + destruct FS as (S1 & S2 & S3 & S4). unfold reg_ok. cbn [fst snd]. split; [exact S1|]. split; [exact S2|]. split; [lia|]. split; [exact AL2|].
      split; [exact S3|]. split; [lia|]. intros x X1 X2. rewrite PG, (proj2 (within_spec _ _ _)) by lia. reflexivity.
    + intros x X. rewrite PG, X. apply orb_true_r.
  - destruct MS as (c & K & I). exists c. split; [exact K | apply TL; now left].
  - intros c n I. apply TL in I. destruct I as [I | I].
    + destruct (FX c n I) as [H | (gl & H & J)]; [now left|]. right. exists gl. split; [right; exact H | exact J].
    + apply TF in I. subst c. right. eexists. split; [left; reflexivity|]. reflexivity.
  - exact RC.
Qed.

(** ** A segment grows at its beginning: the new pages as one chunk in use, for the moment *)
Lemma core_prepend m tp ts lst pgf mst G1 g l G2 D b asize m' pgf' lst' :
  core m tp ts lst pgf mst (G1 ++ (g, l) :: G2) D -> fresh pgf b asize -> asize mod 65536 = 0 -> 0 < asize -> sbase g = b + asize ->
  (forall x, pgf' x = within b asize x || pgf x)%bool -> lst' <= lst -> lst' <= b -> 0 < lst' ->
  m' (b + 8) = asize + 3 -> (forall y, pgf y = true -> m' y = m y) ->
  core m' tp ts lst' pgf' mst (G1 ++ (mkseg b (ssize g + asize) (srec g), (asize, Us) :: l) :: G2) D.
Proof.
  intros C FS AL AP EB PG LL1 LL2 LL3 H1 F. pose proof (core_frame _ _ _ _ _ _ _ _ m' C F) as C'. pose proof (c_geo _ _ _ _ _ _ _ _ C) as GE.
  assert (DJ : forall r, In r (regs (G1 ++ (g, l) :: G2) D) -> rdisj (b, asize) r) by (intros r; apply (fresh_disj _ _ _ _ _ _ GE FS AP)).
  pose proof (pos65536 _ AP AL) as AS. destruct (al65536 _ AL) as (AL2 & AL3).
  assert (RG : reg_ok pgf lst (sbase g, ssize g)) by (apply (geo_reg _ _ _ _ _ _ _ _ (g, l) C); apply in_or_app; right; now left).
  assert (CH : forall c, In c (tiles (G1 ++ (mkseg b (ssize g + asize) (srec g), (asize, Us) :: l) :: G2)) <->
                         In c (tiles (G1 ++ (g, l) :: G2)) \/ In c [(b, asize, Us)]).
  { intros c. rewrite !tiles_app. cbn [tiles flat_map fst snd sbase chunks]. rewrite !in_app_iff, EB. cbn [In]. tauto. }
  destruct C' as [S DI _ MS FX RC]. constructor; try assumption.
  - apply (segs_ok_upd _ _ _ _ _ _ _ _ _ _ S); [auto | now right |]. apply segs_ok_pos in S. destruct G1 as [|h t]; cbn [pos_ok] in *.
    + destruct S as (S1 & S2 & S3 & S4 & S5 & S6 & S7). unfold head_ok. cbn [fst snd sbase ssize rep used bit] in *.
      split; [|split; [lia|split; [lia|split; [exact S4|split; [exact S5|split; [lia | apply al65536_add; assumption]]]]]].
      split; [lia|]. split; [exact AL3|]. split; [rewrite H1; lia|]. split; [discriminate|]. rewrite <- EB. exact S1.
    + destruct S as ((l' & S1) & S2 & S3 & S4 & S5 & S6). unfold seg_ok. cbn [fst snd sbase ssize srec rep used bit] in *.
      split; [exists ((asize, Us) :: l'); rewrite S1; reflexivity|]. split; [|split; [lia|split; [lia |split; [apply al65536_add; assumption | exact S6]]]].
      split; [lia|]. split; [exact AL3|]. split; [rewrite H1; lia|]. split; [discriminate|]. rewrite <- EB. exact S2.
  - rewrite regs_mid in *. apply (geo_mid _ (reg (g, l)) _ pgf lst); [exact GE | | | | exact LL1].
    + destruct RG as (R1 & R2 & R3 & R4 & R5 & R6 & R7). destruct FS as (S1 & S2 & S3 & S4). unfold reg_ok, reg. cbn [fst snd sbase ssize] in *.
      split; [exact S1|]. split; [exact S2|]. split; [lia|]. split; [apply al4096_add; assumption|]. split; [lia|]. split; [lia|].
      intros x X1 X2. rewrite PG. destruct (N.lt_ge_cases x (sbase g)); [rewrite (proj2 (within_spec _ _ _)) by lia; reflexivity|].
      rewrite R7 by lia. apply orb_true_r.
    + intros q I. assert (IQ : In q (map reg G1 ++ reg (g, l) :: map reg G2 ++ map dreg D)).
      { apply in_app_or in I. apply in_or_app. destruct I; [now left | right; now right]. }
      pose proof (DJ q IQ) as D2. destruct GE as (GF & O). apply FOP_mid in O. destruct O as (_ & O).
      rewrite Forall_forall in O. pose proof (O q I) as D1. unfold rdisj, reg in *. cbn [fst snd sbase ssize] in *.
      assert (RQ : 4096 <= snd q) by (rewrite Forall_forall in GF; apply (GF q); exact IQ). lia.
    + intros x X. rewrite PG, X. apply orb_true_r.
  - destruct MS as (c & K & I). exists c. split; [exact K | apply CH; now left].
  - intros c n I. apply CH in I. destruct I as [I | [I | []]]; [|congruence]. apply FX in I. destruct I as [I | (gl & I & J)]; [now left|]. right.
    destruct G1 as [|h t]; cbn [app tl] in *; [exists gl; auto|].
    apply in_app_or in I. destruct I as [I | [I | I]].
    + exists gl. split; [apply in_or_app; auto | exact J].
    + subst gl. eexists. split; [apply in_or_app; right; left; reflexivity | exact J].
    + exists gl. split; [apply in_or_app; right; right; auto | exact J].
  - destruct G1; cbn [app] in *; exact RC.
Qed.
(** top takes the last chunks of its segment *)
Lemma core_top_eat m tp ts lst pgf mst g l X GT D m' :
  let x := sbase g + tot l in
  core m tp ts lst pgf mst ((g, l ++ X) :: GT) D -> rep m (sbase g) true l x true -> (forall c, In c X -> snd c <> Fx) ->
  m' (x + 8) = ts + tot X + 1 -> (forall y, y < x + 8 \/ tp + 8 < y -> m' y = m y) ->
  core m' x (ts + tot X) lst pgf mst ((g, l) :: GT) D.
Proof.
  intros x C R XX H1 F. destruct (head_reg _ _ _ _ _ _ _ _ _ _ C) as (E & E2 & T1 & T2 & T3 & T4 & R0 & RG). rewrite tot_app in E.
  pose proof (rep_sizes _ _ _ _ _ _ R0) as SZ. apply Forall_app in SZ. destruct SZ as (_ & SZ). apply al_tot in SZ.
  assert (FR : forall h, rdisj (sbase g, ssize g) h -> forall y, fst h <= y -> y < fst h + snd h -> m' y = m y).
  { intros h HD y Y1 Y2. unfold rdisj in HD. cbn [fst snd] in HD. apply F; lia. }
  assert (CH : forall c n, In (c, n, Fx) (tiles ((g, l ++ X) :: GT)) <-> In (c, n, Fx) (tiles ((g, l) :: GT))).
  { intros c n. cbn [tiles flat_map fst snd]. rewrite chunks_app, !in_app_iff. split; [intros [[H | H] | H]; auto | tauto]. exfalso.
    destruct (chunks_split _ _ _ _ _ H) as (z1 & z2 & -> & _). apply (XX (n, Fx)); [apply in_or_app; right; now left | reflexivity]. }
  destruct C as [S DI GE MS FX RC]. constructor.
  - apply (segs_ok_upd m tp ts [] (g, l ++ X) GT m' _ _ (g, l) S); [| now left |].
    + intros h I y. apply (FR (reg h)). exact (geo_apart [] _ _ _ _ _ _ GE I).
    + cbn [pos_ok]. destruct S as ((A & B & K & H & J & Q) & _). unfold head_ok. cbn [fst snd] in *.
      split; [apply (rep_frame m); [intros y Y1 Y2; apply F; lia | exact R]|]. split; [lia|]. split; [lia|]. split; [apply al_add; assumption|].
      split; [exact H1 | exact Q].
  - apply Forall_forall. intros d I. rewrite Forall_forall in DI. apply (dir_frame m); [|apply DI, I].
    intros y. apply (FR (dreg d)). exact (geo_apartD [] _ _ _ _ _ _ GE I).
  - exact GE.
  - destruct MS as (c & K & I). exists c. split; [exact K | apply CH, I].
  - intros c n I. apply CH, FX in I. exact I.
  - exact RC.
Qed.

(** ** sys_alloc *)
Definition grown (s : ms) (b n : N) : ms := set_foot_ (mapped s b n) (foot s + n).
Lemma blk_tiles G G' D : (forall c n, In (c, n, Us) (tiles G') <-> In (c, n, Us) (tiles G)) -> forall a r, blk G' D a r <-> blk G D a r.
Proof.
  intros E a r. unfold blk. split; (intros [(c & n & H1 & H2 & H3) | H]; [left; exists c, n; rewrite E in * || rewrite <- E in *; auto | now right]).
Qed.
Lemma append_ok s g l GT D asize nb bytes : Inv s ((g, l) :: GT) D -> fresh (pg s) (sbase g + ssize g) asize -> asize mod 65536 = 0 ->
  32 <= nb -> nb mod 16 = 0 -> bytes + 8 <= nb -> nb + 96 <= asize ->
  let s1 := set_segs (grown s (sbase g + ssize g) asize) (mkseg (sbase g) (ssize g + asize) (srec g) :: map fst GT) in
  let s2 := init_top s1 (top s1) (topsize s1 + asize) in
  nb < topsize s2 /\ exists s', split_top s2 nb = (s', top s) /\ got s ((g, l) :: GT) D s' bytes (top s + 16).
Proof.
  intros I FS AL N1 N2 N3 N4 s1 s2. pose proof (i_core _ _ _ I) as C. set (b := sbase g + ssize g) in *.
  destruct (head_reg _ _ _ _ _ _ _ _ _ _ C) as (E & E2 & T1 & T2 & T3 & T4 & R & RG). fold b in E2.
  assert (TS : topsize s2 = topsize s + asize) by reflexivity. split; [rewrite TS; lia|].
  assert (MM : mem s2 = wr_ (wr_ (mem s) (top s + 8) (topsize s + asize + 1)) (top s + (topsize s + asize) + 8) 80) by reflexivity.
  assert (AP : 0 < asize) by lia. pose proof (pos65536 _ AP AL) as AS. destruct FS as (FS1 & FS2 & FS3 & FS4).
  assert (MF : forall y, y <> top s + 8 -> pg s y = true -> mem s2 y = mem s y).
  { intros y Y P. rewrite MM. destruct (N.eq_dec y (top s + (topsize s + asize) + 8)) as [-> | NE].
    - rewrite FS4 in P by lia. discriminate.
    - rewrite !wr_other by lia. reflexivity. }
  assert (PG : forall x, pg s2 x = (within b asize x || pg s x)%bool) by reflexivity.
  assert (C2 : core_s s2 ((mkseg (sbase g) (ssize g + asize) (srec g), l) :: GT) D).
  { apply (core_append (mem s) (top s) (topsize s) (least s) (pg s)); auto; [repeat split; assumption|].
    rewrite MM. rewrite wr_other by lia. apply wr_same. }
  assert (I2 : Inv s2 ((mkseg (sbase g) (ssize g + asize) (srec g), l) :: GT) D).
  { constructor; [reflexivity | exact C2 | exact (i_bins _ _ _ I) |].
    change (foot s2) with (foot s + asize). rewrite (i_foot _ _ _ I). unfold regs. cbn [map app sizes reg fst snd ssize]. lia. }
  destruct (split_top_ok s2 _ D nb bytes I2 N1 N2 N3) as (s' & H1 & H2); [rewrite TS; lia|]. exists s'. split; [exact H1|].
  apply (got_step s s2 _ _ _ _ _ _ _ H2).
  - apply blk_tiles. intros c n. reflexivity.
  - apply (keeps_top _ _ _ _ _ _ _ _ _ C). intros y Y P. apply MF; [lia | exact P].
  - intros T x HX. rewrite PG in HX. apply orb_true_iff in HX. destruct HX as [HX | HX].
    + apply within_spec in HX. eexists. split; [left; reflexivity|]. unfold reg. cbn [fst snd sbase ssize]. unfold b in HX. lia.
    + destruct (T x HX) as (r & [<- | R2] & R3).
      * eexists. split; [left; reflexivity|]. unfold reg in *. cbn [fst snd sbase ssize] in *. lia.
      * exists r. split; [now right | exact R3].
  - reflexivity.
Qed.
Lemma find_seg_some f l g a b : find_seg f l = Some (g, a, b) -> l = a ++ g :: b /\ f g = true.
Proof.
  revert a. induction l as [|h r IH]; intros a; cbn [find_seg]; [discriminate|]. destruct (f h) eqn:E.
  - intros H. injection H as <- <- <-. auto.
  - destruct (find_seg f r) as [[[x y] z]|]; [|discriminate]. intros H. injection H as <- <- <-. destruct (IH y eq_refl) as (-> & H). auto.
Qed.
Lemma seg_of_top s g l GT D : Inv s ((g, l) :: GT) D -> seg_of s (top s) = Some g.
Proof.
  intros I. pose proof (i_core _ _ _ I) as C. destruct (head_reg _ _ _ _ _ _ _ _ _ _ C) as (E & E2 & _).
  unfold seg_of. rewrite <- (i_segs _ _ _ I). cbn [map find fst]. rewrite (proj2 (within_spec _ _ _)) by lia. reflexivity.
Qed.
Lemma seg_of_top_segs s s1 g l GT D : Inv s ((g, l) :: GT) D -> segs s1 = segs s -> top s1 = top s -> seg_of s1 (top s1) = Some g.
Proof. intros I E1 E2. unfold seg_of. rewrite E1, E2. apply (seg_of_top _ _ _ _ _ I). Qed.

Lemma add_segment_ok s g l GT D b asize nb bytes lst' : Inv s ((g, l) :: GT) D -> fresh (pg s) b asize -> asize mod 65536 = 0 ->
  32 <= nb -> nb mod 16 = 0 -> bytes + 8 <= nb -> nb + 96 <= asize -> lst' <= least s -> lst' <= b -> 0 < lst' ->
  exists s2 s', add_segment (set_least (grown s b asize) lst') b asize = Ok s2 /\ nb < topsize s2 /\ split_top s2 nb = (s', b) /\
    got s ((g, l) :: GT) D s' bytes (b + 16).
Proof.
  intros I FS AL N1 N2 N3 N4 LL1 LL2 LL3. pose proof (i_core _ _ _ I) as C.
  destruct (head_reg _ _ _ _ _ _ _ _ _ _ C) as (E & E2 & T1 & T2 & T3 & T4 & R & RG).
  assert (AP : 0 < asize) by lia. pose proof (pos65536 _ AP AL) as AS. pose proof FS as FS0. destruct FS as (FS1 & FS2 & FS3 & FS4).
  unfold add_segment. rewrite (seg_of_top_segs s _ g l GT D I) by reflexivity.
  assert (ESG : segs (set_least (grown s b asize) lst') = g :: map fst GT) by (symmetry; exact (i_segs _ _ _ I)). rewrite ESG.
  set (s0 := set_least (grown s b asize) lst') in *. change (top s0) with (top s).
  set (csp := if sbase g + ssize g - 80 <? top s + MIN_CHUNK then top s else sbase g + ssize g - 80).
  assert (EC : csp = if topsize s <? 32 then top s else top s + topsize s).
  { unfold csp, MIN_CHUNK. destruct (topsize s <? 32) eqn:ET.
    - apply N.ltb_lt in ET. replace (sbase g + ssize g - 80 <? top s + 32) with true by (symmetry; apply N.ltb_lt; lia). reflexivity.
    - apply N.ltb_ge in ET. replace (sbase g + ssize g - 80 <? top s + 32) with false by (symmetry; apply N.ltb_ge; lia). lia. }
  assert (TS16 : topsize s < 32 -> topsize s = 16).
  { intros HT. destruct (N.le_gt_cases 17 (topsize s)); [|lia]. exfalso. pose proof (al_lt 16 (topsize s) eq_refl T2). lia. }
  assert (CR : top s <= csp /\ csp + 80 <= top s + topsize s + 80 /\ top s + topsize s <= csp + 16).
  { rewrite EC. destruct (topsize s <? 32) eqn:ET; [apply N.ltb_lt in ET; specialize (TS16 ET) | apply N.ltb_ge in ET]; lia. }
  unfold SEG_SIZE, TOP_FOOT.
  set (nf := N.to_nat ((sbase g + ssize g - (csp + 48)) / 8 - 1)).
  assert (NF : csp + 48 + 8 * N.of_nat nf < sbase g + ssize g).
  { unfold nf. rewrite N2Nat.id. pose proof (N.mul_div_le (sbase g + ssize g - (csp + 48)) 8 ltac:(lia)). lia. }
  set (m1 := wr_ (wr_ (wr_ (mem s) (b + 8) (asize - 80 + 1)) (b + (asize - 80) + 8) 80) (csp + 8) 51).
  set (m2 := fences m1 (csp + 48) nf).
  set (s1 := mk m2 (mkseg b asize (srec g) :: mkseg (sbase g) (ssize g) (csp + 16) :: map fst GT) b (asize - 80) (dv s) (dvsize s) (sb s) (tb s) lst'
                (rchk s) TRIM_THRESHOLD (foot s + asize) (mst s) (pg (mapped s b asize)) (plog (mapped s b asize))).
  match goal with |- context [if csp =? top s then Ok ?z else _] => change z with s1 end.
  assert (PG : forall x, pg s1 x = (within b asize x || pg s x)%bool) by reflexivity.
  assert (RGX : forall y, top s <= y -> y < sbase g + ssize g -> pg s y = true) by (intros y Y1 Y2; apply RG; cbn [fst snd]; lia).
  assert (NI : forall y, pg s y = true -> ~ (b <= y /\ y < b + asize)) by (intros y P (Y1 & Y2); rewrite FS4 in P by assumption; discriminate).
  assert (B1 : ~ (csp + 8 <= b + 8 /\ b + 8 <= csp + 48 + 8 * N.of_nat nf)).
  { intros (Y1 & Y2). apply (NI (b + 8)); [apply RGX; lia | lia]. }
  assert (MB : m2 (b + 8) = asize - 80 + 1).
  { unfold m2. rewrite fences_out by lia. unfold m1. rewrite wr_other by lia. rewrite wr_other by lia. apply wr_same. }
  assert (MC : m2 (csp + 8) = 51) by (unfold m2; rewrite fences_out by lia; unfold m1; apply wr_same).
  assert (MW : m2 (csp + 56) = 11).
  { unfold m2. replace (csp + 56) with (csp + 48 + 8) by lia. apply fences_first. unfold nf.
    pose proof (N.div_le_mono 32 (sbase g + ssize g - (csp + 48)) 8 ltac:(lia) ltac:(lia)) as DM. change (32 / 8) with 4 in DM. lia. }
  assert (MF : forall y, y < top s + 8 \/ top s + topsize s + 80 <= y -> pg s y = true -> m2 y = mem s y).
  { intros y Y P. pose proof (NI y P). unfold m2. rewrite fences_out by lia. unfold m1. rewrite !wr_other by lia. reflexivity. }
  assert (TL : forall c, In c (tiles ((mkseg b asize (srec g), []) :: (mkseg (sbase g) (ssize g) (csp + 16), l ++ old_top_tiles (topsize s)) :: GT)) <->
                        In c (tiles ((g, l) :: GT)) \/ In c (chunks (top s) (old_top_tiles (topsize s)))).
  { intros c. cbn [tiles flat_map fst snd sbase chunks app]. rewrite chunks_app, !in_app_iff, <- E. tauto. }
  set (G' := (mkseg b asize (srec g), []) :: (mkseg (sbase g) (ssize g) (csp + 16), l ++ old_top_tiles (topsize s)) :: GT) in *.
  assert (TUS : forall c n, In (c, n, Us) (tiles G') <-> In (c, n, Us) (tiles ((g, l) :: GT))).
  { intros c n. rewrite TL. unfold old_top_tiles. destruct (topsize s <? 32); cbn [chunks In]; split; try tauto;
      [intros [H | [H | []]] | intros [H | [H | [H | []]]]]; auto; congruence. }
  assert (TI : forall s3, pg s3 = pg s1 -> tight s ((g, l) :: GT) D -> tight s3 G' D).
  { intros s3 P3 T x HX. rewrite P3, PG in HX. apply orb_true_iff in HX. destruct HX as [HX | HX].
    - apply within_spec in HX. eexists. split; [left; reflexivity|]. unfold reg. cbn [fst snd sbase ssize]. lia.
    - destruct (T x HX) as (r & R2 & R3). exists r. split; [right; exact R2 | exact R3]. }
  assert (FT : foot s + asize = sizes (regs G' D)).
  { rewrite (i_foot _ _ _ I). unfold regs, G'. cbn [map app sizes reg fst snd ssize]. lia. }
  assert (K : exists s2, (if csp =? top s then Ok s1 else Ok (insert_chunk (set_free_with_pinuse s1 (top s) (csp - top s) csp) (top s) (csp - top s))) = Ok s2 /\
                Inv s2 G' D /\ topsize s2 = asize - 80 /\ top s2 = b /\ keeps ((g, l) :: GT) D (fun _ => True) (mem s) (mem s2) /\ pg s2 = pg s1 /\ mst s2 = mst s).
  { destruct (topsize s <? 32) eqn:ET.
    - rewrite EC, N.eqb_refl. exists s1. split; [reflexivity|]. apply N.ltb_lt in ET.
      assert (C1 : core_s s1 G' D).
      { apply (core_add_segment (mem s) (top s) (topsize s) (least s) (pg s)); auto.
        - replace (topsize s <? 32) with true by (symmetry; apply N.ltb_lt; exact ET). exact EC.
        - intros H. lia. }
      split; [|split; [reflexivity|split; [reflexivity|split; [|split; reflexivity]]]].
      + constructor; [reflexivity | exact C1 | | exact FT].
        refine (bins_tiles _ _ _ _ (tiles ((g, l) :: GT)) _ (fun c => In c (tiles ((g, l) :: GT))) [] _ none none _ TL _ _ _ (i_bins _ _ _ I)).
        * intros c. cbn [In]. tauto.
        * unfold none. tauto.
        * intros a n [].
        * intros a n. unfold old_top_tiles. replace (topsize s <? 32) with true by (symmetry; apply N.ltb_lt; exact ET). cbn [chunks In]. intros [H | []]. congruence.
      + apply (keeps_top _ _ _ _ _ _ _ _ _ C). exact MF.
    - apply N.ltb_ge in ET. replace (csp =? top s) with false by (symmetry; apply N.eqb_neq; lia).
      replace (csp - top s) with (topsize s) by lia.
      set (s3 := set_free_with_pinuse s1 (top s) (topsize s) csp).
      assert (M3 : mem s3 = wr_ (wr_ (wr_ m2 (csp + 8) (not_pin 51)) (top s + 8) (topsize s + 1)) (top s + topsize s) (topsize s)).
      { unfold s3, set_free_with_pinuse. cbn [set_free_chunk set_head set_mem mem head]. unfold head. change (mem s1) with m2. rewrite MC. reflexivity. }
      assert (C3 : core_s s3 G' D).
      { apply (core_add_segment (mem s) (top s) (topsize s) (least s) (pg s)); auto.
        - replace (topsize s <? 32) with false by (symmetry; apply N.ltb_ge; exact ET). exact EC.
        - rewrite M3. assert (B2 : b + 8 <> csp + 8 /\ b + 8 <> top s + 8 /\ b + 8 <> top s + topsize s).
          { repeat split; intros Q; apply (NI (b + 8)); try lia; apply RGX; lia. }
          rewrite !wr_other by lia. exact MB.
        - intros H. lia.
        - intros _. rewrite M3. split; [|split].
          + rewrite !wr_other by lia. apply wr_same.
          + rewrite wr_other by lia. apply wr_same.
          + replace csp with (top s + topsize s) by lia. apply wr_same.
        - rewrite M3, !wr_other by lia. exact MW.
        - intros y Y P. rewrite M3, !wr_other by lia. apply MF; assumption. }
      assert (TF : forall a n, In (a, n, Fr) (chunks (top s) (old_top_tiles (topsize s))) <-> a = top s /\ n = topsize s).
      { intros a n. unfold old_top_tiles. replace (topsize s <? 32) with false by (symmetry; apply N.ltb_ge; exact ET). cbn [chunks In].
        split; [intros [H | [H | []]]; [injection H as <- <-; auto | congruence] | intros (-> & ->); auto]. }
      assert (B3 : bins (dv s3) (dvsize s3) (sb s3) (tb s3) (tiles G') (eq (top s))).
      { change (bins (dv s) (dvsize s) (sb s) (tb s) (tiles G') (eq (top s))).
        refine (bins_tiles _ _ _ _ (tiles ((g, l) :: GT)) _ (fun c => In c (tiles ((g, l) :: GT))) [] _ none _ _ TL _ _ _ (i_bins _ _ _ I)).
        - intros c. cbn [In]. tauto.
        - intros a n k J. split; [auto|]. intros <-. pose proof (tile_facts _ _ _ _ _ _ _ _ _ _ _ C J) as (F1 & _).
          pose proof (top_apart _ _ _ _ _ _ _ _ _ _ _ C J). lia.
        - intros a n [].
        - intros a n J. apply TF in J. destruct J as (-> & _). reflexivity. }
      pose proof (core_tok _ _ _ _ _ _ _ _ C3) as TK.
      assert (IT : In (top s, topsize s, Fr) (tiles G')) by (apply TL; right; apply TF; auto).
      assert (ND : top s <> dv s3).
      { change (dv s3) with (dv s). intros Q. destruct (b_dv _ _ _ _ _ _ (i_bins _ _ _ I)) as [(Z & _) | (Z & _)].
        - apply (proj1 TK) in IT. lia.
        - pose proof (tile_facts _ _ _ _ _ _ _ _ _ _ _ C Z) as (F1 & _). pose proof (top_apart _ _ _ _ _ _ _ _ _ _ _ C Z). lia. }
      destruct (bins_insert s3 _ _ _ _ _ _ TK IT ND eq_refl B3) as (s4 & H1 & H2 & H3).
      exists s4. split; [rewrite H1; reflexivity|].
      split; [|split; [rewrite H2; reflexivity|split; [rewrite H2; reflexivity|split; [|split; rewrite H2; reflexivity]]]].
      + constructor; [rewrite H2; reflexivity | unfold core_s; rewrite H2; exact C3 | | rewrite H2; exact FT].
        assert (ED : dv s4 = dv s3) by (rewrite H2; reflexivity). assert (EDS : dvsize s4 = dvsize s3) by (rewrite H2; reflexivity).
        rewrite ED, EDS. eapply bins_L; [|exact H3]. unfold none. intros a. cbn. split; [intros (<- & H); apply H; reflexivity | tauto].
      + apply (keeps_top _ _ _ _ _ _ _ _ _ C). intros y Y P. rewrite H2. cbn [mem]. rewrite M3, !wr_other by lia. apply MF; assumption. }
  destruct K as (s2 & K1 & I2 & K2 & K3 & K4 & K5 & K6). exists s2.
  destruct (split_top_ok s2 _ D nb bytes I2 N1 N2 N3) as (s' & H1 & H2); [rewrite K2; lia|]. exists s'. rewrite K3 in H1, H2.
  split; [exact K1|]. split; [rewrite K2; lia|]. split; [exact H1|].
  apply (got_step s s2 _ _ _ _ _ _ _ H2); [apply blk_tiles; exact TUS | exact K4 | apply TI; exact K5 | exact K6].
Qed.
