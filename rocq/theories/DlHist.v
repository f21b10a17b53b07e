(** Histories of the heap of [DlModel] (properties C59 and C60): what the program did, and what it relies on.
    No code of its own: the steps are the functions of [DlModel]. *)
From Verif Require Import Base DlModel DlInv DlAlloc DlSys DlPre DlMalloc DlFree DlFwd.
From Coq Require Import Lia.
Local Open Scope N_scope.
Arguments N.add : simpl never. Arguments N.sub : simpl never. Arguments N.mul : simpl never. Arguments N.div : simpl never.
Arguments N.modulo : simpl never. Arguments N.eqb : simpl never. Arguments N.ltb : simpl never. Arguments N.leb : simpl never.
Arguments N.odd : simpl never.

(** ** Specification *)
(** A block the program holds: its address, the size asked for, and what the program last stored in it (what it found there
    before the first store). *)
Record block := mkb { addr : N; size : N; data : N -> N }.
(** Everything that can happen to the heap.  [mremap]: may mremap succeed in sys_trim?  [mm] is what arax_mmap answers to each
    request: any pages that are not in use.  The program stores in its own blocks and frees blocks it holds, nothing else. *)
Inductive hist (mremap : bool) : ms -> list block -> Prop :=
| h_create junk b : 4096 <= b -> b mod 4096 = 0 -> b + 65536 <= W -> hist mremap (create junk b 65536) []
| h_alloc s L bytes v mm s' a :
    hist mremap s L -> tree_answer s (padded bytes) v -> (forall n b, mm n = Some b -> fresh (pg s) b n) ->
    malloc s bytes v mm = Ok (s', Some a) -> hist mremap s' (mkb a bytes (mem s') :: L)
| h_null s L bytes v mm s' :
    hist mremap s L -> tree_answer s (padded bytes) v -> (forall n b, mm n = Some b -> fresh (pg s) b n) ->
    malloc s bytes v mm = Ok (s', None) -> hist mremap s' L
| h_free s L1 x L2 mr s' :
    hist mremap s (L1 ++ x :: L2) -> (mr = true -> mremap = true) -> mspace_free s (addr x) mr = Ok s' -> hist mremap s' (L1 ++ L2)
| h_store s L1 a n d L2 y w :
    hist mremap s (L1 ++ mkb a n d :: L2) -> a <= y -> y < a + n ->
    hist mremap (set_mem s (wr_ (mem s) y w)) (L1 ++ mkb a n (wr_ d y w) :: L2).
(** Byte ranges [a, a+n) and [b, b+k) that share no byte. *)
Definition off (a n b k : N) : Prop := a + n <= b \/ b + k <= a.
(** A free chunk the allocator keeps: in a small bin, in a tree, or dv. *)
Definition kept (s : ms) (c : N) : Prop := (exists i, In c (sb s i)) \/ In c (tb s) \/ (c = dv s /\ dvsize s <> 0).

(** ** Blocks and tiles *)
Lemma blk_fun m tp ts lst pgf mst G D a r r' : core m tp ts lst pgf mst G D -> blk G D a r -> blk G D a r' -> r = r'.
Proof.
  intros C [(c & n & -> & E & I) | (c & n & -> & E & I)] [(c' & n' & E1 & E' & J) | (c' & n' & E1 & E' & J)]; assert (c' = c) as -> by lia.
  - destruct (tile_fun _ _ _ _ _ _ _ _ _ _ _ _ _ C I J). lia.
  - pose proof (tile_dir _ _ _ _ _ _ _ _ _ _ _ _ C I J) as P. cbn [fst snd] in P. pose proof (tile_facts _ _ _ _ _ _ _ _ _ _ _ C I). lia.
  - pose proof (tile_dir _ _ _ _ _ _ _ _ _ _ _ _ C J I) as P. cbn [fst snd] in P. pose proof (tile_facts _ _ _ _ _ _ _ _ _ _ _ C J). lia.
  - pose proof (c_dirs _ _ _ _ _ _ _ _ C) as DI. rewrite Forall_forall in DI. destruct (DI _ I) as (_ & H1 & _). destruct (DI _ J) as (_ & H2 & _). cbn [fst snd] in *. lia.
Qed.
Lemma dirs_apart m tp ts lst pgf mst G D c n c' n' : core m tp ts lst pgf mst G D -> In (c, n) D -> In (c', n') D -> c = c' \/ off c (n + 32) c' (n' + 32).
Proof.
  intros C I J. destruct (c_geo _ _ _ _ _ _ _ _ C) as (_ & O). unfold regs in O. apply in_split in I. destruct I as (D1 & D2 & ->).
  rewrite map_app in O. cbn [map] in O. rewrite app_assoc in O. apply FOP_mid in O. destruct O as (_ & O). rewrite Forall_forall in O.
  assert (K : c = c' \/ In (c', n') (D1 ++ D2)).
  { apply in_app_or in J. destruct J as [J | [J | J]]; [right; apply in_or_app; auto | left; congruence | right; apply in_or_app; auto]. }
  destruct K as [K | K]; [now left|]. right. specialize (O (dreg (c', n'))). unfold off. unfold rdisj, dreg in O. cbn [fst snd] in O. apply O.
  rewrite <- app_assoc, <- map_app. apply in_or_app. right. apply (in_map dreg _ _ K).
Qed.
Lemma blk_apart m tp ts lst pgf mst G D a r a' r' : core m tp ts lst pgf mst G D -> blk G D a r -> blk G D a' r' -> a <> a' -> off a r a' r'.
Proof.
  intros C [(c & n & -> & E & I) | (c & n & -> & E & I)] [(c' & n' & -> & E' & J) | (c' & n' & -> & E' & J)] NE; unfold off.
  - destruct (tiles_apart _ _ _ _ _ _ _ _ _ _ C I J) as [H | H]; [congruence|]. unfold apart in H. cbn [fst snd] in H. lia.
  - pose proof (tile_dir _ _ _ _ _ _ _ _ _ _ _ _ C I J) as P. cbn [fst snd] in P. lia.
  - pose proof (tile_dir _ _ _ _ _ _ _ _ _ _ _ _ C J I) as P. cbn [fst snd] in P. lia.
  - destruct (dirs_apart _ _ _ _ _ _ _ _ _ _ _ _ C I J) as [H | H]; [lia|]. unfold off in H. lia.
Qed.
(** a block and a tile that is not one *)
Lemma blk_other m tp ts lst pgf mst G D a r c n k : core m tp ts lst pgf mst G D -> blk G D a r -> In (c, n, k) (tiles G) -> k <> Us -> off a r (c + 8) n.
Proof.
  intros C [(c' & n' & -> & E & I) | (c' & n' & -> & E & I)] J NK; unfold off.
  - destruct (tiles_apart _ _ _ _ _ _ _ _ _ _ C I J) as [H | H]; [congruence|]. unfold apart in H. cbn [fst snd] in H. lia.
  - pose proof (tile_dir _ _ _ _ _ _ _ _ _ _ _ _ C J I) as P. cbn [fst snd] in P. lia.
Qed.
Lemma blk_aligned m tp ts lst pgf mst G D a r : core m tp ts lst pgf mst G D -> blk G D a r -> a mod 16 = 0 /\ 16 < a /\ 24 <= r /\ forall y, a <= y -> y < a + r -> pgf y = true.
Proof.
  intros C [(c & n & -> & E & I) | (c & n & -> & E & I)].
  - pose proof (tile_facts _ _ _ _ _ _ _ _ _ _ _ C I) as (F1 & F2 & F3 & F4 & F5 & F6). split; [apply al_add; [exact F3 | reflexivity]|]. split; [lia|]. split; [lia|].
    destruct (tiles_split _ _ _ _ I) as (G1 & g & l1 & l2 & G2 & -> & ->).
    destruct (tile_in _ _ _ _ _ _ _ _ _ _ _ _ _ _ C) as (_ & _ & _ & _ & _ & T & _ & _ & P). intros y Y1 Y2. apply P; lia.
  - pose proof (c_dirs _ _ _ _ _ _ _ _ C) as DI. rewrite Forall_forall in DI. destruct (DI _ I) as (_ & _ & _ & H). cbn [fst snd] in H.
    destruct (c_geo _ _ _ _ _ _ _ _ C) as (GF & _). rewrite Forall_forall in GF.
    destruct (GF (dreg (c, n))) as (F1 & F2 & F3 & F4 & F5 & F6 & F7); [apply in_or_app; right; apply (in_map dreg _ _ I)|]. unfold dreg in *. cbn [fst snd] in *.
    split; [apply al_add; [apply pg16; exact F2 | reflexivity]|]. split; [lia|]. split; [lia|]. intros y Y1 Y2. apply F7; lia.
Qed.

(** ** Stores of the program *)
Lemma rep_store m m' a pin l1 n l2 e pe : rep m a pin (l1 ++ (n, Us) :: l2) e pe ->
  (forall y, y < a + tot l1 + 16 \/ a + tot l1 + n + 8 <= y -> m' y = m y) -> rep m' a pin (l1 ++ (n, Us) :: l2) e pe.
Proof.
  intros H F. apply rep_app in H. destruct H as (q & H1 & H2). apply rep_app. exists q.
  split; [apply (rep_frame m); [intros y Y1 Y2; apply F; lia | exact H1]|]. cbn [rep] in *. destruct H2 as (A & B & C & D & H2).
  split; [exact A|]. split; [exact B|]. split; [rewrite F by lia; exact C|]. split; [discriminate|].
  apply (rep_frame m); [intros y Y1 Y2; apply F; lia | exact H2].
Qed.
Lemma core_store m tp ts lst pgf mst G D a r m' : core m tp ts lst pgf mst G D -> blk G D a r ->
  (forall y, y < a \/ a + r <= y -> m' y = m y) -> core m' tp ts lst pgf mst G D.
Proof.
  intros C B F. destruct B as [(c & n & -> & E & I) | (c & n & -> & E & I)].
  - destruct (tiles_split _ _ _ _ I) as (G1 & g & l1 & l2 & G2 & -> & EC).
    destruct (tile_in _ _ _ _ _ _ _ _ _ _ _ _ _ _ C) as (A1 & A2 & A3 & A4 & A5 & A6 & A7 & A8 & A9). rewrite <- EC in *.
    assert (RR : forall h, rdisj (reg (g, l1 ++ (n, Us) :: l2)) h -> forall y, fst h <= y -> y < fst h + snd h -> m' y = m y).
    { intros h HD y Y1 Y2. unfold rdisj, reg in HD. cbn [fst snd] in HD. apply F. lia. }
    destruct C as [S DI GE MS FX RC]. constructor; try assumption.
    + apply (segs_ok_upd _ _ _ _ _ _ _ _ _ _ S); [| now right |].
      * intros h J y. apply (RR (reg h)). eapply geo_apart; [exact GE | exact J].
      * apply segs_ok_pos in S. destruct G1 as [|h t]; cbn [pos_ok] in *.
        -- destruct S as (S1 & S2 & S3 & S4 & S5 & S6). cbn [fst snd] in *. destruct (A8 eq_refl) as (A81 & A82).
           split; [apply (rep_store m); [exact S1|]; cbn [fst snd]; rewrite <- EC; intros y Y; apply F; lia|].
           split; [exact S2|]. split; [exact S3|]. split; [exact S4|]. split; [|exact S6]. cbn [fst snd]. rewrite F by lia. exact S5.
        -- destruct S as (S1 & S2 & S3 & S4 & S5 & S6). cbn [fst snd] in *. split; [exact S1|].
           split; [apply (rep_store m); [exact S2|]; cbn [fst snd]; rewrite <- EC; intros y Y; apply F; lia|].
           split; [exact S3|]. split; [exact S4|]. split; [exact S5|]. cbn [fst]. pose proof (rep_end _ _ _ _ _ _ S2) as ES. rewrite tot_app in ES. cbn [tot] in ES.
           rewrite F by lia. exact S6.
    + apply Forall_forall. intros d J. rewrite Forall_forall in DI. apply (dir_frame m); [|apply DI, J].
      intros y. apply (RR (dreg d)). eapply geo_apartD; [exact GE | exact J].
  - assert (X : forall r, rdisj (dreg (c, n)) r -> forall y, fst r <= y -> y < fst r + snd r -> m' y = m y).
    { intros h HD y Y1 Y2. unfold rdisj, dreg in HD. cbn [fst snd] in HD. apply F. lia. }
    assert (GD : forall gl, In gl G -> forall y, sbase (fst gl) <= y -> y < sbase (fst gl) + ssize (fst gl) -> m' y = m y).
    { intros gl J y. apply in_split in J. destruct J as (G1 & G2 & ->). apply (X (reg gl)). apply rdisj_sym. eapply geo_apartD; [exact (c_geo _ _ _ _ _ _ _ _ C) | exact I]. }
    pose proof (fun d => dirs_apart _ _ _ _ _ _ _ _ c n (fst d) (snd d) C I) as DA.
    destruct C as [S DI GE MS FX RC]. constructor; try assumption.
    + destruct G as [|h t]; [exact S|]. cbn [segs_ok] in *. destruct S as (S1 & S2). split; [apply (head_frame m); [apply GD; now left | exact S1]|].
      apply Forall_forall. intros gl J. rewrite Forall_forall in S2. apply (seg_frame m); [apply GD; now right | apply S2, J].
    + apply Forall_forall. intros [c' n'] J. rewrite Forall_forall in DI. pose proof (DI _ J) as (H1 & H2 & H3 & H4). cbn [fst snd] in *.
      pose proof (DA (c', n') J) as DA'. cbn [fst snd] in DA'. destruct DA' as [<- | H].
      * split; cbn [fst snd]; [rewrite F by lia; exact H1|]. split; [rewrite F by lia; exact H2|]. split; assumption.
      * unfold off in H. split; cbn [fst snd]; [rewrite F by lia; exact H1|]. split; [rewrite F by lia; exact H2|]. split; assumption.
Qed.

(** ** create_mspace *)
Section Mod.
  Local Ltac Zify.zify_post_hook ::= Z.to_euclidean_division_equations.
  Lemma cr_al b : b mod 4096 = 0 -> (b + 65536 - (b + 944) - 80) mod 16 = 0.
  Proof. lia. Qed.
End Mod.
Lemma create_ok junk b : 4096 <= b -> b mod 4096 = 0 -> b + 65536 <= W ->
  Inv (create junk b 65536) [(mkseg b 65536 (b + 16 + SEG_OFF), [(MSTATE, Fx)])] [] /\ tight (create junk b 65536) [(mkseg b 65536 (b + 16 + SEG_OFF), [(MSTATE, Fx)])] [].
Proof.
  intros B1 B2 B3. unfold create, init_top, SEG_OFF, MSTATE, TOP_FOOT. set (s := set_trimc _ _).
  assert (M1 : mem s (b + 8) = 944 + 3) by (unfold s; cbn [set_trimc set_head set_mem set_top mem]; rewrite !wr_other by lia; apply wr_same).
  assert (M2 : mem s (b + 944 + 8) = b + 65536 - (b + 944) - 80 + 1) by (unfold s; cbn [set_trimc set_head set_mem set_top mem]; rewrite wr_other by lia; apply wr_same).
  split.
  - constructor.
    + reflexivity.
    + constructor.
      * cbn [segs_ok]. split; [|constructor]. unfold head_ok. cbn [fst snd sbase ssize rep used bit].
        change (top s) with (b + 944). change (topsize s) with (b + 65536 - (b + 944) - 80). rewrite M1, M2.
        repeat split; try lia; try discriminate; try (apply cr_al; exact B2).
      * constructor.
      * split; [|cbn [regs map app]; constructor; constructor]. cbn [regs map app]. constructor; [|constructor]. unfold reg_ok, reg. cbn [fst snd sbase ssize].
        change (least s) with b. change (pg s) with (within b 65536).
        split; [exact B1|]. split; [exact B2|]. split; [lia|]. split; [reflexivity|]. split; [exact B3|]. split; [lia|]. intros x X1 X2. apply within_spec. lia.
      * exists b. split; [reflexivity|]. left. reflexivity.
      * intros c n [H | []]. injection H as <- _. left. reflexivity.
      * reflexivity.
    + constructor.
      * left. split; reflexivity.
      * intros i a [].
      * intros i. constructor.
      * intros a [].
      * intros a n [H | []]. discriminate.
    + cbn [regs map app sizes reg fst snd sbase ssize]. change (foot s) with 65536. lia.
  - intros x X. change (pg s x) with (within b 65536 x) in X. apply within_spec in X. exists (b, 65536). split; [left; reflexivity | exact X].
Qed.

(** ** The invariant of histories *)
Record J (rm : bool) (s : ms) (L : list block) (G : list gseg) (D : list (N * N)) : Prop := {
  q_inv : Inv s G D;
  q_live : forall a, (exists r, blk G D a r) <-> In a (map addr L);
  q_size : forall x r, In x L -> blk G D (addr x) r -> size x <= r;
  q_nodup : NoDup (map addr L);
  q_data : forall x y, In x L -> addr x <= y -> y < addr x + size x -> mem s y = data x y;
  q_tight : rm = false -> tight s G D
}.
Lemma hist_inv rm s L : hist rm s L -> exists G D, J rm s L G D.
Proof.
  induction 1 as [junk b B1 B2 B3 | s L bytes v mm s' a H (G & D & Q) V FR E | s L bytes v mm s' H (G & D & Q) V FR E | s L1 x L2 mr s' H (G & D & Q) MR E | s L1 a n d L2 y w H (G & D & Q) Y1 Y2].
  - destruct (create_ok junk b B1 B2 B3) as (I & T). eexists _, _. constructor; [exact I | | intros x r [] | constructor | intros x y [] | intros _; exact T].
    intros a. cbn [map]. split; [|intros []]. intros (r & [(c & n & _ & _ & [H | []]) | (c & n & _ & _ & [])]). discriminate.
  - destruct Q as [I LV SZ ND DT TI]. destruct (malloc_ok s G D bytes v mm I V FR) as [(s1 & a1 & E1 & GT) | [(E1 & _) | (E1 & _)]]; rewrite E in E1; try discriminate.
    injection E1 as <- <-. destruct GT as (G' & D' & r & I' & LE & BI & NB & KP & TT & MS). exists G', D'.
    assert (BN : forall a' r', blk G D a' r' -> a' <> a) by (intros a' r' HB ->; apply (NB r'), HB).
    constructor; [exact I' | | | | | intros HR; apply TT, TI, HR].
    + intros a'. cbn [map addr In]. rewrite <- LV. split.
      * intros (r' & HB). apply BI in HB. destruct HB as [HB | (-> & _)]; [right; eauto | now left].
      * intros [<- | (r' & HB)]; [exists r; apply BI; right; auto | exists r'; apply BI; now left].
    + intros x r' [<- | HX] HB; cbn [addr size] in *; apply BI in HB.
      * destruct HB as [HB | (_ & ->)]; [exfalso; apply (NB r'), HB | exact LE].
      * destruct HB as [HB | (HA & ->)]; [apply (SZ _ _ HX HB)|]. exfalso. apply (in_map addr) in HX. apply LV in HX. destruct HX as (r1 & HX). apply (BN _ _ HX HA).
    + cbn [map addr]. constructor; [|exact ND]. intros HI. apply LV in HI. destruct HI as (r1 & HI). apply (NB _ HI).
    + intros x y [<- | HX] Y1 Y2; cbn [addr size data] in *; [reflexivity|]. rewrite <- (DT x y HX Y1 Y2).
      pose proof HX as HX'. apply (in_map addr), LV in HX'. destruct HX' as (r1 & HB). pose proof (SZ _ _ HX HB). apply (KP (addr x) r1); auto. lia.
  - destruct Q as [I LV SZ ND DT TI]. destruct (malloc_ok s G D bytes v mm I V FR) as [(s1 & a1 & E1 & GT) | [(E1 & _) | (E1 & _)]]; rewrite E in E1; try discriminate.
    injection E1 as ->. exists G, D. constructor; assumption.
  - destruct Q as [I LV SZ ND DT TI]. assert (IX : In x (L1 ++ x :: L2)) by apply in_elt.
    assert (SB : forall z, In z (L1 ++ L2) -> In z (L1 ++ x :: L2)) by (intros z HZ; apply in_app_or in HZ; apply in_or_app; destruct HZ; [now left | right; now right]).
    pose proof IX as HB. apply (in_map addr), LV in HB. destruct HB as (r & HB). destruct (mspace_free_ok mr s G D (addr x) r I HB) as (s1 & G' & D' & E1 & U).
    rewrite E in E1. injection E1 as <-. destruct U as (I' & BI & KP & TT & MS). exists G', D'.
    assert (NDX : NoDup (map addr (L1 ++ L2)) /\ ~ In (addr x) (map addr (L1 ++ L2))).
    { rewrite map_app in ND. cbn [map] in ND. apply NoDup_remove in ND. rewrite map_app. exact ND. }
    destruct NDX as (ND1 & ND2).
    assert (NX : forall z, In z (L1 ++ L2) -> addr z <> addr x) by (intros z HZ HE; apply ND2; rewrite <- HE; apply in_map, HZ).
    constructor; [exact I' | | | exact ND1 | | ].
    + intros a. split.
      * intros (r1 & H1). apply BI in H1. destruct H1 as (H1 & H2). assert (H3 : In a (map addr (L1 ++ x :: L2))) by (apply LV; eauto).
        rewrite map_app in H3 |- *. cbn [map] in H3. apply in_app_or in H3. apply in_or_app. destruct H3 as [H3 | [H3 | H3]]; [now left | congruence | now right].
      * intros H1. apply in_map_iff in H1. destruct H1 as (z & <- & HZ). pose proof (SB z HZ) as HZ'. apply (in_map addr), LV in HZ'. destruct HZ' as (r1 & H1).
        exists r1. apply BI. split; [exact H1 | apply NX, HZ].
    + intros z r1 HZ H1. apply BI in H1. apply (SZ z r1); [apply SB, HZ | apply H1].
    + intros z y HZ Y1 Y2. rewrite <- (DT z y (SB z HZ) Y1 Y2). pose proof (SB z HZ) as HZ'. apply (in_map addr), LV in HZ'. destruct HZ' as (r1 & H1).
      pose proof (SZ _ _ (SB z HZ) H1). apply (KP (addr z) r1); auto. lia.
    + intros HR. apply TT; [destruct mr; [rewrite MR in HR by reflexivity; discriminate | reflexivity] | apply TI, HR].
  - destruct Q as [I LV SZ ND DT TI]. set (x0 := mkb a n d) in *. assert (IX : In x0 (L1 ++ x0 :: L2)) by apply in_elt.
    pose proof IX as HB. apply (in_map addr), LV in HB. destruct HB as (r & HB). pose proof (SZ _ _ IX HB) as SX. cbn [x0 addr size] in HB, SX. exists G, D.
    assert (MP : map addr (L1 ++ mkb a n (wr_ d y w) :: L2) = map addr (L1 ++ x0 :: L2)) by (rewrite !map_app; reflexivity).
    assert (SB : forall z, In z (L1 ++ mkb a n (wr_ d y w) :: L2) -> z = mkb a n (wr_ d y w) \/ In z (L1 ++ L2)).
    { intros z HZ. rewrite in_app_iff in *. cbn [In] in HZ. intuition. }
    assert (SB2 : forall z, In z (L1 ++ L2) -> In z (L1 ++ x0 :: L2)) by (intros z HZ; rewrite in_app_iff in *; cbn [In]; tauto).
    constructor; [| rewrite MP; exact LV | | rewrite MP; exact ND | | intros HR; exact (TI HR)].
    + destruct I as [I1 I2 I3 I4]. constructor; try assumption. apply (core_store _ _ _ _ _ _ _ _ a r _ I2 HB). intros z HZ. cbn [set_mem mem]. apply wr_other. lia.
    + intros z r1 HZ H1. destruct (SB _ HZ) as [-> | HZ']; [cbn [addr size] in *; apply (SZ x0 r1 IX H1) | apply (SZ z r1 (SB2 _ HZ') H1)].
    + intros z y1 HZ Z1 Z2. cbn [set_mem mem]. destruct (SB _ HZ) as [-> | HZ'].
      * cbn [addr size data] in *. unfold wr_. destruct (y1 =? y); [reflexivity | apply (DT x0 y1 IX Z1 Z2)].
      * rewrite <- (DT z y1 (SB2 _ HZ') Z1 Z2). apply wr_other. intros ->.
        pose proof (SB2 _ HZ') as H1. apply (in_map addr), LV in H1. destruct H1 as (r1 & H1). pose proof (SZ _ _ (SB2 _ HZ') H1).
        assert (NE : a <> addr z).
        { intros HE. rewrite map_app in ND. cbn [map] in ND. apply NoDup_remove_2 in ND. apply ND. rewrite <- map_app. cbn [x0 addr]. rewrite HE. apply in_map, HZ'. }
        pose proof (blk_apart _ _ _ _ _ _ _ _ _ _ _ _ (i_core _ _ _ I) HB H1 NE) as P. unfold off in P. lia.
Qed.
