(** Release in the heap of [DlModel]: every path of mspace_free keeps the invariant of [DlInv].  No code of its own. *)
From Verif Require Import Base DlModel DlInv DlAlloc DlSys DlPre DlMalloc DlFree.
From Coq Require Import Lia.
Local Open Scope N_scope.
Arguments N.add : simpl never. Arguments N.sub : simpl never. Arguments N.mul : simpl never. Arguments N.div : simpl never.
Arguments N.modulo : simpl never. Arguments N.eqb : simpl never. Arguments N.ltb : simpl never. Arguments N.leb : simpl never.
Arguments N.odd : simpl never.

(** ** Coalescing *)
Lemma core_merge m tp ts lst pgf mst G1 g l1 X n2 k2 l2 G2 D m' :
  let x := sbase g + tot l1 in let nx := x + tot X in
  core m tp ts lst pgf mst (G1 ++ (g, l1 ++ X ++ (n2, k2) :: l2) :: G2) D ->
  (forall c, In c X -> snd c <> Fx) -> X <> [] -> (forall p q, rep m x p X nx q -> p = true) -> k2 <> Fr ->
  m' (x + 8) = tot X + 1 -> m' nx = tot X -> m' (nx + 8) = n2 + 2 -> (forall y, y < x + 8 \/ nx + 8 < y -> m' y = m y) ->
  core m' tp ts lst pgf mst (G1 ++ (g, l1 ++ [(tot X, Fr)] ++ (n2, k2) :: l2) :: G2) D.
Proof.
  intros x nx C XX XN PP K2 H1 H2 H3 F.
  apply (core_replace m tp ts lst pgf mst G1 g l1 X [(tot X, Fr)] n2 k2 l2 G2 D m' C); fold x; fold nx.
  - cbn [tot]. lia.
  - exact XX.
  - intros c [<- | []]. discriminate.
  - exact F.
  - intros p q R HQ _. pose proof (PP _ _ R) as ->. exists false. pose proof (rep_sizes _ _ _ _ _ _ R) as SZ. cbn [rep used bit].
    split; [|split; [rewrite H3; destruct k2; [congruence | |]; cbn [used bit]; lia | congruence]].
    assert (T32 : 32 <= tot X). { destruct X as [|[z kz] X']; [congruence|]. inversion SZ as [|? ? (S1 & _) _]; subst. cbn [tot fst] in *. lia. }
    split; [exact T32|]. split; [apply al_tot; exact SZ|]. split; [rewrite H1; lia|]. split; [auto|]. auto.
Qed.
Lemma upd_tiles mr s s' G G' D pa n : Inv s' G' D -> core_s s G D -> In (pa, n, Us) (tiles G) ->
  (forall c k, In (c, k, Us) (tiles G') <-> In (c, k, Us) (tiles G) /\ c <> pa) -> keeps G D (fun a => a <> pa + 16) (mem s) (mem s') ->
  (mr = false -> tight s G D -> tight s' G' D) -> mst s' = mst s /\ unms s s' -> upd mr s G D s' G' D (fun a => a <> pa + 16).
Proof.
  intros I C IT E K T M. split; [exact I|]. split; [|auto].
  intros a r. unfold blk. split.
  - intros [(c & k & -> & H & J) | (c & k & -> & H & J)].
    + apply E in J. destruct J as (J & NE). split; [left; eauto | lia].
    + split; [right; eauto|]. pose proof (tile_dir _ _ _ _ _ _ _ _ _ _ _ _ C IT J) as P. cbn [fst snd] in P.
      pose proof (tile_facts _ _ _ _ _ _ _ _ _ _ _ C IT) as (F1 & _). 
      pose proof (proj1 (Forall_forall _ _) (c_dirs _ _ _ _ _ _ _ _ C) _ J) as (_ & _ & _ & DD). cbn [snd] in DD. lia.
  - intros ([(c & k & -> & H & J) | H] & NE); [|now right]. left. exists c, k. rewrite E. repeat split; auto. intros ->. lia.
Qed.
(** The tiles [X], one of them a block, become [Y] without blocks. *)
Lemma finish_free mr s s' G1 g l1 X Y l3 G2 D pa n :
  let x := sbase g + tot l1 in let nx := x + tot X in
  let G := G1 ++ (g, l1 ++ X ++ l3) :: G2 in let G' := G1 ++ (g, l1 ++ Y ++ l3) :: G2 in
  core_s s G D -> map fst G = segs s -> foot s = sizes (regs G D) -> core_s s' G' D -> tot Y = tot X ->
  (forall c n', In (c, n', Us) (chunks x X) <-> c = pa /\ n' = n) -> (forall c n', ~ In (c, n', Us) (chunks x Y)) ->
  (forall y, y < x + 8 \/ nx + 8 < y -> mem s' y = mem s y) ->
  segs s' = segs s -> foot s' = foot s -> pg s' = pg s -> plog s' = plog s -> mst s' = mst s ->
  bins (dv s') (dvsize s') (sb s') (tb s') (tiles G') none -> upd mr s G D s' G' D (fun a => a <> pa + 16).
Proof.
  intros x nx G G' C S0 F0 C' T NX NY F S1 S2 S3 S5 S4 B.
  assert (IX : In (pa, n, Us) (chunks x X)) by (apply NX; auto).
  assert (IT : In (pa, n, Us) (tiles G)) by (apply tiles_rest; right; exact IX).
  pose proof (tile_facts _ _ _ _ _ _ _ _ _ _ _ C IT) as (F1 & _).
  apply (upd_tiles mr s s' G G' D pa n); auto.
  - constructor; [| exact C' | exact B |].
    + rewrite S1, <- S0. unfold G, G'. rewrite !map_app. reflexivity.
    + rewrite S2, F0. f_equal. apply core_reg.
  - intros c k. unfold G, G'. rewrite !tiles_rest. rewrite T. fold x nx. split.
    + intros [J | J]; [|now apply NY in J]. split; [now left|]. intros ->.
      pose proof (rest_apart _ _ _ _ _ _ _ _ _ _ _ _ _ _ _ _ C J) as AP. fold x nx in AP. apply chunks_range in IX. fold nx in IX.
      assert (J' : In (pa, k, Us) (tiles G)) by (apply tiles_rest; left; exact J). pose proof (tile_facts _ _ _ _ _ _ _ _ _ _ _ C J') as (F2 & _). lia.
    + intros ([J | J] & NE); [now left|]. apply NX in J. tauto.
  - intros a r y H HQ. apply (keeps_replace _ _ _ _ _ _ _ _ _ _ _ _ _ (mem s') C F a r y H). fold x nx.
    destruct H as [(c & k & -> & E & J) | (c & k & -> & E & J)].
    + pose proof (tile_facts _ _ _ _ _ _ _ _ _ _ _ C J) as (F2 & _). apply tiles_rest in J. fold x nx in J. destruct J as [J | J].
      * pose proof (rest_apart _ _ _ _ _ _ _ _ _ _ _ _ _ _ _ _ C J) as AP. fold x nx in AP. lia.
      * apply NX in J. destruct J as (-> & _). congruence.
    + pose proof (seg_in _ _ _ _ _ _ _ _ _ _ _ _ _ C) as SI.
      pose proof (geo_apartD _ _ _ _ _ _ _ (c_geo _ _ _ _ _ _ _ _ C) J) as P. unfold rdisj, reg, dreg in P. cbn [fst snd] in P. unfold nx, x. lia.
  - intros _ TI y PY. rewrite S3 in PY. destruct (TI _ PY) as (r & R1 & R2). exists r. split; [unfold G'; rewrite core_reg with (l' := l1 ++ X ++ l3); exact R1 | exact R2].
  - split; [exact S4 | apply unms_refl; assumption].
Qed.
(** the end: the chunk goes to a bin *)
Lemma bin_it_ok mr s G D s1 G1 Q p n : upd mr s G D (insert_chunk s1 p n) G1 D Q ->
  exists s' G', bin_it s1 p n = Ok s' /\ upd mr s G D s' G' D Q.
Proof.
  intros U. unfold bin_it, insert_chunk in *. destruct (is_small n); [eauto|].
  set (s2 := set_rchk (insert_large s1 p) (rchk (insert_large s1 p) - 1)).
  assert (U2 : upd mr s G D s2 G1 D Q). { destruct U as ([A1 A2 A3 A4] & U). split; [|exact U]. constructor; assumption. }
  destruct (rchk s2 =? 0); [|eauto]. destruct (release_unused_ok mr s2 G1 D (proj1 U2)) as (s3 & k & G3 & H1 & H2). rewrite H1. cbn [bind fst].
  eexists _, _. split; [reflexivity|]. exact (upd_trans _ _ _ _ _ _ _ _ _ _ _ U2 H2).
Qed.
Lemma last_used m x p X n nx q : rep m x p (X ++ [(n, Us)]) nx q -> q = true.
Proof. intros R. apply rep_app in R. destruct R as (z & _ & R). cbn [rep used] in R. destruct R as (_ & _ & _ & _ & _ & <-). reflexivity. Qed.
Lemma outside m tp ts lst pgf mst G1 g l1 X l3 G2 D pa n a r :
  let x := sbase g + tot l1 in let nx := x + tot X in
  core m tp ts lst pgf mst (G1 ++ (g, l1 ++ X ++ l3) :: G2) D -> (forall c n', In (c, n', Us) (chunks x X) <-> c = pa /\ n' = n) ->
  blk (G1 ++ (g, l1 ++ X ++ l3) :: G2) D a r -> a <> pa + 16 -> a < x + 16 \/ nx + 16 <= a.
Proof.
  intros x nx C NX [(c & k & -> & E & J) | (c & k & -> & E & J)] NE.
  - pose proof (tile_facts _ _ _ _ _ _ _ _ _ _ _ C J) as (F2 & _). apply tiles_rest in J. fold x nx in J. destruct J as [J | J].
    + pose proof (rest_apart _ _ _ _ _ _ _ _ _ _ _ _ _ _ _ _ C J) as AP. fold x nx in AP. lia.
    + apply NX in J. destruct J as (-> & _). congruence.
  - pose proof (seg_in _ _ _ _ _ _ _ _ _ _ _ _ _ C) as SI.
    pose proof (geo_apartD _ _ _ _ _ _ _ (c_geo _ _ _ _ _ _ _ _ C) J) as P. unfold rdisj, reg, dreg in P. cbn [fst snd] in P. unfold nx, x. lia.
Qed.
Lemma merge_done mr s s' G1 g l1 X n2 k2 l2 G2 D pa n d ds sbf tbl :
  let x := sbase g + tot l1 in let nx := x + tot X in let G := G1 ++ (g, l1 ++ X ++ (n2, k2) :: l2) :: G2 in
  Inv s G D -> (forall c, In c X -> snd c <> Fx) -> X <> [] -> (forall p q, rep (mem s) x p X nx q -> p = true) -> k2 <> Fr ->
  (forall c n', In (c, n', Us) (chunks x X) <-> c = pa /\ n' = n) ->
  mem s' (x + 8) = tot X + 1 -> mem s' nx = tot X -> mem s' (nx + 8) = n2 + 2 -> (forall y, y < x + 8 \/ nx + 8 < y -> mem s' y = mem s y) ->
  s' = mk (mem s') (segs s) (top s) (topsize s) (dv s') (dvsize s') (sb s') (tb s') (least s) (rchk s) (trimc s) (foot s) (mst s) (pg s) (plog s) ->
  bins d ds sbf tbl (tiles G) (fun a => exists n', In (a, n', Fr) (chunks x X)) ->
  (forall T, tok T -> In (x, tot X, Fr) T -> bins d ds sbf tbl T (eq x) -> bins (dv s') (dvsize s') (sb s') (tb s') T none) ->
  exists G', upd mr s G D s' G' D (fun a => a <> pa + 16).
Proof.
  intros x nx G I XX XN PP K2 NX H1 H2 H3 F E' B B'. exists (G1 ++ (g, l1 ++ [(tot X, Fr)] ++ (n2, k2) :: l2) :: G2).
  pose proof (i_core _ _ _ I) as C.
  pose proof (core_merge (mem s) _ _ _ _ _ _ _ _ _ _ _ _ _ _ (mem s') C XX XN PP K2 H1 H2 H3 F) as C1.
  assert (C' : core_s s' (G1 ++ (g, l1 ++ [(tot X, Fr)] ++ (n2, k2) :: l2) :: G2) D) by (unfold core_s; rewrite E'; exact C1).
  assert (TT : tot [(tot X, Fr)] = tot X) by (cbn [tot]; lia).
  apply (finish_free mr s s' G1 g l1 X [(tot X, Fr)] ((n2, k2) :: l2) G2 D pa n); auto.
  - exact (i_segs _ _ _ I).
  - exact (i_foot _ _ _ I).
  - intros c n'. apply free_nous.
  - rewrite E'. reflexivity.
  - rewrite E'. reflexivity.
  - rewrite E'. reflexivity.
  - rewrite E'. reflexivity.
  - rewrite E'. reflexivity.
  - apply B'.
    + apply (core_tok _ _ _ _ _ _ _ _ C1).
    + apply tiles_rest. right. left. reflexivity.
    + eapply bins_L; [intros a; symmetry; apply (one_free x (tot X))|].
      refine (bins_replace _ _ _ _ _ _ _ _ _ _ X [(tot X, Fr)] _ _ _ _ _ _ _ _ C C1 TT B _). tauto.
Qed.
Lemma insert_done s T p n d ds (L : N -> Prop) : tok T -> In (p, n, Fr) T -> (forall a, L a <-> a = p) -> dv s = d -> dvsize s = ds ->
  bins d ds (sb s) (tb s) T L ->
  bins (dv (insert_chunk s p n)) (dvsize (insert_chunk s p n)) (sb (insert_chunk s p n)) (tb (insert_chunk s p n)) T none.
Proof.
  intros TK IT LL ED EDS B. assert (LP : L p) by (apply LL; reflexivity). subst d ds.
  assert (ND : p <> dv s).
  { intros X. destruct (b_dv _ _ _ _ _ _ B) as [(H & _) | (_ & H)]; [apply (proj1 TK) in IT; lia | apply H; rewrite <- X; exact LP]. }
  destruct (bins_insert s T p n (dv s) (dvsize s) L TK IT ND LP B) as (s4 & J1 & J2 & J3). rewrite J1.
  assert (ED : dv s4 = dv s) by (rewrite J2; reflexivity). assert (EDS : dvsize s4 = dvsize s) by (rewrite J2; reflexivity).
  rewrite ED, EDS. eapply bins_L; [|exact J3]. unfold none. intros a. cbn. rewrite LL. tauto.
Qed.
Lemma setdv_done p n sbf tbl T : tok T -> In (p, n, Fr) T -> bins 0 0 sbf tbl T (eq p) -> bins p n sbf tbl T none.
Proof.
  intros TK IT B. apply (bins_setdv p n) in B; auto. eapply bins_L; [|exact B]. unfold none. intros a. cbn. split; [intros (<- & H); apply H; reflexivity | tauto].
Qed.
Definition pre (X0 : list (N * kind)) : Prop := X0 = [] \/ exists n, X0 = [(n, Fr)].
Lemma pre_us x X0 n : pre X0 -> forall c k, In (c, k, Us) (chunks x (X0 ++ [(n, Us)])) <-> c = x + tot X0 /\ k = n.
Proof.
  intros [-> | (z & ->)] c k; cbn [app chunks In tot]; rewrite ?N.add_0_r; (split; [intros H | intros (-> & ->); auto]).
  - destruct H as [H | []]. injection H as <- <-. auto.
  - destruct H as [H | [H | []]]; [congruence|]. injection H as <- <-. auto.
Qed.
Lemma pre_nofx X0 n : pre X0 -> forall c, In c (X0 ++ [(n, Us)]) -> snd c <> Fx.
Proof. intros [-> | (z & ->)] c; cbn [app In]; [intros [<- | []] | intros [<- | [<- | []]]]; discriminate. Qed.
Lemma free_fwd_ok mr s0 s G1 g l1 X0 n l3 G2 D d ds :
  let X := X0 ++ [(n, Us)] in let x := sbase g + tot l1 in let nx := x + tot X in let G := G1 ++ (g, l1 ++ X ++ l3) :: G2 in
  Inv s0 G D -> pre X0 -> (forall p q, rep (mem s0) x p X nx q -> p = true) ->
  s = mk (mem s0) (segs s0) (top s0) (topsize s0) (dv s0) (dvsize s0) (sb s) (tb s) (least s0) (rchk s0) (trimc s0) (foot s0) (mst s0) (pg s0) (plog s0) ->
  bins d ds (sb s) (tb s) (tiles G) (fun a => exists n', In (a, n', Fr) (chunks x X)) ->
  ((d = dv s0 /\ ds = dvsize s0 /\ dv s0 <> x) \/ (d = 0 /\ ds = 0 /\ dv s0 = x /\ match l3 with [] => True | (_, k2) :: _ => k2 = Fr end)) ->
  exists s' G', free_fwd s x (tot X) nx mr = Ok s' /\ upd mr s0 G D s' G' D (fun a => a <> x + tot X0 + 16).
Proof.
  intros X x nx G I PX PP ES B DD. pose proof (i_core _ _ _ I) as C. pose proof (core_tok _ _ _ _ _ _ _ _ C) as TK.
  assert (NX : forall c n', In (c, n', Us) (chunks x X) <-> c = x + tot X0 /\ n' = n) by (apply pre_us, PX).
  assert (XX : forall c, In c X -> snd c <> Fx) by (apply pre_nofx, PX).
  assert (XN : X <> []) by (unfold X; destruct X0; discriminate).
  pose proof (segs_ok_pos _ _ _ _ _ _ (c_segs _ _ _ _ _ _ _ _ C)) as PK.
  destruct (pos_ok_rep _ _ _ _ _ PK) as (e & R & EE & RT). cbn [fst snd] in R, EE, RT. apply rep_app in R. destruct R as (pn & R1 & R2). fold x in R1, R2.
  apply rep_app in R2. destruct R2 as (qn & R2 & R3). fold nx in R2, R3. pose proof (PP _ _ R2) as ->. pose proof (last_used _ _ _ _ _ _ _ R2) as ->.
  assert (T32 : 32 <= tot X).
  { pose proof (rep_sizes _ _ _ _ _ _ R2) as SZ. destruct X as [|[z kz] X']; [congruence|]. inversion SZ as [|? ? (S1 & _) _]; subst. cbn [tot fst] in *. lia. }
  unfold free_fwd. replace (x <? nx) with true by (symmetry; apply N.ltb_lt; unfold nx; lia). cbn [andb].
  assert (HE : forall y, head s y = mem s0 (y + 8)) by (intros y; unfold head; rewrite ES; reflexivity).
  unfold pinuse, cinuse. rewrite HE.
  destruct l3 as [|[n2 k2] l4].
  - (* top *)
    cbn [rep] in R3. destruct R3 as (<- & _).
    assert (G1 = []) as ->.
    { destruct G1; [reflexivity|]. destruct PK as ((l' & H) & _). cbn [snd] in H. exfalso. unfold X in H. rewrite app_nil_r, app_assoc in H. apply app_inj_tail in H. destruct H. congruence. }
    clear PK. destruct (RT eq_refl) as (ET & E2). clear RT. cbn [app] in G.
    destruct (head_reg _ _ _ _ _ _ _ _ _ _ C) as (E & _ & T1 & T2 & T3 & T4 & R & RG).
    rewrite ET, T3. replace (topsize s0 + 1) with (topsize s0 + 2 * bit false + bit true) by (cbn [bit]; lia). rewrite hd_odd, hd_odd2 by exact T2. cbn [negb].
    assert (TS : top s = top s0) by (rewrite ES; reflexivity). assert (TSS : topsize s = topsize s0) by (rewrite ES; reflexivity). assert (DS : dv s = dv s0) by (rewrite ES; reflexivity). rewrite TS, N.eqb_refl, TSS.
    change (dv (set_head (set_top s x (topsize s0 + tot X)) x (topsize s0 + tot X + 1))) with (dv s). rewrite DS.
    set (s1 := set_head (set_top s x (topsize s0 + tot X)) x (topsize s0 + tot X + 1)).
    set (s2 := if x =? dv s0 then set_dv s1 0 0 else s1).
    assert (E2' : s2 = mk (wr_ (mem s0) (x + 8) (topsize s0 + tot X + 1)) (segs s0) x (topsize s0 + tot X) d ds (sb s) (tb s) (least s0) (rchk s0) (trimc s0) (foot s0) (mst s0) (pg s0) (plog s0)).
    { unfold s2, s1. rewrite ES. destruct DD as [(-> & -> & ND) | (-> & -> & ED & _)].
      - replace (x =? dv s0) with false by (symmetry; apply N.eqb_neq; congruence). reflexivity.
      - rewrite ED, N.eqb_refl. reflexivity. }
    assert (U : upd mr s0 G D s2 ((g, l1) :: G2) D (fun a => a <> x + tot X0 + 16)).
    { assert (TL : forall c, In c (tiles G) <-> In c (tiles ((g, l1) :: G2)) \/ In c (chunks x X)).
      { intros c. unfold G. cbn [tiles flat_map fst snd]. rewrite app_nil_r, chunks_app, !in_app_iff. fold x. tauto. }
      assert (C2 : core_s s2 ((g, l1) :: G2) D).
      { unfold core_s. rewrite E2'. cbn [mem top topsize least pg mst]. unfold G in C. rewrite app_nil_r in C.
        apply (core_top_eat (mem s0) (top s0) (topsize s0) _ _ _ g l1 X G2 D _ C R1 XX); fold x; [apply wr_same|]. intros y Y. apply wr_other. lia. }
      assert (IX : In (x + tot X0, n, Us) (tiles G)) by (apply TL; right; apply NX; auto).
      assert (AP : forall a k kk, In (a, k, kk) (tiles ((g, l1) :: G2)) -> a + k <= x \/ nx <= a).
      { intros a k kk J. pose proof (top_apart _ _ _ _ _ _ _ _ _ _ _ C2 J) as P. rewrite E2' in P. cbn [top topsize] in P. lia. }
      apply (upd_tiles mr s0 s2 G ((g, l1) :: G2) D (x + tot X0) n); auto.
      - constructor; [| exact C2 | |].
        + rewrite E2'. cbn [segs]. rewrite <- (i_segs _ _ _ I). reflexivity.
        + rewrite E2'. cbn [dv dvsize sb tb].
          refine (bins_tiles _ _ _ _ (tiles G) _ (fun c => In c (tiles ((g, l1) :: G2))) (chunks x X) [] _ none TL _ _ _ _ B).
          * intros c. cbn [In]. tauto.
          * intros a k kk J. split; [|tauto]. intros (k' & J'). pose proof (AP _ _ _ J) as P.
            pose proof (tile_facts _ _ _ _ _ _ _ _ _ _ _ C2 J) as (F1 & _).
            assert (J2 : In (a, k', Fr) (tiles G)) by (apply TL; now right). pose proof (tile_facts _ _ _ _ _ _ _ _ _ _ _ C J2) as (F2 & _).
            apply chunks_range in J'. fold nx in J'. lia.
          * intros a k J. eauto.
          * intros a k [].
        + rewrite E2'. cbn [foot]. apply (i_foot _ _ _ I).
      - intros c k. rewrite TL, NX. split.
        + intros J. split; [now left|]. intros ->. pose proof (AP _ _ _ J) as P. pose proof (tile_facts _ _ _ _ _ _ _ _ _ _ _ C2 J) as (F1 & _).
          pose proof (proj2 (NX (x + tot X0) n) (conj eq_refl eq_refl)) as JX. pose proof (tile_facts _ _ _ _ _ _ _ _ _ _ _ C IX) as (F2 & _).
          apply chunks_range in JX. fold nx in JX. lia.
        + intros ([J | (-> & _)] & NE); [exact J | congruence].
      - intros a r y H HQ Y1 Y2. rewrite E2'. cbn [mem]. refine (keeps_replace _ _ _ _ _ _ [] g l1 X [] G2 D _ C _ a r y H _ Y1 Y2); fold x; fold nx.
        + intros z Z. apply wr_other. lia.
        + exact (outside _ _ _ _ _ _ [] g l1 X [] G2 D _ n a r C NX H HQ).
      - intros _ T z HZ. rewrite E2' in HZ. cbn [pg] in HZ. exact (T z HZ).
      - rewrite E2'. split; [reflexivity | apply unms_refl; reflexivity]. }
    destruct (trimc s2 <? topsize s0 + tot X); [|eauto].
    destruct (sys_trim_ok s2 mr _ _ (proj1 U)) as (s3 & G3 & H1 & H2). rewrite H1. eexists _, _. split; [reflexivity|]. exact (upd_trans _ _ _ _ _ _ _ _ _ _ _ U H2).
  - cbn [rep] in R3. destruct R3 as (A1 & A2 & A3 & A4 & A5). rewrite A3, hd_odd, hd_odd2 by exact A2.
    destruct (used k2) eqn:EK; cbn [negb].
    + (* the next is in use *)
      assert (K2 : k2 <> Fr) by (destruct k2; [discriminate | congruence | congruence]).
      destruct DD as [(ED & EDS & ND) | (_ & _ & _ & H)]; [|congruence]. subst d ds.
      set (s1 := set_free_with_pinuse s x (tot X) nx).
      assert (MM : mem s1 = wr_ (wr_ (wr_ (mem s0) (nx + 8) (n2 + 2)) (x + 8) (tot X + 1)) (x + tot X) (tot X)).
      { unfold s1, set_free_with_pinuse. rewrite HE, A3. rewrite not_pin_hd by exact A2. rewrite ES. reflexivity. }
      assert (E1 : s1 = mk (mem s1) (segs s0) (top s0) (topsize s0) (dv s0) (dvsize s0) (sb s) (tb s) (least s0) (rchk s0) (trimc s0) (foot s0) (mst s0) (pg s0) (plog s0)).
      { unfold s1. rewrite ES. reflexivity. }
      destruct (merge_done mr s0 (insert_chunk s1 x (tot X)) G1 g l1 X n2 k2 l4 G2 D (x + tot X0) n (dv s0) (dvsize s0) (sb s) (tb s)) as (G' & U); auto.
      * assert (ME : mem (insert_chunk s1 x (tot X)) = mem s1) by (unfold insert_chunk; destruct (is_small (tot X)); reflexivity). rewrite ME, MM. fold x. rewrite wr_other by lia. apply wr_same.
      * assert (ME : mem (insert_chunk s1 x (tot X)) = mem s1) by (unfold insert_chunk; destruct (is_small (tot X)); reflexivity). rewrite ME, MM. fold x. apply wr_same.
      * assert (ME : mem (insert_chunk s1 x (tot X)) = mem s1) by (unfold insert_chunk; destruct (is_small (tot X)); reflexivity). rewrite ME, MM. fold x. fold nx. rewrite !wr_other by lia. apply wr_same.
      * assert (ME : mem (insert_chunk s1 x (tot X)) = mem s1) by (unfold insert_chunk; destruct (is_small (tot X)); reflexivity). intros y Y. fold x in Y. fold nx in Y. rewrite ME, MM, !wr_other by lia. reflexivity.
      * unfold insert_chunk. destruct (is_small (tot X)); unfold insert_small, insert_large, set_sb, set_tb; rewrite E1; reflexivity.
      * intros T TKT IT BT. fold x in IT, BT. refine (insert_done s1 T x (tot X) (dv s0) (dvsize s0) (eq x) TKT IT _ _ _ _); [intros a; split; congruence | rewrite E1; reflexivity | rewrite E1; reflexivity | rewrite E1; exact BT].
      * apply (bin_it_ok mr s0 G D s1 G'). exact U.
    + (* the next is free *)
      assert (k2 = Fr) as -> by (destruct k2; [reflexivity | discriminate | discriminate]). clear EK.
      pose proof C as C0. unfold G in C0. rewrite app_assoc in C0. destruct (free_tile _ _ _ _ _ _ G1 g (l1 ++ X) n2 l4 G2 D C0) as (_ & _ & n3 & k3 & l5 & -> & K3 & F3 & F4 & F5).
      rewrite tot_app, N.add_assoc in F3. fold x in F3. fold nx in F3.
      assert (IN2 : In (nx, n2, Fr) (tiles G)).
      { unfold G. rewrite app_assoc. pose proof (tiles_mid G1 g (l1 ++ X) n2 Fr ((n3, k3) :: l5) G2) as H. rewrite tot_app, N.add_assoc in H. exact H. }
      assert (TS : top s = top s0) by (rewrite ES; reflexivity). assert (DS : dv s = dv s0) by (rewrite ES; reflexivity). assert (DSS : dvsize s = dvsize s0) by (rewrite ES; reflexivity).
      assert (NT : nx <> top s).
      { rewrite TS. intros H. pose proof (top_apart _ _ _ _ _ _ _ _ _ _ _ C IN2). lia. }
      apply N.eqb_neq in NT. rewrite NT. rewrite DS, DSS.
      set (X2 := X ++ [(n2, Fr)]). assert (T2 : tot X2 = tot X + n2) by (unfold X2; rewrite tot_app; cbn [tot]; lia).
      assert (EG : G = G1 ++ (g, l1 ++ X2 ++ (n3, k3) :: l5) :: G2) by (unfold G, X2; rewrite <- app_assoc; reflexivity).
      assert (NX2 : forall c n', In (c, n', Us) (chunks x X2) <-> c = x + tot X0 /\ n' = n).
      { intros c n'. unfold X2. rewrite chunks_app, in_app_iff, NX. cbn [chunks In]. split; [intros [H | [H | []]]; [exact H | congruence] | tauto]. }
      assert (XX2 : forall c, In c X2 -> snd c <> Fx).
      { intros c H. apply in_app_or in H. destruct H as [H | [<- | []]]; [apply XX, H | discriminate]. }
      assert (XN2 : X2 <> []) by (unfold X2; destruct X; discriminate).
      assert (PP2 : forall p q, rep (mem s0) x p X2 (x + tot X2) q -> p = true).
      { intros p q H. unfold X2 in H. apply rep_app in H. destruct H as (q1 & H & _). exact (PP _ _ H). }
      assert (LX2 : forall a, (exists n', In (a, n', Fr) (chunks x X)) \/ a = nx <-> exists n', In (a, n', Fr) (chunks x X2)).
      { intros a. unfold X2. rewrite chunks_app. fold nx. cbn [chunks]. split.
        - intros [(n' & H) | ->]; [exists n'; apply in_or_app; now left | exists n2; apply in_or_app; right; now left].
        - intros (n' & H). apply in_app_or in H. destruct H as [H | [H | []]]; [left; eauto | right; congruence]. }
      assert (NLX : ~ exists n', In (nx, n', Fr) (chunks x X)).
      { intros (n' & H). assert (HT : In (nx, n', Fr) (tiles G)) by (apply tiles_rest; right; exact H). apply (proj1 TK) in HT. apply chunks_range in H. fold nx in H. lia. }
      assert (NXE : x + tot X2 = nx + n2) by (unfold nx; lia).
      destruct (nx =? dv s0) eqn:ED.
      * apply N.eqb_eq in ED. destruct DD as [(E1 & E1' & ND) | (_ & _ & H & _)]; [subst d ds | exfalso; unfold nx in ED; lia].
        assert (IV : In (dv s0, dvsize s0, Fr) (tiles G)).
        { destruct (b_dv _ _ _ _ _ _ (i_bins _ _ _ I)) as [(H & _) | (H & _)]; [apply (proj1 TK) in IN2; lia | exact H]. }
        rewrite <- ED in IV. destruct (proj2 TK _ _ _ _ _ IN2 IV) as (EN2 & _). rewrite <- EN2.
        rewrite <- ED in B. rewrite <- EN2 in B. destruct (bins_undv' _ _ _ _ _ _ TK IN2 B) as (_ & B').
        eexists. set (s1 := set_free_chunk _ _ _).
        assert (MM : mem s1 = wr_ (wr_ (mem s0) (x + 8) (tot X2 + 1)) (x + tot X2) (tot X2)).
        { replace (tot X2) with (n2 + tot X) by lia. unfold s1. rewrite ES. reflexivity. }
        destruct (merge_done mr s0 s1 G1 g l1 X2 n3 k3 l5 G2 D (x + tot X0) n 0 0 (sb s) (tb s)) as (G' & U); auto.
        -- rewrite <- EG. exact I.
        -- rewrite MM. fold x. rewrite wr_other by lia. apply wr_same.
        -- rewrite MM. fold x. apply wr_same.
        -- rewrite MM. fold x. rewrite !wr_other by lia. rewrite NXE. exact F3.
        -- intros y Y. fold x in Y. rewrite MM, !wr_other by lia. reflexivity.
        -- unfold s1. rewrite ES. reflexivity.
        -- rewrite <- EG. eapply bins_L; [apply LX2|]. exact B'.
        -- intros T TKT IT BT. fold x in IT, BT. change (bins x (n2 + tot X) (sb s) (tb s) T none). replace (n2 + tot X) with (tot X2) by lia. apply setdv_done; auto.
        -- exists G'. split; [reflexivity|]. rewrite EG. exact U.
      * apply N.eqb_neq in ED.
        assert (HC : chunksize s nx = n2).
        { unfold chunksize. rewrite HE, A3. apply hd_size. exact A2. }
        rewrite HC.
        assert (NDD : nx <> d) by (destruct DD as [(-> & _) | (-> & _)]; [exact ED | apply (proj1 TK) in IN2; lia]).
        destruct (unlink_ok s (tiles G) nx n2 d ds _ TK IN2 NDD NLX B) as (s2 & U1 & U2 & U3). rewrite U1. cbn [bind].
        replace (tot X + n2) with (tot X2) by lia. set (s3 := set_free_chunk s2 x (tot X2)).
        assert (E3 : s3 = mk (mem s3) (segs s0) (top s0) (topsize s0) (dv s0) (dvsize s0) (sb s2) (tb s2) (least s0) (rchk s0) (trimc s0) (foot s0) (mst s0) (pg s0) (plog s0)).
        { unfold s3. rewrite U2, ES. reflexivity. }
        assert (MM : mem s3 = wr_ (wr_ (mem s0) (x + 8) (tot X2 + 1)) (x + tot X2) (tot X2)).
        { unfold s3. rewrite U2. cbn [set_free_chunk set_head set_mem mem]. rewrite ES. reflexivity. }
        assert (DS3 : dv s3 = dv s0) by (rewrite E3; reflexivity). rewrite DS3.
        assert (M1 : mem s3 (x + 8) = tot X2 + 1) by (rewrite MM, wr_other by lia; apply wr_same).
        assert (M2 : mem s3 (x + tot X2) = tot X2) by (rewrite MM; apply wr_same).
        assert (M3 : mem s3 (x + tot X2 + 8) = n3 + 2) by (rewrite MM, !wr_other by lia; rewrite NXE; exact F3).
        assert (M4 : forall y, y < x + 8 \/ x + tot X2 + 8 < y -> mem s3 y = mem s0 y) by (intros y Y; rewrite MM, !wr_other by lia; reflexivity).
        assert (U3' : bins d ds (sb s2) (tb s2) (tiles G) (fun a => exists n', In (a, n', Fr) (chunks x X2))).
        { eapply bins_L; [apply LX2|]. exact U3. }
        destruct (x =? dv s0) eqn:EX.
        -- apply N.eqb_eq in EX. destruct DD as [(_ & _ & H) | (-> & -> & _ & _)]; [congruence|].
           destruct (merge_done mr s0 (set_dv s3 x (tot X2)) G1 g l1 X2 n3 k3 l5 G2 D (x + tot X0) n 0 0 (sb s2) (tb s2)) as (G' & U); auto.
           ++ rewrite <- EG. exact I.
           ++ rewrite E3. reflexivity.
           ++ rewrite <- EG. exact U3'.
           ++ intros T TKT IT BT. fold x in IT, BT. rewrite E3. cbn [set_dv dv dvsize sb tb]. apply setdv_done; auto.
           ++ eexists _, G'. split; [reflexivity|]. rewrite EG. exact U.
        -- apply N.eqb_neq in EX. destruct DD as [(-> & -> & _) | (_ & _ & H & _)]; [|congruence].
           assert (ME : mem (insert_chunk s3 x (tot X2)) = mem s3) by (unfold insert_chunk; destruct (is_small (tot X2)); reflexivity).
           destruct (merge_done mr s0 (insert_chunk s3 x (tot X2)) G1 g l1 X2 n3 k3 l5 G2 D (x + tot X0) n (dv s0) (dvsize s0) (sb s2) (tb s2)) as (G' & U); auto; try (rewrite ME; assumption).
           ++ rewrite <- EG. exact I.
           ++ unfold insert_chunk. destruct (is_small (tot X2)); unfold insert_small, insert_large, set_sb, set_tb; rewrite E3; reflexivity.
           ++ rewrite <- EG. exact U3'.
           ++ intros T TKT IT BT. fold x in IT, BT. refine (insert_done s3 T x (tot X2) (dv s0) (dvsize s0) (eq x) TKT IT _ _ _ _); [intros a; split; congruence | rewrite E3; reflexivity | rewrite E3; reflexivity | rewrite E3; exact BT].
           ++ rewrite EG. apply (bin_it_ok mr s0 _ D s3 G'). exact U.
Qed.

(** ** mspace_free *)
Lemma prev_free m a l e : rep m a true l e false -> exists l' n, l = l' ++ [(n, Fr)] /\ m e = n /\ rep m a true l' (a + tot l') true /\ 32 <= n.
Proof.
  intros R. destruct l as [|c l0]; [destruct R; discriminate|]. destruct (@exists_last _ (c :: l0)) as (l' & [n k] & E); [discriminate|]. rewrite E in *. clear E c l0.
  pose proof (rep_end _ _ _ _ _ _ R) as EE. rewrite tot_app in EE. cbn [tot] in EE.
  destruct (rep_at _ _ _ _ _ _ _ _ _ R) as (p & H1 & H2 & H3 & H4 & H5 & H6). cbn [rep] in H6. destruct H6 as (H6 & H7).
  assert (k = Fr) as -> by (destruct k; [reflexivity | discriminate | discriminate]). destruct (H5 eq_refl) as (-> & H8). exists l', n.
  split; [reflexivity|]. split; [replace e with (a + tot l' + n) by lia; exact H8|]. auto.
Qed.
Lemma bits_inv n u p : n mod 16 = 0 -> (n + 2 * bit u + bit p) mod 4 =? 3 = (u && p)%bool.
Proof. intros H. rewrite hd_mod4 by exact H. destruct u, p; reflexivity. Qed.
Lemma free_tile_ok mr s G D c n : Inv s G D -> In (c, n, Us) (tiles G) ->
  exists s' G', free s c mr = Ok s' /\ upd mr s G D s' G' D (fun a => a <> c + 16).
Proof.
  intros I IT. pose proof (i_core _ _ _ I) as C. pose proof (core_tok _ _ _ _ _ _ _ _ C) as TK.
  pose proof (tile_facts _ _ _ _ _ _ _ _ _ _ _ C IT) as (F1 & F2 & F3 & F4 & F5 & F6).
  destruct (tiles_split _ _ _ _ IT) as (G1 & g & l1 & l2 & G2 & EG & EC). subst G.
  pose proof (segs_ok_pos _ _ _ _ _ _ (c_segs _ _ _ _ _ _ _ _ C)) as PK.
  destruct (pos_ok_rep _ _ _ _ _ PK) as (e & R & EE & RT). cbn [fst snd] in R, EE, RT.
  destruct (rep_at _ _ _ _ _ _ _ _ _ R) as (p & H1 & _ & _ & H4 & _ & H6). rewrite <- EC in H1, H4, H6. cbn [used] in *.
  unfold free. replace (least s <=? c) with true by (symmetry; apply N.leb_le; exact F5). cbn [andb].
  assert (HE : head s c = n + 2 * bit true + bit p) by exact H4.
  unfold is_inuse, chunksize, pinuse, is_mmapped. rewrite HE, hd_mod4, hd_size, hd_odd by exact F2.
  destruct p; cbn [bit].
  - change (negb (2 * 1 + 1 =? 1)) with true. cbv iota.
    assert (ND : dv s <> c).
    { intros ED. destruct (b_dv _ _ _ _ _ _ (i_bins _ _ _ I)) as [(H & _) | (H & _)]; [lia|]. rewrite ED in H. destruct (proj2 TK _ _ _ _ _ IT H). congruence. }
    pose proof (free_fwd_ok mr s s G1 g l1 [] n l2 G2 D (dv s) (dvsize s)) as FW. cbn [app tot] in FW. rewrite <- EC in FW. rewrite !N.add_0_r in FW.
    apply FW; auto.
    + left. reflexivity.
    + intros p q HR. cbn [rep used] in HR. destruct HR as (_ & _ & HR & _). change (mem s (c + 8)) with (head s c) in HR. rewrite HE in HR. destruct p; [reflexivity|]. cbn [bit] in HR. lia.
    + destruct s; reflexivity.
    + eapply bins_L; [apply (none_used c n)|]. exact (i_bins _ _ _ I).
  - change (negb (2 * 1 + 0 =? 1)) with true. change (2 * 1 + 0 =? 0) with false. cbv iota.
    destruct (prev_free _ _ _ _ H1) as (l' & pn & -> & FT & RL & P32). change (prev_foot s c) with (mem s c). rewrite FT.
    set (x := sbase g + tot l') in *. rewrite tot_app in EC. cbn [tot] in EC.
    assert (EX : c - pn = x) by (unfold x; lia). rewrite EX.
    rewrite <- app_assoc in C, IT, I, TK |- *. cbn [app] in C, IT, I, TK |- *.
    assert (IP : In (x, pn, Fr) (tiles (G1 ++ (g, l' ++ (pn, Fr) :: (n, Us) :: l2) :: G2))) by (apply tiles_mid).
    pose proof (tile_facts _ _ _ _ _ _ _ _ _ _ _ C IP) as (P1 & P2 & P3 & P4 & P5 & P6).
    replace (least s <=? x) with true by (symmetry; apply N.leb_le; exact P5).
    assert (NX : c + n = x + (pn + (n + 0))) by (unfold x; lia). assert (NT : n + pn = pn + (n + 0)) by lia.
    assert (PRE : pre [(pn, Fr)]) by (right; eauto).
    assert (PP : forall p q, rep (mem s) x p [(pn, Fr); (n, Us)] (x + (pn + (n + 0))) q -> p = true).
    { intros p q HR. cbn [rep] in HR. destruct HR as (_ & _ & _ & HR & _). apply HR. reflexivity. }
    assert (LX : forall a, a = x <-> exists n', In (a, n', Fr) (chunks x [(pn, Fr); (n, Us)])).
    { intros a. cbn [chunks In]. split; [intros ->; eauto | intros (n' & [H | [H | []]]); congruence]. }
    pose proof (free_fwd_ok mr s) as FW. 
    assert (CE : x + (pn + 0) + 16 = c + 16) by (unfold x; lia).
    destruct (x =? dv s) eqn:ED; cbn [negb].
    + apply N.eqb_eq in ED.
      assert (IV : In (dv s, dvsize s, Fr) (tiles (G1 ++ (g, l' ++ (pn, Fr) :: (n, Us) :: l2) :: G2))).
      { destruct (b_dv _ _ _ _ _ _ (i_bins _ _ _ I)) as [(H & _) | (H & _)]; [lia | exact H]. }
      pose proof (bins_undv _ _ _ _ _ TK IV (i_bins _ _ _ I)) as B0. rewrite <- ED in B0.
      assert (B1 : bins 0 0 (sb s) (tb s) (tiles (G1 ++ (g, l' ++ (pn, Fr) :: (n, Us) :: l2) :: G2)) (fun a => exists n', In (a, n', Fr) (chunks x [(pn, Fr); (n, Us)]))).
      { eapply bins_L; [apply LX|]. eapply bins_L; [|exact B0]. intros a. split; congruence. }
      destruct (head s (c + n) mod 4 =? 3) eqn:EH.
      * (* dv grows *)
        destruct l2 as [|[n2 k2] l4].
        { exfalso. cbn [rep] in H6. destruct H6 as (H6 & _). 
          assert (G1 = []) as ->.
          { destruct G1; [reflexivity|]. destruct PK as ((lz & H) & _). cbn [snd] in H. exfalso. rewrite <- app_assoc in H. cbn [app] in H. change ([(pn, Fr); (n, Us)]) with ([(pn, Fr)] ++ [(n, Us)]) in H. rewrite app_assoc in H. apply app_inj_tail in H. destruct H. congruence. }
          destruct (RT eq_refl) as (ET & E2). destruct (head_reg _ _ _ _ _ _ _ _ _ _ C) as (_ & _ & T1 & T2 & T3 & _).
          unfold head in EH. rewrite H6, ET, T3 in EH. replace (topsize s + 1) with (topsize s + 2 * bit false + bit true) in EH by (cbn [bit]; lia).
          rewrite bits_inv in EH by exact T2. discriminate. }
        cbn [rep] in H6. destruct H6 as (A1 & A2 & A3 & A4 & A5). unfold head in EH. rewrite A3, bits_inv in EH by exact A2. rewrite andb_true_r in EH.
        assert (K2 : k2 <> Fr) by (destruct k2; [discriminate | congruence | congruence]).
        eexists. set (s1 := set_free_with_pinuse _ _ _ _).
        assert (MM : mem s1 = wr_ (wr_ (wr_ (mem s) (c + n + 8) (n2 + 2)) (x + 8) (n + pn + 1)) (x + (n + pn)) (n + pn)).
        { unfold s1, set_free_with_pinuse. change (head (set_dv s (dv s) (n + pn)) (c + n)) with (mem s (c + n + 8)). rewrite A3, not_pin_hd by exact A2. rewrite EH. reflexivity. }
        destruct (merge_done mr s s1 G1 g l' [(pn, Fr); (n, Us)] n2 k2 l4 G2 D (x + (pn + 0)) n 0 0 (sb s) (tb s)) as (G' & U); auto.
        -- intros z [<- | [<- | []]]; discriminate.
        -- discriminate.
        -- exact (pre_us x [(pn, Fr)] n PRE).
        -- rewrite MM. fold x. cbn [tot]. rewrite wr_other by lia. rewrite wr_same. lia.
        -- rewrite MM. fold x. cbn [tot]. replace (x + (pn + (n + 0))) with (x + (n + pn)) by lia. rewrite wr_same. lia.
        -- rewrite MM. fold x. cbn [tot]. rewrite !wr_other by lia. replace (x + (pn + (n + 0)) + 8) with (c + n + 8) by lia. apply wr_same.
        -- intros y Y. fold x in Y. cbn [tot] in Y. rewrite MM, !wr_other by lia. reflexivity.
        -- intros T TKT ITT BT. fold x in ITT, BT. cbn [tot] in ITT. change (bins (dv s) (n + pn) (sb s) (tb s) T none). rewrite <- ED, NT. apply setdv_done; auto.
        -- exists G'. split; [reflexivity|]. rewrite <- CE. exact U.
      * (* with the chunk after *)
        specialize (FW s G1 g l' [(pn, Fr)] n l2 G2 D 0 0). cbn [app tot] in FW. fold x in FW. rewrite CE, <- NX, <- NT in FW.
        apply FW; auto; [rewrite NX; exact PP | destruct s; reflexivity |].
        right. repeat (split; [auto|]). destruct l2 as [|[n2 k2] l4]; [exact Logic.I|]. cbn [rep] in H6. destruct H6 as (A1 & A2 & A3 & A4 & A5).
        unfold head in EH. rewrite A3, bits_inv in EH by exact A2. rewrite andb_true_r in EH. destruct k2; [reflexivity | discriminate | discriminate].
    + apply N.eqb_neq in ED.
      destruct (unlink_ok s _ x pn (dv s) (dvsize s) none TK IP ED (fun z => z) (i_bins _ _ _ I)) as (s2 & U1 & U2 & U3). rewrite U1. cbn [bind].
      specialize (FW s2 G1 g l' [(pn, Fr)] n l2 G2 D (dv s) (dvsize s)). cbn [app tot] in FW. fold x in FW. rewrite CE, <- NX, <- NT in FW.
      assert (BX : bins (dv s) (dvsize s) (sb s2) (tb s2) (tiles (G1 ++ (g, l' ++ (pn, Fr) :: (n, Us) :: l2) :: G2)) (fun a => exists n', In (a, n', Fr) (chunks x [(pn, Fr); (n, Us)]))).
      { eapply bins_L; [apply LX|]. eapply bins_L; [|exact U3]. intros a. unfold none. cbn. tauto. }
      apply FW; auto. rewrite NX. exact PP.
Qed.
Lemma core_rm_dir m tp ts lst pgf mst G D1 d D2 : core m tp ts lst pgf mst G (D1 ++ d :: D2) ->
  core m tp ts lst (fun x => negb (within (fst d) (snd d + 32) x) && pgf x)%bool mst G (D1 ++ D2).
Proof.
  intros [S DI GE MS FX RC]. constructor; try assumption.
  - apply Forall_app in DI. destruct DI as (A & B). inversion B; subst. apply Forall_app. auto.
  - destruct GE as (GF & O). unfold regs in *. rewrite map_app in *. cbn [map] in GF, O. rewrite app_assoc in GF, O |- *.
    apply FOP_mid in O. destruct O as (O1 & O2). split; [|exact O1]. apply Forall_forall. intros r I. rewrite Forall_forall in GF, O2.
    destruct (GF r) as (F1 & F2 & F3 & F4 & F5 & F6 & F7).
    { apply in_app_or in I. apply in_or_app. destruct I; [now left | right; now right]. }
    repeat (split; [assumption|]). intros x X1 X2. rewrite F7 by assumption. rewrite andb_true_r.
    pose proof (O2 r I) as P. unfold rdisj, dreg in P. cbn [fst snd] in P.
    destruct (within (fst d) (snd d + 32) x) eqn:EW; [|reflexivity]. apply within_spec in EW. lia.
Qed.
Lemma free_dir_ok mr s G D c n : Inv s G D -> In (c, n) D -> exists s' D', free s c mr = Ok s' /\ upd mr s G D s' G D' (fun a => a <> c + 16).
Proof.
  intros I ID. pose proof (i_core _ _ _ I) as C. apply in_split in ID. destruct ID as (D1 & D2 & ->).
  pose proof (c_dirs _ _ _ _ _ _ _ _ C) as DI. apply Forall_app in DI. destruct DI as (_ & DI). inversion DI as [|? ? (DA & DB & DC & DE) _]; subst. cbn [fst snd] in *.
  pose proof (c_geo _ _ _ _ _ _ _ _ C) as (GF & O).
  assert (RO : reg_ok (pg s) (least s) (dreg (c, n))).
  { rewrite Forall_forall in GF. apply GF. apply in_or_app. right. apply in_map. apply in_elt. }
  destruct RO as (_ & RB & RM & RN & RW & (_ & RL) & RP). unfold dreg in RB, RM, RN, RW, RL, RP. cbn [fst snd] in RB, RM, RN, RW, RL, RP.
  assert (HE : head s c = n + 2 * bit false + bit false) by (unfold head; rewrite DB; cbn [bit]; lia).
  unfold free. replace (least s <=? c) with true by (symmetry; apply N.leb_le; exact RL). cbn [andb].
  unfold is_inuse, chunksize, pinuse, is_mmapped. rewrite HE, hd_mod4, hd_size, hd_odd by exact DC. cbn [bit].
  change (negb (2 * 0 + 0 =? 1)) with true. change (2 * 0 + 0 =? 0) with true. cbv iota. change (prev_foot s c) with (mem s c). rewrite DA.
  rewrite N.sub_0_r, N.add_0_r. eexists _, (D1 ++ D2). split; [reflexivity|].
  unfold regs in O, GF. rewrite map_app in O, GF. cbn [map] in O, GF. rewrite app_assoc in O, GF. apply FOP_mid in O. destruct O as (_ & O). rewrite Forall_forall in O.
  split; [|split; [|split; [|split]]].
  - constructor.
    + exact (i_segs _ _ _ I).
    + apply (core_rm_dir _ _ _ _ _ _ _ _ (c, n) _ C).
    + exact (i_bins _ _ _ I).
    + change (foot s - (n + 32) = sizes (regs G (D1 ++ D2))). rewrite (i_foot _ _ _ I). unfold regs. rewrite !map_app, !sizes_app. cbn [map sizes dreg fst snd]. lia.
  - intros a r. unfold blk. split.
    + intros [(z & k & -> & H & J) | (z & k & -> & H & J)].
      * split; [left; eauto|]. intros E. assert (z = c) as -> by lia.
        pose proof (tile_dir _ _ _ _ _ _ _ _ _ _ _ (c, n) C J (in_elt _ _ _)) as P. cbn [fst snd] in P. pose proof (tile_facts _ _ _ _ _ _ _ _ _ _ _ C J) as (T1 & _). lia.
      * split; [right; exists z, k; split; [reflexivity|]; split; [exact H|]; apply in_app_or in J; apply in_or_app; destruct J; [now left | right; now right]|].
        intros E. assert (z = c) as -> by lia.
        assert (P : rdisj (dreg (c, n)) (dreg (c, k))).
        { apply O. rewrite <- app_assoc, <- map_app. apply in_or_app. right. apply (in_map dreg). exact J. }
        unfold rdisj, dreg in P. cbn [fst snd] in P. lia.
    + intros ([H | (z & k & -> & H & J)] & NE); [now left|]. right. exists z, k. split; [reflexivity|]. split; [exact H|].
      apply in_app_or in J. apply in_or_app. destruct J as [J | [J | J]]; [now left | injection J as <- <-; congruence | now right].
  - intros a r y _ _ _ _. reflexivity.
  - intros _ T y HY. change (pg _ y) with (negb (within c (n + 32) y) && pg s y)%bool in HY. apply andb_true_iff in HY. destruct HY as (HY1 & HY2).
    apply negb_true_iff in HY1. destruct (T y HY2) as (r & R2 & R3). exists r. split; [|exact R3]. unfold regs in *. rewrite map_app in *. cbn [map] in R2.
    rewrite !in_app_iff in *. destruct R2 as [R2 | [R2 | [<- | R2]]]; auto. exfalso. unfold dreg in R3. cbn [fst snd] in R3. apply within_spec in R3. congruence.
  - split; [reflexivity|]. apply (unms_one _ _ c (n + 32)); [reflexivity | reflexivity | exact RB | exact RN | lia | exact RP].
Qed.
Lemma mspace_free_ok mr s G D a r : Inv s G D -> blk G D a r ->
  exists s' G' D', mspace_free s a mr = Ok s' /\ upd mr s G D s' G' D' (fun a' => a' <> a).
Proof.
  intros I [(c & n & -> & _ & J) | (c & n & -> & _ & J)]; unfold mspace_free; replace (c + 16 =? 0) with false by (symmetry; apply N.eqb_neq; lia);
    replace (c + 16 - 16) with c by lia.
  - destruct (free_tile_ok mr s G D c n I J) as (s' & G' & H1 & H2). eauto.
  - destruct (free_dir_ok mr s G D c n I J) as (s' & D' & H1 & H2). eauto.
Qed.
