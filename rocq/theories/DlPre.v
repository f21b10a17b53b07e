(** Top and system allocation in the heap of [DlModel]: sys_alloc keeps the invariant of [DlInv].  No code of its own. *)
From Verif Require Import Base DlModel DlInv DlAlloc DlSys.
From Coq Require Import Lia.
Local Open Scope N_scope.
Arguments N.add : simpl never. Arguments N.sub : simpl never. Arguments N.mul : simpl never. Arguments N.div : simpl never.
Arguments N.modulo : simpl never. Arguments N.eqb : simpl never. Arguments N.ltb : simpl never. Arguments N.leb : simpl never.
Arguments N.odd : simpl never.


(** ** A segment grows at its beginning *)
Lemma prepend_core m tp ts lst pgf mst G1 g F n2 k2 l2 G2 D b asize nb m' pgf' lst' :
  let q := asize - nb + tot F in
  core m tp ts lst pgf mst (G1 ++ (g, F ++ (n2, k2) :: l2) :: G2) D -> fresh pgf b asize -> asize mod 65536 = 0 -> sbase g = b + asize ->
  (forall x, pgf' x = within b asize x || pgf x)%bool -> lst' <= lst -> lst' <= b -> 0 < lst' ->
  32 <= nb -> nb mod 16 = 0 -> nb + 96 <= asize -> (forall c, In c F -> snd c = Fr) -> k2 <> Fr ->
  m' (b + 8) = nb + 3 -> m' (b + nb + 8) = q + 1 -> m' (b + nb + q) = q -> m' (b + nb + q + 8) = n2 + 2 ->
  (forall y, pgf y = true -> y < b \/ b + nb + q + 8 < y -> m' y = m y) ->
  core m' tp ts lst' pgf' mst (G1 ++ (mkseg b (ssize g + asize) (srec g), [(nb, Us); (q, Fr)] ++ (n2, k2) :: l2) :: G2) D.
Proof.
  intros q C FS AL EB PG LL1 LL2 LL3 N1 N2 N3 FF K2 H1 H2 H3 H4 F0.
  assert (AP : 0 < asize) by lia. pose proof (pos65536 _ AP AL) as AS. destruct (al65536 _ AL) as (AL2 & AL3).
  pose proof FS as FS0. destruct FS as (FS1 & FS2 & FS3 & FS4).
  assert (RG : reg_ok pgf lst (sbase g, ssize g)) by (apply (geo_reg _ _ _ _ _ _ _ _ _ C (in_elt _ _ _))).
  set (m1 := fun y => if within b asize y then (if y =? b + 8 then asize + 3 else m' y) else (if (y <? b) || (b + nb + q + 8 <? y) then m' y else m y)).
  assert (M1 : forall y, pgf y = true -> m1 y = m y).
  { intros y P. unfold m1. destruct (within b asize y) eqn:EW; [apply within_spec in EW; rewrite FS4 in P by lia; discriminate|].
    destruct ((y <? b) || (b + nb + q + 8 <? y)) eqn:EO; [|reflexivity]. apply F0; [exact P|].
    apply orb_true_iff in EO. rewrite !N.ltb_lt in EO. exact EO. }
  assert (C1 : core m1 tp ts lst' pgf' mst (G1 ++ (mkseg b (ssize g + asize) (srec g), [] ++ ((asize, Us) :: F) ++ (n2, k2) :: l2) :: G2) D).
  { apply (core_prepend m tp ts lst pgf mst G1 g (F ++ (n2, k2) :: l2) G2 D b asize m1 pgf' lst'); auto.
    unfold m1. rewrite (proj2 (within_spec b asize (b + 8))) by lia. rewrite N.eqb_refl. reflexivity. }
  assert (TF : tot ((asize, Us) :: F) = nb + q) by (cbn [tot]; unfold q; lia).
  apply (core_replace m1 tp ts lst' pgf' mst G1 _ [] ((asize, Us) :: F) [(nb, Us); (q, Fr)] n2 k2 l2 G2 D m' C1); rewrite ?TF; cbn [sbase tot]; rewrite ?N.add_0_r, ?N.add_assoc.
  - reflexivity.
  - intros c [<- | I]; [discriminate | rewrite (FF c I); discriminate].
  - intros c [<- | [<- | []]]; discriminate.
  - intros y Y. unfold m1. destruct (within b asize y) eqn:EW.
    + apply within_spec in EW. assert (y < b + 8) by (unfold q in Y; lia). replace (y =? b + 8) with false by (symmetry; apply N.eqb_neq; lia). reflexivity.
    + assert (NW : ~ (b <= y /\ y < b + asize)) by (rewrite <- within_spec; congruence).
      replace ((y <? b) || (b + nb + q + 8 <? y)) with true; [reflexivity|]. symmetry. apply orb_true_iff. rewrite !N.ltb_lt. lia.
  - intros p qq R HQ _. exists false. cbn [rep] in R |- *. destruct R as (_ & _ & RH & _ & R).
    assert (p = true) as ->.
    { unfold m1 in RH. rewrite (proj2 (within_spec b asize (b + 8))) in RH by lia. rewrite N.eqb_refl in RH. destruct p; [reflexivity|]. cbn [used bit] in RH. lia. }
    pose proof (rep_sizes _ _ _ _ _ _ R) as SZ. apply al_tot in SZ.
    split; [|split; [rewrite H4; destruct k2; [congruence | |]; cbn [used bit]; lia | congruence]].
    split; [exact N1|]. split; [exact N2|]. split; [rewrite H1; cbn [used bit]; lia|]. split; [discriminate|].
    split; [unfold q; lia|]. split; [unfold q; apply al_add; [apply al_sub; assumption | exact SZ]|].
    split; [rewrite H2; cbn [used bit]; lia|]. auto.
Qed.
Lemma prepend_free s s0 G1 g F n2 k2 l2 G2 D b asize nb bytes m' s' lst' :
  let q := asize - nb + tot F in
  let G := G1 ++ (g, F ++ (n2, k2) :: l2) :: G2 in
  let G' := G1 ++ (mkseg b (ssize g + asize) (srec g), [(nb, Us); (q, Fr)] ++ (n2, k2) :: l2) :: G2 in
  Inv s G D -> fresh (pg s) b asize -> asize mod 65536 = 0 -> sbase g = b + asize -> lst' <= least s -> lst' <= b -> 0 < lst' ->
  32 <= nb -> nb mod 16 = 0 -> nb + 96 <= asize -> bytes + 8 <= nb -> (F = [] \/ exists n, F = [(n, Fr)]) -> k2 <> Fr ->
  m' (b + 8) = nb + 3 -> m' (b + nb + 8) = q + 1 -> m' (b + nb + q) = q -> m' (b + nb + q + 8) = n2 + 2 ->
  (forall y, y <> b + 8 -> y <> b + nb + 8 -> y <> b + nb + q -> y <> b + nb + q + 8 -> m' y = mem s y) ->
  bins (dv s0) (dvsize s0) (sb s0) (tb s0) (tiles G) (fun a => exists n, In (a, n, Fr) (chunks (sbase g) F)) ->
  s' = mk m' (map fst G') (top s) (topsize s) (dv s') (dvsize s') (sb s') (tb s') lst' (rchk s') (trimc s') (foot s + asize) (mst s) (pg (mapped s b asize)) (plog (mapped s b asize)) ->
  (forall T, tok T -> In (b + nb, q, Fr) T -> bins (dv s0) (dvsize s0) (sb s0) (tb s0) T (eq (b + nb)) ->
     bins (dv s') (dvsize s') (sb s') (tb s') T none) ->
  got s G D s' bytes (b + 16).
Proof.
  intros q G G' I FS AL EB LL1 LL2 LL3 N1 N2 N3 N4 FF K2 H1 H2 H3 H4 M0 B0 ES B'. pose proof (i_core _ _ _ I) as C.
  pose proof FS as FS0. destruct FS as (FS1 & FS2 & FS3 & FS4).
  assert (RG : reg_ok (pg s) (least s) (sbase g, ssize g)) by (apply (geo_reg _ _ _ _ _ _ _ _ _ C (in_elt _ _ _))).
  assert (PG : forall x, pg (mapped s b asize) x = (within b asize x || pg s x)%bool) by reflexivity.
  assert (FR : forall c, In c F -> snd c = Fr) by (intros c IC; destruct FF as [-> | (n & ->)]; [destruct IC | destruct IC as [<- | []]; reflexivity]).
  assert (MF : forall y, y < b \/ b + nb + q + 8 < y -> m' y = mem s y) by (intros y Y; apply M0; lia).
  assert (C' : core m' (top s) (topsize s) lst' (pg (mapped s b asize)) (mst s) G' D).
  { apply (prepend_core (mem s) _ _ (least s) (pg s) _ G1 g F n2 k2 l2 G2 D b asize nb); auto. }
  assert (AP : 0 < asize) by lia.
  assert (TG : forall c, In c (tiles G) <-> In c (rest G1 g [] (b + nb + q) ((n2, k2) :: l2) G2) \/ In c (chunks (sbase g) F)).
  { intros c. unfold G. change (F ++ (n2, k2) :: l2) with ([] ++ F ++ (n2, k2) :: l2). rewrite tiles_rest. cbn [tot]. rewrite N.add_0_r.
    replace (sbase g + tot F) with (b + nb + q) by (unfold q; lia). tauto. }
  assert (TG' : forall c, In c (tiles G') <-> In c (rest G1 g [] (b + nb + q) ((n2, k2) :: l2) G2) \/ In c [(b, nb, Us); (b + nb, q, Fr)]).
  { intros c. unfold G'. change ([(nb, Us); (q, Fr)] ++ (n2, k2) :: l2) with ([] ++ [(nb, Us); (q, Fr)] ++ (n2, k2) :: l2). rewrite tiles_rest. cbn [tot sbase chunks]. rewrite !N.add_0_r.
    rewrite N.add_assoc. unfold rest. cbn [chunks]. tauto. }
  assert (OUT : forall c n k, In (c, n, k) (tiles G) -> c + n <= b \/ b + asize <= c).
  { intros c n k J. destruct (tiles_split _ _ _ _ J) as (Ga & ga & la & lb & Gb & EG & EC). pose proof C as CC. rewrite EG in CC.
    destruct (tile_in _ _ _ _ _ _ _ _ _ _ _ _ _ _ CC) as (A1 & A2 & A3 & A4 & A5 & A6 & A7 & _).
    assert (HI : In (sbase ga, ssize ga) (regs G D)) by (rewrite EG, regs_mid; apply in_or_app; right; left; reflexivity).
    pose proof (fresh_disj _ _ _ _ _ _ (c_geo _ _ _ _ _ _ _ _ C) FS0 AP HI) as P. unfold rdisj in P. cbn [fst snd] in P. lia. }
  assert (FUS : forall c n, ~ In (c, n, Us) (chunks (sbase g) F)).
  { intros c n J. destruct (chunks_split _ _ _ _ _ J) as (z1 & z2 & -> & _). specialize (FR (n, Us) (in_elt _ _ _)). discriminate. }
  pose proof (core_tok _ _ _ _ _ _ _ _ C') as TK.
  assert (IQ : In (b + nb, q, Fr) (tiles G')) by (apply TG'; right; right; now left).
  apply (got_tiles s s' G G' D b nb).
  - constructor.
    + rewrite ES. reflexivity.
    + unfold core_s. rewrite ES. exact C'.
    + apply B'; [exact TK | exact IQ |].
      refine (bins_tiles _ _ _ _ (tiles G) _ (fun c => In c (rest G1 g [] (b + nb + q) ((n2, k2) :: l2) G2)) (chunks (sbase g) F) [(b, nb, Us); (b + nb, q, Fr)] _ _ TG TG' _ _ _ B0).
      * intros a n k J. assert (JT : In (a, n, k) (tiles G)) by (apply TG; now left).
        pose proof (tile_facts _ _ _ _ _ _ _ _ _ _ _ C JT) as (T1 & _). split.
        -- intros (n' & J'). 
           assert (JT' : In (a, n', Fr) (tiles G)) by (apply TG; now right).
           pose proof (rest_apart _ _ _ _ _ _ _ _ [] F _ _ _ a n k C) as AP2. cbn [tot] in AP2. rewrite N.add_0_r in AP2.
           replace (sbase g + tot F) with (b + nb + q) in AP2 by (unfold q; lia). specialize (AP2 J).
           pose proof (tile_facts _ _ _ _ _ _ _ _ _ _ _ C JT') as (T2 & _). apply chunks_range in J'. unfold q in *. lia.
        -- intros <-. pose proof (OUT _ _ _ JT). lia.
      * intros a n J. eauto.
      * intros a n [J | [J | []]]; congruence.
    + rewrite ES. cbn [foot]. rewrite (i_foot _ _ _ I). unfold G, G'. rewrite !regs_mid, !sizes_app. cbn [sizes reg fst snd ssize]. lia.
  - intros c n. rewrite TG, TG'. cbn [In]. pose proof (FUS c n). split.
    + intros [J | [J | [J | []]]]; [auto | injection J as <- <-; auto | congruence].
    + intros [[J | J] | (-> & ->)]; [auto | tauto | auto].
  - intros n J. pose proof (tile_facts _ _ _ _ _ _ _ _ _ _ _ C J) as (T1 & _). pose proof (OUT _ _ _ J). lia.
  - exact N4.
  - intros a r y Hb _ Y1 Y2. rewrite ES. cbn [mem]. apply M0;
      (destruct Hb as [(c & n & -> & E & J) | (c & n & -> & E & J)];
       [pose proof (OUT _ _ _ J) as O1; pose proof (tile_facts _ _ _ _ _ _ _ _ _ _ _ C J) as (T1 & _);
        apply TG in J; destruct J as [J | J]; [|now apply FUS in J];
        pose proof (rest_apart _ _ _ _ _ _ _ _ [] F _ _ _ c n Us C) as AP2; cbn [tot] in AP2; rewrite N.add_0_r in AP2;
        replace (sbase g + tot F) with (b + nb + q) in AP2 by (unfold q; lia); specialize (AP2 J); unfold q in *; lia
       | idtac]).
    all: assert (HI : In (dreg (c, n)) (regs G D)) by (apply in_or_app; right; apply (in_map dreg); exact J).
    all: pose proof (fresh_disj _ _ _ _ _ _ (c_geo _ _ _ _ _ _ _ _ C) FS0 AP HI) as P; unfold rdisj, dreg in P; cbn [fst snd] in P.
    all: pose proof (geo_apartD _ _ _ _ _ _ _ (c_geo _ _ _ _ _ _ _ _ C) J) as P2; unfold rdisj, reg, dreg in P2; cbn [fst snd] in P2.
    all: pose proof (seg_in _ _ _ _ _ _ _ _ [] F _ _ _ C) as SI; cbn [tot] in SI; rewrite N.add_0_r in SI; unfold q in *; lia.
  - intros T x HX. rewrite ES in HX. cbn [pg] in HX. rewrite PG in HX. apply orb_true_iff in HX. unfold G'. rewrite regs_mid.
    destruct HX as [HX | HX].
    + apply within_spec in HX. eexists. split; [apply in_or_app; right; left; reflexivity|]. unfold reg. cbn [fst snd sbase ssize]. lia.
    + destruct (T x HX) as (r & R2 & R3). unfold G in R2. rewrite regs_mid in R2. apply in_app_or in R2. destruct R2 as [R2 | [<- | R2]].
      * exists r. split; [apply in_or_app; now left | exact R3].
      * eexists. split; [apply in_or_app; right; left; reflexivity|]. unfold reg in *. cbn [fst snd sbase ssize] in *. lia.
      * exists r. split; [apply in_or_app; right; now right | exact R3].
  - rewrite ES. reflexivity.
Qed.
Lemma first_chunk m tp ts lst pgf mst G1 g n k l G2 D : core m tp ts lst pgf mst (G1 ++ (g, (n, k) :: l) :: G2) D ->
  m (sbase g + 8) = n + 2 * bit (used k) + 1 /\ n mod 16 = 0 /\ 32 <= n.
Proof.
  intros C. pose proof (segs_ok_pos _ _ _ _ _ _ (c_segs _ _ _ _ _ _ _ _ C)) as P.
  destruct (pos_ok_rep _ _ _ _ _ P) as (e & R & _). cbn [fst snd rep] in R. destruct R as (A & B & E & _). auto.
Qed.
Lemma top_at_base m tp ts lst pgf mst G1 g l G2 D : core m tp ts lst pgf mst (G1 ++ (g, l) :: G2) D -> (sbase g = tp <-> G1 = [] /\ l = []).
Proof.
  intros C. destruct G1 as [|[h lh] t]; cbn [app] in C.
  - destruct (head_reg _ _ _ _ _ _ _ _ _ _ C) as (E & E2 & _ & _ & _ & _ & R & _). split.
    + intros H. split; [reflexivity|]. destruct l as [|[n k] l']; [reflexivity|]. cbn [rep] in R. cbn [tot] in E. lia.
    + intros (_ & ->). cbn [tot] in E. lia.
  - split; [|intros (H & _); discriminate]. intros H. exfalso.
    destruct (head_reg _ _ _ _ _ _ _ _ _ _ C) as (E & E2 & E3 & _).
    pose proof (geo_apart [] _ _ _ _ _ (g, l) (c_geo _ _ _ _ _ _ _ _ C) (in_elt _ _ _)) as P. unfold rdisj, reg in P. cbn [fst snd] in P.
    assert (RG : reg_ok pgf lst (reg (g, l))) by (apply (geo_reg _ _ _ _ _ _ _ _ _ C); right; apply in_elt).
    destruct RG as (_ & _ & RG & _). unfold reg in RG. cbn [fst snd] in RG. lia.
Qed.
Lemma prepend_ok s G1 g l G2 D b asize nb bytes lst' :
  let G := G1 ++ (g, l) :: G2 in
  Inv s G D -> fresh (pg s) b asize -> asize mod 65536 = 0 -> sbase g = b + asize -> lst' <= least s -> lst' <= b -> 0 < lst' ->
  32 <= nb -> nb mod 16 = 0 -> nb + 96 <= asize -> bytes + 8 <= nb ->
  let s1 := set_segs (set_least (grown s b asize) lst') (map fst G1 ++ mkseg b (ssize g + asize) (srec g) :: map fst G2) in
  exists s', prepend_alloc s1 b (sbase g) nb = Ok (s', b) /\ got s G D s' bytes (b + 16).
Proof.
  intros G I FS AL EB LL1 LL2 LL3 N1 N2 N3 N4 s1. pose proof (i_core _ _ _ I) as C. pose proof (core_tok _ _ _ _ _ _ _ _ C) as TK.
  pose proof FS as FS0. destruct FS as (FS1 & FS2 & FS3 & FS4). assert (AP : 0 < asize) by lia.
  pose proof (pos65536 _ AP AL) as AS. destruct (al65536 _ AL) as (AL2 & AL3).
  unfold prepend_alloc. change (top (set_inuse_chunk s1 b nb)) with (top s). change (dv (set_inuse_chunk s1 b nb)) with (dv s).
  replace (sbase g - b - nb) with (asize - nb) by lia.
  destruct (sbase g =? top s) eqn:ET.
  - apply N.eqb_eq in ET. destruct (proj1 (top_at_base _ _ _ _ _ _ _ _ _ _ _ C) ET) as (-> & ->). eexists. split; [reflexivity|].
    set (s' := set_head _ _ _). cbn [app] in G. 
    destruct (head_reg _ _ _ _ _ _ _ _ _ _ C) as (E & E2 & T1 & T2 & T3 & T4 & R & RG).
    set (m1 := wr_ (mem s) (b + 8) (asize + 3)). set (m2 := wr_ (mem s) (b + 8) (topsize s + asize + 1)).
    set (gn := mkseg b (ssize g + asize) (srec g)).
    assert (NI : pg s (b + 8) = false) by (apply FS4; lia).
    assert (NI2 : pg s (b + nb + 8) = false) by (apply FS4; lia).
    assert (C1 : core m1 (top s) (topsize s) lst' (pg s') (mst s) ((gn, [] ++ [(asize, Us)]) :: G2) D).
    { apply (core_prepend (mem s) (top s) (topsize s) (least s) (pg s) (mst s) [] g [] G2 D b asize); auto.
      - unfold m1. apply wr_same.
      - intros y P. unfold m1. apply wr_other. intros ->. congruence. }
    assert (C2 : core m2 b (topsize s + asize) lst' (pg s') (mst s) ((gn, []) :: G2) D).
    { pose proof (core_top_eat m1 (top s) (topsize s) lst' (pg s') (mst s) gn [] [(asize, Us)] G2 D m2) as TE.
      cbn [tot sbase gn] in TE. rewrite !N.add_0_r in TE. apply TE; auto.
      - cbn [rep]. auto.
      - intros c [<- | []]. discriminate.
      - unfold m2. apply wr_same.
      - intros y Y. unfold m1, m2. rewrite !wr_other by lia. reflexivity. }
    assert (C3 : core_s s' ((gn, [] ++ [(nb, Us)]) :: G2) D).
    { unfold core_s. replace (topsize s') with (topsize s + asize - nb) by (change (topsize s') with (topsize s + (asize - nb)); lia).
      change (top s') with (b + nb). change (least s') with lst'. change (mst s') with (mst s).
      assert (M3 : mem s' = wr_ (wr_ (mem s) (b + 8) (nb + 3)) (b + nb + 8) (topsize s + (asize - nb) + 1)) by reflexivity.
      apply (core_top_split m2 b (topsize s + asize) lst' (pg s') (mst s) gn [] G2 D nb (mem s') C2 N1 N2); [lia | | |]; rewrite M3.
      - rewrite wr_other by lia. apply wr_same.
      - rewrite wr_same. lia.
      - intros y Y1 Y2. unfold m2. rewrite !wr_other by lia. reflexivity. }
    assert (IN : forall c, In c (tiles ((gn, [] ++ [(nb, Us)]) :: G2)) <-> In c (tiles G) \/ In c [(b, nb, Us)]).
    { intros c. unfold G. cbn [tiles flat_map fst snd app chunks sbase gn In]. tauto. }
    apply (got_tiles s s' G ((gn, [] ++ [(nb, Us)]) :: G2) D b nb); auto.
    + constructor; [reflexivity | exact C3 | | change (foot s') with (foot s + asize); rewrite (i_foot _ _ _ I); unfold G, regs; cbn [map app sizes reg fst snd ssize gn]; lia].
      refine (bins_tiles _ _ _ _ (tiles G) _ (fun c => In c (tiles G)) [] [(b, nb, Us)] none none _ IN _ _ _ (i_bins _ _ _ I)).
      * intros c. cbn [In]. tauto.
      * unfold none. tauto.
      * intros a n [].
      * intros a n [H | []]. congruence.
    + intros c n. rewrite IN. cbn [In]. split; [intros [H | [H | []]]; [auto | injection H as <- <-; auto] | intros [H | (-> & ->)]; auto].
    + intros n J. destruct (tiles_split _ _ _ _ J) as (Ga & ga & la & lb & Gb & EG & EC). pose proof C as CC. rewrite EG in CC.
      destruct (tile_in _ _ _ _ _ _ _ _ _ _ _ _ _ _ CC) as (A1 & A2 & A3 & A4 & A5 & A6 & A7 & _ & A8).
      assert (pg s b = true) by (apply A8; lia). rewrite FS4 in H by lia. discriminate.
    + apply (keeps_top _ _ _ _ _ _ _ _ _ C). intros y Y P. change (mem s' y) with (wr_ (wr_ (mem s) (b + 8) (nb + 3)) (b + nb + 8) (topsize s + (asize - nb) + 1) y).
      rewrite !wr_other; [reflexivity | |]; intros ->; congruence.
    + intros T x HX. change (pg s' x) with (within b asize x || pg s x)%bool in HX. apply orb_true_iff in HX. destruct HX as [HX | HX].
      * apply within_spec in HX. eexists. split; [left; reflexivity|]. unfold reg. cbn [fst snd sbase ssize gn]. lia.
      * destruct (T x HX) as (r & [<- | R2] & R3).
        -- eexists. split; [left; reflexivity|]. unfold reg in *. cbn [fst snd sbase ssize gn] in *. lia.
        -- exists r. split; [now right | exact R3].
  - apply N.eqb_neq in ET.
    assert (LN : l <> []).
    { intros ->. destruct G1 as [|h t]; [apply ET, (top_at_base _ _ _ _ _ _ [] g [] G2 D C); auto|].
      pose proof (segs_ok_pos _ _ _ _ _ _ (c_segs _ _ _ _ _ _ _ _ C)) as ((l' & H) & _). cbn [snd] in H. destruct l'; discriminate. }
    destruct l as [|[n1 k1] l]; [congruence|]. clear LN.
    destruct (first_chunk _ _ _ _ _ _ _ _ _ _ _ _ _ C) as (HH & HA & HB).
    assert (IT : In (sbase g, n1, k1) (tiles G)) by (pose proof (tiles_mid G1 g [] n1 k1 l G2) as X; cbn [tot app] in X; rewrite N.add_0_r in X; exact X).
    assert (HM : mem (set_inuse_chunk s1 b nb) = wr_ (mem s) (b + 8) (nb + 3)) by reflexivity.
    assert (HH2 : head (set_inuse_chunk s1 b nb) (sbase g) = n1 + 2 * bit (used k1) + 1).
    { unfold head. rewrite HM, wr_other by lia. exact HH. }
    destruct (sbase g =? dv s) eqn:ED.
    + apply N.eqb_eq in ED.
      assert (IV : In (dv s, dvsize s, Fr) (tiles G)).
      { destruct (b_dv _ _ _ _ _ _ (i_bins _ _ _ I)) as [(H & _) | (H & _)]; [apply (proj1 TK) in IT; lia | exact H]. }
      rewrite <- ED in IV. destruct (proj2 TK _ _ _ _ _ IT IV) as (-> & ->).
      destruct (free_tile _ _ _ _ _ _ G1 g [] _ l G2 D C) as (F1 & F2 & n2 & k2 & l3 & -> & K2 & F3 & F4 & F5). cbn [tot] in F1, F2, F3. rewrite N.add_0_r in F1, F2, F3.
      eexists. split; [reflexivity|]. set (s' := set_free_chunk _ _ _).
      assert (MM : mem s' = wr_ (wr_ (wr_ (mem s) (b + 8) (nb + 3)) (b + nb + 8) (dvsize s + (asize - nb) + 1)) (b + nb + (dvsize s + (asize - nb))) (dvsize s + (asize - nb))) by reflexivity.
      apply (prepend_free s (set_dv s 0 0) G1 g [(dvsize s, Fr)] n2 k2 l3 G2 D b asize nb bytes (mem s') s' lst'); auto; cbn [tot]; rewrite ?N.add_0_r; try rewrite MM.
      * right. eauto.
      * rewrite !wr_other by lia. apply wr_same.
      * rewrite wr_other by lia. rewrite wr_same. lia.
      * replace (b + nb + (asize - nb + dvsize s)) with (b + nb + (dvsize s + (asize - nb))) by lia. rewrite wr_same. lia.
      * rewrite !wr_other by lia. replace (b + nb + (asize - nb + dvsize s) + 8) with (sbase g + dvsize s + 8) by lia. exact F3.
      * intros y Y1 Y2 Y3 Y4. rewrite !wr_other by lia. reflexivity.
      * pose proof (i_bins _ _ _ I) as B0. rewrite <- ED in B0. apply (bins_undv _ _ _ _ _ TK IV) in B0. cbn [set_dv dv dvsize sb tb].
        eapply bins_L; [apply one_free | exact B0].
      * rewrite <- MM. unfold s'. rewrite map_app. reflexivity.
      * intros T TKT IQ BQ. cbn [set_dv dv dvsize sb tb] in BQ. change (bins (b + nb) (dvsize s + (asize - nb)) (sb s) (tb s) T none).
        replace (dvsize s + (asize - nb)) with (asize - nb + dvsize s) by lia.
        apply (bins_setdv (b + nb) (asize - nb + dvsize s)) in BQ; auto. eapply bins_L; [|exact BQ]. unfold none. intros a. cbn.
        split; [intros (<- & H); apply H; reflexivity | tauto].
    + apply N.eqb_neq in ED. unfold is_inuse. rewrite HH2. replace (n1 + 2 * bit (used k1) + 1) with (n1 + 2 * bit (used k1) + bit true) by reflexivity.
      rewrite hd_mod4 by exact HA.
      destruct (used k1) eqn:EK; cbn [bit]; [|assert (k1 = Fr) as -> by (destruct k1; [reflexivity | discriminate | discriminate])].
      * (* in use *)
        change (negb (2 * 1 + 1 =? 1)) with true. cbv iota. eexists. split; [reflexivity|].
        set (q := asize - nb). set (s3 := set_free_with_pinuse _ (b + nb) q (sbase g)).
        assert (MM : mem s3 = wr_ (wr_ (wr_ (wr_ (mem s) (b + 8) (nb + 3)) (sbase g + 8) (n1 + 2)) (b + nb + 8) (q + 1)) (b + nb + q) q).
        { unfold s3, set_free_with_pinuse. rewrite HH2. cbn [set_free_chunk set_head set_mem mem]. change (mem (set_inuse_chunk s1 b nb)) with (wr_ (mem s) (b + 8) (nb + 3)).
          replace (n1 + 2 * bit true + 1) with (n1 + 2 * bit true + bit true) by reflexivity. rewrite not_pin_hd by exact HA. reflexivity. }
        assert (E3 : s3 = mk (mem s3) (map fst G1 ++ mkseg b (ssize g + asize) (srec g) :: map fst G2) (top s) (topsize s) (dv s) (dvsize s) (sb s) (tb s) lst' (rchk s) (trimc s) (foot s + asize) (mst s) (pg (mapped s b asize)) (plog (mapped s b asize))) by reflexivity.
        assert (KF : k1 <> Fr) by (destruct k1; [discriminate | congruence | congruence]).
        apply (prepend_free s s G1 g [] n1 k1 l G2 D b asize nb bytes (mem s3) _ lst'); auto; cbn [tot]; rewrite ?N.add_0_r; fold q; try rewrite MM.
        -- rewrite !wr_other by (unfold q; lia). apply wr_same.
        -- rewrite wr_other by (unfold q; lia). apply wr_same.
        -- apply wr_same.
        -- replace (b + nb + q + 8) with (sbase g + 8) by (unfold q; lia). rewrite !wr_other by (unfold q; lia). apply wr_same.
        -- intros y Y1 Y2 Y3 Y4. rewrite !wr_other by (unfold q in *; lia). reflexivity.
        -- eapply bins_L; [|exact (i_bins _ _ _ I)]. intros a. cbn [chunks In]. unfold none. split; [tauto | intros (? & []); auto].
        -- rewrite <- MM. rewrite map_app. cbn [map fst]. unfold insert_chunk. destruct (is_small q); unfold insert_small, insert_large, set_sb, set_tb; rewrite E3; reflexivity.
        -- intros T TKT IQ BQ.
           assert (ND : b + nb <> dv s3).
           { rewrite E3. cbn [dv]. intros X. destruct (b_dv _ _ _ _ _ _ BQ) as [(H & _) | (_ & H)]; [apply (proj1 TKT) in IQ; lia | apply H; auto]. }
           assert (BQ' : bins (dv s3) (dvsize s3) (sb s3) (tb s3) T (eq (b + nb))) by (rewrite E3; exact BQ).
           destruct (bins_insert s3 T (b + nb) q (dv s3) (dvsize s3) _ TKT IQ ND eq_refl BQ') as (s4 & J1 & J2 & J3).
           rewrite J1. assert (ED4 : dv s4 = dv s3) by (rewrite J2; reflexivity). assert (EDS : dvsize s4 = dvsize s3) by (rewrite J2; reflexivity).
           rewrite ED4, EDS. eapply bins_L; [|exact J3]. unfold none. intros a. cbn. split; [intros (<- & H); apply H; reflexivity | tauto].
      * (* free *)
        change (negb (2 * 0 + 1 =? 1)) with false. cbv iota.
        assert (HC : chunksize (set_inuse_chunk s1 b nb) (sbase g) = n1).
        { unfold chunksize. rewrite HH2. change (n1 + 2 * bit false + 1) with (n1 + 2 * bit false + bit true). apply hd_size. exact HA. }
        rewrite HC.
        destruct (free_tile _ _ _ _ _ _ G1 g [] _ l G2 D C) as (F1 & F2 & n2 & k2 & l3 & -> & K2 & F3 & F4 & F5). cbn [tot] in F1, F2, F3. rewrite N.add_0_r in F1, F2, F3.
        destruct (unlink_ok (set_inuse_chunk s1 b nb) (tiles G) (sbase g) n1 (dv s) (dvsize s) none TK IT ED (fun x => x) (i_bins _ _ _ I)) as (s2 & U1 & U2 & U3).
        rewrite U1. cbn [bind]. eexists. split; [reflexivity|].
        set (q := asize - nb + n1). set (s3 := set_free_with_pinuse s2 (b + nb) q (sbase g + n1)).
        assert (MM : mem s3 = wr_ (wr_ (wr_ (wr_ (mem s) (b + 8) (nb + 3)) (sbase g + n1 + 8) (n2 + 2)) (b + nb + 8) (q + 1)) (b + nb + q) q).
        { unfold s3, set_free_with_pinuse. cbn [set_free_chunk set_head set_mem mem head]. unfold head. rewrite U2. cbn [mem]. rewrite HM.
          rewrite (wr_other _ _ _ (sbase g + n1 + 8)) by lia. rewrite F3. replace (not_pin (n2 + 2)) with (n2 + 2); [reflexivity|].
          replace (n2 + 2) with (n2 + 2 * bit true + bit false) at 2 by (cbn [bit]; lia). rewrite not_pin_hd by exact F5. reflexivity. }
        assert (E3 : s3 = mk (mem s3) (map fst G1 ++ mkseg b (ssize g + asize) (srec g) :: map fst G2) (top s) (topsize s) (dv s) (dvsize s) (sb s2) (tb s2) lst' (rchk s) (trimc s) (foot s + asize) (mst s) (pg (mapped s b asize)) (plog (mapped s b asize))).
        { unfold s3. rewrite U2. reflexivity. }
        apply (prepend_free s (set_tb (mk (mem s) (segs s) (top s) (topsize s) (dv s) (dvsize s) (sb s2) (tb s) (least s) (rchk s) (trimc s) (foot s) (mst s) (pg s) (plog s)) (tb s2)) G1 g [(n1, Fr)] n2 k2 l3 G2 D b asize nb bytes (mem s3) _ lst'); auto; cbn [tot]; rewrite ?N.add_0_r; fold q; try rewrite MM.
        -- right. eauto.
        -- rewrite !wr_other by (unfold q; lia). apply wr_same.
        -- rewrite wr_other by (unfold q; lia). apply wr_same.
        -- apply wr_same.
        -- replace (b + nb + q + 8) with (sbase g + n1 + 8) by (unfold q; lia). rewrite !wr_other by (unfold q; lia). apply wr_same.
        -- intros y Y1 Y2 Y3 Y4. rewrite !wr_other by (unfold q in *; lia). reflexivity.
        -- cbn [set_tb dv dvsize sb tb]. eapply bins_L; [apply one_free|]. eapply bins_L; [|exact U3]. unfold none. intros a. cbn. split; [intros [[] | ->]; reflexivity | auto].
        -- rewrite <- MM. rewrite map_app. cbn [map fst]. unfold insert_chunk. destruct (is_small q); unfold insert_small, insert_large, set_sb, set_tb; rewrite E3; reflexivity.
        -- intros T TKT IQ BQ. cbn [set_tb dv dvsize sb tb] in BQ.
           assert (ND : b + nb <> dv s3).
           { rewrite E3. cbn [dv]. intros X. destruct (b_dv _ _ _ _ _ _ BQ) as [(H & _) | (_ & H)]; [apply (proj1 TKT) in IQ; lia | apply H; auto]. }
           assert (BQ' : bins (dv s3) (dvsize s3) (sb s3) (tb s3) T (eq (b + nb))) by (rewrite E3; exact BQ).
           destruct (bins_insert s3 T (b + nb) q (dv s3) (dvsize s3) _ TKT IQ ND eq_refl BQ') as (s4 & J1 & J2 & J3).
           rewrite J1. assert (ED4 : dv s4 = dv s3) by (rewrite J2; reflexivity). assert (EDS : dvsize s4 = dvsize s3) by (rewrite J2; reflexivity).
           rewrite ED4, EDS. eapply bins_L; [|exact J3]. unfold none. intros a. cbn. split; [intros (<- & H); apply H; reflexivity | tauto].
Qed.
