(** Allocation in the heap of [DlModel]: every path of mspace_malloc keeps the invariant of [DlInv] and yields a new block.
    No code of its own. *)
From Verif Require Import Base DlModel DlInv.
From Coq Require Import Lia.
Local Open Scope N_scope.
Arguments N.add : simpl never. Arguments N.sub : simpl never. Arguments N.mul : simpl never. Arguments N.div : simpl never.
Arguments N.modulo : simpl never. Arguments N.eqb : simpl never. Arguments N.ltb : simpl never. Arguments N.leb : simpl never.
Arguments N.odd : simpl never.

Definition core_s (s : ms) (G : list gseg) (D : list (N * N)) : Prop :=
  core (mem s) (top s) (topsize s) (least s) (pg s) (mst s) G D.
Fixpoint sizes (R : list (N * N)) : N := match R with [] => 0 | r :: t => snd r + sizes t end.
Definition tight (s : ms) (G : list gseg) (D : list (N * N)) : Prop :=
  forall x, pg s x = true -> exists r, In r (regs G D) /\ fst r <= x /\ x < fst r + snd r.
Record Inv (s : ms) (G : list gseg) (D : list (N * N)) : Prop := {
  i_segs : map fst G = segs s;
  i_core : core_s s G D;
  i_bins : bins (dv s) (dvsize s) (sb s) (tb s) (tiles G) none;
  i_foot : foot s = sizes (regs G D)
}.
(** what an allocation of at least [bytes] bytes at [a] does *)
Definition got (s : ms) (G : list gseg) (D : list (N * N)) (s' : ms) (bytes a : N) : Prop :=
  exists G' D' r, Inv s' G' D' /\ bytes <= r /\ (forall a' r', blk G' D' a' r' <-> blk G D a' r' \/ (a' = a /\ r' = r)) /\
    (forall r', ~ blk G D a r') /\ keeps G D (fun _ => True) (mem s) (mem s') /\ (tight s G D -> tight s' G' D') /\ mst s' = mst s.

Lemma wr_same m a v : wr_ m a v a = v.
Proof. unfold wr_. now rewrite N.eqb_refl. Qed.
Lemma wr_other m a v y : y <> a -> wr_ m a v y = m y.
Proof. intros H. unfold wr_. apply N.eqb_neq in H. now rewrite H. Qed.
Lemma rep_at m a pin l1 n k l2 e pe : rep m a pin (l1 ++ (n, k) :: l2) e pe -> exists p,
  rep m a pin l1 (a + tot l1) p /\ 32 <= n /\ n mod 16 = 0 /\ m (a + tot l1 + 8) = n + 2 * bit (used k) + bit p /\
  (k = Fr -> p = true /\ m (a + tot l1 + n) = n) /\ rep m (a + tot l1 + n) (used k) l2 e pe.
Proof.
  intros H. apply rep_app in H. destruct H as (p & H1 & H2). cbn [rep] in H2. destruct H2 as (A & B & C & D & E). exists p. repeat (split; [assumption|]). exact E.
Qed.
(** a free chunk: its head, its foot and the chunk after it *)
Lemma free_tile m tp ts lst pgf mst G1 g l1 n l2 G2 D :
  core m tp ts lst pgf mst (G1 ++ (g, l1 ++ (n, Fr) :: l2) :: G2) D ->
  let c := sbase g + tot l1 in
  m (c + 8) = n + 1 /\ m (c + n) = n /\
  exists n2 k2 l3, l2 = (n2, k2) :: l3 /\ k2 <> Fr /\ m (c + n + 8) = n2 + 2 /\ 32 <= n2 /\ n2 mod 16 = 0.
Proof.
  intros C c. pose proof (segs_ok_pos _ _ _ _ _ _ (c_segs _ _ _ _ _ _ _ _ C)) as P.
  destruct (pos_ok_rep _ _ _ _ _ P) as (e & R & _). cbn [fst snd] in R. destruct (rep_at _ _ _ _ _ _ _ _ _ R) as (p & _ & _ & _ & H1 & H2 & H3).
  destruct (H2 eq_refl) as (-> & H4). cbn [used bit] in *. fold c in H1, H3, H4. split; [lia|]. split; [exact H4|].
  destruct l2 as [|[n2 k2] l3]; cbn [rep] in H3; [destruct H3; discriminate|].
  destruct H3 as (A & B & E & F & _). exists n2, k2, l3. split; [reflexivity|].
  assert (K : k2 <> Fr) by (intros K; destruct (F K); discriminate). split; [exact K|].
  split; [rewrite E; destruct k2; [congruence | |]; cbn [used bit]; lia|]. auto.
Qed.
Lemma core_reg G1 g l l' G2 D : regs (G1 ++ (g, l) :: G2) D = regs (G1 ++ (g, l') :: G2) D.
Proof. unfold regs. rewrite !map_app. reflexivity. Qed.
Lemma bins_replace m m' tp ts lst pgf mst G1 g l1 X Y l3 G2 D dvp dvs sbf tbl (L : N -> Prop) :
  let x := sbase g + tot l1 in
  core m tp ts lst pgf mst (G1 ++ (g, l1 ++ X ++ l3) :: G2) D -> core m' tp ts lst pgf mst (G1 ++ (g, l1 ++ Y ++ l3) :: G2) D ->
  tot Y = tot X -> bins dvp dvs sbf tbl (tiles (G1 ++ (g, l1 ++ X ++ l3) :: G2)) L ->
  (forall a, L a <-> exists n, In (a, n, Fr) (chunks x X)) ->
  bins dvp dvs sbf tbl (tiles (G1 ++ (g, l1 ++ Y ++ l3) :: G2)) (fun a => exists n, In (a, n, Fr) (chunks x Y)).
Proof.
  intros x C C' T B E.
  refine (bins_tiles dvp dvs sbf tbl _ _ (fun c => In c (rest G1 g l1 (x + tot X) l3 G2)) (chunks x X) (chunks x Y) L _ _ _ _ _ _ B).
  - intros c. apply tiles_rest.
  - intros c. rewrite <- T. apply tiles_rest.
  - intros a n k I. pose proof (rest_apart _ _ _ _ _ _ _ _ _ _ _ _ _ _ _ _ C I) as AP. fold x in AP.
    assert (I1 : In (a, n, k) (tiles (G1 ++ (g, l1 ++ X ++ l3) :: G2))) by (apply tiles_rest; now left).
    pose proof (tile_facts _ _ _ _ _ _ _ _ _ _ _ C I1) as (F1 & _). split.
    + intros H. apply E in H. destruct H as (n' & H). 
      assert (I2 : In (a, n', Fr) (tiles (G1 ++ (g, l1 ++ X ++ l3) :: G2))) by (apply tiles_rest; now right).
      pose proof (tile_facts _ _ _ _ _ _ _ _ _ _ _ C I2) as (F2 & _). apply chunks_range in H. lia.
    + intros (n' & H).
      assert (I2 : In (a, n', Fr) (tiles (G1 ++ (g, l1 ++ Y ++ l3) :: G2))) by (apply tiles_rest; now right).
      pose proof (tile_facts _ _ _ _ _ _ _ _ _ _ _ C' I2) as (F2 & _). apply chunks_range in H. lia.
  - intros a n I. apply E. eauto.
  - intros a n I. eauto.
Qed.
(** The tiles [X], none of them a block, become [Y] with one block in it. *)
Lemma finish_alloc s s' G1 g l1 X Y l3 G2 D c n bytes :
  let x := sbase g + tot l1 in let nx := x + tot X in
  Inv s (G1 ++ (g, l1 ++ X ++ l3) :: G2) D -> core_s s' (G1 ++ (g, l1 ++ Y ++ l3) :: G2) D -> tot Y = tot X ->
  (forall c n, ~ In (c, n, Us) (chunks x X)) -> (forall c' n', In (c', n', Us) (chunks x Y) <-> c' = c /\ n' = n) ->
  (forall y, y < x + 8 \/ nx + 8 < y -> mem s' y = mem s y) ->
  segs s' = segs s -> foot s' = foot s -> pg s' = pg s -> mst s' = mst s ->
  bins (dv s') (dvsize s') (sb s') (tb s') (tiles (G1 ++ (g, l1 ++ Y ++ l3) :: G2)) none ->
  bytes + 8 <= n ->
  got s (G1 ++ (g, l1 ++ X ++ l3) :: G2) D s' bytes (c + 16).
Proof.
  intros x nx [I1 I2 I3 I4] C T NX NY F S1 S2 S3 S4 B Z.
  assert (CY : In (c, n, Us) (chunks x Y)) by (apply NY; auto).
  assert (IY : In (c, n, Us) (tiles (G1 ++ (g, l1 ++ Y ++ l3) :: G2))) by (apply tiles_rest; now right).
  pose proof (tile_facts _ _ _ _ _ _ _ _ _ _ _ C IY) as (F1 & _).
  pose proof (chunks_range _ _ _ _ _ CY) as CR.
  assert (O : forall a r, blk (G1 ++ (g, l1 ++ X ++ l3) :: G2) D a r -> a < x + 16 \/ nx + 16 <= a).
  { intros a r [(c' & n' & -> & E & I) | (c' & n' & -> & E & I)].
    - pose proof (tile_facts _ _ _ _ _ _ _ _ _ _ _ I2 I) as (F2 & _). apply tiles_rest in I. destruct I as [I | I]; [|now apply NX in I].
      pose proof (rest_apart _ _ _ _ _ _ _ _ _ _ _ _ _ _ _ _ I2 I) as AP. fold x nx in AP. lia.
    - pose proof (seg_in _ _ _ _ _ _ _ _ _ _ _ _ _ I2) as SI.
      pose proof (geo_apartD _ _ _ _ _ _ _ (c_geo _ _ _ _ _ _ _ _ I2) I) as P. unfold rdisj, reg, dreg in P. cbn [fst snd] in P.
      unfold nx, x. lia. }
  exists (G1 ++ (g, l1 ++ Y ++ l3) :: G2), D, (n - 8). split; [|split; [lia|split; [|split; [|split; [|split]]]]].
  - constructor; [| exact C | exact B |].
    + rewrite S1, <- I1, !map_app. reflexivity.
    + rewrite S2, I4. f_equal. apply core_reg.
  - intros a r. rewrite (blk_replace _ _ _ _ _ _ _ _ _ X Y _ _ _ I2 T). fold x nx. split.
    + intros [(H & _) | (c' & n' & -> & E & I)]; [now left|]. apply NY in I. destruct I as (-> & ->). right. lia.
    + intros [H | (-> & ->)]; [left; split; [exact H | apply (O _ _ H)]|]. right. exists c, n. split; [reflexivity|]. split; [lia | exact CY].
  - intros r H. pose proof (O _ _ H) as [O1 | O1]; [|lia].
    apply (blk_replace _ _ _ _ _ _ _ _ _ Y X _ _ _ C (eq_sym T)) in H. fold x in H. destruct H as [(_ & H) | (c' & n' & _ & _ & H)]; [lia|].
    now apply NX in H.
  - intros a r y H _. apply (keeps_replace _ _ _ _ _ _ _ _ _ _ _ _ _ (mem s') I2 F a r y H). apply (O _ _ H).
  - intros TI y PY. rewrite S3 in PY. destruct (TI _ PY) as (r & R1 & R2). exists r. split; [rewrite core_reg with (l' := l1 ++ X ++ l3); exact R1 | exact R2].
  - exact S4.
Qed.

(** ** Memory: taking a free chunk whole, and cutting it *)
Lemma core_take m tp ts lst pgf mst G1 g l1 n n2 k2 l2 G2 D m' :
  let x := sbase g + tot l1 in
  core m tp ts lst pgf mst (G1 ++ (g, l1 ++ [(n, Fr)] ++ (n2, k2) :: l2) :: G2) D ->
  m' (x + 8) = n + 3 -> m' (x + n + 8) = or_pin (m (x + n + 8)) -> (forall y, y <> x + 8 -> y <> x + n + 8 -> m' y = m y) ->
  core m' tp ts lst pgf mst (G1 ++ (g, l1 ++ [(n, Us)] ++ (n2, k2) :: l2) :: G2) D.
Proof.
  intros x C H1 H2 F. destruct (free_tile _ _ _ _ _ _ _ _ _ _ _ _ _ C) as (_ & _ & n2' & k2' & l3 & E & K & _ & Z1 & Z2).
  cbn [app] in E. injection E as <- <- <-. 
  apply (core_replace m tp ts lst pgf mst G1 g l1 [(n, Fr)] [(n, Us)] n2 k2 l2 G2 D m' C); cbn [tot]; fold x.
  - reflexivity.
  - intros c [<- | []]. discriminate.
  - intros c [<- | []]. discriminate.
  - intros y Y. apply F; lia.
  - intros p q R HQ _. rewrite N.add_0_r in *. cbn [rep] in R. destruct R as (A & B & _ & R & _). destruct (R eq_refl) as (-> & _).
    exists true. cbn [rep]. split; [|split].
    + split; [exact A|]. split; [exact B|]. split; [rewrite H1; cbn [used bit]; lia|]. split; [discriminate|]. auto.
    + rewrite H2, HQ, or_pin_hd by exact Z2. reflexivity.
    + reflexivity.
Qed.
Lemma core_carve m tp ts lst pgf mst G1 g l1 n k n2 k2 l2 G2 D m' :
  let x := sbase g + tot l1 in
  core m tp ts lst pgf mst (G1 ++ (g, l1 ++ [(n, Fr)] ++ (n2, k2) :: l2) :: G2) D -> 32 <= k -> k mod 16 = 0 -> k + 32 <= n ->
  m' (x + 8) = k + 3 -> m' (x + k + 8) = n - k + 1 -> m' (x + n) = n - k ->
  (forall y, y <> x + 8 -> y <> x + k + 8 -> y <> x + n -> m' y = m y) ->
  core m' tp ts lst pgf mst (G1 ++ (g, l1 ++ [(k, Us); (n - k, Fr)] ++ (n2, k2) :: l2) :: G2) D.
Proof.
  intros x C K1 K2 K3 H1 H2 H3 F.
  apply (core_replace m tp ts lst pgf mst G1 g l1 [(n, Fr)] [(k, Us); (n - k, Fr)] n2 k2 l2 G2 D m' C); cbn [tot]; fold x.
  - lia.
  - intros c [<- | []]. discriminate.
  - intros c [<- | [<- | []]]; discriminate.
  - intros y Y. apply F; lia.
  - intros p q R HQ HF. rewrite N.add_0_r in *. cbn [rep] in R. destruct R as (A & B & _ & R & _ & <-). destruct (R eq_refl) as (-> & _).
    exists false. cbn [rep]. split; [|split; [rewrite F by lia; exact HQ | exact HF]].
    split; [exact K1|]. split; [exact K2|]. split; [rewrite H1; cbn [used bit]; lia|]. split; [discriminate|].
    split; [lia|]. split; [apply al_sub; auto|]. split; [rewrite H2; cbn [used bit]; lia|].
    replace (x + k + (n - k)) with (x + n) by lia. auto.
Qed.
(** dv taken out, in general *)
Lemma bins_undv' dvp dvs sbf tbl T (L : N -> Prop) : tok T -> In (dvp, dvs, Fr) T -> bins dvp dvs sbf tbl T L ->
  ~ L dvp /\ bins 0 0 sbf tbl T (fun a => L a \/ a = dvp).
Proof.
  intros (T1 & T2) I [A B C D F]. split; [destruct A as [(-> & _) | (_ & A)]; [apply T1 in I; lia | exact A]|]. constructor.
  - left. auto.
  - intros i a J. destruct (B _ _ J) as (B1 & B2 & B3 & B4). split; [exact B1|]. split; [exact B2|].
    split; [apply T1 in B1; lia | tauto].
  - exact C.
  - intros a J. destruct (D _ J) as (D1 & D4 & n & D2 & D3). split; [apply T1 in D2; lia|]. split; [tauto|]. eauto.
  - intros a n J. destruct (F _ _ J) as [-> | [H | [H | H]]]; auto.
Qed.
Lemma replace_dv_ok s T p n : tok T -> In (p, n, Fr) T -> dvsize s < 256 -> bins (dv s) (dvsize s) (sb s) (tb s) T (eq p) ->
  exists s', replace_dv s p n = s' /\
    s' = mk (mem s) (segs s) (top s) (topsize s) (dv s') (dvsize s') (sb s') (tb s') (least s) (rchk s) (trimc s) (foot s) (mst s) (pg s) (plog s) /\
    bins (dv s') (dvsize s') (sb s') (tb s') T none.
Proof.
  intros TK I Z B. unfold replace_dv. eexists. split; [reflexivity|]. destruct (dvsize s =? 0) eqn:E.
  - split; [reflexivity|]. cbn [set_dv dv dvsize sb tb]. apply N.eqb_eq in E.
    assert (dv s = 0) as E0. { destruct B as [[(H & _) | (H & _)] _ _ _ _]; [exact H|]. rewrite E in H. destruct TK as (T1 & _). apply T1 in H. lia. }
    rewrite E, E0 in B. apply (bins_setdv p n) in B; [|exact TK | exact I | reflexivity].
    eapply bins_L; [|exact B]. unfold none. intros a. cbn. split; [intros (<- & H); apply H; reflexivity | tauto].
  - apply N.eqb_neq in E. assert (ID : In (dv s, dvsize s, Fr) T) by (destruct B as [[(_ & H) | (H & _)] _ _ _ _]; [lia | exact H]).
    pose proof (proj1 TK _ _ _ ID) as (DA & _).
    destruct (bins_undv' _ _ _ _ _ _ TK ID B) as (NL & B'). 
    destruct (bins_insert s T (dv s) (dvsize s) 0 0 _ TK ID ltac:(lia) (or_intror eq_refl) B') as (s1 & H1 & H2 & B1).
    unfold insert_chunk in H1. rewrite is_small_lt in H1. apply N.ltb_lt in Z. rewrite Z in H1. rewrite H1.
    split; [rewrite H2; reflexivity|]. cbn [set_dv dv dvsize sb tb].
    apply (bins_setdv p n) in B1; [|exact TK | exact I | split; [now left | intros ->; tauto]].
    eapply bins_L; [|exact B1]. unfold none. intros a. cbn. split; [intros (([<- | ->] & H) & H'); [apply H'; reflexivity | apply H; reflexivity] | tauto].
Qed.
(** small facts about the lists [X] and [Y] *)
Lemma one_free x n : forall a, (x = a <-> exists m, In (a, m, Fr) (chunks x [(n, Fr)])).
Proof. intros a. cbn. split; [intros <-; eauto | intros (m & [E | []]); congruence]. Qed.
Lemma none_used x n : forall a, none a <-> exists m, In (a, m, Fr) (chunks x [(n, Us)]).
Proof. intros a. unfold none. cbn. split; [tauto | intros (m & [E | []]); congruence]. Qed.
Lemma free_nous x n : forall c k, ~ In (c, k, Us) (chunks x [(n, Fr)]).
Proof. intros c k [E | []]. congruence. Qed.
Lemma take_us x n : forall c k, In (c, k, Us) (chunks x [(n, Us)]) <-> c = x /\ k = n.
Proof. intros c k. cbn. split; [intros [E | []]; injection E as <- <-; auto | intros (-> & ->); auto]. Qed.
Lemma carve_us x n j : forall c k, In (c, k, Us) (chunks x [(n, Us); (j, Fr)]) <-> c = x /\ k = n.
Proof. intros c k. cbn. split; [intros [E | [E | []]]; [injection E as <- <-; auto | congruence] | intros (-> & ->); auto]. Qed.
Lemma carve_fr x n j : forall a, (x + n = a <-> exists m, In (a, m, Fr) (chunks x [(n, Us); (j, Fr)])).
Proof. intros a. cbn. split; [intros <-; eauto | intros (m & [E | [E | []]]); congruence]. Qed.

(** [s0] is [s] with the free chunk [p] taken out of its bin. *)
Definition loose (s s0 : ms) (G : list gseg) (p : N) : Prop :=
  s0 = mk (mem s) (segs s) (top s) (topsize s) (dv s0) (dvsize s0) (sb s0) (tb s0) (least s) (rchk s) (trimc s) (foot s) (mst s) (pg s) (plog s) /\
  bins (dv s0) (dvsize s0) (sb s0) (tb s0) (tiles G) (eq p).
Lemma take_whole s s0 G D p n bytes : Inv s G D -> In (p, n, Fr) (tiles G) -> loose s s0 G p -> bytes + 8 <= n ->
  got s G D (set_inuse_and_pinuse s0 p n) bytes (p + 16).
Proof.
  intros I IT (E0 & B0) Z. destruct (tiles_split _ _ _ _ IT) as (G1 & g & l1 & l2 & G2 & -> & ->).
  pose proof (i_core _ _ _ I) as C. destruct (free_tile _ _ _ _ _ _ _ _ _ _ _ _ _ C) as (H1 & H2 & n2 & k2 & l3 & -> & K2 & H3 & H4 & H5).
  set (x := sbase g + tot l1) in *. pose proof (tile_facts _ _ _ _ _ _ _ _ _ _ _ C IT) as (F1 & _).
  assert (C' : core_s (set_inuse_and_pinuse s0 x n) (G1 ++ (g, l1 ++ [(n, Us)] ++ (n2, k2) :: l3) :: G2) D).
  { unfold core_s. rewrite E0. cbn [set_inuse_and_pinuse set_head set_mem mem top topsize least pg mst head].
    apply (core_take (mem s) _ _ _ _ _ _ _ _ _ _ _ _ _ _ _ C); fold x.
    - rewrite wr_other by lia. apply wr_same.
    - rewrite wr_same. f_equal. rewrite wr_other by lia. reflexivity.
    - intros y Y1 Y2. rewrite !wr_other by lia. reflexivity. }
  change ((n, Fr) :: (n2, k2) :: l3) with ([(n, Fr)] ++ (n2, k2) :: l3) in *.
  refine (finish_alloc s _ G1 g l1 [(n, Fr)] [(n, Us)] ((n2, k2) :: l3) G2 D x n bytes I C' _ _ _ _ _ _ _ _ _ Z); fold x.
  - reflexivity.
  - apply free_nous.
  - apply take_us.
  - intros y Y. rewrite E0. cbn [set_inuse_and_pinuse set_head set_mem mem head tot] in *. rewrite !wr_other by lia. reflexivity.
  - rewrite E0. reflexivity.
  - rewrite E0. reflexivity.
  - rewrite E0. reflexivity.
  - rewrite E0. reflexivity.
  - cbn [set_inuse_and_pinuse set_head set_mem dv dvsize sb tb].
    eapply bins_L; [intros a; symmetry; apply (none_used x n)|]. 
    unfold core_s in C'. rewrite E0 in C'. cbn [set_inuse_and_pinuse set_head set_mem mem top topsize least pg mst head] in C'.
    refine (bins_replace _ _ _ _ _ _ _ _ _ _ [(n, Fr)] [(n, Us)] _ _ _ _ _ _ _ _ C C' eq_refl B0 _). apply one_free.
Qed.
(** cut, the rest going to a bin or to dv *)
Lemma take_part s s0 G D p n k bytes m' s' : Inv s G D -> In (p, n, Fr) (tiles G) -> loose s s0 G p ->
  32 <= k -> k mod 16 = 0 -> k + 32 <= n -> bytes + 8 <= k ->
  m' (p + 8) = k + 3 -> m' (p + k + 8) = n - k + 1 -> m' (p + n) = n - k ->
  (forall y, y <> p + 8 -> y <> p + k + 8 -> y <> p + n -> m' y = mem s y) ->
  s' = mk m' (segs s) (top s) (topsize s) (dv s') (dvsize s') (sb s') (tb s') (least s) (rchk s) (trimc s) (foot s) (mst s) (pg s) (plog s) ->
  (forall T, tok T -> In (p + k, n - k, Fr) T -> bins (dv s0) (dvsize s0) (sb s0) (tb s0) T (eq (p + k)) ->
     bins (dv s') (dvsize s') (sb s') (tb s') T none) ->
  got s G D s' bytes (p + 16).
Proof.
  intros I IT (E0 & B0) K1 K2 K3 Z M1 M2 M3 M4 E' B'. destruct (tiles_split _ _ _ _ IT) as (G1 & g & l1 & l2 & G2 & -> & ->).
  pose proof (i_core _ _ _ I) as C. destruct (free_tile _ _ _ _ _ _ _ _ _ _ _ _ _ C) as (H1 & H2 & n2 & k2 & l3 & -> & KK & H3 & H4 & H5).
  set (x := sbase g + tot l1) in *. pose proof (tile_facts _ _ _ _ _ _ _ _ _ _ _ C IT) as (F1 & _).
  pose proof (core_carve (mem s) _ _ _ _ _ _ _ _ _ k _ _ _ _ _ m' C K1 K2 K3 M1 M2 M3 M4) as C1.
  assert (C' : core_s s' (G1 ++ (g, l1 ++ [(k, Us); (n - k, Fr)] ++ (n2, k2) :: l3) :: G2) D).
  { unfold core_s. rewrite E'. exact C1. }
  change ((n, Fr) :: (n2, k2) :: l3) with ([(n, Fr)] ++ (n2, k2) :: l3) in *.
  refine (finish_alloc s _ G1 g l1 [(n, Fr)] [(k, Us); (n - k, Fr)] ((n2, k2) :: l3) G2 D x k bytes I C' _ _ _ _ _ _ _ _ _ Z); fold x.
  - cbn [tot]. lia.
  - apply free_nous.
  - apply carve_us.
  - intros y Y. rewrite E'. cbn [mem tot] in *. apply M4; lia.
  - rewrite E'. reflexivity.
  - rewrite E'. reflexivity.
  - rewrite E'. reflexivity.
  - rewrite E'. reflexivity.
  - apply B'.
    + apply (core_tok _ _ _ _ _ _ _ _ C1).
    + apply tiles_rest. right. cbn. auto.
    + eapply bins_L; [intros a; symmetry; apply (carve_fr x k (n - k))|].
      refine (bins_replace _ _ _ _ _ _ _ _ _ _ [(n, Fr)] [(k, Us); (n - k, Fr)] _ _ _ _ _ _ _ _ C C1 _ B0 _); [cbn [tot]; lia | apply one_free].
Qed.

(** ** The paths of mspace_malloc up to the system *)
Lemma first_bin_some s i n j : first_bin s i n = Some j -> i <= j /\ j < i + N.of_nat n /\ sb s j <> [].
Proof.
  revert i. induction n as [|n IH]; intros i; cbn [first_bin]; [discriminate|]. destruct (sb s i) eqn:E.
  - intros H. apply IH in H. destruct H as (H1 & H2 & H3). split; [lia|]. split; [lia | exact H3].
  - intros H. injection H as <-. split; [lia|]. split; [lia|]. congruence.
Qed.
Lemma first_bin_none s i n j : first_bin s i n = None -> i <= j -> j < i + N.of_nat n -> sb s j = [].
Proof.
  revert i. induction n as [|n IH]; intros i; cbn [first_bin]; [intros; exfalso; lia|]. destruct (sb s i) eqn:E; [|discriminate].
  intros H A B. destruct (N.eq_dec i j) as [<- | NE]; [exact E|]. apply (IH (i + 1)); auto; lia.
Qed.
Lemma pop_loose s G D i p r : Inv s G D -> sb s i = p :: r ->
  In (p, 8 * i, Fr) (tiles G) /\ i < 32 /\ loose s (set_sb s i r) G p.
Proof.
  intros I E. destruct (bins_pop _ _ _ _ _ _ _ _ (core_tok _ _ _ _ _ _ _ _ (i_core _ _ _ I)) E (i_bins _ _ _ I)) as (A & B & _ & C).
  split; [exact A|]. split; [exact B|]. split; [reflexivity|]. exact C.
Qed.
(** what a search of the trees may answer *)
Definition best_fit (s : ms) (nb : N) (v : option N) : Prop :=
  match v with
  | Some a => In a (tb s) /\ nb <= chunksize s a /\ forall c, In c (tb s) -> nb <= chunksize s c -> chunksize s a <= chunksize s c
  | None => forall c, In c (tb s) -> chunksize s c < nb
  end.
(** the least a search of the trees must guarantee for the heap to be sound: a chunk of the trees that is large enough, and for a small
    request one if there is one *)
Definition tree_answer (s : ms) (nb : N) (v : option N) : Prop :=
  match v with Some a => In a (tb s) /\ nb <= chunksize s a | None => nb < 256 -> tb s = [] end.
Lemma free_size s G D a n : Inv s G D -> In (a, n, Fr) (tiles G) -> chunksize s a = n.
Proof.
  intros I IT. destruct (tiles_split _ _ _ _ IT) as (G1 & g & l1 & l2 & G2 & -> & ->).
  destruct (free_tile _ _ _ _ _ _ _ _ _ _ _ _ _ (i_core _ _ _ I)) as (H1 & _).
  pose proof (tile_facts _ _ _ _ _ _ _ _ _ _ _ (i_core _ _ _ I) IT) as (_ & F2 & _).
  unfold chunksize, head. rewrite H1. replace (n + 1) with (n + 2 * bit false + bit true) by (cbn [bit]; lia). apply hd_size. exact F2.
Qed.
Lemma tree_tile s G D a : Inv s G D -> In a (tb s) -> In (a, chunksize s a, Fr) (tiles G) /\ 256 <= chunksize s a /\ a <> dv s.
Proof.
  intros I IA. destruct (b_tb _ _ _ _ _ _ (i_bins _ _ _ I) a IA) as (A & _ & n & B & E). rewrite (free_size _ _ _ _ _ I B). auto.
Qed.
Lemma best_answer s G D nb v : Inv s G D -> best_fit s nb v -> tree_answer s nb v.
Proof.
  intros I. destruct v as [a|]; cbn [best_fit tree_answer]; [tauto|]. intros H L. destruct (tb s) as [|t tr] eqn:E; [reflexivity|]. exfalso.
  specialize (H t (or_introl eq_refl)). destruct (tree_tile s G D t I) as (_ & B & _); [rewrite E; now left | lia].
Qed.
Lemma unlink_large_loose s G D a : Inv s G D -> In a (tb s) -> exists s0, unlink_large s a = Ok s0 /\ loose s s0 G a /\
  dv s0 = dv s /\ dvsize s0 = dvsize s.
Proof.
  intros I IA. destruct (tree_tile _ _ _ _ I IA) as (A & B & E).
  destruct (unlink_ok s _ _ _ _ _ none (core_tok _ _ _ _ _ _ _ _ (i_core _ _ _ I)) A E (fun x => x) (i_bins _ _ _ I)) as (s' & H1 & H2 & H3).
  unfold unlink_chunk in H1. rewrite is_small_lt in H1. replace (chunksize s a <? 256) with false in H1 by (symmetry; apply N.ltb_ge; lia).
  exists s'. split; [exact H1|]. rewrite H2. cbn [dv dvsize]. split; [split; [reflexivity|]|auto]. cbn [dv dvsize sb tb].
  eapply bins_L; [|exact H3]. unfold none. intros x. cbn. split; [intros [[] | ->]; reflexivity | auto].
Qed.
Lemma cut_ok s G D v nb dvp bytes : Inv s G D -> In v (tb s) -> 32 <= nb -> nb mod 16 = 0 -> nb <= chunksize s v -> bytes + 8 <= nb ->
  (dvp = true -> dvsize s < 256) -> exists s', cut s v nb dvp = Ok (s', v) /\ got s G D s' bytes (v + 16).
Proof.
  intros I IV N1 N2 N3 N4 N5. destruct (tree_tile _ _ _ _ I IV) as (A & B & E).
  pose proof (tile_facts _ _ _ _ _ _ _ _ _ _ _ (i_core _ _ _ I) A) as (F1 & F2 & F3 & F4 & F5 & F6).
  unfold cut. replace (least s <=? v) with true by (symmetry; apply N.leb_le; exact F5).
  replace (v <? v + nb) with true by (symmetry; apply N.ltb_lt; lia). cbn [andb].
  destruct (unlink_large_loose _ _ _ _ I IV) as (s0 & U1 & U2 & U3 & U4). rewrite U1. cbn [bind].
  destruct (chunksize s v - nb <? MIN_CHUNK) eqn:EC.
  - eexists. split; [reflexivity|]. replace (chunksize s v - nb + nb) with (chunksize s v) by lia.
    apply (take_whole s s0 G D); auto. lia.
  - unfold MIN_CHUNK in EC. set (n := chunksize s v) in *. set (s1 := set_free_chunk (set_inuse_chunk s0 v nb) (v + nb) (n - nb)).
    destruct U2 as (E0 & B0).
    assert (ES1 : s1 = mk (mem s1) (segs s) (top s) (topsize s) (dv s0) (dvsize s0) (sb s0) (tb s0) (least s) (rchk s) (trimc s) (foot s) (mst s) (pg s) (plog s)).
    { unfold s1. rewrite E0. reflexivity. }
    assert (MS1 : mem s1 = wr_ (wr_ (wr_ (mem s) (v + 8) (nb + 3)) (v + nb + 8) (n - nb + 1)) (v + nb + (n - nb)) (n - nb)).
    { unfold s1. rewrite E0. reflexivity. }
    destruct dvp.
    + eexists. split; [reflexivity|]. 
      assert (RD : forall T, tok T -> In (v + nb, n - nb, Fr) T -> bins (dv s0) (dvsize s0) (sb s0) (tb s0) T (eq (v + nb)) ->
         exists s', replace_dv s1 (v + nb) (n - nb) = s' /\
         s' = mk (mem s1) (segs s1) (top s1) (topsize s1) (dv s') (dvsize s') (sb s') (tb s') (least s1) (rchk s1) (trimc s1) (foot s1) (mst s1) (pg s1) (plog s1) /\
         bins (dv s') (dvsize s') (sb s') (tb s') T none).
      { intros T TK IT BT. refine (replace_dv_ok s1 T _ _ TK IT _ _); rewrite ES1; cbn [dv dvsize sb tb]; [rewrite U4; apply N5; reflexivity | exact BT]. }
      apply (take_part s s0 G D v n nb bytes (mem s1)); auto; try (rewrite MS1); try lia.
      * split; [exact E0 | exact B0].
      * rewrite !wr_other by lia. apply wr_same.
      * rewrite wr_other by lia. apply wr_same.
      * replace (v + n) with (v + nb + (n - nb)) by lia. apply wr_same.
      * intros y Y1 Y2 Y3. rewrite !wr_other by lia. reflexivity.
      * unfold replace_dv. destruct (dvsize s1 =? 0); unfold insert_small, set_sb, set_dv; rewrite <- MS1; rewrite ES1; reflexivity.
      * intros T TK IT BT. destruct (RD T TK IT BT) as (s' & <- & _ & H). exact H.
    + eexists. split; [reflexivity|].
      apply (take_part s s0 G D v n nb bytes (mem s1)); auto; try (rewrite MS1); try lia.
      * split; [exact E0 | exact B0].
      * rewrite !wr_other by lia. apply wr_same.
      * rewrite wr_other by lia. apply wr_same.
      * replace (v + n) with (v + nb + (n - nb)) by lia. apply wr_same.
      * intros y Y1 Y2 Y3. rewrite !wr_other by lia. reflexivity.
      * unfold insert_chunk. destruct (is_small (n - nb)); unfold insert_small, insert_large, set_sb, set_tb; rewrite <- MS1; rewrite ES1; reflexivity.
      * intros T TK IT BT.
        assert (ND : v + nb <> dv s0).
        { intros ED. destruct (b_dv _ _ _ _ _ _ BT) as [(H & _) | (_ & H)]; [apply (proj1 TK) in IT; lia | apply H; auto]. }
        assert (BT' : bins (dv s1) (dvsize s1) (sb s1) (tb s1) T (eq (v + nb))) by (rewrite ES1; exact BT).
        assert (ND' : v + nb <> dv s1) by (rewrite ES1; exact ND).
        destruct (bins_insert s1 T (v + nb) (n - nb) (dv s1) (dvsize s1) _ TK IT ND' eq_refl BT') as (s' & H1 & H2 & H3).
        rewrite H1. assert (ED : dv s' = dv s1) by (rewrite H2; reflexivity). assert (EDS : dvsize s' = dvsize s1) by (rewrite H2; reflexivity).
        rewrite ED, EDS. eapply bins_L; [|exact H3]. unfold none. intros a. cbn. split; [intros (<- & H); apply H; reflexivity | tauto].
Qed.
(** dv *)
Lemma dv_ok s G D nb bytes mm : Inv s G D -> 32 <= nb -> nb mod 16 = 0 -> bytes + 8 <= nb -> nb <= dvsize s ->
  exists s', from_rest s nb mm = Ok (s', Some (dv s + 16)) /\ got s G D s' bytes (dv s + 16).
Proof.
  intros I N1 N2 N3 N4. unfold from_rest. apply N.leb_le in N4. rewrite N4. apply N.leb_le in N4.
  assert (IT : In (dv s, dvsize s, Fr) (tiles G)) by (destruct (b_dv _ _ _ _ _ _ (i_bins _ _ _ I)) as [(_ & H) | (H & _)]; [lia | exact H]).
  pose proof (core_tok _ _ _ _ _ _ _ _ (i_core _ _ _ I)) as TK.
  pose proof (bins_undv _ _ _ _ _ TK IT (i_bins _ _ _ I)) as B0.
  assert (LO : loose s (set_dv s 0 0) G (dv s)) by (split; [reflexivity | exact B0]).
  destruct (MIN_CHUNK <=? dvsize s - nb) eqn:EC.
  - apply N.leb_le in EC. unfold MIN_CHUNK in EC. eexists. split; [reflexivity|]. set (p := dv s) in *. set (n := dvsize s) in *.
    assert (LEN : nb + 32 <= n) by lia.
    match goal with |- got _ _ _ ?s' _ _ => apply (take_part s (set_dv s 0 0) G D p n nb bytes (mem s')) end; auto.
    + cbn [set_inuse_chunk set_head set_mem mem set_free_chunk set_dv]. apply wr_same.
    + cbn [set_inuse_chunk set_head set_mem mem set_free_chunk set_dv]. rewrite !wr_other by lia. apply wr_same.
    + cbn [set_inuse_chunk set_head set_mem mem set_free_chunk set_dv]. rewrite wr_other by lia.
      replace (p + n) with (p + nb + (n - nb)) by lia. apply wr_same.
    + intros y Y1 Y2 Y3. cbn [set_inuse_chunk set_head set_mem mem set_free_chunk set_dv]. rewrite !wr_other by lia. reflexivity.
    + intros T TK' IT' BT. cbn [set_inuse_chunk set_head set_mem set_free_chunk set_dv dv dvsize sb tb] in *.
      apply (bins_setdv (p + nb) (n - nb)) in BT; auto. eapply bins_L; [|exact BT]. unfold none. intros a. cbn.
      split; [intros (<- & H); apply H; reflexivity | tauto].
  - eexists. split; [reflexivity|]. apply (take_whole s (set_dv s 0 0) G D); auto. lia.
Qed.
