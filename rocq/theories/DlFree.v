(** Release in the heap of [DlModel]: every path of mspace_free keeps the invariant of [DlInv].  No code of its own. *)
From Verif Require Import Base DlModel DlInv DlAlloc DlSys DlPre DlMalloc.
From Coq Require Import Lia.
Local Open Scope N_scope.
Arguments N.add : simpl never. Arguments N.sub : simpl never. Arguments N.mul : simpl never. Arguments N.div : simpl never.
Arguments N.modulo : simpl never. Arguments N.eqb : simpl never. Arguments N.ltb : simpl never. Arguments N.leb : simpl never.
Arguments N.odd : simpl never.


(** [chain f U g]: the ranges [U] are taken back one by one; each is whole pages, all of them mapped at that moment *)
Fixpoint chain (f : N -> bool) (U : list (N * N)) (g : N -> bool) : Prop :=
  match U with
  | [] => forall x, g x = f x
  | (b, n) :: U => b mod 4096 = 0 /\ n mod 4096 = 0 /\ 0 < n /\ (forall x, b <= x -> x < b + n -> f x = true) /\
                   chain (fun x => negb (within b n x) && f x)%bool U g
  end.
(** between [s] and [s'] the only calls of the page allocator give mapped pages back *)
Definition unms (s s' : ms) : Prop := exists U, plog s' = plog s ++ map (fun r => Unm (fst r) (snd r)) U /\ chain (pg s) U (pg s').
Lemma chain_ext U : forall f f' g, (forall x, f' x = f x) -> chain f U g -> chain f' U g.
Proof.
  induction U as [|[b n] U IH]; intros f f' g E; cbn [chain]; [intros H x; rewrite H, E; reflexivity|]. intros (A & B & Z & M & H).
  split; [exact A|]. split; [exact B|]. split; [exact Z|]. split; [intros x X1 X2; rewrite E; apply M; assumption|]. apply (IH (fun x => negb (within b n x) && f x)%bool); [|exact H].
  intros x. rewrite E. reflexivity.
Qed.
Lemma chain_app U V : forall f g h, chain f U g -> chain g V h -> chain f (U ++ V) h.
Proof.
  induction U as [|[b n] U IH]; intros f g h; cbn [chain app].
  - intros E. apply chain_ext. intros x. symmetry. apply E.
  - intros (A & B & Z & M & H) K. repeat (split; [assumption|]). eapply IH; eassumption.
Qed.
Lemma unms_refl s s' : plog s' = plog s -> pg s' = pg s -> unms s s'.
Proof. intros E F. exists []. cbn [map chain]. rewrite app_nil_r, E, F. auto. Qed.
Lemma unms_trans s s1 s2 : unms s s1 -> unms s1 s2 -> unms s s2.
Proof. intros (U & E & H) (V & F & K). exists (U ++ V). split; [rewrite F, E, map_app, app_assoc; reflexivity | apply (chain_app _ _ _ _ _ H K)]. Qed.
Lemma unms_one s s' b n : plog s' = plog s ++ [Unm b n] -> (forall x, pg s' x = (negb (within b n x) && pg s x)%bool) -> b mod 4096 = 0 -> n mod 4096 = 0 -> 0 < n ->
  (forall x, b <= x -> x < b + n -> pg s x = true) -> unms s s'.
Proof. intros E F A B Z M. exists [(b, n)]. cbn [map fst snd chain]. auto 8. Qed.
(** what a call that takes back the blocks where [Q] is false does; [mr]: whether pages may be lost by mremap *)
Definition upd (mr : bool) (s : ms) (G : list gseg) (D : list (N * N)) (s' : ms) (G' : list gseg) (D' : list (N * N)) (Q : N -> Prop) : Prop :=
  Inv s' G' D' /\ (forall a r, blk G' D' a r <-> blk G D a r /\ Q a) /\ keeps G D Q (mem s) (mem s') /\
  (mr = false -> tight s G D -> tight s' G' D') /\ mst s' = mst s /\ unms s s'.
Lemma upd_trans mr s G D s1 G1 D1 s2 G2 D2 Q : upd mr s G D s1 G1 D1 Q -> upd mr s1 G1 D1 s2 G2 D2 (fun _ => True) -> upd mr s G D s2 G2 D2 Q.
Proof.
  intros (I1 & B1 & K1 & T1 & M1 & P1) (I2 & B2 & K2 & T2 & M2 & P2). split; [exact I2|]. split; [|split; [|split; [auto | split; [congruence | apply (unms_trans _ _ _ P1 P2)]]]].
  - intros a r. rewrite B2, B1. tauto.
  - intros a r y H HQ Y1 Y2. rewrite (K2 a r y); [apply (K1 a r y H HQ Y1 Y2) | apply B1; auto | exact Logic.I | exact Y1 | exact Y2].
Qed.

(** ** Segments without blocks go back *)
Lemma core_remove m tp ts lst pgf mst h G1 g n G2 D :
  core m tp ts lst pgf mst ((h :: G1) ++ (g, [(n, Fr); (48, Fx)]) :: G2) D ->
  core m tp ts lst (fun x => negb (within (sbase g) (ssize g) x) && pgf x)%bool mst (h :: G1 ++ G2) D.
Proof.
  intros C. pose proof (c_geo _ _ _ _ _ _ _ _ C) as GE.
  assert (TL : forall c, In c (tiles ((h :: G1) ++ (g, [(n, Fr); (48, Fx)]) :: G2)) <-> In c (tiles (h :: G1 ++ G2)) \/ In c [(sbase g, n, Fr); (sbase g + n, 48, Fx)]).
  { intros c. change (h :: G1 ++ G2) with ((h :: G1) ++ G2). rewrite !tiles_app. change ((g, [(n, Fr); (48, Fx)]) :: G2) with ([(g, [(n, Fr); (48, Fx)])] ++ G2). rewrite tiles_app.
    cbn [tiles flat_map fst snd chunks]. rewrite !in_app_iff. cbn [In]. tauto. }
  pose proof (segs_ok_pos _ _ _ _ _ _ (c_segs _ _ _ _ _ _ _ _ C)) as (_ & R & SE & _). cbn [fst snd] in R, SE. assert (N32 : 32 <= n) by apply R. apply rep_end in R. cbn [tot] in R.
  assert (OUT : forall c k kk, In (c, k, kk) (tiles (h :: G1 ++ G2)) -> c + k <= sbase g \/ sbase g + ssize g <= c).
  { intros c k kk J. apply in_flat_map in J. destruct J as (gl & J1 & J2).
    assert (J3 : In gl ((h :: G1) ++ (g, [(n, Fr); (48, Fx)]) :: G2)).
    { change (h :: G1 ++ G2) with ((h :: G1) ++ G2) in J1. apply in_app_or in J1. apply in_or_app. destruct J1; [now left | right; now right]. }
    pose proof (tile_seg _ _ _ _ _ _ _ _ _ _ _ _ C J3 J2) as RG.
    pose proof (geo_apart (h :: G1) _ _ _ _ _ _ GE J1) as P. unfold rdisj, reg in P. cbn [fst snd] in P. lia. }
  destruct C as [S DI _ MS FX RC]. constructor.
  - cbn [app segs_ok] in *. destruct S as (S1 & S2). split; [exact S1|]. apply Forall_app in S2. destruct S2 as (S2 & S3). inversion S3; subst. apply Forall_app. auto.
  - exact DI.
  - destruct GE as (GF & O). rewrite regs_mid in GF, O.
    assert (ER : regs (h :: G1 ++ G2) D = map reg (h :: G1) ++ map reg G2 ++ map dreg D).
    { unfold regs. cbn [map app]. rewrite map_app, <- app_assoc. reflexivity. }
    apply FOP_mid in O. destruct O as (O1 & O2). split; [|rewrite ER; exact O1]. rewrite ER.
    apply Forall_forall. intros r I. rewrite Forall_forall in GF. destruct (GF r) as (F1 & F2 & F3 & F4 & F5 & F6 & F7).
    { apply in_app_or in I. apply in_or_app. destruct I; [now left | right; now right]. }
    repeat (split; [assumption|]). intros x X1 X2. rewrite F7 by assumption. rewrite andb_true_r.
    rewrite Forall_forall in O2. pose proof (O2 r I) as P. unfold rdisj, reg in P. cbn [fst snd] in P.
    destruct (within (sbase g) (ssize g) x) eqn:EW; [|reflexivity]. apply within_spec in EW. lia.
  - destruct MS as (c & E & I). exists c. split; [exact E|]. apply TL in I. destruct I as [I | [I | [I | []]]]; [exact I | congruence | congruence].
  - intros c k I. assert (I' := I). assert (IT : In (c, k, Fx) (tiles ((h :: G1) ++ (g, [(n, Fr); (48, Fx)]) :: G2))) by (apply TL; now left).
    apply FX in IT. destruct IT as [IT | (gl & J & E)]; [now left|]. right. cbn [app tl] in J. apply in_app_or in J. destruct J as [J | [J | J]].
    + exists gl. split; [apply in_or_app; now left | exact E].
    + exfalso. subst gl. cbn [fst] in E. apply OUT in I'. lia.
    + exists gl. split; [apply in_or_app; now right | exact E].
  - exact RC.
Qed.
Record Inv0 (s : ms) (G : list gseg) (D : list (N * N)) : Prop := {
  j_core : core_s s G D;
  j_bins : bins (dv s) (dvsize s) (sb s) (tb s) (tiles G) none;
  j_foot : foot s = sizes (regs G D)
}.
Lemma release_loop_ok h D GR : forall s Gd, Inv0 s (h :: Gd ++ GR) D -> exists s' GR' k,
  release_loop s (map fst GR) = Ok (s', map fst GR', k) /\ Inv0 s' (h :: Gd ++ GR') D /\
  s' = mk (mem s) (segs s) (top s) (topsize s) (dv s') (dvsize s') (sb s') (tb s') (least s) (rchk s) (trimc s) (foot s') (mst s) (pg s') (plog s') /\
  (forall a r, blk (h :: Gd ++ GR') D a r <-> blk (h :: Gd ++ GR) D a r) /\ (tight s (h :: Gd ++ GR) D -> tight s' (h :: Gd ++ GR') D) /\ unms s s'.
Proof.
  induction GR as [|[g l] GR IH]; intros s Gd J; cbn [map release_loop fst].
  - exists s, [], 0. split; [reflexivity|]. split; [exact J|]. split; [destruct s; reflexivity|]. split; [tauto|]. split; [auto | apply unms_refl; reflexivity].
  - assert (SKIP : exists s' GR' k,
      (do x <- release_loop s (map fst GR); let '(s0, l', n) := x in Ok (s0, g :: l', n + 1)) = Ok (s', map fst GR', k) /\ Inv0 s' (h :: Gd ++ GR') D /\
      s' = mk (mem s) (segs s) (top s) (topsize s) (dv s') (dvsize s') (sb s') (tb s') (least s) (rchk s) (trimc s) (foot s') (mst s) (pg s') (plog s') /\
      (forall a r, blk (h :: Gd ++ GR') D a r <-> blk (h :: Gd ++ (g, l) :: GR) D a r) /\ (tight s (h :: Gd ++ (g, l) :: GR) D -> tight s' (h :: Gd ++ GR') D) /\ unms s s').
    { change (h :: Gd ++ (g, l) :: GR) with (h :: Gd ++ [(g, l)] ++ GR) in *. rewrite app_assoc in *. destruct (IH s (Gd ++ [(g, l)]) J) as (s' & GR' & k & H1 & H2 & H3 & H4 & H5 & H6).
      rewrite H1. cbn [bind]. exists s', ((g, l) :: GR'), (k + 1). rewrite <- !app_assoc in *. cbn [app] in *. auto 8. }
    pose proof (j_core _ _ _ J) as C. change (h :: Gd ++ (g, l) :: GR) with ((h :: Gd) ++ (g, l) :: GR) in C.
    pose proof (segs_ok_pos _ _ _ _ _ _ (c_segs _ _ _ _ _ _ _ _ C)) as ((l' & EL) & R & SE & S4 & S5). cbn [fst snd] in *.
    destruct l as [|[n k] l2]; [destruct l'; discriminate|].
    pose proof C as C0. destruct (first_chunk _ _ _ _ _ _ _ _ _ _ _ _ _ C0) as (HH & HA & HB).
    unfold is_inuse, chunksize, head. rewrite HH. change (n + 2 * bit (used k) + 1) with (n + 2 * bit (used k) + bit true).
    rewrite hd_mod4, hd_size, negb_involutive by exact HA.
    destruct (2 * bit (used k) + bit true =? 1) eqn:EU; cbn [andb]; [|exact SKIP].
    destruct (sbase g + ssize g - TOP_FOOT <=? sbase g + n) eqn:EP; [|exact SKIP]. clear SKIP.
    assert (k = Fr) as -> by (destruct k; [reflexivity | discriminate | discriminate]). apply N.leb_le in EP. unfold TOP_FOOT in EP. clear EU.
    assert (l2 = [(48, Fx)]) as ->.
    { destruct l' as [|c l'']; cbn [app] in EL; [congruence|]. injection EL as <- ->. apply rep_end in R as R'. cbn [tot] in R'. rewrite tot_app in R'. cbn [tot] in R'.
      apply rep_sizes in R. destruct l'' as [|[z kz] l3]; [reflexivity|]. exfalso. cbn [tot app] in *. inversion R as [|? ? _ R2]; subst. inversion R2 as [|? ? (R3 & _) _]; subst. cbn [fst] in R3. lia. }
    clear EL l'. apply rep_end in R. cbn [tot] in R.
    pose proof (core_tok _ _ _ _ _ _ _ _ C) as TK.
    assert (TL : forall c, In c (tiles (h :: Gd ++ (g, [(n, Fr); (48, Fx)]) :: GR)) <-> In c (tiles (h :: Gd ++ GR)) \/ In c [(sbase g, n, Fr); (sbase g + n, 48, Fx)]).
    { intros c. change (h :: Gd ++ GR) with ((h :: Gd) ++ GR). change (h :: Gd ++ (g, [(n, Fr); (48, Fx)]) :: GR) with ((h :: Gd) ++ [(g, [(n, Fr); (48, Fx)])] ++ GR). rewrite !tiles_app.
      cbn [tiles flat_map fst snd chunks]. rewrite !in_app_iff. cbn [In]. tauto. }
    assert (IT : In (sbase g, n, Fr) (tiles (h :: Gd ++ (g, [(n, Fr); (48, Fx)]) :: GR))) by (apply TL; right; now left).
    assert (U : exists s0, (if sbase g =? dv s then Ok (set_dv s 0 0) else unlink_large s (sbase g)) = Ok s0 /\ loose s s0 (h :: Gd ++ (g, [(n, Fr); (48, Fx)]) :: GR) (sbase g)).
    { destruct (sbase g =? dv s) eqn:ED.
      - apply N.eqb_eq in ED. eexists. split; [reflexivity|]. split; [reflexivity|]. cbn [set_dv dv dvsize sb tb].
        destruct (b_dv _ _ _ _ _ _ (j_bins _ _ _ J)) as [(X & _) | (X & _)]; [apply (proj1 TK) in IT; lia|].
        rewrite ED. apply (bins_undv _ _ _ _ _ TK X), (j_bins _ _ _ J).
      - apply N.eqb_neq in ED. destruct (unlink_ok s _ _ _ _ _ none TK IT ED (fun x => x) (j_bins _ _ _ J)) as (s' & H1 & H2 & H3).
        unfold unlink_chunk in H1. rewrite is_small_lt in H1. replace (n <? 256) with false in H1 by (symmetry; apply N.ltb_ge; lia).
        exists s'. split; [exact H1|]. split; [rewrite H2; reflexivity|]. rewrite H2. cbn [dv dvsize sb tb].
        eapply bins_L; [|exact H3]. unfold none. intros x. cbn. split; [intros [[] | ->]; reflexivity | auto]. }
    destruct U as (s0 & U1 & U2 & U3). rewrite U1. cbn [bind].
    set (s1 := set_foot_ (unmapped s0 (sbase g) (ssize g)) (foot (unmapped s0 (sbase g) (ssize g)) - ssize g)).
    assert (E1 : s1 = mk (mem s) (segs s) (top s) (topsize s) (dv s0) (dvsize s0) (sb s0) (tb s0) (least s) (rchk s) (trimc s) (foot s - ssize g) (mst s) (fun x => negb (within (sbase g) (ssize g) x) && pg s x)%bool (plog s ++ [Unm (sbase g) (ssize g)])).
    { unfold s1. rewrite U2. reflexivity. }
    assert (FS : foot s = sizes (regs (h :: Gd ++ GR) D) + ssize g).
    { rewrite (j_foot _ _ _ J). unfold regs. cbn [map app sizes]. rewrite !map_app, !sizes_app. cbn [map sizes reg fst snd]. lia. }
    assert (OUT : forall a k' kk, In (a, k', kk) (tiles (h :: Gd ++ GR)) -> a <> sbase g).
    { intros a k' kk JJ ->. apply in_flat_map in JJ. destruct JJ as (gl & J1 & J2).
      assert (J3 : In gl ((h :: Gd) ++ (g, [(n, Fr); (48, Fx)]) :: GR)).
      { change (h :: Gd ++ GR) with ((h :: Gd) ++ GR) in J1. apply in_app_or in J1. apply in_or_app. destruct J1; [now left | right; now right]. }
      pose proof (tile_seg _ _ _ _ _ _ _ _ _ _ _ _ C J3 J2) as RG.
      pose proof (geo_apart (h :: Gd) _ _ _ _ _ _ (c_geo _ _ _ _ _ _ _ _ C) J1) as P. unfold rdisj, reg in P. cbn [fst snd] in P. lia. }
    assert (J1 : Inv0 s1 (h :: Gd ++ GR) D).
    { constructor.
      - unfold core_s. rewrite E1. cbn [mem top topsize least pg mst]. apply (core_remove _ _ _ _ _ _ _ _ _ _ _ _ C).
      - rewrite E1. cbn [dv dvsize sb tb].
        refine (bins_tiles _ _ _ _ _ _ (fun c => In c (tiles (h :: Gd ++ GR))) [(sbase g, n, Fr); (sbase g + n, 48, Fx)] [] (eq (sbase g)) none TL _ _ _ _ U3).
        + intros c. cbn [In]. tauto.
        + intros a k' kk JJ. split; [|tauto]. intros <-. now apply OUT in JJ.
        + intros a k' [H | [H | []]]; congruence.
        + intros a k' [].
      - rewrite E1. cbn [foot]. lia. }
    destruct (IH s1 Gd J1) as (s' & GR' & k & H1 & H2 & H3 & H4 & H5 & H6). rewrite H1. cbn [bind]. exists s', GR', (k + 1).
    assert (UN : unms s s1).
    { destruct (c_geo _ _ _ _ _ _ _ _ C) as (GF & _). rewrite regs_mid in GF. apply Forall_app in GF. destruct GF as (_ & GF). inversion GF as [|? ? (R1 & R2 & R3 & R4 & R5 & R6 & R7) _]; subst.
      unfold reg in R1, R2, R3, R4, R5, R6, R7. cbn [fst snd] in R1, R2, R3, R4, R5, R6, R7.
      apply (unms_one s s1 (sbase g) (ssize g)); [rewrite E1; reflexivity | rewrite E1; reflexivity | exact R2 | exact R4 | lia | exact R7]. }
    split; [reflexivity|]. split; [exact H2|]. split; [rewrite H3, E1; reflexivity|]. split; [|split; [|apply (unms_trans _ _ _ UN H6)]].
    + intros a r. rewrite H4. apply (blk_tiles (h :: Gd ++ (g, [(n, Fr); (48, Fx)]) :: GR) (h :: Gd ++ GR) D).
      intros c z. rewrite TL. cbn [In]. split; [auto|]. intros [X | [X | [X | []]]]; [exact X | congruence | congruence].
    + intros T. apply H5. intros x HX. rewrite E1 in HX. cbn [pg] in HX. apply andb_true_iff in HX. destruct HX as (HX1 & HX2).
      apply negb_true_iff in HX1. destruct (T x HX2) as (r & R2 & R3).
      change (h :: Gd ++ (g, [(n, Fr); (48, Fx)]) :: GR) with ((h :: Gd) ++ (g, [(n, Fr); (48, Fx)]) :: GR) in R2. rewrite regs_mid in R2.
      apply in_app_or in R2. exists r. split; [|exact R3]. unfold regs. change (h :: Gd ++ GR) with ((h :: Gd) ++ GR). rewrite map_app, <- app_assoc. apply in_or_app.
      destruct R2 as [R2 | [<- | R2]]; [now left | | now right]. exfalso. unfold reg in R3. cbn [fst snd] in R3. apply within_spec in R3. congruence.
Qed.
Lemma release_unused_ok mr s G D : Inv s G D -> exists s' k G', release_unused s = Ok (s', k) /\ upd mr s G D s' G' D (fun _ => True).
Proof.
  intros I. destruct G as [|h GR]; [destruct (c_segs _ _ _ _ _ _ _ _ (i_core _ _ _ I))|]. unfold release_unused. rewrite <- (i_segs _ _ _ I). cbn [map].
  assert (J : Inv0 s (h :: [] ++ GR) D) by (destruct I; constructor; assumption).
  destruct (release_loop_ok h D GR s [] J) as (s' & GR' & k & H1 & H2 & H3 & H4 & H5 & H6). rewrite H1. cbn [bind].
  eexists _, _, (h :: GR'). split; [reflexivity|]. cbn [app] in *. split; [|split; [|split; [|split]]].
  - destruct H2 as [J1 J2 J3]. constructor; [reflexivity | exact J1 | exact J2 | exact J3].
  - intros a r. rewrite H4. tauto.
  - intros a r y _ _ _ _. cbn [set_rchk set_segs mem]. rewrite H3. reflexivity.
  - intros _ T. apply H5, T.
  - split; [cbn [set_rchk set_segs mst]; rewrite H3; reflexivity | exact H6].
Qed.

(** ** Trimming top *)
Section TrimArith.
  Local Ltac Zify.zify_post_hook ::= Z.to_euclidean_division_equations.
  Lemma extra_facts ts : 80 < ts -> let e := ((ts - 80 + 65535) / 65536 - 1) * 65536 in e + 80 < ts /\ e mod 65536 = 0.
  Proof. cbv zeta. lia. Qed.
  Lemma al65536_sub a b : a mod 65536 = 0 -> b mod 65536 = 0 -> (a - b) mod 65536 = 0.
  Proof. lia. Qed.
  Lemma al4096_sub a b : a mod 4096 = 0 -> b mod 4096 = 0 -> (a - b) mod 4096 = 0.
  Proof. lia. Qed.
  Lemma al4096_add a b : a mod 4096 = 0 -> b mod 4096 = 0 -> (a + b) mod 4096 = 0.
  Proof. lia. Qed.
  Lemma ge65536 a : 0 < a -> a mod 65536 = 0 -> 65536 <= a.
  Proof. lia. Qed.
End TrimArith.
Lemma core_shrink m tp ts lst pgf mst g l GT D ex m' pgf' :
  core m tp ts lst pgf mst ((g, l) :: GT) D -> ex mod 65536 = 0 -> ex + 80 < ts ->
  (forall x, pgf x = true -> x < sbase g + ssize g - ex \/ sbase g + ssize g <= x -> pgf' x = true) ->
  m' (tp + 8) = ts - ex + 1 -> (forall y, y < tp + 8 \/ tp + ts + 80 <= y -> m' y = m y) ->
  core m' tp (ts - ex) lst pgf' mst ((mkseg (sbase g) (ssize g - ex) (srec g), l) :: GT) D.
Proof.
  intros C AL LE PG H1 F. pose proof (c_geo _ _ _ _ _ _ _ _ C) as GE. destruct (head_reg _ _ _ _ _ _ _ _ _ _ C) as (E & E2 & T1 & T2 & T3 & T4 & R & RG).
  destruct (al65536 _ AL) as (AL2 & AL3).
  assert (FR : forall r, rdisj (sbase g, ssize g) r -> forall y, fst r <= y -> y < fst r + snd r -> m' y = m y).
  { intros r HD y Y1 Y2. unfold rdisj in HD. cbn [fst snd] in HD. apply F. lia. }
  destruct C as [S DI _ MS FX RC]. constructor; try assumption.
  - apply (segs_ok_upd m tp ts [] (g, l) GT m' _ _ (mkseg (sbase g) (ssize g - ex) (srec g), l) S); [| now left |].
    + intros h I y. apply (FR (reg h)). exact (geo_apart [] _ _ _ _ _ _ GE I).
    + cbn [pos_ok]. destruct S as ((A & B & K & H & J & Q1 & Q2) & _). unfold head_ok. cbn [fst snd sbase ssize] in *.
      split; [apply (rep_frame m); [intros y Y1 Y2; apply F; lia | exact A]|].
      split; [lia|]. split; [lia|]. split; [apply al_sub; assumption|]. split; [exact H1|].
      assert (AS : (ssize g - ex) mod 65536 = 0) by (apply al65536_sub; assumption). split; [apply ge65536; [lia | exact AS] | exact AS].
  - apply Forall_forall. intros d I. rewrite Forall_forall in DI. apply (dir_frame m); [|apply DI, I].
    intros y. apply (FR (dreg d)). exact (geo_apartD [] _ _ _ _ _ _ GE I).
  - destruct GE as (GF & O). change (regs ((g, l) :: GT) D) with ((sbase g, ssize g) :: map reg GT ++ map dreg D) in GF, O.
    change (regs ((mkseg (sbase g) (ssize g - ex) (srec g), l) :: GT) D) with ((sbase g, ssize g - ex) :: map reg GT ++ map dreg D).
    inversion O as [|? ? O1 O2]; subst. inversion GF as [|? ? GF1 GF2]; subst. split; constructor.
    + destruct GF1 as (G1 & G2 & G3 & G4 & G5 & G6 & G7). unfold reg_ok. cbn [fst snd] in *.
      assert (AS : (ssize g - ex) mod 65536 = 0). { apply al65536_sub; [|exact AL]. destruct S as ((_ & _ & _ & _ & _ & _ & Q2) & _). exact Q2. }
      pose proof (ge65536 (ssize g - ex) ltac:(lia) AS) as GE6.
      split; [exact G1|]. split; [exact G2|]. split; [lia|]. split; [apply (al65536 _ AS)|]. split; [lia|]. split; [exact G6|].
      intros x X1 X2. apply PG; [apply G7; lia | lia].
    + apply Forall_forall. intros q I. rewrite Forall_forall in GF2, O1. pose proof (O1 q I) as P. unfold rdisj in P. cbn [fst snd] in P.
      destruct (GF2 q I) as (F1 & F2 & F3 & F4 & F5 & F6 & F7). repeat (split; [assumption|]). intros x X1 X2. apply PG; [apply F7; assumption | lia].
    + apply Forall_forall. intros q I. rewrite Forall_forall in O1. pose proof (O1 q I) as P. unfold rdisj in *. cbn [fst snd] in *. lia.
    + exact O2.
Qed.
Lemma trim_segs m tp ts lst pgf mst g l GT D (f : seg -> seg) : core m tp ts lst pgf mst ((g, l) :: GT) D ->
  map (fun h => if within (sbase h) (ssize h) tp then f h else h) (map fst ((g, l) :: GT)) = f g :: map fst GT.
Proof.
  intros C. destruct (head_reg _ _ _ _ _ _ _ _ _ _ C) as (E & E2 & _). cbn [map fst].
  rewrite (proj2 (within_spec (sbase g) (ssize g) tp)) by lia. f_equal. rewrite map_map. apply map_ext_in. intros [h lh] I. cbn [fst].
  destruct (within (sbase h) (ssize h) tp) eqn:EW; [|reflexivity]. exfalso.
  apply in_split in I. destruct I as (G1 & G2 & ->). change ((g, l) :: G1 ++ (h, lh) :: G2) with (((g, l) :: G1) ++ (h, lh) :: G2) in C.
  apply (top_first _ _ _ _ _ _ _ _ _ _ _ C) in EW. discriminate.
Qed.
Lemma sys_trim_ok s mr G D : Inv s G D -> exists s' G', sys_trim s mr = Ok s' /\ upd mr s G D s' G' D (fun _ => True).
Proof.
  intros I. pose proof (i_core _ _ _ I) as C.
  assert (U0 : upd mr s G D s G D (fun _ => True)).
  { split; [exact I|]. split; [tauto|]. split; [intros a r y _ _ _ _; reflexivity|]. split; [auto|]. split; [reflexivity | apply unms_refl; reflexivity]. }
  unfold sys_trim.
  assert (FIN : forall s1 G1 x, upd mr s G D s1 G1 D (fun _ => True) -> exists s' G',
    (do y <- release_unused (fst (s1, x)); let s := fst y in Ok (if (snd (s1, x) + snd y =? 0) && (trimc s <? topsize s) then set_trimc s (W - 1) else s)) = Ok s' /\
    upd mr s G D s' G' D (fun _ => True)).
  { intros s1 G1 x U. cbn [fst snd]. destruct (release_unused_ok mr s1 G1 D (proj1 U)) as (s2 & k & G2 & H1 & H2). rewrite H1. cbn [bind fst snd].
    pose proof (upd_trans _ _ _ _ _ _ _ _ _ _ _ U H2) as H3. eexists _, G2. split; [reflexivity|].
    destruct ((x + k =? 0) && (trimc s2 <? topsize s2)); [|exact H3].
    destruct H3 as ([A1 A2 A3 A4] & H4). split; [|exact H4]. constructor; assumption. }
  destruct (TOP_FOOT <? topsize s) eqn:ET; [|cbn [bind]; apply FIN with (G1 := G); exact U0].
  apply N.ltb_lt in ET. unfold TOP_FOOT in *. cbv zeta. unfold GRAN. change (65536 - 1) with 65535.
  destruct (extra_facts _ ET) as (X1 & X2). set (ex := ((topsize s - 80 + 65535) / 65536 - 1) * 65536) in *.
  destruct G as [|[g l] GT]; [destruct (c_segs _ _ _ _ _ _ _ _ C)|]. rewrite (seg_of_top _ _ _ _ _ I).
  destruct ((ex <=? ssize g) && negb (has_link s g) && negb (ex =? 0)) eqn:CE; [|cbn [bind]; apply FIN with (G1 := (g, l) :: GT); exact U0].
  set (s0 := if mr then s else unmapped s (sbase g + (ssize g - ex)) ex).
  destruct (head_reg _ _ _ _ _ _ _ _ _ _ C) as (E & E2 & T1 & T2 & T3 & T4 & R & RG).
  assert (E0 : s0 = mk (mem s) (segs s) (top s) (topsize s) (dv s) (dvsize s) (sb s) (tb s) (least s) (rchk s) (trimc s) (foot s) (mst s) (pg s0) (plog s0)) by (unfold s0; destruct mr; [destruct s|]; reflexivity).
  assert (PG : forall x, pg s0 x = true -> pg s x = true) by (intros x; unfold s0; destruct mr; [auto|]; cbn; intros H; apply andb_true_iff in H; apply H).
  assert (PG2 : forall x, pg s x = true -> x < sbase g + ssize g - ex \/ sbase g + ssize g <= x -> pg s0 x = true).
  { intros x P X. unfold s0. destruct mr; [exact P|]. cbn. rewrite P, andb_true_r. apply negb_true_iff. destruct (within (sbase g + (ssize g - ex)) ex x) eqn:EW; [|reflexivity].
    apply within_spec in EW. lia. }
  rewrite E0. cbn [mem segs top topsize dv dvsize sb tb least rchk trimc foot mst pg set_segs set_foot_ init_top set_top set_head set_mem set_trimc bind].
  rewrite <- (i_segs _ _ _ I). pose proof (trim_segs _ _ _ _ _ _ _ _ _ _ (fun h => mkseg (sbase h) (ssize h - ex) (srec h)) C) as TS. cbv beta in TS.
  match goal with |- context [set_segs _ (map ?f ?L)] => replace (map f L) with (mkseg (sbase g) (ssize g - ex) (srec g) :: map fst GT) by (symmetry; exact TS) end.
  match goal with |- context [init_top ?a ?b ?c] => set (s1 := init_top a b c) end.
  apply FIN with (G1 := (mkseg (sbase g) (ssize g - ex) (srec g), l) :: GT).
  assert (MM : mem s1 = wr_ (wr_ (mem s) (top s + 8) (topsize s - ex + 1)) (top s + (topsize s - ex) + 8) 80) by reflexivity.
  assert (MF : forall y, y < top s + 8 \/ top s + topsize s + 80 <= y -> mem s1 y = mem s y) by (intros y Y; rewrite MM, !wr_other by lia; reflexivity).
  assert (C1 : core_s s1 ((mkseg (sbase g) (ssize g - ex) (srec g), l) :: GT) D).
  { apply (core_shrink (mem s) (top s) (topsize s) (least s) (pg s)); auto. rewrite MM. rewrite wr_other by lia. apply wr_same. }
  split; [|split; [|split; [|split]]].
  - constructor; [reflexivity | exact C1 | exact (i_bins _ _ _ I) |].
    change (foot s1) with (foot s - ex). rewrite (i_foot _ _ _ I). unfold regs. cbn [map app sizes reg fst snd ssize]. lia.
  - intros a r. split; [intros H; split; [exact H | exact Logic.I] | tauto].
  - apply (keeps_top _ _ _ _ _ _ _ _ _ C). intros y Y _. apply MF, Y.
  - intros -> T x HX. change (pg s1 x) with (pg s0 x) in HX. pose proof (PG _ HX) as HP. destruct (T x HP) as (r & [<- | R2] & R3).
    + eexists. split; [left; reflexivity|]. unfold reg in *. cbn [fst snd sbase ssize] in *. split; [apply R3|].
      unfold s0 in HX. cbn in HX. apply andb_true_iff in HX. destruct HX as (HX & _). apply negb_true_iff in HX.
      assert (~ (sbase g + (ssize g - ex) <= x /\ x < sbase g + (ssize g - ex) + ex)) by (rewrite <- within_spec; congruence). lia.
    + exists r. split; [now right | exact R3].
  - split; [reflexivity|]. change (unms s s0). unfold s0. destruct mr; [apply unms_refl; reflexivity|].
    destruct RG as (R1 & R2 & R3 & R4 & R5 & R6 & R7). cbn [fst snd] in R1, R2, R3, R4, R5, R6, R7. destruct (al65536 _ X2) as (X3 & X4).
    apply (unms_one s _ (sbase g + (ssize g - ex)) ex); [reflexivity | reflexivity | apply al4096_add; [exact R2 | apply al4096_sub; assumption] | assumption | | intros x Y1 Y2; apply R7; lia].
    apply andb_true_iff in CE. destruct CE as (_ & CE). apply negb_true_iff, N.eqb_neq in CE. lia.
Qed.
