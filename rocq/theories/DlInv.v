(** Tilings of the segments of the heap of [DlModel] (properties C59 and C60): the invariant of boundary tags, and what a
    change of some tags does to it.  No code of its own. *)
From Verif Require Import Base DlModel.
From Coq Require Import Lia.
Local Open Scope N_scope.
Arguments N.add : simpl never. Arguments N.sub : simpl never. Arguments N.mul : simpl never. Arguments N.div : simpl never.
Arguments N.modulo : simpl never. Arguments N.eqb : simpl never. Arguments N.ltb : simpl never. Arguments N.leb : simpl never.
Arguments N.odd : simpl never.

(** What a chunk is: free, a block of the program, or the allocator's own (its state and the records of its segments). *)
Inductive kind := Fr | Us | Fx.
Definition used (k : kind) : bool := match k with Fr => false | _ => true end.
Definition bit (b : bool) : N := if b then 1 else 0.

(** Boundary tags of the chunks [l] from [a] to [e]; [pin]: is the chunk before [a] in use; [pe]: is the last one. *)
Fixpoint rep (m : N -> N) (a : N) (pin : bool) (l : list (N * kind)) (e : N) (pe : bool) : Prop :=
  match l with
  | [] => a = e /\ pin = pe
  | (n, k) :: r => 32 <= n /\ n mod 16 = 0 /\ m (a + 8) = n + 2 * bit (used k) + bit pin /\
                   (k = Fr -> pin = true /\ m (a + n) = n) /\ rep m (a + n) (used k) r e pe
  end.
Fixpoint tot (l : list (N * kind)) : N := match l with [] => 0 | (n, _) :: r => n + tot r end.
Fixpoint chunks (a : N) (l : list (N * kind)) : list (N * N * kind) :=
  match l with [] => [] | (n, k) :: r => (a, n, k) :: chunks (a + n) r end.

Lemma tot_app l1 l2 : tot (l1 ++ l2) = tot l1 + tot l2.
Proof. induction l1 as [|[n k] r IH]; cbn [app tot]; lia. Qed.
Lemma rep_end m l : forall a pin e pe, rep m a pin l e pe -> e = a + tot l.
Proof.
  induction l as [|[n k] r IH]; cbn [rep tot]; intros a pin e pe H; [lia|].
  destruct H as (_ & _ & _ & _ & H). apply IH in H. lia.
Qed.
Lemma rep_app m l1 : forall a pin l2 e pe,
  rep m a pin (l1 ++ l2) e pe <-> exists q, rep m a pin l1 (a + tot l1) q /\ rep m (a + tot l1) q l2 e pe.
Proof.
  induction l1 as [|[n k] r IH]; cbn [app rep tot]; intros a pin l2 e pe.
  - rewrite N.add_0_r. split; [intros H; exists pin; auto | intros (q & [_ <-] & H); exact H].
  - rewrite N.add_assoc. split.
    + intros (A & B & C & D & H). apply IH in H. destruct H as (q & H1 & H2). exists q. repeat split; auto; apply D; auto.
    + intros (q & (A & B & C & D & H1) & H2). repeat split; auto; try (apply D; auto). apply IH. exists q. auto.
Qed.
Lemma rep_frame m m' l : forall a pin e pe,
  (forall y, a + 8 <= y -> y <= e -> m' y = m y) -> rep m a pin l e pe -> rep m' a pin l e pe.
Proof.
  induction l as [|[n k] r IH]; cbn [rep]; intros a pin e pe F H; [exact H|].
  destruct H as (A & B & C & D & H). pose proof (rep_end _ _ _ _ _ _ H) as E.
  split; [exact A|]. split; [exact B|]. split; [rewrite F by lia; exact C|].
  split; [intros K; destruct (D K) as (D1 & D2); split; [exact D1 | rewrite F by lia; exact D2]|].
  apply IH; [|exact H]. intros y Y1 Y2. apply F; lia.
Qed.
(** Chunks [X] become [Y]; only their tags, the foot and the head of the next chunk change. *)
Lemma rep_replace m m' a pin l1 X Y n2 k2 l2 e pe :
  let x := a + tot l1 in let nx := x + tot X in
  rep m a pin (l1 ++ X ++ (n2, k2) :: l2) e pe ->
  (forall y, y < x + 8 \/ nx + 8 < y -> m' y = m y) ->
  (forall p q, rep m x p X nx q -> m (nx + 8) = n2 + 2 * bit (used k2) + bit q -> (k2 = Fr -> q = true) ->
     exists q', rep m' x p Y nx q' /\ m' (nx + 8) = n2 + 2 * bit (used k2) + bit q' /\ (k2 = Fr -> q' = true)) ->
  rep m' a pin (l1 ++ Y ++ (n2, k2) :: l2) e pe.
Proof.
  intros x nx H F Q. subst nx x. apply rep_app in H. destruct H as (p & H1 & H). apply rep_app in H. destruct H as (q & H2 & H).
  cbn [rep] in H. destruct H as (A & B & C & D & H).
  destruct (Q p q H2 C (fun K => proj1 (D K))) as (q' & R & E & K). pose proof (rep_end _ _ _ _ _ _ R) as ER.
  apply rep_app. exists p. split; [apply (rep_frame m); [intros y Y1 Y2; apply F; lia | exact H1]|].
  apply rep_app. exists q'. rewrite <- ER. split; [exact R|]. cbn [rep].
  split; [exact A|]. split; [exact B|]. split; [exact E|].
  split; [intros K2; split; [auto | rewrite F by lia; apply D; exact K2]|].
  pose proof (rep_end _ _ _ _ _ _ H) as EH.
  apply (rep_frame m); [intros y Y1 Y2; apply F; lia | exact H].
Qed.
(** where a chunk of a tiling is *)
Lemma chunks_app a l1 l2 : chunks a (l1 ++ l2) = chunks a l1 ++ chunks (a + tot l1) l2.
Proof.
  revert a. induction l1 as [|[n k] r IH]; intros a; cbn [app chunks tot]; [now rewrite N.add_0_r|].
  rewrite IH, N.add_assoc. reflexivity.
Qed.
Lemma chunks_split a l c n k : In (c, n, k) (chunks a l) -> exists l1 l2, l = l1 ++ (n, k) :: l2 /\ c = a + tot l1.
Proof.
  revert a. induction l as [|[n' k'] r IH]; intros a; cbn [chunks In]; [tauto|]. intros [E | I].
  - injection E as -> -> ->. exists [], r. cbn [app tot]. split; [reflexivity | lia].
  - destruct (IH _ I) as (l1 & l2 & -> & ->). exists ((n', k') :: l1), l2. cbn [app tot]. split; [reflexivity | lia].
Qed.
Lemma chunks_in a l1 n k l2 : In (a + tot l1, n, k) (chunks a (l1 ++ (n, k) :: l2)).
Proof. rewrite chunks_app. apply in_or_app. right. left. reflexivity. Qed.
Lemma rep_sizes m a pin l e pe : rep m a pin l e pe -> Forall (fun c => 32 <= fst c /\ fst c mod 16 = 0) l.
Proof.
  revert a pin. induction l as [|[n k] r IH]; intros a pin H; [constructor|]. cbn [rep] in H.
  destruct H as (A & B & _ & _ & H). constructor; [auto | eapply IH, H].
Qed.
Lemma chunks_range a l c n k : In (c, n, k) (chunks a l) -> a <= c /\ c + n <= a + tot l.
Proof. intros I. destruct (chunks_split _ _ _ _ _ I) as (l1 & l2 & -> & ->). rewrite tot_app. cbn [tot]. lia. Qed.
Definition apart (c d : N * N * kind) : Prop :=
  fst (fst c) + snd (fst c) <= fst (fst d) \/ fst (fst d) + snd (fst d) <= fst (fst c).
Lemma chunks_apart a l c d : In c (chunks a l) -> In d (chunks a l) -> c = d \/ apart c d.
Proof.
  revert a. induction l as [|[n k] r IH]; intros a; cbn [chunks In]; [tauto|].
  intros [<- | I] [<- | J]; [now left | | | apply (IH _ I J)]; right; unfold apart; cbn [fst snd].
  - destruct d as [[d1 d2] d3]. apply chunks_range in J. cbn [fst snd]. lia.
  - destruct c as [[d1 d2] d3]. apply chunks_range in I. cbn [fst snd]. lia.
Qed.

(** ** Heads *)
Section Heads.
  Local Ltac Zify.zify_post_hook ::= Z.to_euclidean_division_equations.
  Lemma odd_mod h : N.odd h = (h mod 2 =? 1).
  Proof.
    destruct (N.odd h) eqn:E.
    - apply N.odd_spec in E. destruct E as (k & ->). symmetry. apply N.eqb_eq. lia.
    - rewrite <- N.negb_even in E. apply Bool.negb_false_iff, N.even_spec in E. destruct E as (k & ->). symmetry. apply N.eqb_neq. lia.
  Qed.
  Lemma hd_odd n u p : n mod 16 = 0 -> N.odd (n + 2 * bit u + bit p) = p.
  Proof. intros H. rewrite odd_mod. destruct u, p; cbn [bit]; first [apply N.eqb_eq | apply N.eqb_neq]; lia. Qed.
  Lemma hd_odd2 n u p : n mod 16 = 0 -> N.odd ((n + 2 * bit u + bit p) / 2) = u.
  Proof. intros H. rewrite odd_mod. destruct u, p; cbn [bit]; first [apply N.eqb_eq | apply N.eqb_neq]; lia. Qed.
  Lemma hd_mod4 n u p : n mod 16 = 0 -> (n + 2 * bit u + bit p) mod 4 = 2 * bit u + bit p.
  Proof. intros H. destruct u, p; cbn [bit]; lia. Qed.
  Lemma hd_size n u p : n mod 16 = 0 -> (n + 2 * bit u + bit p) / 8 * 8 = n.
  Proof. intros H. destruct u, p; cbn [bit]; lia. Qed.
  Lemma al_add a b : a mod 16 = 0 -> b mod 16 = 0 -> (a + b) mod 16 = 0.
  Proof. lia. Qed.
  Lemma al_sub a b : a mod 16 = 0 -> b mod 16 = 0 -> (a - b) mod 16 = 0.
  Proof. lia. Qed.
  Lemma al_lt a b : a mod 16 = 0 -> b mod 16 = 0 -> a < b -> a + 16 <= b.
  Proof. lia. Qed.
  Lemma or_pin_hd n u p : n mod 16 = 0 -> or_pin (n + 2 * bit u + bit p) = n + 2 * bit u + 1.
  Proof. intros H. unfold or_pin. rewrite hd_odd by exact H. destruct p; cbn [bit]; lia. Qed.
  Lemma not_pin_hd n u p : n mod 16 = 0 -> not_pin (n + 2 * bit u + bit p) = n + 2 * bit u.
  Proof. intros H. unfold not_pin. rewrite hd_odd by exact H. destruct p; cbn [bit]; lia. Qed.
  Lemma pg16 a : a mod 4096 = 0 -> a mod 16 = 0.
  Proof. lia. Qed.
  Lemma pad_al r : pad_request r mod 16 = 0.
  Proof. unfold pad_request. lia. Qed.
  Lemma pad_ge r : r + 8 <= pad_request r.
  Proof. unfold pad_request. lia. Qed.
  Lemma pad_lt r : pad_request r < r + 24.
  Proof. unfold pad_request. lia. Qed.
  Lemma idx_size n : n mod 16 = 0 -> 8 * (n / 8) = n.
  Proof. lia. Qed.
  Lemma is_small_lt n : is_small n = (n <? 256).
  Proof. unfold is_small. destruct (n / 8 <? 32) eqn:E, (n <? 256) eqn:E2; lia. Qed.
  Lemma al_tot l : Forall (fun c : N * kind => 32 <= fst c /\ fst c mod 16 = 0) l -> tot l mod 16 = 0.
  Proof. induction 1 as [|[n k] r (A & B) _ IH]; cbn [tot fst] in *; [reflexivity | lia]. Qed.
End Heads.

(** ** The whole heap *)
Definition gseg : Type := (seg * list (N * kind))%type.
Definition tiles (G : list gseg) : list (N * N * kind) := flat_map (fun gl => chunks (sbase (fst gl)) (snd gl)) G.
Definition reg (gl : gseg) : N * N := (sbase (fst gl), ssize (fst gl)).
Definition dreg (d : N * N) : N * N := (fst d, snd d + 32).
Definition regs (G : list gseg) (D : list (N * N)) : list (N * N) := map reg G ++ map dreg D.
Definition rdisj (r q : N * N) : Prop := fst r + snd r <= fst q \/ fst q + snd q <= fst r.
Definition reg_ok (pgf : N -> bool) (lst : N) (r : N * N) : Prop :=
  4096 <= fst r /\ fst r mod 4096 = 0 /\ 4096 <= snd r /\ snd r mod 4096 = 0 /\ fst r + snd r <= W /\ (0 < lst /\ lst <= fst r) /\
  forall x, fst r <= x -> x < fst r + snd r -> pgf x = true.
Definition geo (R : list (N * N)) (pgf : N -> bool) (lst : N) : Prop := Forall (reg_ok pgf lst) R /\ ForallOrdPairs rdisj R.
(** a segment that is not the first of the list *)
Definition seg_ok (m : N -> N) (gl : gseg) : Prop :=
  (exists l', snd gl = l' ++ [(48, Fx)]) /\ rep m (sbase (fst gl)) true (snd gl) (srec (fst gl) + 32) true /\
  (sbase (fst gl) + ssize (fst gl) = srec (fst gl) + 64 \/ sbase (fst gl) + ssize (fst gl) = srec (fst gl) + 80) /\
  65536 <= ssize (fst gl) /\ ssize (fst gl) mod 65536 = 0 /\ m (srec (fst gl) + 40) = 11.
(** the first, which has top *)
Definition head_ok (m : N -> N) (tp ts : N) (gl : gseg) : Prop :=
  rep m (sbase (fst gl)) true (snd gl) tp true /\ tp + ts + 80 = sbase (fst gl) + ssize (fst gl) /\ 16 <= ts /\ ts mod 16 = 0 /\
  m (tp + 8) = ts + 1 /\ 65536 <= ssize (fst gl) /\ ssize (fst gl) mod 65536 = 0.
Definition dir_ok (m : N -> N) (d : N * N) : Prop :=
  m (fst d) = 0 /\ m (fst d + 8) = snd d /\ snd d mod 16 = 0 /\ 64 <= snd d.
Definition segs_ok (m : N -> N) (tp ts : N) (G : list gseg) : Prop :=
  match G with [] => False | h :: t => head_ok m tp ts h /\ Forall (seg_ok m) t end.
Definition pos_ok (m : N -> N) (tp ts : N) (G1 : list gseg) (gl : gseg) : Prop :=
  match G1 with [] => head_ok m tp ts gl | _ => seg_ok m gl end.

Lemma rdisj_sym r q : rdisj r q -> rdisj q r.
Proof. unfold rdisj. tauto. Qed.
Lemma FOP_mid (A : list (N * N)) x B :
  ForallOrdPairs rdisj (A ++ x :: B) <-> ForallOrdPairs rdisj (A ++ B) /\ Forall (rdisj x) (A ++ B).
Proof.
  induction A as [|a A IH]; cbn [app].
  - split; [intros H; inversion H; subst; auto | intros (H1 & H2); constructor; auto].
  - split.
    + intros H. inversion H as [|? ? F R]; subst. apply IH in R. destruct R as (R1 & R2).
      apply Forall_app in F. destruct F as (F1 & F2). inversion F2; subst. split.
      * constructor; [apply Forall_app; auto | exact R1].
      * constructor; [apply rdisj_sym; auto | exact R2].
    + intros (H1 & H2). inversion H1 as [|? ? F R]; subst. inversion H2 as [|? ? F' R']; subst. constructor.
      * apply Forall_app in F. destruct F as (Fa & Fb). apply Forall_app. split; [exact Fa|]. constructor; [now apply rdisj_sym | exact Fb].
      * apply IH. auto.
Qed.
Lemma seg_frame m m' gl :
  (forall y, sbase (fst gl) <= y -> y < sbase (fst gl) + ssize (fst gl) -> m' y = m y) -> seg_ok m gl -> seg_ok m' gl.
Proof.
  intros F (A & B & C & D1 & D2 & D3). pose proof (rep_end _ _ _ _ _ _ B) as EB. split; [exact A|].
  split; [apply (rep_frame m); [intros y Y1 Y2; apply F; lia | exact B]|]. split; [exact C|]. split; [exact D1|]. split; [exact D2|].
  rewrite F by lia. exact D3.
Qed.
Lemma head_frame m m' tp ts gl :
  (forall y, sbase (fst gl) <= y -> y < sbase (fst gl) + ssize (fst gl) -> m' y = m y) -> head_ok m tp ts gl -> head_ok m' tp ts gl.
Proof.
  intros F (A & B & C & D & E & G). pose proof (rep_end _ _ _ _ _ _ A) as EA.
  split; [apply (rep_frame m); [intros y Y1 Y2; apply F; lia | exact A]|].
  split; [exact B|]. split; [exact C|]. split; [exact D|]. split; [rewrite F by lia; exact E | exact G].
Qed.
Lemma dir_frame m m' d : (forall y, fst d <= y -> y < fst d + (snd d + 32) -> m' y = m y) -> dir_ok m d -> dir_ok m' d.
Proof.
  intros F (A & B & C & D). split; [rewrite F by lia; exact A|]. split; [rewrite F by lia; exact B|]. split; assumption.
Qed.
Lemma segs_ok_pos m tp ts G1 gl G2 : segs_ok m tp ts (G1 ++ gl :: G2) -> pos_ok m tp ts G1 gl.
Proof.
  destruct G1 as [|h t]; cbn [app segs_ok pos_ok]; [tauto|]. intros (_ & F). apply Forall_app in F. destruct F as (_ & F).
  inversion F; subst; assumption.
Qed.
Lemma segs_ok_upd m tp ts G1 gl G2 m' tp' ts' gl' :
  segs_ok m tp ts (G1 ++ gl :: G2) ->
  (forall h, In h (G1 ++ G2) -> forall y, sbase (fst h) <= y -> y < sbase (fst h) + ssize (fst h) -> m' y = m y) ->
  (G1 = [] \/ tp' = tp /\ ts' = ts) -> pos_ok m' tp' ts' G1 gl' -> segs_ok m' tp' ts' (G1 ++ gl' :: G2).
Proof.
  intros S F H P. destruct G1 as [|h t]; cbn [app segs_ok pos_ok] in *.
  - destruct S as (_ & S). split; [exact P|]. apply Forall_forall. intros x I. rewrite Forall_forall in S.
    apply (seg_frame m); [apply F; exact I | apply S, I].
  - destruct H as [H | (-> & ->)]; [discriminate|]. destruct S as (S1 & S2). rewrite Forall_forall in S2. split.
    + apply (head_frame m); [apply F; now left | exact S1].
    + apply Forall_forall. intros x I. apply in_app_or in I. destruct I as [I | [<- | I]]; [| exact P |].
      * apply (seg_frame m); [apply F; right; apply in_or_app; auto | apply S2, in_or_app; auto].
      * apply (seg_frame m); [apply F; right; apply in_or_app; auto | apply S2, in_or_app; right; right; auto].
Qed.
Lemma tiles_app G1 G2 : tiles (G1 ++ G2) = tiles G1 ++ tiles G2.
Proof. apply flat_map_app. Qed.
Lemma tiles_split G c n k : In (c, n, k) (tiles G) ->
  exists G1 g l1 l2 G2, G = G1 ++ (g, l1 ++ (n, k) :: l2) :: G2 /\ c = sbase g + tot l1.
Proof.
  intros I. apply in_flat_map in I. destruct I as ([g l] & I & J). cbn [fst snd] in J.
  destruct (chunks_split _ _ _ _ _ J) as (l1 & l2 & -> & ->). apply in_split in I. destruct I as (G1 & G2 & ->).
  exists G1, g, l1, l2, G2. auto.
Qed.
Lemma tiles_mid G1 g l1 n k l2 G2 : In (sbase g + tot l1, n, k) (tiles (G1 ++ (g, l1 ++ (n, k) :: l2) :: G2)).
Proof. apply in_flat_map. eexists. split; [apply in_or_app; right; left; reflexivity|]. cbn [fst snd]. apply chunks_in. Qed.
(** the extent of the tiling of a segment *)
Lemma pos_ok_rep m tp ts G1 gl : pos_ok m tp ts G1 gl -> exists e,
  rep m (sbase (fst gl)) true (snd gl) e true /\ e + 32 <= sbase (fst gl) + ssize (fst gl) /\
  (G1 = [] -> e = tp /\ tp + ts + 80 = sbase (fst gl) + ssize (fst gl)).
Proof.
  destruct G1 as [|h t]; cbn [pos_ok].
  - intros (A & B & C & D & E & F). exists tp. split; [exact A|]. split; [lia|]. intros _. auto.
  - intros (A & B & C & D & E). exists (srec (fst gl) + 32). split; [exact B|]. split; [lia|]. discriminate.
Qed.

Record core (m : N -> N) (tp ts lst : N) (pgf : N -> bool) (mst : N) (G : list gseg) (D : list (N * N)) : Prop := {
  c_segs : segs_ok m tp ts G;
  c_dirs : Forall (dir_ok m) D;
  c_geo : geo (regs G D) pgf lst;
  c_mst : exists c, mst = c + 16 /\ In (c, 944, Fx) (tiles G);
  c_fx : forall c n, In (c, n, Fx) (tiles G) -> c + 16 = mst \/ exists gl, In gl (tl G) /\ c + 16 = srec (fst gl);
  c_rec : match G with [] => False | gl :: _ => srec (fst gl) = mst + 888 end
}.

Lemma geo_reg m tp ts lst pgf mst G D gl : core m tp ts lst pgf mst G D -> In gl G -> reg_ok pgf lst (reg gl).
Proof.
  intros C I. destruct (c_geo _ _ _ _ _ _ _ _ C) as (F & _). rewrite Forall_forall in F. apply F. apply in_or_app. left.
  apply in_map, I.
Qed.
Lemma geo_apart G1 gl G2 D pgf lst h : geo (regs (G1 ++ gl :: G2) D) pgf lst -> In h (G1 ++ G2) -> rdisj (reg gl) (reg h).
Proof.
  intros (_ & F) I. unfold regs in F. rewrite map_app in F. cbn [map] in F. rewrite <- app_assoc in F. cbn [app] in F.
  apply FOP_mid in F. destruct F as (_ & F). rewrite Forall_forall in F. apply F. rewrite app_assoc, <- map_app. apply in_or_app.
  left. apply in_map, I.
Qed.
Lemma geo_apartD G1 gl G2 D pgf lst d : geo (regs (G1 ++ gl :: G2) D) pgf lst -> In d D -> rdisj (reg gl) (dreg d).
Proof.
  intros (_ & F) I. unfold regs in F. rewrite map_app in F. cbn [map] in F. rewrite <- app_assoc in F. cbn [app] in F.
  apply FOP_mid in F. destruct F as (_ & F). rewrite Forall_forall in F. apply F. rewrite app_assoc, <- map_app. apply in_or_app.
  right. apply in_map, I.
Qed.
(** a tile is well inside its segment *)
Lemma tile_in m tp ts lst pgf mst G1 g l1 n k l2 G2 D :
  core m tp ts lst pgf mst (G1 ++ (g, l1 ++ (n, k) :: l2) :: G2) D ->
  let c := sbase g + tot l1 in
  32 <= n /\ n mod 16 = 0 /\ c mod 16 = 0 /\ 4096 <= sbase g /\ lst <= sbase g /\ c + n + tot l2 + 32 <= sbase g + ssize g /\
  sbase g + ssize g <= W /\ (G1 = [] -> c + n + tot l2 = tp /\ tp + ts + 80 = sbase g + ssize g) /\
  (forall x, sbase g <= x -> x < sbase g + ssize g -> pgf x = true).
Proof.
  intros C c. pose proof (segs_ok_pos _ _ _ _ _ _ (c_segs _ _ _ _ _ _ _ _ C)) as P.
  destruct (pos_ok_rep _ _ _ _ _ P) as (e & R & E & Q). cbn [fst snd] in *.
  assert (RG : reg_ok pgf lst (reg (g, l1 ++ (n, k) :: l2))) by (eapply geo_reg; [exact C | apply in_or_app; right; now left]).
  unfold reg in RG. cbn [fst] in RG. destruct RG as (A1 & A2 & A3 & A4 & A5 & A6 & A7). cbn [fst snd] in *.
  pose proof (rep_end _ _ _ _ _ _ R) as RE. rewrite tot_app in RE. cbn [tot] in RE.
  pose proof (rep_sizes _ _ _ _ _ _ R) as Z. apply Forall_app in Z. destruct Z as (Z1 & Z2). inversion Z2 as [|? ? (Z3 & Z4) Z5]; subst.
  cbn [fst] in *. split; [exact Z3|]. split; [exact Z4|]. split; [apply al_add; [apply pg16; exact A2 | apply al_tot; exact Z1]|].
  split; [exact A1|]. split; [apply A6|]. split; [unfold c; lia|]. split; [exact A5|]. split; [|exact A7].
  intros ->. destruct (Q eq_refl) as (Q1 & Q2). split; [unfold c; lia | exact Q2].
Qed.
Lemma tile_facts m tp ts lst pgf mst G D c n k : core m tp ts lst pgf mst G D -> In (c, n, k) (tiles G) ->
  32 <= n /\ n mod 16 = 0 /\ c mod 16 = 0 /\ 4096 <= c /\ lst <= c /\ c + n + 32 <= W.
Proof.
  intros C I. destruct (tiles_split _ _ _ _ I) as (G1 & g & l1 & l2 & G2 & -> & ->).
  destruct (tile_in _ _ _ _ _ _ _ _ _ _ _ _ _ _ C) as (A1 & A2 & A3 & A4 & A5 & A6 & A7 & _). repeat split; try assumption; lia.
Qed.
(** tiles of different segments *)
Lemma tile_seg m tp ts lst pgf mst G D gl c n k : core m tp ts lst pgf mst G D -> In gl G ->
  In (c, n, k) (chunks (sbase (fst gl)) (snd gl)) -> sbase (fst gl) <= c /\ c + n + 32 <= sbase (fst gl) + ssize (fst gl).
Proof.
  intros C I J. apply in_split in I. destruct I as (G1 & G2 & ->). destruct gl as [g l]. cbn [fst snd] in *.
  destruct (chunks_split _ _ _ _ _ J) as (l1 & l2 & -> & ->).
  destruct (tile_in _ _ _ _ _ _ _ _ _ _ _ _ _ _ C) as (A1 & A2 & A3 & A4 & A5 & A6 & A7 & _). lia.
Qed.
Lemma tiles_apart m tp ts lst pgf mst G D c d : core m tp ts lst pgf mst G D -> In c (tiles G) -> In d (tiles G) -> c = d \/ apart c d.
Proof.
  intros C I J. pose proof I as I0. pose proof J as J0. apply in_flat_map in I. destruct I as (gc & I & Ic).
  apply in_flat_map in J. destruct J as (gd & J & Jd). destruct c as [[c nc] kc]. destruct d as [[d nd] kd].
  pose proof (tile_seg _ _ _ _ _ _ _ _ _ _ _ _ C I Ic) as Rc. pose proof (tile_seg _ _ _ _ _ _ _ _ _ _ _ _ C J Jd) as Rd.
  pose proof I as I1. apply in_split in I1. destruct I1 as (G1 & G2 & E). rewrite E in J.
  apply in_app_or in J. assert (K : gd = gc \/ In gd (G1 ++ G2)).
  { destruct J as [J | [J | J]]; [right; apply in_or_app; auto | left; auto | right; apply in_or_app; auto]. }
  destruct K as [-> | K]; [apply (chunks_apart _ _ _ _ Ic Jd)|]. right.
  pose proof (c_geo _ _ _ _ _ _ _ _ C) as GE. rewrite E in GE.
  pose proof (geo_apart _ _ _ _ _ _ _ GE K) as P. unfold rdisj, reg, apart in *. cbn [fst snd] in *. lia.
Qed.
Lemma tile_fun m tp ts lst pgf mst G D c n k n' k' : core m tp ts lst pgf mst G D ->
  In (c, n, k) (tiles G) -> In (c, n', k') (tiles G) -> n = n' /\ k = k'.
Proof.
  intros C I J. destruct (tiles_apart _ _ _ _ _ _ _ _ _ _ C I J) as [E | A]; [injection E as -> ->; auto|].
  pose proof (tile_facts _ _ _ _ _ _ _ _ _ _ _ C I) as (H1 & _). pose proof (tile_facts _ _ _ _ _ _ _ _ _ _ _ C J) as (H2 & _).
  unfold apart in A. cbn [fst snd] in A. exfalso. destruct A; lia.
Qed.
Lemma tile_dir m tp ts lst pgf mst G D c n k d : core m tp ts lst pgf mst G D -> In (c, n, k) (tiles G) -> In d D ->
  c + n + 32 <= fst d \/ fst d + (snd d + 32) <= c.
Proof.
  intros C I J. destruct (tiles_split _ _ _ _ I) as (G1 & g & l1 & l2 & G2 & E & ->). subst G.
  destruct (tile_in _ _ _ _ _ _ _ _ _ _ _ _ _ _ C) as (A1 & A2 & A3 & A4 & A5 & A6 & A7 & _).
  pose proof (geo_apartD _ _ _ _ _ _ _ (c_geo _ _ _ _ _ _ _ _ C) J) as P. unfold rdisj, reg, dreg in P. cbn [fst snd] in P. lia.
Qed.

(** ** Blocks of the program *)
Definition blk (G : list gseg) (D : list (N * N)) (a r : N) : Prop :=
  (exists c n, a = c + 16 /\ r + 8 = n /\ In (c, n, Us) (tiles G)) \/ (exists c n, a = c + 16 /\ r + 16 = n /\ In (c, n) D).
(** [m'] and [m] agree on the blocks for which [P] holds *)
Definition keeps (G : list gseg) (D : list (N * N)) (P : N -> Prop) (m m' : N -> N) : Prop :=
  forall a r y, blk G D a r -> P a -> a <= y -> y < a + r -> m' y = m y.

(** ** Replacing tiles *)
Lemma core_replace m tp ts lst pgf mst G1 g l1 X Y n2 k2 l2 G2 D m' :
  let x := sbase g + tot l1 in let nx := x + tot X in
  core m tp ts lst pgf mst (G1 ++ (g, l1 ++ X ++ (n2, k2) :: l2) :: G2) D ->
  tot Y = tot X ->
  (forall c, In c X -> snd c <> Fx) -> (forall c, In c Y -> snd c <> Fx) ->
  (forall y, y < x + 8 \/ nx + 8 < y -> m' y = m y) ->
  (forall p q, rep m x p X nx q -> m (nx + 8) = n2 + 2 * bit (used k2) + bit q -> (k2 = Fr -> q = true) ->
     exists q', rep m' x p Y nx q' /\ m' (nx + 8) = n2 + 2 * bit (used k2) + bit q' /\ (k2 = Fr -> q' = true)) ->
  core m' tp ts lst pgf mst (G1 ++ (g, l1 ++ Y ++ (n2, k2) :: l2) :: G2) D.
Proof.
  intros x nx C T XX YY F Q.
  assert (TI := C). rewrite app_assoc in TI. pose proof (tile_in _ _ _ _ _ _ _ _ _ _ _ _ _ _ TI) as TI2. clear TI. cbn zeta in TI2.
  rewrite tot_app in TI2. destruct TI2 as (A1 & A2 & A3 & A4 & A5 & A6 & A7 & A8 & A9).
  assert (RR : forall h, rdisj (reg (g, l1 ++ X ++ (n2, k2) :: l2)) h -> forall y, fst h <= y -> y < fst h + snd h -> m' y = m y).
  { intros h HD y Y1 Y2. unfold rdisj, reg in HD. cbn [fst snd] in HD. apply F. unfold nx, x. lia. }
  assert (CH : forall c n, In (c, n, Fx) (tiles (G1 ++ (g, l1 ++ Y ++ (n2, k2) :: l2) :: G2)) <->
                           In (c, n, Fx) (tiles (G1 ++ (g, l1 ++ X ++ (n2, k2) :: l2) :: G2))).
  { assert (NF : forall b Z c n, (forall c, In c Z -> snd c <> Fx) -> ~ In (c, n, Fx) (chunks b Z)).
    { intros b Z c n NZ I. destruct (chunks_split _ _ _ _ _ I) as (z1 & z2 & -> & _).
      apply (NZ (n, Fx)); [apply in_or_app; right; now left | reflexivity]. }
    intros c n. rewrite !tiles_app. cbn [tiles flat_map fst snd]. rewrite !chunks_app. fold x. rewrite T.
    rewrite !in_app_iff. specialize (NF x). pose proof (NF X c n XX). pose proof (NF Y c n YY). tauto. }
  destruct C as [S DI GE MS FX RC]. constructor.
  - apply (segs_ok_upd _ _ _ _ _ _ _ _ _ _ S); [| now right |].
    + intros h I y. apply (RR (reg h)). eapply geo_apart; [exact GE | exact I].
    + apply segs_ok_pos in S. destruct G1 as [|h t]; cbn [pos_ok] in *.
      * destruct S as (S1 & S2 & S3 & S4 & S5 & S6). cbn [fst snd] in *. destruct (A8 eq_refl) as (A81 & A82).
        split; [apply (rep_replace m m' (sbase g) true l1 X Y); assumption|].
        split; [exact S2|]. split; [exact S3|]. split; [exact S4|]. split; [|exact S6].
        cbn [fst snd]. rewrite F by (unfold nx, x; lia). exact S5.
      * destruct S as ((l' & S1) & S2 & S3 & S4 & S5 & S6). cbn [fst snd] in *.
        assert (S6' : m' (srec g + 40) = 11).
        { pose proof (rep_end _ _ _ _ _ _ S2) as ES. rewrite !tot_app in ES. cbn [tot] in ES. rewrite F by (unfold nx, x; lia). exact S6. }
        split; [|split; [|split; [exact S3|split; [exact S4|split; [exact S5 | exact S6']]]]].
        -- cbn [fst snd]. assert (exists z, (n2, k2) :: l2 = z ++ [(48, Fx)]) as (z & EZ).
           { destruct (@exists_last _ ((n2, k2) :: l2)) as (z & w & EZ); [discriminate|]. exists z. rewrite EZ in S1.
             rewrite !app_assoc in S1. apply app_inj_tail in S1. destruct S1 as (_ & ->). exact EZ. }
           exists (l1 ++ Y ++ z). rewrite EZ, !app_assoc. reflexivity.
        -- cbn [fst snd]. apply (rep_replace m m' (sbase g) true l1 X Y); assumption.
  - apply Forall_forall. intros d I. rewrite Forall_forall in DI. apply (dir_frame m); [|apply DI, I].
    intros y. apply (RR (dreg d)). eapply geo_apartD; [exact GE | exact I].
  - unfold regs in *. rewrite map_app in *. exact GE.
  - destruct MS as (c & E & I). exists c. split; [exact E | apply CH, I].
  - intros c n I. apply CH, FX in I. destruct I as [I | (gl & I & J)]; [now left|]. right.
    destruct G1 as [|h t]; cbn [app tl] in *; [exists gl; auto|].
    apply in_app_or in I. destruct I as [I | [I | I]].
    + exists gl. split; [apply in_or_app; auto | exact J].
    + subst gl. eexists. split; [apply in_or_app; right; left; reflexivity | exact J].
    + exists gl. split; [apply in_or_app; right; right; auto | exact J].
  - destruct G1; cbn [app] in *; exact RC.
Qed.

Definition rest (G1 : list gseg) (g : seg) (l1 : list (N * kind)) (nx : N) (l3 : list (N * kind)) (G2 : list gseg) : list (N * N * kind) :=
  tiles G1 ++ chunks (sbase g) l1 ++ chunks nx l3 ++ tiles G2.
Lemma tiles_rest G1 g l1 X l3 G2 c :
  In c (tiles (G1 ++ (g, l1 ++ X ++ l3) :: G2)) <->
  In c (rest G1 g l1 (sbase g + tot l1 + tot X) l3 G2) \/ In c (chunks (sbase g + tot l1) X).
Proof.
  unfold rest. rewrite tiles_app. cbn [tiles flat_map fst snd]. rewrite !chunks_app, !in_app_iff. fold (tiles G2). tauto.
Qed.
Lemma seg_in m tp ts lst pgf mst G1 g l1 X l3 G2 D :
  core m tp ts lst pgf mst (G1 ++ (g, l1 ++ X ++ l3) :: G2) D ->
  sbase g + tot l1 + tot X + tot l3 + 32 <= sbase g + ssize g.
Proof.
  intros C. pose proof (segs_ok_pos _ _ _ _ _ _ (c_segs _ _ _ _ _ _ _ _ C)) as P.
  destruct (pos_ok_rep _ _ _ _ _ P) as (e & R & E & Q). cbn [fst snd] in *.
  pose proof (rep_end _ _ _ _ _ _ R) as RE. rewrite !tot_app in RE. lia.
Qed.
Lemma rest_apart m tp ts lst pgf mst G1 g l1 X l3 G2 D c n k :
  core m tp ts lst pgf mst (G1 ++ (g, l1 ++ X ++ l3) :: G2) D ->
  In (c, n, k) (rest G1 g l1 (sbase g + tot l1 + tot X) l3 G2) ->
  c + n <= sbase g + tot l1 \/ sbase g + tot l1 + tot X <= c.
Proof.
  intros C I. pose proof (seg_in _ _ _ _ _ _ _ _ _ _ _ _ _ C) as SI. unfold rest in I. rewrite !in_app_iff in I.
  assert (O : In (c, n, k) (tiles (G1 ++ G2)) -> c + n <= sbase g + tot l1 \/ sbase g + tot l1 + tot X <= c).
  { intros J. apply in_flat_map in J. destruct J as (h & J & K).
    assert (J' : In h (G1 ++ (g, l1 ++ X ++ l3) :: G2)).
    { apply in_app_or in J. apply in_or_app. destruct J; [now left | right; now right]. }
    pose proof (tile_seg _ _ _ _ _ _ _ _ _ _ _ _ C J' K) as R.
    pose proof (geo_apart _ _ _ _ _ _ _ (c_geo _ _ _ _ _ _ _ _ C) J) as P. unfold rdisj, reg in P. cbn [fst snd] in P. lia. }
  destruct I as [I | [I | [I | I]]].
  - apply O. rewrite tiles_app. apply in_or_app. now left.
  - apply chunks_range in I. left. lia.
  - apply chunks_range in I. right. lia.
  - apply O. rewrite tiles_app. apply in_or_app. now right.
Qed.
Lemma blk_replace m tp ts lst pgf mst G1 g l1 X Y l3 G2 D :
  let x := sbase g + tot l1 in let nx := x + tot X in
  core m tp ts lst pgf mst (G1 ++ (g, l1 ++ X ++ l3) :: G2) D -> tot Y = tot X ->
  forall a r, blk (G1 ++ (g, l1 ++ Y ++ l3) :: G2) D a r <->
    (blk (G1 ++ (g, l1 ++ X ++ l3) :: G2) D a r /\ (a < x + 16 \/ nx + 16 <= a)) \/
    exists c n, a = c + 16 /\ r + 8 = n /\ In (c, n, Us) (chunks x Y).
Proof.
  intros x nx C T a r. unfold blk. split.
  - intros [(c & n & -> & E & I) | (c & n & -> & E & I)].
    + apply tiles_rest in I. rewrite T in I. fold x nx in I. destruct I as [I | I]; [left | right; eauto].
      assert (J : In (c, n, Us) (tiles (G1 ++ (g, l1 ++ X ++ l3) :: G2))) by (apply tiles_rest; left; exact I).
      split; [left; eauto|]. pose proof (rest_apart _ _ _ _ _ _ _ _ _ _ _ _ _ _ _ _ C I) as AP. fold x nx in AP.
      pose proof (tile_facts _ _ _ _ _ _ _ _ _ _ _ C J) as (F1 & _). lia.
    + left. split; [right; eauto|]. pose proof (seg_in _ _ _ _ _ _ _ _ _ _ _ _ _ C) as SI.
      pose proof (geo_apartD _ _ _ _ _ _ _ (c_geo _ _ _ _ _ _ _ _ C) I) as P. unfold rdisj, reg, dreg in P. cbn [fst snd] in P.
      unfold nx, x. lia.
  - intros [([(c & n & -> & E & I) | (c & n & -> & E & I)] & O) | (c & n & -> & E & I)].
    + left. exists c, n. split; [reflexivity|]. split; [exact E|]. apply tiles_rest. rewrite T. apply tiles_rest in I.
      fold x nx in I |- *. destruct I as [I | I]; [now left|]. exfalso. 
      assert (J : In (c, n, Us) (tiles (G1 ++ (g, l1 ++ X ++ l3) :: G2))) by (apply tiles_rest; right; exact I).
      pose proof (tile_facts _ _ _ _ _ _ _ _ _ _ _ C J) as (F1 & _). apply chunks_range in I. fold nx in I. lia.
    + right. eauto.
    + left. exists c, n. split; [reflexivity|]. split; [exact E|]. apply tiles_rest. right. exact I.
Qed.
Lemma keeps_replace m tp ts lst pgf mst G1 g l1 X l3 G2 D m' :
  let x := sbase g + tot l1 in let nx := x + tot X in
  core m tp ts lst pgf mst (G1 ++ (g, l1 ++ X ++ l3) :: G2) D ->
  (forall y, y < x + 8 \/ nx + 8 < y -> m' y = m y) ->
  keeps (G1 ++ (g, l1 ++ X ++ l3) :: G2) D (fun a => a < x + 16 \/ nx + 16 <= a) m m'.
Proof.
  intros x nx C F a r y B O Y1 Y2. apply F. destruct B as [(c & n & -> & E & I) | (c & n & -> & E & I)].
  - pose proof (tile_facts _ _ _ _ _ _ _ _ _ _ _ C I) as (F1 & _).
    apply tiles_rest in I. fold x nx in I. destruct I as [I | I].
    + pose proof (rest_apart _ _ _ _ _ _ _ _ _ _ _ _ _ _ _ _ C I) as AP. fold x nx in AP. lia.
    + apply chunks_range in I. fold nx in I. lia.
  - pose proof (geo_apartD _ _ _ _ _ _ _ (c_geo _ _ _ _ _ _ _ _ C) I) as P. unfold rdisj, reg, dreg in P. cbn [fst snd] in P.
    pose proof (seg_in _ _ _ _ _ _ _ _ _ _ _ _ _ C) as SI. unfold nx, x. lia.
Qed.

(** ** Bins *)
(** [T]: the tiles; [L]: the free ones that are in no bin at the moment *)
Record bins (dvp dvs : N) (sbf : N -> list N) (tbl : list N) (T : list (N * N * kind)) (L : N -> Prop) : Prop := {
  b_dv : (dvp = 0 /\ dvs = 0) \/ (In (dvp, dvs, Fr) T /\ ~ L dvp);
  b_sb : forall i a, In a (sbf i) -> In (a, 8 * i, Fr) T /\ i < 32 /\ a <> dvp /\ ~ L a;
  b_nd : forall i, NoDup (sbf i);
  b_tb : forall a, In a tbl -> a <> dvp /\ ~ L a /\ exists n, In (a, n, Fr) T /\ 256 <= n;
  b_all : forall a n, In (a, n, Fr) T -> a = dvp \/ (n < 256 /\ In a (sbf (n / 8))) \/ (256 <= n /\ In a tbl) \/ L a
}.
Definition none (a : N) : Prop := False.
(** addresses and sizes of tiles *)
Definition tok (T : list (N * N * kind)) : Prop :=
  (forall a n k, In (a, n, k) T -> 4096 <= a /\ 32 <= n /\ n mod 16 = 0) /\
  (forall a n k n' k', In (a, n, k) T -> In (a, n', k') T -> n = n' /\ k = k').
Lemma core_tok m tp ts lst pgf mst G D : core m tp ts lst pgf mst G D -> tok (tiles G).
Proof.
  intros C. split.
  - intros a n k I. destruct (tile_facts _ _ _ _ _ _ _ _ _ _ _ C I) as (A & B & _ & E & _). auto.
  - intros a n k n' k'. apply (tile_fun _ _ _ _ _ _ _ _ _ _ _ _ _ C).
Qed.
Lemma bins_L dvp dvs sbf tbl T (L L' : N -> Prop) : (forall a, L a <-> L' a) -> bins dvp dvs sbf tbl T L -> bins dvp dvs sbf tbl T L'.
Proof.
  intros E [A B C D F]. constructor.
  - rewrite <- E. exact A.
  - intros i a I. rewrite <- E. apply (B _ _ I).
  - exact C.
  - intros a I. rewrite <- E. apply (D _ I).
  - intros a n I. rewrite <- E. apply (F _ _ I).
Qed.
(** dv taken out *)
Lemma bins_undv dvp dvs sbf tbl T : tok T -> In (dvp, dvs, Fr) T -> bins dvp dvs sbf tbl T none -> bins 0 0 sbf tbl T (eq dvp).
Proof.
  intros (T1 & T2) I [A B C D F]. constructor.
  - left. auto.
  - intros i a J. destruct (B _ _ J) as (B1 & B2 & B3 & _). split; [exact B1|]. split; [exact B2|].
    split; [|intro; subst; auto]. apply T1 in B1. lia.
  - exact C.
  - intros a J. destruct (D _ J) as (D1 & _ & n & D2 & D3). split; [apply T1 in D2; lia|]. split; [intro; subst; auto|]. eauto.
  - intros a n J. destruct (F _ _ J) as [-> | [H | [H | []]]]; auto.
Qed.
Lemma unlink_ok s (T : list (N * N * kind)) p n dvp dvs (L : N -> Prop) : tok T -> In (p, n, Fr) T -> p <> dvp -> ~ L p ->
  bins dvp dvs (sb s) (tb s) T L ->
  exists s', unlink_chunk s p n = Ok s' /\
    s' = mk (mem s) (segs s) (top s) (topsize s) (dv s) (dvsize s) (sb s') (tb s') (least s) (rchk s) (trimc s) (foot s) (mst s) (pg s) (plog s) /\
    bins dvp dvs (sb s') (tb s') T (fun a => L a \/ a = p).
Proof.
  intros (T1 & T2) I N1 N2 [A B C D F]. unfold unlink_chunk. rewrite is_small_lt.
  destruct (T1 _ _ _ I) as (I1 & I2 & I3). destruct (n <? 256) eqn:E.
  - unfold unlink_small, small_index. destruct (F _ _ I) as [-> | [(F1 & F2) | [(F1 & _) | F1]]]; [tauto | | lia | tauto].
    destruct (in_dec N.eq_dec p (sb s (n / 8))) as [_ | H]; [|tauto]. eexists. split; [reflexivity|]. split; [reflexivity|].
    cbn [set_sb sb tb]. constructor.
    + destruct A as [A | (A1 & A2)]; [now left|]. right. split; [exact A1|]. intros [H | ->]; auto.
    + intros i a J. destruct (i =? n / 8) eqn:Ei.
      * apply N.eqb_eq in Ei. subst i. apply in_remove in J. destruct J as (J & NE). destruct (B _ _ J) as (B1 & B2 & B3 & B4).
        repeat split; auto. tauto.
      * destruct (B _ _ J) as (B1 & B2 & B3 & B4). repeat split; auto. intros [H | ->]; [tauto|].
        destruct (T2 _ _ _ _ _ I B1) as (H & _). apply N.eqb_neq in Ei. apply Ei. rewrite H. rewrite N.mul_comm, N.div_mul by lia. reflexivity.
    + intros i. destruct (i =? n / 8) eqn:Ei; [|apply C]. apply N.eqb_eq in Ei. subst i. specialize (C (n / 8)).
      clear - C. induction C as [|y r NI ND IH]; cbn [remove]; [constructor|]. destruct (N.eq_dec p y); [exact IH|].
      constructor; [|exact IH]. intros H. apply in_remove in H. tauto.
    + intros a J. destruct (D _ J) as (D1 & D2 & k & D3 & D4). split; [exact D1|]. split; [|eauto]. intros [H | ->]; [tauto|].
      destruct (T2 _ _ _ _ _ I D3) as (H & _). lia.
    + intros a k J. destruct (F _ _ J) as [H | [(H1 & H2) | [H | H]]]; auto.
      destruct (N.eq_dec a p) as [-> | NE]; [tauto|]. right. left. split; [exact H1|]. destruct (k / 8 =? n / 8) eqn:Ei; [|exact H2].
      apply N.eqb_eq in Ei. rewrite <- Ei. apply in_in_remove; auto.
  - unfold unlink_large. destruct (F _ _ I) as [-> | [(F1 & F2) | [(F1 & F2) | F1]]]; [tauto | lia | | tauto].
    destruct (in_dec N.eq_dec p (tb s)) as [_ | H]; [|tauto]. eexists. split; [reflexivity|]. split; [reflexivity|].
    cbn [set_tb sb tb]. constructor.
    + destruct A as [A | (A1 & A2)]; [now left|]. right. split; [exact A1|]. intros [H | ->]; auto.
    + intros i a J. destruct (B _ _ J) as (B1 & B2 & B3 & B4). repeat split; auto. intros [H | ->]; [tauto|].
      destruct (T2 _ _ _ _ _ I B1) as (H & _). lia.
    + exact C.
    + intros a J. apply in_remove in J. destruct J as (J & NE). destruct (D _ J) as (D1 & D2 & k & D3 & D4).
      split; [exact D1|]. split; [tauto | eauto].
    + intros a k J. destruct (F _ _ J) as [H | [H | [(H1 & H2) | H]]]; auto.
      destruct (N.eq_dec a p) as [-> | NE]; [tauto|]. right. right. left. split; [exact H1|]. apply in_in_remove; auto.
Qed.
(** the first of a small bin taken *)
Lemma bins_pop dvp dvs sbf tbl T i p r : tok T -> sbf i = p :: r -> bins dvp dvs sbf tbl T none ->
  In (p, 8 * i, Fr) T /\ i < 32 /\ p <> dvp /\ bins dvp dvs (fun j => if j =? i then r else sbf j) tbl T (eq p).
Proof.
  intros (T1 & T2) E [A B C D F]. destruct (B i p) as (B1 & B2 & B3 & _); [rewrite E; now left|].
  split; [exact B1|]. split; [exact B2|]. split; [exact B3|]. pose proof (C i) as CI. rewrite E in CI. inversion CI as [|? ? NI ND]; subst.
  constructor.
  - destruct A as [A | (A1 & A2)]; [now left|]. right. auto.
  - intros j a J. destruct (j =? i) eqn:Ej.
    + apply N.eqb_eq in Ej. subst j. destruct (B i a) as (G1 & G2 & G3 & _); [rewrite E; now right|]. repeat split; auto. intro; subst; auto.
    + destruct (B j a J) as (G1 & G2 & G3 & _). repeat split; auto. intros <-. destruct (T2 _ _ _ _ _ B1 G1) as (H & _).
      apply N.eqb_neq in Ej. lia.
  - intros j. destruct (j =? i); auto.
  - intros a J. destruct (D _ J) as (D1 & _ & k & D3 & D4). split; [exact D1|]. split; [|eauto]. intros <-.
    destruct (T2 _ _ _ _ _ B1 D3) as (H & _). lia.
  - intros a k J. destruct (F _ _ J) as [H | [(H1 & H2) | [H | []]]]; auto.
    destruct (k / 8 =? i) eqn:Ei; [|auto]. apply N.eqb_eq in Ei. rewrite Ei in H2. rewrite E in H2. destruct H2 as [<- | H2]; auto.
Qed.
Lemma bins_insert s T p n dvp dvs (L : N -> Prop) : tok T -> In (p, n, Fr) T -> p <> dvp -> L p -> bins dvp dvs (sb s) (tb s) T L ->
  exists s', insert_chunk s p n = s' /\
    s' = mk (mem s) (segs s) (top s) (topsize s) (dv s) (dvsize s) (sb s') (tb s') (least s) (rchk s) (trimc s) (foot s) (mst s) (pg s) (plog s) /\
    bins dvp dvs (sb s') (tb s') T (fun a => L a /\ a <> p).
Proof.
  intros (T1 & T2) I N1 N2 [A B C D F]. unfold insert_chunk. rewrite is_small_lt. eexists. split; [reflexivity|].
  destruct (T1 _ _ _ I) as (I1 & I2 & I3). pose proof (idx_size _ I3) as IS.
  destruct (n <? 256) eqn:E; (split; [reflexivity|]); cbn [insert_small insert_large set_sb set_tb sb tb]; unfold small_index.
  - constructor.
    + destruct A as [A | (A1 & A2)]; [now left|]. right. split; [exact A1 | tauto].
    + intros i a J. destruct (i =? n / 8) eqn:Ei.
      * apply N.eqb_eq in Ei. subst i. destruct J as [<- | J].
        -- rewrite IS. repeat split; auto; try tauto. lia.
        -- destruct (B _ _ J) as (B1 & B2 & B3 & B4). repeat split; auto; tauto.
      * destruct (B _ _ J) as (B1 & B2 & B3 & B4). repeat split; auto; tauto.
    + intros i. destruct (i =? n / 8) eqn:Ei; [|apply C]. constructor; [|apply C]. intros J. apply B in J. tauto.
    + intros a J. destruct (D _ J) as (D1 & D2 & k & D3 & D4). split; [exact D1|]. split; [tauto | eauto].
    + intros a k J. destruct (N.eq_dec a p) as [-> | NE].
      * destruct (T2 _ _ _ _ _ I J) as (<- & _). right. left. split; [lia|]. rewrite N.eqb_refl. now left.
      * destruct (F _ _ J) as [H | [(H1 & H2) | [H | H]]]; auto.
        right. left. split; [exact H1|]. destruct (k / 8 =? n / 8) eqn:Ei; [|exact H2]. apply N.eqb_eq in Ei. rewrite Ei in H2. now right.
  - constructor.
    + destruct A as [A | (A1 & A2)]; [now left|]. right. split; [exact A1 | tauto].
    + intros i a J. destruct (B _ _ J) as (B1 & B2 & B3 & B4). repeat split; auto; tauto.
    + exact C.
    + intros a [<- | J].
      * split; [exact N1|]. split; [tauto|]. exists n. split; [exact I | lia].
      * destruct (D _ J) as (D1 & D2 & k & D3 & D4). split; [exact D1|]. split; [tauto | eauto].
    + intros a k J. destruct (N.eq_dec a p) as [-> | NE].
      * destruct (T2 _ _ _ _ _ I J) as (<- & _). right. right. left. split; [lia | now left].
      * destruct (F _ _ J) as [H | [H | [(H1 & H2) | H]]]; auto. right. right. left. split; [exact H1 | now right].
Qed.
(** dv becomes a chunk that was in no bin *)
Lemma bins_setdv p n sbf tbl T (L : N -> Prop) : tok T -> In (p, n, Fr) T -> L p -> bins 0 0 sbf tbl T L ->
  bins p n sbf tbl T (fun a => L a /\ a <> p).
Proof.
  intros (T1 & T2) I N2 [A B C D F]. constructor.
  - right. tauto.
  - intros i a J. destruct (B _ _ J) as (B1 & B2 & B3 & B4). repeat split; auto; [intros ->; tauto | tauto].
  - exact C.
  - intros a J. destruct (D _ J) as (D1 & D2 & k & D3 & D4). split; [intros ->; tauto|]. split; [tauto | eauto].
  - intros a k J. destruct (N.eq_dec a p) as [-> | NE]; [now left|]. destruct (F _ _ J) as [-> | [H | [H | H]]]; auto.
    apply T1 in J. lia.
Qed.
(** the tiles change *)
Lemma bins_tiles dvp dvs sbf tbl T T' (R : N * N * kind -> Prop) (X Y : list (N * N * kind)) (L L' : N -> Prop) :
  (forall c, In c T <-> R c \/ In c X) -> (forall c, In c T' <-> R c \/ In c Y) ->
  (forall a n k, R (a, n, k) -> ~ L a /\ ~ L' a) ->
  (forall a n, In (a, n, Fr) X -> L a) -> (forall a n, In (a, n, Fr) Y -> L' a) ->
  bins dvp dvs sbf tbl T L -> bins dvp dvs sbf tbl T' L'.
Proof.
  intros E E' S LX LY [A B C D F].
  assert (K : forall a n, In (a, n, Fr) T -> ~ L a -> In (a, n, Fr) T' /\ ~ L' a).
  { intros a n I NL. apply E in I. destruct I as [I | I]; [|apply LX in I; tauto]. split; [apply E'; now left | apply (S _ _ _ I)]. }
  constructor.
  - destruct A as [A | (A1 & A2)]; [now left|]. right. apply K; auto.
  - intros i a I. destruct (B _ _ I) as (B1 & B2 & B3 & B4). destruct (K _ _ B1 B4) as (K1 & K2). auto.
  - exact C.
  - intros a I. destruct (D _ I) as (D1 & D2 & n & D3 & D4). destruct (K _ _ D3 D2) as (K1 & K2). split; [exact D1|]. split; [exact K2 | eauto].
  - intros a n I. apply E' in I. destruct I as [I | I].
    + destruct (F a n) as [H | [H | [H | H]]]; [apply E; now left | | | |]; auto. destruct (S _ _ _ I). tauto.
    + apply LY in I. auto.
Qed.
