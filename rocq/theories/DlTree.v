(** The trees of large free chunks of the heap of [DlModel]: property C61.

    Code modelled
    - [src/alloc/dlmalloc/malloc.c:2459]       leftmost_child
    - [src/alloc/dlmalloc/malloc.c:2893-2904]  compute_tree_index (x86)
    - [src/alloc/dlmalloc/malloc.c:2956-2959]  leftshift_for_tree_index
    - [src/alloc/dlmalloc/malloc.c:2971-2990]  bin maps
    - [src/alloc/dlmalloc/malloc.c:3741-3791]  insert_large_chunk
    - [src/alloc/dlmalloc/malloc.c:3810-3880]  unlink_large_chunk
    - [src/alloc/dlmalloc/malloc.c:4543-4590]  tmalloc_large, the search
    - [src/alloc/dlmalloc/malloc.c:4616-4631]  tmalloc_small, the search

    A node is the ring of the free chunks of one size: the chunk that is in the tree and the others, in the order of fd.  Pointers
    between nodes are the structure of the tree; the checks of these pointers (ok_address, F->bk == X) are not modelled.  [nb <= W]. *)
From Verif Require Import Base DlModel DlInv DlAlloc DlSys DlPre DlMalloc DlFree DlFwd DlHist DlProps.
From Coq Require Import Lia Permutation.
Local Open Scope N_scope.
Arguments N.add : simpl never. Arguments N.sub : simpl never. Arguments N.mul : simpl never. Arguments N.div : simpl never.
Arguments N.modulo : simpl never. Arguments N.eqb : simpl never. Arguments N.ltb : simpl never. Arguments N.leb : simpl never.
Arguments N.odd : simpl never. Arguments N.pow : simpl never. Arguments N.log2 : simpl never.

(** ** Model *)
(** struct malloc_tree_chunk, malloc.c:2441-2453: [hd] is the chunk in the tree, [rg] the others of its ring *)
Inductive tree := Nil | Node (hd : N) (rg : list N) (sz : N) (c0 c1 : tree).
(** t != 0 *)
Definition some (t : tree) : bool := match t with Nil => false | _ => true end.
(** treebins and treemap, malloc.c:2640-2646 *)
Record trees := mkt { tbin : N -> tree; tmap : N -> bool }.
(** no chunks *)
Definition no_trees : trees := mkt (fun _ => Nil) (fun _ => false).
(** compute_tree_index, malloc.c:2893-2904; [X] is an unsigned int: the high bits are lost *)
Definition tree_index (S : N) : N :=
  let X := (S / 256) mod 2 ^ 32 in
  if X =? 0 then 0 else if 65535 <? X then 31 else let K := N.log2 X in 2 * K + (S / 2 ^ (K + 7)) mod 2.
(** leftshift_for_tree_index, malloc.c:2956-2959 *)
Definition leftshift (i : N) : N := if i =? 31 then 0 else 63 - (i / 2 + 6).
(** S << leftshift_for_tree_index(I), malloc.c:3757, 4555 *)
Definition key (S i : N) : N := S * 2 ^ leftshift i mod W.
(** (K >> 63) & 1 *)
Definition top_bit (K : N) : bool := 2 ^ 63 <=? K.
(** K <<= 1 *)
Definition next_key (K : N) : N := 2 * K mod W.
(** insert_large_chunk, malloc.c:3755-3790, and the empty bin, 3749-3754 *)
Fixpoint insert_t (K : N) (t : tree) (x S : N) : tree :=
  match t with
  | Nil => Node x [] S Nil Nil
  | Node h r sz c0 c1 =>
      if sz =? S then Node h (x :: r) sz c0 c1
      else if top_bit K then Node h r sz c0 (insert_t (next_key K) c1 x S) else Node h r sz (insert_t (next_key K) c0 x S) c1
  end.
(** insert_large_chunk, malloc.c:3741-3791 *)
Definition insert (T : trees) (x S : N) : trees :=
  let i := tree_index S in
  if tmap T i then mkt (fun j => if j =? i then insert_t (key S i) (tbin T i) x S else tbin T j) (tmap T)
  else mkt (fun j => if j =? i then Node x [] S Nil Nil else tbin T j) (fun j => (j =? i) || tmap T j).
(** the leaf that replaces a node, malloc.c:3826-3837: the last of the right-most path; with what is left *)
Fixpoint take_leaf (t : tree) : option (N * list N * N * tree) :=
  match t with
  | Nil => None
  | Node h r sz c0 c1 =>
      match take_leaf c1 with
      | Some (a, c1') => Some (a, Node h r sz c0 c1')
      | None => match take_leaf c0 with
                | Some (a, c0') => Some (a, Node h r sz c0' c1)
                | None => Some (h, r, sz, Nil)
                end
      end
  end.
(** unlink_large_chunk, malloc.c:3810-3880.  [x] in the tree and others in its ring: X->bk, the last one, takes its place. *)
Fixpoint unlink_t (t : tree) (x : N) : tree :=
  match t with
  | Nil => Nil
  | Node h r sz c0 c1 =>
      if h =? x then
        match r with
        | [] => match take_leaf c1 with
                | Some (h', r', s', c1') => Node h' r' s' c0 c1'
                | None => match take_leaf c0 with
                          | Some (h', r', s', c0') => Node h' r' s' c0' c1
                          | None => Nil
                          end
                end
        | f :: q => Node (last r f) (removelast r) sz c0 c1
        end
      else if in_dec N.eq_dec x r then Node h (remove N.eq_dec x r) sz c0 c1
      else Node h r sz (unlink_t c0 x) (unlink_t c1 x)
  end.
(** unlink_large_chunk in the bin X->index *)
Definition unlink (T : trees) (x S : N) : trees :=
  let i := tree_index S in
  let t := unlink_t (tbin T i) x in
  mkt (fun j => if j =? i then t else tbin T j) (fun j => if j =? i then tmap T i && some t else tmap T j).
(** the first loop of tmalloc_large, malloc.c:4557-4573: v, rsize and t after it *)
Fixpoint walk (nb : N) (t : tree) (K : N) (v : option N) (rsize : N) (rst : tree) : option N * N * tree :=
  match t with
  | Nil => (v, rsize, rst)
  | Node h r sz c0 c1 =>
      let trem := (sz + W - nb) mod W in
      let v' := if trem <? rsize then Some h else v in
      let rsize' := if trem <? rsize then trem else rsize in
      if (trem <? rsize) && (trem =? 0) then (v', rsize', t)
      else let rst' := if some c1 && negb (top_bit K) then c1 else rst in
           walk nb (if top_bit K then c1 else c0) (next_key K) v' rsize' rst'
  end.
(** the loop down the left-most children, malloc.c:4584-4591 *)
Fixpoint descend (nb : N) (t : tree) (v : option N) (rsize : N) : option N * N :=
  match t with
  | Nil => (v, rsize)
  | Node h r sz c0 c1 =>
      let trem := (sz + W - nb) mod W in
      let v' := if trem <? rsize then Some h else v in
      let rsize' := if trem <? rsize then trem else rsize in
      if some c0 then descend nb c0 v' rsize' else descend nb c1 v' rsize'
  end.
(** the least marked bin, of [n] from [i] on: left_bits, least_bit and compute_bit2idx, malloc.c:2985-2990, 4575-4580 *)
Fixpoint next_bin (T : trees) (i : N) (n : nat) : option N :=
  match n with O => None | S n => if tmap T i then Some i else next_bin T (i + 1) n end.
(** tmalloc_large, malloc.c:4543-4591: the chunk [v] *)
Definition search_large (T : trees) (nb : N) : option N :=
  let idx := tree_index nb in
  let '(v, rsize, t) := match tbin T idx with Nil => (None, W - nb, Nil) | t => walk nb t (key nb idx) None (W - nb) Nil end in
  let t := match t, v with
           | Nil, None => match next_bin T (idx + 1) (N.to_nat (31 - idx)) with Some i => tbin T i | None => Nil end
           | _, _ => t
           end in
  fst (descend nb t v rsize).
(** tmalloc_small, malloc.c:4616-4631; only called if treemap is not 0 *)
Definition search_small (T : trees) (nb : N) : option N :=
  match next_bin T 0 32 with
  | None => None
  | Some i => match tbin T i with
              | Nil => None
              | Node h r sz c0 c1 => fst (descend nb (if some c0 then c0 else c1) (Some h) ((sz + W - nb) mod W))
              end
  end.

(** ** Specification *)
(** The free chunks in the trees, with their sizes: any sequence of insertions of new chunks and removals of chunks in a tree; no chunk
    ever has [B] bytes or more. *)
Inductive thist (B : N) : trees -> list (N * N) -> Prop :=
| t_init : thist B no_trees []
| t_insert T l x S : thist B T l -> 256 <= S -> S < B -> ~ In x (map fst l) -> thist B (insert T x S) ((x, S) :: l)
| t_unlink T l1 x S l2 : thist B T (l1 ++ (x, S) :: l2) -> thist B (unlink T x S) (l1 ++ l2).
(** [v] is a chunk of [l] that has at least [nb] bytes *)
Definition fits (l : list (N * N)) (nb : N) (v : option N) : Prop := match v with Some a => exists n, In (a, n) l /\ nb <= n | None => True end.
(** [v] is the smallest that has, or there is none *)
Definition best (l : list (N * N)) (nb : N) (v : option N) : Prop :=
  match v with Some a => exists n, In (a, n) l /\ nb <= n /\ forall b k, In (b, k) l -> nb <= k -> n <= k | None => forall b k, In (b, k) l -> k < nb end.

(** ** Elements *)
Lemma NoDup_l {A} (a b : list A) : NoDup (a ++ b) -> NoDup a.
Proof. induction a as [|x a IH]; cbn; intros H; [constructor|]. inversion H; subst. constructor; [intros I; apply H2; apply in_or_app; now left | auto]. Qed.
Lemma NoDup_r {A} (a b : list A) : NoDup (a ++ b) -> NoDup b.
Proof. induction a as [|x a IH]; cbn; intros H; [exact H|]. inversion H; subst. auto. Qed.
Lemma NoDup_lr {A} (a b : list A) x : NoDup (a ++ b) -> In x a -> In x b -> False.
Proof. induction a as [|y a IH]; cbn; intros H I J; [destruct I|]. inversion H; subst. destruct I as [-> | I]; [apply H2; apply in_or_app; now right | auto]. Qed.
Fixpoint el (t : tree) : list (N * N) :=
  match t with Nil => [] | Node h r sz c0 c1 => (h, sz) :: map (fun x => (x, sz)) r ++ el c0 ++ el c1 end.
Lemma insert_el K t x S : Permutation (el (insert_t K t x S)) ((x, S) :: el t).
Proof.
  revert K. induction t as [|h r sz c0 IH0 c1 IH1]; intros K; cbn [insert_t el map app]; [reflexivity|].
  destruct (sz =? S) eqn:E; [apply N.eqb_eq in E; subst sz; cbn [el map app]; apply perm_swap|].
  destruct (top_bit K); cbn [el]; rewrite perm_swap; apply perm_skip; rewrite ?IH0, ?IH1.
  - apply Permutation_sym. rewrite Permutation_middle. apply Permutation_app_head. rewrite Permutation_middle. reflexivity.
  - apply Permutation_sym. rewrite Permutation_middle. reflexivity.
Qed.
Lemma take_leaf_none t : take_leaf t = None -> t = Nil.
Proof. destruct t as [|h r sz c0 c1]; [reflexivity|]. cbn [take_leaf]. destruct (take_leaf c1) as [[[[? ?] ?] ?]|]; [discriminate|]. destruct (take_leaf c0) as [[[[? ?] ?] ?]|]; discriminate. Qed.
Definition rel (h : N) (r : list N) (sz : N) : list (N * N) := (h, sz) :: map (fun x => (x, sz)) r.
Lemma take_leaf_el t : forall h r sz t', take_leaf t = Some (h, r, sz, t') -> Permutation (el t) (rel h r sz ++ el t').
Proof.
  induction t as [|h0 r0 sz0 c0 IH0 c1 IH1]; intros h r sz t'; cbn [take_leaf]; [discriminate|].
  destruct (take_leaf c1) as [[[[h1 r1] s1] c1']|] eqn:E1.
  - intros E. injection E as <- <- <- <-. cbn [el]. rewrite (IH1 _ _ _ _ eq_refl).
    change ((h0, sz0) :: map (fun x => (x, sz0)) r0 ++ el c0 ++ rel h1 r1 s1 ++ el c1') with (rel h0 r0 sz0 ++ el c0 ++ rel h1 r1 s1 ++ el c1').
    change (rel h1 r1 s1 ++ (h0, sz0) :: map (fun x => (x, sz0)) r0 ++ el c0 ++ el c1') with (rel h1 r1 s1 ++ rel h0 r0 sz0 ++ el c0 ++ el c1').
    rewrite (Permutation_app_swap_app (el c0)). apply Permutation_app_swap_app.
  - destruct (take_leaf c0) as [[[[h1 r1] s1] c0']|] eqn:E0.
    + intros E. injection E as <- <- <- <-. cbn [el]. rewrite (IH0 _ _ _ _ eq_refl).
      change ((h0, sz0) :: map (fun x => (x, sz0)) r0 ++ (rel h1 r1 s1 ++ el c0') ++ el c1) with (rel h0 r0 sz0 ++ (rel h1 r1 s1 ++ el c0') ++ el c1).
      change (rel h1 r1 s1 ++ (h0, sz0) :: map (fun x => (x, sz0)) r0 ++ el c0' ++ el c1) with (rel h1 r1 s1 ++ rel h0 r0 sz0 ++ el c0' ++ el c1).
      rewrite <- app_assoc. apply Permutation_app_swap_app.
    + intros E. injection E as <- <- <- <-. apply take_leaf_none in E0, E1. subst. cbn [el app]. rewrite !app_nil_r. reflexivity.
Qed.
Lemma remove_el (x : N) l : NoDup l -> In x l -> Permutation l (x :: remove N.eq_dec x l).
Proof.
  induction l as [|a l IH]; intros ND I; [destruct I|]. inversion ND; subst. cbn [remove]. destruct (N.eq_dec x a) as [<- | NE].
  - rewrite notin_remove by assumption. reflexivity.
  - destruct I as [-> | I]; [congruence|]. rewrite perm_swap. apply perm_skip. apply IH; assumption.
Qed.
Lemma unlink_notin t x : ~ In x (map fst (el t)) -> unlink_t t x = t.
Proof.
  induction t as [|h r sz c0 IH0 c1 IH1]; intros NI; cbn [unlink_t]; [reflexivity|]. cbn [el map] in NI. rewrite !map_app, map_map, map_id in NI.
  destruct (h =? x) eqn:E; [apply N.eqb_eq in E; subst; exfalso; apply NI; now left|].
  destruct (in_dec N.eq_dec x r) as [I|I]; [exfalso; apply NI; right; apply in_or_app; now left|].
  rewrite IH0, IH1; [reflexivity | |]; intros I'; apply NI; right; apply in_or_app; right; apply in_or_app; auto.
Qed.
Lemma unlink_el t x S : NoDup (map fst (el t)) -> In (x, S) (el t) -> Permutation (el t) ((x, S) :: el (unlink_t t x)).
Proof.
  induction t as [|h r sz c0 IH0 c1 IH1]; intros ND I; [destruct I|]. cbn [unlink_t]. cbn [el map] in ND. rewrite !map_app, map_map, map_id in ND. cbn [fst] in ND.
  inversion ND as [|? ? N1 N2]; subst. cbn [el In] in I.
  destruct (h =? x) eqn:E.
  - apply N.eqb_eq in E. subst h. assert (sz = S) as ->.
    { destruct I as [I | I]; [congruence|]. exfalso. apply N1. rewrite !in_app_iff in *. rewrite in_map_iff in I.
      destruct I as [(z & Z1 & Z2) | [I | I]]; [left; congruence | right; left; apply (in_map fst) in I; exact I | right; right; apply (in_map fst) in I; exact I]. }
    destruct r as [|f q].
    + cbn [el map app]. apply perm_skip. destruct (take_leaf c1) as [[[[h1 r1] s1] c1']|] eqn:E1.
      * rewrite (take_leaf_el _ _ _ _ _ E1). cbn [el]. change ((h1, s1) :: map (fun z => (z, s1)) r1 ++ el c0 ++ el c1') with (rel h1 r1 s1 ++ el c0 ++ el c1').
        apply Permutation_app_swap_app.
      * destruct (take_leaf c0) as [[[[h1 r1] s1] c0']|] eqn:E0.
        -- rewrite (take_leaf_el _ _ _ _ _ E0). cbn [el]. change ((h1, s1) :: map (fun z => (z, s1)) r1 ++ el c0' ++ el c1) with (rel h1 r1 s1 ++ el c0' ++ el c1).
           rewrite app_assoc. reflexivity.
        -- apply take_leaf_none in E0, E1. subst. reflexivity.
    + cbn [el]. apply perm_skip. rewrite (app_removelast_last f (l := f :: q)) at 1 by discriminate. rewrite map_app. cbn [map].
      rewrite <- app_assoc. cbn [app]. rewrite <- Permutation_middle. reflexivity.
  - apply N.eqb_neq in E. destruct I as [I | I]; [congruence|].
    destruct (in_dec N.eq_dec x r) as [IR|IR].
    + assert (sz = S) as ->.
      { rewrite !in_app_iff, in_map_iff in I. destruct I as [(z & Z1 & Z2) | I]; [congruence|]. exfalso.
        apply (NoDup_lr _ _ x N2 IR). rewrite in_app_iff. destruct I as [I | I]; apply (in_map fst) in I; auto. }
      cbn [el]. rewrite perm_swap. apply perm_skip. apply NoDup_l in N2.
      rewrite (Permutation_map (fun z => (z, S)) (remove_el x r N2 IR)). reflexivity.
    + rewrite in_app_iff, in_map_iff in I. destruct I as [(z & Z1 & Z2) | I]; [congruence|]. cbn [el]. rewrite perm_swap. apply perm_skip.
      apply NoDup_r in N2. apply in_app_or in I. destruct I as [I | I].
      * assert (NI : ~ In x (map fst (el c1))).
        { intros J. apply (in_map fst) in I. apply (NoDup_lr _ _ x N2 I J). }
        rewrite (unlink_notin c1 x NI). rewrite (IH0 (NoDup_l _ _ N2) I) at 1. cbn [app]. apply Permutation_sym. apply Permutation_middle.
      * assert (NI : ~ In x (map fst (el c0))).
        { intros J. apply (in_map fst) in I. apply (NoDup_lr _ _ x N2 J I). }
        rewrite (unlink_notin c0 x NI). rewrite (IH1 (NoDup_r _ _ N2) I) at 1. rewrite <- !Permutation_middle. reflexivity.
Qed.

Record tinv (T : trees) (l : list (N * N)) : Prop := {
  v_map : forall i, tmap T i = some (tbin T i);
  v_el : forall i x S, In (x, S) (el (tbin T i)) <-> In (x, S) l /\ tree_index S = i;
  v_bin : forall i, NoDup (map fst (el (tbin T i)));
  v_nd : NoDup (map fst l);
  v_sz : forall x S, In (x, S) l -> 256 <= S /\ S < W
}.
Lemma insert_el_in K t x S z : In z (el (insert_t K t x S)) <-> z = (x, S) \/ In z (el t).
Proof.
  split; intros H; [apply (Permutation_in _ (insert_el K t x S)) in H | apply (Permutation_in _ (Permutation_sym (insert_el K t x S)))]; cbn [In] in *; intuition congruence.
Qed.
Lemma thist_inv T l : thist W T l -> tinv T l.
Proof.
  induction 1 as [| T l x S H I S1 S2 NI | T l1 x S l2 H I].
  - constructor; cbn; try reflexivity; try (intros; constructor); try tauto.
  - destruct I as [M E B ND SZ]. unfold insert. set (i := tree_index S).
    assert (KE : exists t', (forall z, In z (el t') <-> z = (x, S) \/ In z (el (tbin T i))) /\ some t' = true /\ NoDup (map fst (el t')) /\
      (if tmap T i then mkt (fun j => if j =? i then insert_t (key S i) (tbin T i) x S else tbin T j) (tmap T)
       else mkt (fun j => if j =? i then Node x [] S Nil Nil else tbin T j) (fun j => (j =? i) || tmap T j)) =
      mkt (fun j => if j =? i then t' else tbin T j) (if tmap T i then tmap T else (fun j => (j =? i) || tmap T j))).
    { destruct (tmap T i) eqn:EM.
      - exists (insert_t (key S i) (tbin T i) x S). split; [apply insert_el_in|]. split; [|split; [|reflexivity]].
        + destruct (tbin T i) as [|h r sz c0 c1]; [reflexivity|]. cbn [insert_t]. destruct (sz =? S); [reflexivity|]. destruct (top_bit _); reflexivity.
        + rewrite (Permutation_map fst (insert_el (key S i) (tbin T i) x S)). cbn [map fst]. constructor; [|apply B]. intros J. apply NI. apply in_map_iff in J. destruct J as ([x' S'] & <- & J). apply E in J. apply (in_map fst), J.
      - exists (Node x [] S Nil Nil). rewrite M in EM. destruct (tbin T i); [|discriminate]. split; [cbn; intuition|]. split; [reflexivity|]. split; [cbn; constructor; [intros [] | constructor] | reflexivity]. }
    destruct KE as (t' & E1 & E2 & E3 & ->). constructor; cbn [tbin tmap].
    + intros j. destruct (tmap T i) eqn:EM.
      * destruct (j =? i) eqn:EJ; [apply N.eqb_eq in EJ; subst j; congruence | apply M].
      * destruct (j =? i) eqn:EJ; cbn [orb]; [symmetry; exact E2 | apply M].
    + intros j x' S'. cbn [In]. destruct (j =? i) eqn:EJ.
      * apply N.eqb_eq in EJ. subst j. rewrite E1, E. split; [intros [H' | H']; [injection H' as <- <-; auto | tauto] | intros ([H' | H'] & H2); [left; congruence | auto]].
      * apply N.eqb_neq in EJ. rewrite E. split; [tauto|]. intros ([H' | H'] & H2); [injection H' as <- <-; exfalso; apply EJ; rewrite <- H2; reflexivity | auto].
    + intros j. destruct (j =? i); [exact E3 | apply B].
    + cbn [map fst]. constructor; assumption.
    + intros x' S' [H' | H']; [injection H' as <- <-; auto | apply (SZ _ _ H')].
  - destruct I as [M E B ND SZ]. unfold unlink. set (i := tree_index S).
    assert (IX : In (x, S) (el (tbin T i))) by (apply E; split; [apply in_elt | reflexivity]). pose proof (unlink_el _ _ _ (B i) IX) as P. set (t' := unlink_t (tbin T i) x) in *.
    assert (ND' : NoDup (map fst ((x, S) :: el t'))) by (rewrite <- (Permutation_map fst P); apply B).
    assert (NX : ~ In x (map fst (l1 ++ l2))) by (rewrite map_app in *; cbn [map fst] in ND; apply NoDup_remove_2 in ND; exact ND).
    assert (MI : tmap T i = true) by (rewrite M; destruct (tbin T i); [destruct IX | reflexivity]).
    constructor; cbn [tbin tmap].
    + intros j. rewrite MI. destruct (j =? i); [reflexivity | apply M].
    + intros j x' S'. destruct (j =? i) eqn:EJ.
      * apply N.eqb_eq in EJ. subst j. assert (K : In (x', S') (el (tbin T i)) <-> (x', S') = (x, S) \/ In (x', S') (el t')).
        { split; intros J; [apply (Permutation_in _ P) in J | apply (Permutation_in _ (Permutation_sym P))]; cbn [In] in *; intuition congruence. }
        rewrite E in K. split.
        -- intros J. assert (J' : In (x', S') (l1 ++ (x, S) :: l2) /\ tree_index S' = i) by (apply K; now right). destruct J' as (J1 & J2). split; [|exact J2].
           apply in_app_or in J1. apply in_or_app. destruct J1 as [J1 | [J1 | J1]]; [now left | | now right]. exfalso. injection J1 as <- <-. cbn [map fst] in ND'. inversion ND' as [|? ? Q _]; subst. apply Q. apply (in_map fst) in J. exact J.
        -- intros (J1 & J2). assert (J' : (x', S') = (x, S) \/ In (x', S') (el t')).
           { apply K. split; [|exact J2]. apply in_app_or in J1. apply in_or_app. destruct J1; [now left | right; now right]. }
           destruct J' as [J' | J']; [|exact J']. exfalso. injection J' as -> ->. apply NX. apply (in_map fst) in J1. exact J1.
      * apply N.eqb_neq in EJ. rewrite E. rewrite !in_app_iff. cbn [In]. split; [|tauto]. intros ([J | [J | J]] & J2); auto. injection J as <- <-. exfalso. apply EJ. rewrite <- J2. reflexivity.
    + intros j. destruct (j =? i); [|apply B]. cbn [map fst] in ND'. inversion ND'; assumption.
    + rewrite map_app in *. cbn [map fst] in ND. apply NoDup_remove_1 in ND. exact ND.
    + intros x' S' J. apply (SZ x'). apply in_app_or in J. apply in_or_app. destruct J; [now left | right; now right].
Qed.

(** ** What a search returns fits *)
Lemma trem_fits sz nb : 0 < sz -> sz < W -> nb <= W -> (sz + W - nb) mod W < W - nb -> nb <= sz /\ (sz + W - nb) mod W = sz - nb.
Proof.
  intros H1 H2 H3 H. destruct (N.le_gt_cases nb sz) as [L|L].
  - split; [exact L|]. symmetry. apply (N.mod_unique _ _ 1); lia.
  - exfalso. rewrite N.mod_small in H by lia. lia.
Qed.
(** the state of a search: [v] is the best of the nodes seen, [rsize] what is left of it *)
Definition st (P : N -> N -> Prop) (nb : N) (v : option N) (rsize : N) : Prop :=
  match v with Some a => exists n, P a n /\ nb <= n /\ rsize = n - nb | None => rsize = W - nb end.
Lemma st_step (P : N -> N -> Prop) nb v rsize h sz : 0 < sz -> sz < W -> nb <= W -> P h sz -> (forall a n, P a n -> n < W) -> st P nb v rsize ->
  let trem := (sz + W - nb) mod W in
  st P nb (if trem <? rsize then Some h else v) (if trem <? rsize then trem else rsize) /\ (if trem <? rsize then trem else rsize) <= rsize /\
  (nb <= sz -> (if trem <? rsize then trem else rsize) <= sz - nb).
Proof.
  intros H1 H2 H3 HP HW S trem. assert (RW : rsize <= W - nb).
  { destruct v as [a|]; cbn [st] in S; [|lia]. destruct S as (n & S1 & S2 & ->). specialize (HW _ _ S1). lia. }
  destruct (trem <? rsize) eqn:E.
  - apply N.ltb_lt in E. destruct (trem_fits sz nb H1 H2 H3) as (F1 & F2); [fold trem; lia|]. fold trem in F2. split; [|split; lia]. exists sz. auto.
  - apply N.ltb_ge in E. split; [exact S|]. split; [lia|]. intros L. assert (F2 : trem = sz - nb) by (symmetry; apply (N.mod_unique _ _ 1); lia). lia.
Qed.
Definition inside (t : tree) (P : N -> N -> Prop) : Prop := forall a n, In (a, n) (el t) -> P a n /\ 0 < n /\ n < W.
Lemma inside_node h r sz c0 c1 P : inside (Node h r sz c0 c1) P -> P h sz /\ 0 < sz /\ sz < W /\ inside c0 P /\ inside c1 P.
Proof.
  intros H. destruct (H h sz) as (A & B & C); [left; reflexivity|]. split; [exact A|]. split; [exact B|]. split; [exact C|].
  split; intros a n I; apply H; cbn [el]; right; apply in_or_app; right; apply in_or_app; auto.
Qed.
Lemma descend_st (P : N -> N -> Prop) nb t : forall v rsize, nb <= W -> (forall a n, P a n -> n < W) -> inside t P -> st P nb v rsize -> st P nb (fst (descend nb t v rsize)) (snd (descend nb t v rsize)).
Proof.
  induction t as [|h r sz c0 IH0 c1 IH1]; intros v rsize HN HW IN S; cbn [descend]; [exact S|]. apply inside_node in IN. destruct IN as (A & B & C & I0 & I1).
  destruct (st_step P nb v rsize h sz B C HN A HW S) as (S1 & _). destruct (some c0); [apply IH0 | apply IH1]; assumption.
Qed.
Lemma walk_st (P : N -> N -> Prop) nb t : forall K v rsize rst v' rsize' t', nb <= W -> (forall a n, P a n -> n < W) -> inside t P -> inside rst P -> st P nb v rsize ->
  walk nb t K v rsize rst = (v', rsize', t') -> st P nb v' rsize' /\ inside t' P.
Proof.
  induction t as [|h r sz c0 IH0 c1 IH1]; intros K v rsize rst v' rsize' t' HN HW IN IR S; cbn [walk]; [intros E; injection E as <- <- <-; auto|].
  pose proof IN as IN'. apply inside_node in IN. destruct IN as (A & B & C & I0 & I1).
  destruct (st_step P nb v rsize h sz B C HN A HW S) as (S1 & _). destruct (_ && _); [intros E; injection E as <- <- <-; auto|].
  destruct (top_bit K); [apply IH1 | apply IH0]; auto; destruct (some c1 && _); auto.
Qed.
Lemma nil_inside P : inside Nil P.
Proof. intros a n []. Qed.
Lemma st_fits l nb v rsize : st (fun a n => In (a, n) l) nb v rsize -> fits l nb v.
Proof. destruct v as [a|]; cbn [st fits]; [|trivial]. intros (n & A & B & _). eauto. Qed.
Lemma next_bin_some T i n j : next_bin T i n = Some j -> i <= j /\ j < i + N.of_nat n /\ tmap T j = true /\ forall k, i <= k -> k < j -> tmap T k = false.
Proof.
  revert i. induction n as [|n IH]; intros i; cbn [next_bin]; [discriminate|]. destruct (tmap T i) eqn:E.
  - intros H. injection H as <-. split; [lia|]. split; [lia|]. split; [exact E|]. intros k K1 K2. lia.
  - intros H. apply IH in H. destruct H as (H1 & H2 & H3 & H4). split; [lia|]. split; [lia|]. split; [exact H3|]. intros k K1 K2.
    destruct (N.eq_dec k i) as [-> | NE]; [exact E | apply H4; lia].
Qed.
Lemma next_bin_none T i n j : next_bin T i n = None -> i <= j -> j < i + N.of_nat n -> tmap T j = false.
Proof.
  revert i. induction n as [|n IH]; intros i; cbn [next_bin]; [lia|]. destruct (tmap T i) eqn:E; [discriminate|]. intros H J1 J2.
  destruct (N.eq_dec j i) as [-> | NE]; [exact E | apply (IH _ H); lia].
Qed.
Lemma bin_inside T l i : tinv T l -> inside (tbin T i) (fun a n => In (a, n) l).
Proof. intros I a n J. apply (v_el _ _ I) in J. destruct J as (J & _). pose proof (v_sz _ _ I _ _ J). split; [exact J | lia]. Qed.
Lemma large_st T l nb : tinv T l -> nb <= W -> exists rsize, st (fun a n => In (a, n) l) nb (search_large T nb) rsize.
Proof.
  intros I HN. unfold search_large. set (P := fun a n => In (a, n) l). assert (HW : forall a n, P a n -> n < W) by (intros a n H; apply (v_sz _ _ I _ _ H)).
  destruct (match tbin T (tree_index nb) with Nil => _ | t => _ end) as [[v rsize] t] eqn:EW.
  assert (S : st P nb v rsize /\ inside t P).
  { destruct (tbin T (tree_index nb)) as [|h r sz c0 c1] eqn:ET; [injection EW as <- <- <-; split; [reflexivity | apply nil_inside]|].
    rewrite <- ET in EW. eapply (walk_st P); [exact HN | exact HW | | | | exact EW]; [apply (bin_inside _ _ _ I) | apply nil_inside | reflexivity]. }
  destruct S as (S1 & S2). set (t2 := match t, v with Nil, None => _ | _, _ => _ end).
  assert (S3 : inside t2 P).
  { unfold t2. destruct t; [destruct v; [exact S2|]; destruct (next_bin _ _ _); [apply (bin_inside _ _ _ I) | apply nil_inside] | exact S2]. }
  eexists. apply descend_st; eassumption.
Qed.
(** C61: whatever the history, the search returns a chunk that is in the trees and large enough, if it returns one. *)
Theorem C61_fits T l nb : thist W T l -> nb <= W -> fits l nb (search_large T nb).
Proof. intros H HN. apply thist_inv in H. destruct (large_st T l nb H HN) as (rsize & S). apply (st_fits _ _ _ _ S). Qed.
(** C61: a search for a small request finds one whenever there is one. *)
Lemma descend_some nb t a rsize : exists b, fst (descend nb t (Some a) rsize) = Some b.
Proof.
  revert a rsize. induction t as [|h r sz c0 IH0 c1 IH1]; intros a rsize; cbn [descend]; [cbn [fst]; eauto|]. destruct (N.ltb _ rsize); destruct (some c0); auto.
Qed.
Section Idx.
  Local Ltac Zify.zify_post_hook ::= Z.to_euclidean_division_equations.
  Lemma index_lt S : tree_index S < 32.
  Proof.
    unfold tree_index. set (X := (S / 256) mod 2 ^ 32). destruct (X =? 0) eqn:E; [lia|]. destruct (65535 <? X) eqn:E2; [lia|]. apply N.eqb_neq in E. apply N.ltb_ge in E2.
    assert (L : N.log2 X < 16) by (apply N.log2_lt_pow2; [lia|]; change (2 ^ 16) with 65536; lia).
    assert ((S / 2 ^ (N.log2 X + 7)) mod 2 < 2) by (apply N.mod_lt; discriminate). lia.
  Qed.
End Idx.
Theorem C61_small_fits T l nb : thist W T l -> nb <= 256 -> l <> [] -> exists a, search_small T nb = Some a /\ fits l nb (Some a).
Proof.
  intros H HN NE. apply thist_inv in H. unfold search_small. destruct (next_bin T 0 32) as [i|] eqn:EB.
  - apply next_bin_some in EB. destruct EB as (_ & _ & EB & _). rewrite (v_map _ _ H) in EB. pose proof (bin_inside T l i H) as IN. destruct (tbin T i) as [|h r sz c0 c1]; [discriminate|].
    apply inside_node in IN. destruct IN as (A & B & C & I0 & I1). destruct (descend_some nb (if some c0 then c0 else c1) h ((sz + W - nb) mod W)) as (b & EB'). exists b. split; [exact EB'|].
    assert (S : st (fun a n => In (a, n) l) nb (Some h) ((sz + W - nb) mod W)).
    { exists sz. pose proof (v_sz _ _ H _ _ A). split; [exact A|]. split; [lia|]. symmetry. apply (N.mod_unique _ _ 1); lia. }
    rewrite <- EB'. eapply st_fits. apply descend_st; [unfold W; lia | intros a n J; apply (v_sz _ _ H _ _ J) | destruct (some c0); assumption | exact S].
  - exfalso. destruct l as [|[x S] l]; [congruence|]. assert (J : In (x, S) (el (tbin T (tree_index S)))) by (apply (v_el _ _ H); split; [now left | reflexivity]).
    pose proof (index_lt S). pose proof (next_bin_none _ _ _ (tree_index S) EB ltac:(lia) ltac:(lia)) as M. rewrite (v_map _ _ H) in M. destruct (tbin T (tree_index S)); [destruct J | discriminate].
Qed.

(** ** The search is a best fit, as long as no chunk has 2^40 bytes or more *)
Definition pw (w : nat) : N := 2 ^ N.of_nat w.
Lemma pw_0 : pw 0 = 1. Proof. reflexivity. Qed.
Lemma pw_S w : pw (S w) = 2 * pw w.
Proof. unfold pw. rewrite Nat2N.inj_succ, N.pow_succ_r'. reflexivity. Qed.
Lemma pw_pos w : 0 < pw w.
Proof. unfold pw. apply N.neq_0_lt_0. apply N.pow_nonzero. discriminate. Qed.
(** the sizes of a tree of width [w] are in [lo, lo + 2^w), and the children halve this range *)
Fixpoint wf (lo : N) (w : nat) (t : tree) {struct t} : Prop :=
  match t with
  | Nil => True
  | Node h r sz c0 c1 => lo <= sz /\ sz < lo + pw w /\ match w with O => c0 = Nil /\ c1 = Nil | S w => wf lo w c0 /\ wf (lo + pw w) w c1 end
  end.
Lemma wf_el t : forall lo w a n, wf lo w t -> In (a, n) (el t) -> lo <= n /\ n < lo + pw w.
Proof.
  induction t as [|h r sz c0 IH0 c1 IH1]; intros lo w a n F I; [destruct I|]. cbn [wf] in F. destruct F as (F1 & F2 & F3). cbn [el In] in I.
  destruct I as [I | I]; [injection I as <- <-; auto|]. apply in_app_or in I. destruct I as [I | I]; [apply in_map_iff in I; destruct I as (z & Z & _); injection Z as <- <-; auto|].
  destruct w as [|w]; [destruct F3 as (-> & ->); destruct I|]. destruct F3 as (F3 & F4). rewrite pw_S. pose proof (pw_pos w).
  apply in_app_or in I. destruct I as [I | I]; [destruct (IH0 _ _ _ _ F3 I) | destruct (IH1 _ _ _ _ F4 I)]; lia.
Qed.
(** the key of a size at width [w] *)
Definition kw (S : N) (w : nat) : N := S * 2 ^ (64 - N.of_nat w) mod W.
Lemma kw_next S w : (w < 64)%nat -> next_key (kw S (Datatypes.S w)) = kw S w.
Proof.
  intros L. unfold next_key, kw. rewrite N.mul_mod_idemp_r by discriminate. f_equal.
  replace (64 - N.of_nat w) with (N.succ (64 - N.of_nat (Datatypes.S w))) by lia. rewrite N.pow_succ_r'. lia.
Qed.
Lemma kw_bit S w q : (w < 64)%nat -> q * pw (Datatypes.S w) <= S -> S < q * pw (Datatypes.S w) + pw (Datatypes.S w) -> top_bit (kw S (Datatypes.S w)) = (q * pw (Datatypes.S w) + pw w <=? S).
Proof.
  intros L H1 H2. unfold top_bit, kw. set (k := 2 ^ (64 - N.of_nat (Datatypes.S w))). rewrite pw_S in *.
  assert (EW : W = k * (2 * pw w)).
  { unfold k, pw. rewrite <- N.pow_succ_r', <- N.pow_add_r. unfold W. f_equal. lia. }
  assert (EH : 2 ^ 63 = k * pw w) by (change W with (2 * 2 ^ 63) in EW; lia).
  assert (KP : 0 < k) by (unfold k; apply N.neq_0_lt_0, N.pow_nonzero; discriminate).
  assert (ER : S * k mod W = (S - q * (2 * pw w)) * k).
  { symmetry. apply (N.mod_unique _ _ q); [rewrite EW; nia | rewrite EW; nia]. }
  rewrite ER, EH. destruct (q * (2 * pw w) + pw w <=? S) eqn:E; [apply N.leb_le in E; apply N.leb_le | apply N.leb_gt in E; apply N.leb_gt]; nia.
Qed.
Lemma insert_wf t : forall w q x S, (w <= 64)%nat -> wf (q * pw w) w t -> q * pw w <= S -> S < q * pw w + pw w -> wf (q * pw w) w (insert_t (kw S w) t x S).
Proof.
  induction t as [|h r sz c0 IH0 c1 IH1]; intros w q x S L F H1 H2; cbn [insert_t].
  - cbn [wf]. split; [exact H1|]. split; [exact H2|]. destruct w; auto.
  - cbn [wf] in F. destruct F as (F1 & F2 & F3). destruct (sz =? S) eqn:E; [cbn [wf]; auto|]. apply N.eqb_neq in E.
    destruct w as [|w]; [rewrite pw_0 in *; lia|]. destruct F3 as (F3 & F4). rewrite (kw_next S w) by lia. rewrite (kw_bit S w q) by (assumption || lia). rewrite pw_S in *.
    replace (q * (2 * pw w)) with ((2 * q) * pw w) in * by lia. replace ((2 * q) * pw w + pw w) with ((2 * q + 1) * pw w) in * by lia.
    destruct (_ <=? S) eqn:EB; [apply N.leb_le in EB | apply N.leb_gt in EB]; cbn [wf]; rewrite pw_S.
    + split; [exact F1|]. split; [exact F2|]. split; [exact F3|]. replace (2 * q * pw w + pw w) with ((2 * q + 1) * pw w) by lia. apply IH1; [lia | exact F4 | exact EB | lia].
    + split; [exact F1|]. split; [exact F2|]. split; [|replace (2 * q * pw w + pw w) with ((2 * q + 1) * pw w) by lia; exact F4]. apply IH0; [lia | exact F3 | exact H1 | lia].
Qed.
Lemma take_leaf_wf t : forall lo w h r sz t', wf lo w t -> take_leaf t = Some (h, r, sz, t') -> lo <= sz /\ sz < lo + pw w /\ wf lo w t'.
Proof.
  induction t as [|h0 r0 sz0 c0 IH0 c1 IH1]; intros lo w h r sz t' F; cbn [take_leaf]; [discriminate|]. cbn [wf] in F. destruct F as (F1 & F2 & F3).
  destruct (take_leaf c1) as [[[[h1 r1] s1] c1']|] eqn:E1.
  - intros E. injection E as <- <- <- <-. destruct w as [|w]; [destruct F3 as (-> & ->); discriminate|]. destruct F3 as (F3 & F4).
    destruct (IH1 _ _ _ _ _ _ F4 eq_refl) as (A & B & C). cbn [wf]. rewrite pw_S in *. pose proof (pw_pos w). split; [lia|]. split; [lia|]. auto.
  - destruct (take_leaf c0) as [[[[h1 r1] s1] c0']|] eqn:E0.
    + intros E. injection E as <- <- <- <-. destruct w as [|w]; [destruct F3 as (-> & ->); discriminate|]. destruct F3 as (F3 & F4).
      destruct (IH0 _ _ _ _ _ _ F3 eq_refl) as (A & B & C). cbn [wf]. rewrite pw_S in *. pose proof (pw_pos w). split; [lia|]. split; [lia|]. auto.
    + intros E. injection E as <- <- <- <-. cbn [wf]. auto.
Qed.
Lemma unlink_wf t : forall lo w x, wf lo w t -> wf lo w (unlink_t t x).
Proof.
  induction t as [|h r sz c0 IH0 c1 IH1]; intros lo w x F; cbn [unlink_t]; [exact I|]. cbn [wf] in F. destruct F as (F1 & F2 & F3).
  destruct (h =? x).
  - destruct r as [|f q]; [|cbn [wf]; auto]. destruct (take_leaf c1) as [[[[h1 r1] s1] c1']|] eqn:E1.
    + destruct w as [|w]; [destruct F3 as (-> & ->); discriminate|]. destruct F3 as (F3 & F4). destruct (take_leaf_wf _ _ _ _ _ _ _ F4 E1) as (A & B & C). cbn [wf]. rewrite pw_S in *. pose proof (pw_pos w). split; [lia|]. split; [lia|]. auto.
    + destruct (take_leaf c0) as [[[[h1 r1] s1] c0']|] eqn:E0; [|exact I].
      destruct w as [|w]; [destruct F3 as (-> & ->); discriminate|]. destruct F3 as (F3 & F4). destruct (take_leaf_wf _ _ _ _ _ _ _ F3 E0) as (A & B & C). cbn [wf]. rewrite pw_S in *. pose proof (pw_pos w). split; [lia|]. split; [lia|]. auto.
  - destruct (in_dec _ _ _); cbn [wf]; [auto|]. split; [exact F1|]. split; [exact F2|]. destruct w as [|w]; [destruct F3 as (-> & ->); auto | destruct F3; auto].
Qed.
Lemma el_some t : some t = true -> exists a n, In (a, n) (el t).
Proof. destruct t as [|h r sz c0 c1]; [discriminate|]. intros _. exists h, sz. left. reflexivity. Qed.
Lemma descend_min (P : N -> N -> Prop) nb t : forall lo w v rsize, nb <= W -> (forall a n, P a n -> n < W) -> inside t P -> st P nb v rsize -> wf lo w t -> (forall a n, In (a, n) (el t) -> nb <= n) ->
  snd (descend nb t v rsize) <= rsize /\ forall a n, In (a, n) (el t) -> snd (descend nb t v rsize) <= n - nb.
Proof.
  induction t as [|h r sz c0 IH0 c1 IH1]; intros lo w v rsize HN HW IN S F G; cbn [descend snd]; [split; [lia | intros a n []]|].
  apply inside_node in IN. destruct IN as (A & B & C & I0 & I1).
  destruct (st_step P nb v rsize h sz B C HN A HW S) as (S1 & S2 & S3). assert (GS : nb <= sz) by (apply (G h); left; reflexivity). specialize (S3 GS).
  set (v' := if _ <? rsize then Some h else v) in *. set (r' := if _ <? rsize then _ else rsize) in *.
  assert (G0 : forall a n, In (a, n) (el c0) -> nb <= n) by (intros a n J; apply (G a); cbn [el]; right; apply in_or_app; right; apply in_or_app; now left).
  assert (G1 : forall a n, In (a, n) (el c1) -> nb <= n) by (intros a n J; apply (G a); cbn [el]; right; apply in_or_app; right; apply in_or_app; now right).
  cbn [wf] in F. destruct F as (F1 & F2 & F3). destruct w as [|w].
  - destruct F3 as (-> & ->). cbn [some descend snd]. split; [exact S2|]. intros a n J. cbn [el In] in J. destruct J as [J | J]; [injection J as <- <-; exact S3|].
    cbn [app] in J. rewrite app_nil_r in J. apply in_map_iff in J. destruct J as (z & Z & _). injection Z as <- <-. exact S3.
  - destruct F3 as (F3 & F4). destruct (some c0) eqn:EC.
    + destruct (IH0 _ _ _ _ HN HW I0 S1 F3 G0) as (D1 & D2). split; [lia|]. intros a n J. cbn [el In] in J. destruct J as [J | J]; [injection J as <- <-; lia|].
      apply in_app_or in J. destruct J as [J | J]; [apply in_map_iff in J; destruct J as (z & Z & _); injection Z as <- <-; lia|]. apply in_app_or in J. destruct J as [J | J]; [apply (D2 _ _ J)|].
      destruct (el_some _ EC) as (b & m & M). pose proof (D2 _ _ M). pose proof (wf_el _ _ _ _ _ F3 M). pose proof (wf_el _ _ _ _ _ F4 J). lia.
    + destruct c0; [|discriminate]. destruct (IH1 _ _ _ _ HN HW I1 S1 F4 G1) as (D1 & D2). split; [lia|]. intros a n J. cbn [el In] in J. destruct J as [J | J]; [injection J as <- <-; lia|].
      apply in_app_or in J. destruct J as [J | J]; [apply in_map_iff in J; destruct J as (z & Z & _); injection Z as <- <-; lia|]. cbn [app] in J. apply (D2 _ _ J).
Qed.
(** [rst]: nothing, or a tree right of [hi] *)
Definition right_of (hi : N) (t : tree) : Prop := t = Nil \/ exists lo w, hi <= lo /\ wf lo w t.
Lemma right_of_le hi hi' t : hi' <= hi -> right_of hi t -> right_of hi' t.
Proof. intros L [E | (lo & w & A & B)]; [now left | right; exists lo, w; split; [lia | exact B]]. Qed.
Lemma walk_min (P : N -> N -> Prop) nb t : forall w q v rsize rst v' rsize' t', nb <= W -> (forall a n, P a n -> n < W) -> inside t P -> inside rst P -> st P nb v rsize ->
  (w <= 64)%nat -> wf (q * pw w) w t -> q * pw w <= nb -> nb < q * pw w + pw w -> right_of (q * pw w + pw w) rst ->
  walk nb t (kw nb w) v rsize rst = (v', rsize', t') ->
  rsize' <= rsize /\ (rsize' = 0 \/ right_of nb t') /\
  forall a n, In (a, n) (el t) \/ In (a, n) (el rst) -> nb <= n -> rsize' <= n - nb \/ exists b m, In (b, m) (el t') /\ nb <= m /\ m <= n.
Proof.
  induction t as [|h r sz c0 IH0 c1 IH1]; intros w q v rsize rst v' rsize' t' HN HW IN IR S LW F Q1 Q2 R; cbn [walk].
  - intros E. injection E as <- <- <-. split; [lia|]. split; [right; apply (right_of_le _ _ _ (N.lt_le_incl _ _ Q2) R)|]. intros a n [[] | J] G. right. exists a, n. split; [exact J|]. split; [exact G | lia].
  - pose proof IN as IN'. apply inside_node in IN. destruct IN as (A & B & C & I0 & I1).
    destruct (st_step P nb v rsize h sz B C HN A HW S) as (S1 & S2 & S3).
    set (trem := (sz + W - nb) mod W) in *. set (v1 := if trem <? rsize then Some h else v) in *. set (r1 := if trem <? rsize then trem else rsize) in *.
    destruct ((trem <? rsize) && (trem =? 0)) eqn:EX.
    + intros E. injection E as <- <- <-. apply andb_prop in EX. destruct EX as (X1 & X2). apply N.eqb_eq in X2. unfold r1. rewrite X1, X2. split; [lia|]. split; [now left|]. intros a n _ G. left. lia.
    + clear EX. cbn [wf] in F. destruct F as (F1 & F2 & F3). destruct w as [|w].
      * destruct F3 as (-> & ->). cbn [some andb]. intros E. assert (E' : (v1, r1, rst) = (v', rsize', t')) by (destruct (top_bit _); exact E). injection E' as <- <- <-.
        split; [exact S2|]. split; [right; apply (right_of_le _ _ _ (N.lt_le_incl _ _ Q2) R)|]. intros a n [J | J] G.
        -- left. cbn [el app In] in J. rewrite app_nil_r in J. assert (n = sz) as -> by (destruct J as [J | J]; [congruence | apply in_map_iff in J; destruct J as (z & Z & _); congruence]). apply (S3 G).
        -- right. exists a, n. split; [exact J|]. split; [exact G | lia].
      * destruct F3 as (F3 & F4). rewrite (kw_next nb w) by lia. rewrite (kw_bit nb w q) by (assumption || lia).
        pose proof (pw_pos w) as PW. rewrite pw_S in *. replace (q * (2 * pw w)) with ((2 * q) * pw w) in * by lia. replace ((2 * q) * pw w + pw w) with ((2 * q + 1) * pw w) in * by lia.
        assert (HS : forall a n, In (a, n) (el (Node h r sz c0 c1)) -> n = sz \/ In (a, n) (el c0) \/ In (a, n) (el c1)).
        { intros a n J. cbn [el In] in J. destruct J as [J | J]; [left; congruence|]. apply in_app_or in J. destruct J as [J | J]; [left; apply in_map_iff in J; destruct J as (z & Z & _); congruence | right; apply in_app_or in J; exact J]. }
        destruct (_ <=? nb) eqn:EB; [apply N.leb_le in EB | apply N.leb_gt in EB].
        -- (* right child *)
           rewrite Bool.andb_false_r. intros E.
           destruct (IH1 w (2 * q + 1) v1 r1 rst v' rsize' t' HN HW I1 IR S1 ltac:(lia) F4 EB ltac:(lia)) as (D1 & D2 & D3); [|exact E|].
           { refine (right_of_le _ _ _ _ R). lia. }
           split; [lia|]. split; [exact D2|]. intros a n J G. destruct J as [J | J]; [|apply (D3 a n); auto]. destruct (HS _ _ J) as [-> | [J' | J']].
           ++ left. specialize (S3 G). lia.
           ++ pose proof (wf_el _ _ _ _ _ F3 J'). lia.
           ++ apply (D3 a n); auto.
        -- (* left child *)
           cbn [negb]. rewrite Bool.andb_true_r. intros E.
           destruct (IH0 w (2 * q) v1 r1 (if some c1 then c1 else rst) v' rsize' t' HN HW I0) as (D1 & D2 & D3); [destruct (some c1); assumption | exact S1 | lia | exact F3 | exact Q1 | lia | | exact E|].
           { destruct (some c1); [right; exists ((2 * q + 1) * pw w), w; split; [lia | exact F4] | refine (right_of_le _ _ _ _ R); lia]. }
           split; [lia|]. split; [exact D2|]. intros a n J G.
           assert (JR : In (a, n) (el rst) -> rsize' <= n - nb \/ exists b m, In (b, m) (el t') /\ nb <= m /\ m <= n).
           { intros J'. destruct (some c1) eqn:EC; [|apply (D3 a n); auto]. destruct (el_some _ EC) as (b & m & M). destruct (D3 b m (or_intror M)) as [D | (b' & m' & D4 & D5 & D6)].
             - pose proof (wf_el _ _ _ _ _ F4 M). lia.
             - left. pose proof (wf_el _ _ _ _ _ F4 M). destruct R as [-> | (lo & w' & R1 & R2)]; [destruct J'|]. pose proof (wf_el _ _ _ _ _ R2 J'). lia.
             - right. exists b', m'. split; [exact D4|]. split; [exact D5|]. pose proof (wf_el _ _ _ _ _ F4 M). destruct R as [-> | (lo & w' & R1 & R2)]; [destruct J'|]. pose proof (wf_el _ _ _ _ _ R2 J'). lia. }
           destruct J as [J | J]; [|auto]. destruct (HS _ _ J) as [-> | [J' | J']].
           ++ left. specialize (S3 G). lia.
           ++ apply (D3 a n); auto.
           ++ destruct (some c1) eqn:EC; [apply (D3 a n); auto | destruct c1; [destruct J' | discriminate]].
Qed.

(** ** Bins *)
(** minsize_for_tree_index, malloc.c:2962-2964, for bins below 31; and the width of a bin *)
Definition minsize (i : N) : N := (2 + i mod 2) * 2 ^ (i / 2 + 7).
Definition width (i : N) : nat := if i =? 31 then 64 else N.to_nat (i / 2 + 7).
Definition low (i : N) : N := if i =? 31 then 0 else 2 + i mod 2.
Lemma pw_width i : i <> 31 -> pw (width i) = 2 ^ (i / 2 + 7).
Proof. intros H. unfold width, pw. apply N.eqb_neq in H. rewrite H, N2Nat.id. reflexivity. Qed.
Section Bins.
  Local Ltac Zify.zify_post_hook ::= Z.to_euclidean_division_equations.
  Lemma width_le i : i < 32 -> (width i <= 64)%nat.
  Proof. intros H. unfold width. destruct (i =? 31); lia. Qed.
  Lemma key_kw S i : i < 32 -> key S i = kw S (width i).
  Proof.
    intros H. unfold key, kw, leftshift, width. destruct (i =? 31) eqn:E; [reflexivity|]. f_equal. f_equal. f_equal. lia.
  Qed.
  Lemma minsize_next i : minsize (i + 1) = minsize i + 2 ^ (i / 2 + 7).
  Proof.
    unfold minsize. destruct (N.eq_dec (i mod 2) 0) as [E|E].
    - replace ((i + 1) mod 2) with 1 by lia. replace ((i + 1) / 2) with (i / 2) by lia. rewrite E. lia.
    - replace ((i + 1) mod 2) with 0 by lia. replace ((i + 1) / 2 + 7) with (N.succ (i / 2 + 7)) by lia. rewrite N.pow_succ_r'. replace (i mod 2) with 1 by lia. lia.
  Qed.
  Lemma index_X S : 256 <= S -> S < 2 ^ 40 -> (S / 256) mod 2 ^ 32 = S / 256 /\ 1 <= S / 256.
  Proof. intros H1 H2. change (2 ^ 40) with 1099511627776 in H2. change (2 ^ 32) with 4294967296. split; [apply N.mod_small|]; lia. Qed.
  Lemma half b K : b < 2 -> (2 * K + b) / 2 = K /\ (2 * K + b) mod 2 = b.
  Proof. lia. Qed.
End Bins.
Lemma minsize_mono i j : i < j -> minsize i + 2 ^ (i / 2 + 7) <= minsize j.
Proof.
  intros H. replace j with (i + 1 + N.of_nat (N.to_nat (j - (i + 1)))) by lia. generalize (N.to_nat (j - (i + 1))). intros n. rewrite <- minsize_next.
  induction n as [|n IH]; [replace (i + 1 + N.of_nat 0) with (i + 1) by lia; lia|].
  replace (i + 1 + N.of_nat (S n)) with (i + 1 + N.of_nat n + 1) by lia. rewrite (minsize_next (i + 1 + N.of_nat n)). lia.
Qed.
Lemma index_range S : 256 <= S -> S < 2 ^ 40 -> minsize (tree_index S) <= S /\ (tree_index S <> 31 -> S < minsize (tree_index S) + 2 ^ (tree_index S / 2 + 7)).
Proof.
  intros H1 H2. unfold tree_index. destruct (index_X S H1 H2) as (-> & X1). set (X := S / 256) in *.
  destruct (X =? 0) eqn:E; [apply N.eqb_eq in E; lia|]. clear E.
  assert (SX : 256 * X <= S /\ S < 256 * X + 256).
  { unfold X. pose proof (N.div_mod S 256 ltac:(discriminate)). pose proof (N.mod_lt S 256 ltac:(discriminate)). lia. }
  destruct (65535 <? X) eqn:E; [apply N.ltb_lt in E; split; [change (minsize 31) with 12582912; lia | congruence]|]. apply N.ltb_ge in E.
  destruct (N.log2_spec X ltac:(lia)) as (L1 & L2). set (K := N.log2 X) in *. rewrite N.pow_succ_r' in L2.
  set (p := 2 ^ K) in *. assert (E7 : 2 ^ (K + 7) = p * 128) by (rewrite N.pow_add_r; reflexivity). rewrite E7.
  assert (PP : 0 < p) by (unfold p; apply N.neq_0_lt_0, N.pow_nonzero; discriminate).
  pose proof (N.div_mod S (p * 128) ltac:(lia)) as DM. pose proof (N.mod_lt S (p * 128) ltac:(lia)) as ML. set (d := S / (p * 128)) in *.
  assert (D : 2 <= d /\ d < 4) by nia. assert (B : d mod 2 = d - 2) by (assert (d = 2 \/ d = 3) as [-> | ->] by lia; reflexivity).
  destruct (half (d mod 2) K) as (Q1 & Q2); [apply N.mod_lt; discriminate|]. unfold minsize. rewrite Q1, Q2, E7, B. split; [nia | intros _; nia].
Qed.
Lemma index_low S i : 256 <= S -> S < 2 ^ 40 -> tree_index S = i -> low i * pw (width i) <= S /\ S < low i * pw (width i) + pw (width i).
Proof.
  intros H1 H2 <-. destruct (index_range S H1 H2) as (R1 & R2). destruct (N.eq_dec (tree_index S) 31) as [-> | NE].
  - change (low 31) with 0. change (pw (width 31)) with W. unfold W. change (2 ^ 40) with 1099511627776 in H2. change (2 ^ 64) with 18446744073709551616. lia.
  - rewrite (pw_width _ NE). specialize (R2 NE). unfold low. apply N.eqb_neq in NE. rewrite NE. unfold minsize in *. lia.
Qed.
Lemma thist_le B B' T l : B <= B' -> thist B T l -> thist B' T l.
Proof. intros L. induction 1; [constructor | constructor; auto; lia | econstructor; eassumption]. Qed.
Lemma thist_wf T l : thist (2 ^ 40) T l -> forall i, i < 32 -> wf (low i * pw (width i)) (width i) (tbin T i).
Proof.
  induction 1 as [| T l x S H IH S1 S2 NI | T l1 x S l2 H IH]; intros i Hi.
  - exact I.
  - unfold insert. pose proof (IH i Hi) as F. destruct (tmap T (tree_index S)) eqn:EM; cbn [tbin]; destruct (i =? tree_index S) eqn:E; try exact F.
    + apply N.eqb_eq in E. destruct (index_low S i S1 S2 (eq_sym E)) as (A & B). rewrite <- E. rewrite (key_kw S i Hi). apply insert_wf; [apply width_le, Hi | exact F | exact A | exact B].
    + apply N.eqb_eq in E. destruct (index_low S i S1 S2 (eq_sym E)) as (A & B). cbn [wf]. split; [exact A|]. split; [exact B|]. destruct (width i); auto.
  - unfold unlink. cbn [tbin]. destruct (i =? tree_index S) eqn:E; [|apply IH, Hi]. apply N.eqb_eq in E. rewrite <- E. apply unlink_wf, IH, Hi.
Qed.
Lemma thist_small T l : thist (2 ^ 40) T l -> forall x S, In (x, S) l -> S < 2 ^ 40.
Proof.
  induction 1 as [| T l x S H IH S1 S2 NI | T l1 x S l2 H IH]; intros x' S' I; [destruct I | |].
  - destruct I as [I | I]; [injection I as <- <-; exact S2 | apply (IH _ _ I)].
  - apply (IH x'). apply in_app_or in I. apply in_or_app. destruct I; [now left | right; now right].
Qed.
Lemma p40 : 2 ^ 40 <= W.
Proof. unfold W. apply N.pow_le_mono_r; [discriminate | lia]. Qed.
(** sizes of a bin are below those of the next bins *)
Lemma bins_sorted S S' : 256 <= S -> S < 2 ^ 40 -> 256 <= S' -> S' < 2 ^ 40 -> tree_index S < tree_index S' -> S < S'.
Proof.
  intros A B C D L. destruct (index_range S A B) as (_ & R). destruct (index_range S' C D) as (R' & _). pose proof (index_lt S'). specialize (R ltac:(lia)). pose proof (minsize_mono _ _ L). lia.
Qed.
Lemma st_best l nb v rsize : (forall a n, In (a, n) l -> n < W) -> st (fun a n => In (a, n) l) nb v rsize -> (forall a n, In (a, n) l -> nb <= n -> rsize <= n - nb) -> best l nb v.
Proof.
  intros HW S M. destruct v as [a|]; cbn [st best] in *.
  - destruct S as (n & A & B & ->). exists n. split; [exact A|]. split; [exact B|]. intros b k I L. specialize (M b k I L). lia.
  - intros b k I. destruct (N.le_gt_cases nb k) as [L|L]; [|exact L]. specialize (M b k I L). specialize (HW b k I). lia.
Qed.
Lemma large_best T l nb : thist (2 ^ 40) T l -> 256 <= nb -> nb < 2 ^ 40 -> best l nb (search_large T nb).
Proof.
  intros H N1 N2. pose proof (thist_wf _ _ H) as F. pose proof (thist_small _ _ H) as SM. pose proof (thist_inv _ _ (thist_le _ _ _ _ p40 H)) as I. pose proof p40 as P40. unfold search_large. set (P := fun a n => In (a, n) l).
  assert (HW : forall a n, P a n -> n < W) by (intros a n J; apply (v_sz _ _ I _ _ J)). assert (HN : nb <= W) by lia.
  set (idx := tree_index nb) in *. pose proof (index_lt nb) as LI. fold idx in LI. destruct (index_low nb idx N1 N2 eq_refl) as (Q1 & Q2).
  destruct (match tbin T idx with Nil => _ | t => _ end) as [[v rsize] t] eqn:EW.
  set (Q := fun a n => In (a, n) (el (tbin T idx))). assert (QP : forall a n, Q a n -> P a n) by (intros a n J; apply (v_el _ _ I) in J; apply J).
  assert (QW : forall a n, Q a n -> n < W) by (intros a n J; apply (HW a), QP, J).
  assert (IQ : inside (tbin T idx) Q) by (intros a n J; destruct (bin_inside _ _ idx I a n J); split; assumption).
  assert (X : st Q nb v rsize /\ inside t Q /\ (rsize = 0 \/ right_of nb t) /\ forall a n, In (a, n) (el (tbin T idx)) -> nb <= n -> rsize <= n - nb \/ exists b m, In (b, m) (el t) /\ nb <= m /\ m <= n).
  { assert (EE : tbin T idx = Nil \/ walk nb (tbin T idx) (key nb idx) None (W - nb) Nil = (v, rsize, t)) by (destruct (tbin T idx); [now left | right; exact EW]).
    destruct EE as [ET | EE]; [rewrite ET in EW |- *; injection EW as <- <- <-; split; [reflexivity|]; split; [apply nil_inside|]; split; [right; now left | intros a n []]|]. clear EW. rename EE into EW.
    destruct (walk_st Q nb (tbin T idx) (key nb idx) None (W - nb) Nil v rsize t HN QW) as (A & B); [exact IQ | apply nil_inside | reflexivity | exact EW|].
    split; [exact A|]. split; [exact B|]. rewrite (key_kw nb idx LI) in EW.
    destruct (walk_min Q nb (tbin T idx) (width idx) (low idx) None (W - nb) Nil v rsize t HN QW) as (_ & C & D); [exact IQ | apply nil_inside | reflexivity | apply width_le, LI | apply F, LI | exact Q1 | exact Q2 | now left | exact EW|].
    split; [exact C|]. intros a n J. apply (D a n). now left. }
  destruct X as (Y1 & Y2 & X3 & X4).
  assert (X1 : st P nb v rsize) by (destruct v; [destruct Y1 as (m & M & M'); exists m; split; [apply QP, M | exact M'] | exact Y1]).
  assert (X2 : inside t P) by (intros a n J; destruct (Y2 a n J); split; [apply QP|]; assumption).
  (* chunks of other bins *)
  assert (OB : forall a n, In (a, n) l -> nb <= n -> tree_index n = idx \/ idx < tree_index n).
  { intros a n J L. destruct (N.lt_trichotomy (tree_index n) idx) as [L' | [E | L']]; auto. exfalso.
    pose proof (bins_sorted n nb (proj1 (v_sz _ _ I _ _ J)) (SM _ _ J) N1 N2 L'). lia. }
  assert (LO : forall a n, In (a, n) (el (tbin T idx)) -> forall b m, In (b, m) l -> idx < tree_index m -> n < m).
  { intros a n J b m J' L. apply (v_el _ _ I) in J. destruct J as (J & E). apply (bins_sorted n m (proj1 (v_sz _ _ I _ _ J)) (SM _ _ J) (proj1 (v_sz _ _ I _ _ J')) (SM _ _ J')). rewrite E. exact L. }
  destruct (match t, v with Nil, None => true | _, _ => false end) eqn:EN.
  - (* nothing in this bin: the next one *)
    destruct t; [|discriminate]. destruct v; [discriminate|]. cbn [st] in X1.
    assert (NB : forall a n, In (a, n) (el (tbin T idx)) -> n < nb).
    { intros a n J. destruct (N.le_gt_cases nb n) as [L|L]; [|exact L]. destruct (X4 a n J L) as [X | (b & m & [] & _)]. apply (v_el _ _ I) in J. pose proof (HW a n (proj1 J)). lia. }
    assert (NX : forall a n, In (a, n) l -> nb <= n -> idx < tree_index n).
    { intros a n J L. destruct (OB a n J L) as [E | E]; [|exact E]. specialize (NB a n). rewrite (v_el _ _ I) in NB. specialize (NB (conj J E)). lia. }
    destruct (next_bin T (idx + 1) (N.to_nat (31 - idx))) as [i|] eqn:EB.
    + apply next_bin_some in EB. destruct EB as (B1 & B2 & B3 & B4).
      assert (GE : forall a n, In (a, n) (el (tbin T i)) -> nb <= n).
      { intros a n J. apply (v_el _ _ I) in J. destruct J as (J & E). pose proof (bins_sorted nb n N1 N2 (proj1 (v_sz _ _ I _ _ J)) (SM _ _ J) ltac:(fold idx; lia)). lia. }
      destruct (descend_min P nb (tbin T i) (low i * pw (width i)) (width i) None rsize HN HW (bin_inside _ _ _ I) X1 (F i ltac:(lia)) GE) as (_ & D).
      eapply st_best; [exact HW | apply descend_st; [exact HN | exact HW | apply (bin_inside _ _ _ I) | exact X1] |].
      intros a n J L. pose proof (NX a n J L) as L'. pose proof (index_lt n).
      assert (MI : tmap T (tree_index n) = true).
      { rewrite (v_map _ _ I). assert (J' : In (a, n) (el (tbin T (tree_index n)))) by (apply (v_el _ _ I); auto). destruct (tbin T (tree_index n)); [destruct J' | reflexivity]. }
      destruct (N.lt_trichotomy (tree_index n) i) as [G | [G | G]].
      * rewrite (B4 (tree_index n)) in MI by lia. discriminate.
      * apply (D a n). apply (v_el _ _ I). auto.
      * rewrite (v_map _ _ I) in B3. destruct (el_some _ B3) as (b & m & M). pose proof (D b m M). apply (v_el _ _ I) in M. destruct M as (M & EM).
        pose proof (bins_sorted m n (proj1 (v_sz _ _ I _ _ M)) (SM _ _ M) (proj1 (v_sz _ _ I _ _ J)) (SM _ _ J) ltac:(lia)). lia.
    + cbn [descend fst best]. intros b k J. destruct (N.le_gt_cases nb k) as [L|L]; [|exact L]. exfalso. pose proof (NX b k J L). pose proof (index_lt k).
      pose proof (next_bin_none _ _ _ (tree_index k) EB ltac:(lia) ltac:(lia)) as M. rewrite (v_map _ _ I) in M.
      assert (J' : In (b, k) (el (tbin T (tree_index k)))) by (apply (v_el _ _ I); auto). destruct (tbin T (tree_index k)); [destruct J' | discriminate].
  - (* this bin has one *)
    set (t2 := match t, v with Nil, None => _ | _, _ => _ end). assert (t2 = t) as -> by (unfold t2; destruct t; [destruct v; [reflexivity | discriminate] | reflexivity]).
    eapply st_best; [exact HW | apply descend_st; [exact HN | exact HW | exact X2 | exact X1] |].
    assert (D : snd (descend nb t v rsize) <= rsize /\ (rsize = 0 \/ forall a n, In (a, n) (el t) -> nb <= n -> snd (descend nb t v rsize) <= n - nb)).
    { destruct X3 as [-> | R].
      - split; [|now left]. clear - X1 X2 HN HW. assert (Z : forall t v, snd (descend nb t v 0) = 0).
        { intros u. induction u as [|h r sz c0 IH0 c1 IH1]; intros w; cbn [descend]; [reflexivity|]. replace (_ <? 0) with false by (symmetry; apply N.ltb_ge; lia). destruct (some c0); auto. }
        rewrite Z. lia.
      - destruct R as [-> | (lo & w & R1 & R2)]; [cbn [descend snd el]; split; [lia | right; intros a n []]|].
        destruct (descend_min P nb t lo w v rsize HN HW X2 X1 R2) as (D1 & D2); [intros a n J; pose proof (wf_el _ _ _ _ _ R2 J); lia|].
        split; [exact D1|]. right. intros a n J _. apply (D2 a n J). }
    destruct D as (D1 & D2).
    assert (IB : forall a n, In (a, n) (el (tbin T idx)) -> nb <= n -> snd (descend nb t v rsize) <= n - nb).
    { intros a n J L. destruct (X4 a n J L) as [X | (b & m & M1 & M2 & M3)]; [lia|]. destruct D2 as [-> | D2]; [lia|]. specialize (D2 b m M1 M2). lia. }
    intros a n J L. destruct (OB a n J L) as [E | E]; [apply (IB a n); [apply (v_el _ _ I); auto | exact L]|].
    (* one of this bin is at most this *)
    destruct v as [c|].
    + destruct Y1 as (m & M1 & M2 & ->). pose proof (LO c m M1 a n J E). lia.
    + destruct t as [|h r sz c0 c1]; [discriminate|]. assert (IH : In (h, sz) (el (Node h r sz c0 c1))) by (left; reflexivity).
      destruct (Y2 h sz IH) as (M & _). pose proof (LO h sz M a n J E). cbn [st] in Y1. subst rsize. destruct D2 as [D2 | D2]; [lia|].
      destruct X3 as [X3 | [X3 | (lo & w & R1 & R2)]]; [lia | discriminate|]. pose proof (wf_el _ _ _ _ _ R2 IH). specialize (D2 h sz IH). lia.
Qed.

(** C61: as long as no chunk of the trees had 2^40 bytes (1 TB) or more, the search for a large request finds a smallest chunk that is
    large enough, and finds one if there is one. *)
Theorem C61_best_partial T l nb : thist (2 ^ 40) T l -> 256 <= nb -> nb <= W -> best l nb (search_large T nb).
Proof.
  intros H N1 N2. destruct (N.lt_ge_cases nb (2 ^ 40)) as [L|L]; [apply (large_best T l nb H N1 L)|].
  pose proof (C61_fits T l nb (thist_le _ _ _ _ p40 H) N2) as F. destruct (search_large T nb) as [a|]; cbn [fits best] in *.
  - destruct F as (n & J & G). pose proof (thist_small _ _ H _ _ J). lia.
  - intros b k J. pose proof (thist_small _ _ H _ _ J). lia.
Qed.
(** C61: the same for a small request, 256 bytes or less. *)
Theorem C61_small_best_partial T l nb : thist (2 ^ 40) T l -> nb <= 256 -> best l nb (search_small T nb).
Proof.
  intros H N2. pose proof (thist_wf _ _ H) as F. pose proof (thist_small _ _ H) as SM. pose proof (thist_inv _ _ (thist_le _ _ _ _ p40 H)) as I. unfold search_small. set (P := fun a n => In (a, n) l).
  assert (HW : forall a n, P a n -> n < W) by (intros a n J; apply (v_sz _ _ I _ _ J)). assert (HN : nb <= W) by (unfold W; lia).
  assert (MI : forall a n, In (a, n) l -> tmap T (tree_index n) = true).
  { intros a n J. rewrite (v_map _ _ I). assert (J' : In (a, n) (el (tbin T (tree_index n)))) by (apply (v_el _ _ I); auto). destruct (tbin T (tree_index n)); [destruct J' | reflexivity]. }
  destruct (next_bin T 0 32) as [i|] eqn:EB.
  - apply next_bin_some in EB. destruct EB as (B1 & B2 & B3 & B4). pose proof (bin_inside T l i I) as IN. pose proof (F i ltac:(lia)) as Fi.
    assert (GE : forall a n, In (a, n) (el (tbin T i)) -> nb <= n) by (intros a n J; apply IN in J; destruct J as (J & _); pose proof (v_sz _ _ I _ _ J); lia).
    destruct (descend_min P nb (tbin T i) _ _ None (W - nb) HN HW IN eq_refl Fi GE) as (_ & D).
    pose proof (descend_st P nb (tbin T i) None (W - nb) HN HW IN eq_refl) as S.
    assert (E : match tbin T i with Nil => None | Node h r sz c0 c1 => fst (descend nb (if some c0 then c0 else c1) (Some h) ((sz + W - nb) mod W)) end = fst (descend nb (tbin T i) None (W - nb))).
    { destruct (tbin T i) as [|h r sz c0 c1]; [reflexivity|]. cbn [descend]. apply inside_node in IN. destruct IN as (A & _). pose proof (v_sz _ _ I _ _ A).
      replace ((sz + W - nb) mod W <? W - nb) with true; [destruct (some c0); reflexivity|]. symmetry. apply N.ltb_lt. replace ((sz + W - nb) mod W) with (sz - nb) by (apply (N.mod_unique _ _ 1); lia). lia. }
    rewrite E. eapply st_best; [exact HW | exact S|]. intros a n J L. pose proof (index_lt n).
    destruct (N.lt_trichotomy (tree_index n) i) as [G | [G | G]].
    + specialize (MI a n J). rewrite (B4 (tree_index n)) in MI by lia. discriminate.
    + apply (D a n). apply (v_el _ _ I). auto.
    + rewrite (v_map _ _ I) in B3. destruct (el_some _ B3) as (b & m & M). pose proof (D b m M). apply (v_el _ _ I) in M. destruct M as (M & EM).
      pose proof (bins_sorted m n (proj1 (v_sz _ _ I _ _ M)) (SM _ _ M) (proj1 (v_sz _ _ I _ _ J)) (SM _ _ J) ltac:(lia)). lia.
  - cbn [best]. intros b k J. exfalso. specialize (MI b k J). pose proof (index_lt k). rewrite (next_bin_none _ _ _ (tree_index k) EB ltac:(lia) ltac:(lia)) in MI. discriminate.
Qed.

(** ** C61 and the heap *)
(** The trees hold the free chunks of 256 bytes and more of the heap [s], with their sizes. *)
Definition holds (s : ms) (l : list (N * N)) : Prop := forall c n, In (c, n) l <-> In c (tb s) /\ chunksize s c = n.
(** The search the allocator makes: tmalloc_small or tmalloc_large. *)
Definition search (T : trees) (nb : N) : option N := if nb <? 256 then search_small T nb else search_large T nb.
(** C61: what the search of the trees answers is what C59 needs, for every heap and all trees. *)
Theorem C61_sound rm s L T l nb : hist rm s L -> thist W T l -> holds s l -> nb <= W -> tree_answer s nb (search T nb).
Proof.
  intros H HT HL N1. unfold search. destruct (nb <? 256) eqn:E; [apply N.ltb_lt in E | apply N.ltb_ge in E].
  - destruct l as [|z l].
    + assert (ETB : tb s = []) by (destruct (tb s) as [|t tr] eqn:ET; [reflexivity|]; destruct (proj2 (HL t (chunksize s t))); rewrite ET; split; [now left | reflexivity]).
      assert (F : fits [] nb (search_small T nb)).
      { apply thist_inv in HT. unfold search_small. destruct (next_bin T 0 32) as [i|] eqn:EB; [|exact I]. apply next_bin_some in EB. destruct EB as (_ & _ & EB & _).
        rewrite (v_map _ _ HT) in EB. destruct (el_some _ EB) as (a & n & J). apply (v_el _ _ HT) in J. destruct J as ([] & _). }
      destruct (search_small T nb) as [a|]; cbn [fits tree_answer] in *; [destruct F as (n & [] & _) | auto].
    + destruct (C61_small_fits T (z :: l) nb HT ltac:(lia) ltac:(discriminate)) as (a & -> & n & J & G). apply HL in J. destruct J as (J & <-). split; assumption.
  - pose proof (C61_fits T l nb HT N1) as F. destruct (search_large T nb) as [a|] eqn:ES; cbn [fits tree_answer] in *.
    + destruct F as (n & J & G). apply HL in J. destruct J as (J & <-). split; assumption.
    + lia.
Qed.
(** C61: without chunks of 1 TB it is the best fit. *)
Theorem C61_best_fit_partial s T l nb : thist (2 ^ 40) T l -> holds s l -> nb <= W -> best_fit s nb (search T nb).
Proof.
  intros HT HL N1. assert (B : best l nb (search T nb)).
  { unfold search. destruct (nb <? 256) eqn:E; [apply N.ltb_lt in E; apply C61_small_best_partial; [exact HT | lia] | apply N.ltb_ge in E; apply C61_best_partial; auto]. }
  destruct (search T nb) as [a|]; cbn [best best_fit] in *.
  - destruct B as (n & J & G & M). apply HL in J. destruct J as (J & <-). split; [exact J|]. split; [exact G|]. intros c IC. apply (M c). apply HL. auto.
  - intros c IC. apply (B c). apply HL. auto.
Qed.
(** So, without chunks of 1 TB, a request takes no new page if a free chunk, or top, is large enough: C60 with the trees of the code. *)
Theorem C61_reuse_partial rm s L T l bytes mm mm' : hist rm s L -> thist (2 ^ 40) T l -> holds s l -> padded bytes <= W ->
  ((exists c, kept s c /\ padded bytes <= chunksize s c) \/ padded bytes < topsize s) ->
  malloc s bytes (search T (padded bytes)) mm = malloc s bytes (search T (padded bytes)) mm'.
Proof. intros H HT HL N1 K. apply (C60_reuse_partial rm s L bytes _ mm mm' H); [apply (C61_best_fit_partial s T l _ HT HL N1) | exact K]. Qed.
(** For every heap there are such trees. *)
Theorem C61_trees_exist rm s L : hist rm s L -> exists T l, thist W T l /\ holds s l.
Proof.
  intros H. apply hist_inv in H. destruct H as (G & D & [I _ _ _ _ _]).
  assert (K : forall k, NoDup k -> (forall c, In c k -> In c (tb s)) -> exists T l, thist W T l /\ forall c n, In (c, n) l <-> In c k /\ chunksize s c = n).
  { induction k as [|c k IH]; intros ND S.
    - exists no_trees, []. split; [constructor|]. cbn. tauto.
    - inversion ND as [|? ? N1 N2]; subst. destruct IH as (T & l & A & B); [exact N2 | intros c' J; apply S; now right|].
      destruct (tree_tile _ _ _ _ I (S c (or_introl eq_refl))) as (IT & LE & _). pose proof (tile_facts _ _ _ _ _ _ _ _ _ _ _ (i_core _ _ _ I) IT) as TF.
      exists (insert T c (chunksize s c)), ((c, chunksize s c) :: l). split.
      + constructor; [exact A | exact LE | lia|]. intros J. apply in_map_iff in J. destruct J as ([c' n'] & E & J). cbn [fst] in E. subst c'. apply B in J. apply N1, J.
      + intros c' n'. cbn [In]. rewrite B. split; [intros [E | E]; [injection E as <- <-; auto | tauto] | intros ([<- | E] & <-); auto]. }
  destruct (K (nodup N.eq_dec (tb s))) as (T & l & A & B); [apply NoDup_nodup | intros c; apply nodup_In|]. exists T, l. split; [exact A|]. intros c n. rewrite B, nodup_In. reflexivity.
Qed.
(** C61, refuted for chunks of 2^40 bytes or more: compute_tree_index loses the high bits of the size, so such a chunk is in the bin of
    the smallest ones, and a search for 1 GB, or for half a terabyte, does not find it. *)
Theorem C61_huge_missed_refuted : exists T l, thist W T l /\ In (16, 2 ^ 40) l /\ search T (2 ^ 30) = None /\ search T (2 ^ 39) = None /\ search T (2 ^ 40 + 256) = None.
Proof.
  exists (insert no_trees 16 (2 ^ 40)), [(16, 2 ^ 40)]. split; [|split; [now left|]].
  - constructor; [constructor | | | intros []]; unfold W; [discriminate|]. reflexivity.
  - split; [|split]; vm_compute; reflexivity.
Qed.
(** And a smaller request that finds it is given the huge chunk, though one of 512 bytes is free. *)
Theorem C61_huge_not_best_refuted : exists T l, thist W T l /\ In (16, 2 ^ 40) l /\ In (32, 512) l /\ search T 256 = Some 16.
Proof.
  exists (insert (insert no_trees 16 (2 ^ 40)) 32 512), [(32, 512); (16, 2 ^ 40)]. split; [|split; [right; now left | split; [now left|]]].
  - constructor; [constructor; [constructor | | | intros []] | | | intros [H | []]; discriminate]; unfold W; try discriminate; reflexivity.
  - vm_compute. reflexivity.
Qed.
(** A history with rings, a removed root and trees of several levels: the hypotheses of the theorems are met. *)
Example tree_example : exists T l, thist (2 ^ 40) T l /\ search T 300 = Some 3 /\ search T 336 = Some 5 /\ search T 20000 = Some 8 /\ search T 40 = Some 1 /\ length l = 6%nat.
Proof.
  eexists. eexists. split.
  - eapply (t_unlink _ _ [(9, 2 ^ 30); (8, 2 ^ 30); (5, 336); (4, 320); (3, 320)] 2 352 [(1, 288)]).
    repeat (apply t_insert; [| vm_compute; discriminate | vm_compute; reflexivity | cbn [map fst In]; let H := fresh in intros H; repeat (destruct H as [H | H]; [discriminate|]); destruct H]). apply t_init.
  - vm_compute. repeat split.
Qed.
