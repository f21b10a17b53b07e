(** Property C10: intrusive lists behave as sequences. *)
From Verif Require Import Base ListModel.

(** ** Specification: a partial map from lists to the sequence of their members *)
Definition seqs := nat -> option (list nat).
Inductive lop :=
| LInit (l : nat) | LNode (n owner : nat) | LAdd (l n : nat) | LDel (l n : nat)
| LPopHead (l : nat) | LPopTail (l : nat) | LArray (l : nat) | LIter (l : nat) | LRev (l : nat)
| LLen (l : nat) | LLinked (n : nat).
Inductive lres := RUnit | RNode (r : option nat) | RArr (l : list nat) (n : nat) | RSeq (l : list nat) | RNum (n : nat) | RBool (b : bool).

Definition member (S : seqs) (n : nat) : Prop := exists l s, S l = Some s /\ In n s.
(** the address is neither a list nor a member of one *)
Definition unlinked (S : seqs) (n : nat) : Prop := S n = None /\ ~ member S n.

(** ownership rule *)
Definition lpre (S : seqs) (op : lop) : Prop :=
  match op with
  | LInit l => unlinked S l
  | LNode n _ => unlinked S n
  | LAdd l n => S l <> None /\ unlinked S n
  | LDel l n => exists s, S l = Some s /\ In n s
  | LPopHead l | LPopTail l | LArray l | LIter l | LRev l | LLen l => S l <> None
  | LLinked n => member S n
  end.

Definition smap (S : seqs) (l : nat) (s : list nat) : seqs := fupd S l (Some s).
Definition getl (S : seqs) (l : nat) : list nat := match S l with Some s => s | None => [] end.
Definition lspec (S : seqs) (o : nat -> nat) (op : lop) : seqs * (nat -> nat) * lres :=
  match op with
  | LInit l => (smap S l [], fupd o l l, RUnit)
  | LNode n w => (S, fupd o n w, RUnit)
  | LAdd l n => (smap S l (n :: getl S l), o, RUnit)
  | LDel l n => (smap S l (remove Nat.eq_dec n (getl S l)), o, RNode (Some n))
  | LPopHead l => match getl S l with
                  | [] => (S, o, RNode None)
                  | x :: r => (smap S l r, o, RNode (Some x)) end
  | LPopTail l => match rev (getl S l) with
                  | [] => (S, o, RNode None)
                  | x :: r => (smap S l (rev r), o, RNode (Some x)) end
  | LArray l => (S, o, RArr (map o (getl S l)) (length (getl S l)))
  | LIter l => (S, o, RSeq (getl S l))
  | LRev l => (S, o, RSeq (rev (getl S l)))
  | LLen l => (S, o, RNum (length (getl S l)))
  | LLinked n => (S, o, RBool true)
  end.

(** ** Code *)
Definition lcode (fuel : nat) (h : lheap) (op : lop) : option (lheap * lres) :=
  match op with
  | LInit l => Some (list_init h l, RUnit)
  | LNode n w => Some (list_node_init h n w, RUnit)
  | LAdd l n => Some (list_add h l n, RUnit)
  | LDel l n => Some (list_del h l n, RNode (Some n))
  | LPopHead l => let '(h', r) := list_pop_head h l in Some (h', RNode r)
  | LPopTail l => let '(h', r) := list_pop_tail h l in Some (h', RNode r)
  | LArray l => match list_to_array h l fuel with Some (a, n) => Some (h, RArr a n) | None => None end
  | LIter l => match for_each h l fuel with Some a => Some (h, RSeq a) | None => None end
  | LRev l => match for_each_reverse h l fuel with Some a => Some (h, RSeq a) | None => None end
  | LLen l => Some (h, RNum (ln h l))
  | LLinked n => Some (h, RBool (list_node_linked h n))
  end.

(** ** Ring representation *)
Fixpoint seg (nxf pvf : nat -> nat) (a : nat) (l : list nat) (b : nat) : Prop :=
  match l with
  | [] => nxf a = b /\ pvf b = a
  | x :: r => nxf a = x /\ pvf x = a /\ seg nxf pvf x r b
  end.

Lemma seg_frame nx1 pv1 nx2 pv2 l : forall a b,
  (forall x, In x (a :: l) -> nx2 x = nx1 x) -> (forall x, In x l \/ x = b -> pv2 x = pv1 x) ->
  seg nx1 pv1 a l b -> seg nx2 pv2 a l b.
Proof.
  induction l as [|y l IH]; intros a b Hn Hp H; cbn in *.
  - destruct H. rewrite Hn, Hp by auto. auto.
  - destruct H as (H1 & H2 & H3). rewrite Hn, Hp by auto. repeat split; auto.
    apply IH; auto. intros x [Hx|Hx]; auto.
Qed.

Lemma seg_app nxf pvf l1 : forall a x l2 b, seg nxf pvf a (l1 ++ x :: l2) b <-> seg nxf pvf a l1 x /\ seg nxf pvf x l2 b.
Proof.
  induction l1 as [|y l1 IH]; intros a x l2 b; cbn.
  - tauto.
  - rewrite IH. tauto.
Qed.

Lemma seg_last nxf pvf l : forall a b, seg nxf pvf a l b -> pvf b = last l a.
Proof.
  induction l as [|x l IH]; intros a b H; cbn in *.
  - tauto.
  - destruct H as (_ & _ & H). rewrite (IH _ _ H). destruct l; auto.
    clear. revert n x. induction l as [|y l IH]; intros n x; auto. cbn in *. apply IH.
Qed.

Lemma seg_del nxf pvf n l2 : forall l1 a b,
  NoDup (l1 ++ n :: l2) -> ~ In a (l1 ++ n :: l2) -> ~ In b (l1 ++ n :: l2) ->
  seg nxf pvf a (l1 ++ n :: l2) b ->
  forall nx2 pv2,
  (forall x, x <> n -> nx2 x = if Nat.eqb x (pvf n) then nxf n else nxf x) ->
  (forall x, x <> n -> pv2 x = if Nat.eqb x (nxf n) then pvf n else pvf x) ->
  seg nx2 pv2 a (l1 ++ l2) b.
Proof.
  induction l1 as [|x l1 IH]; intros a b HN Ha Hb HS nx2 pv2 E1 E2; cbn [app] in *.
  - cbn [seg] in HS. destruct HS as (S1 & S2 & S3). inversion HN; subst.
    assert (A : nx2 a = nxf (nxf a)).
    { rewrite E1. - now rewrite S2, Nat.eqb_refl. - intros Q. apply Ha. left. auto. }
    destruct l2 as [|y r]; cbn [seg] in *.
    + destruct S3 as (S3 & S4). split.
      * rewrite A. auto.
      * rewrite E2 by (intros Q; apply Hb; left; auto). rewrite S3, Nat.eqb_refl. exact S2.
    + destruct S3 as (S3 & S4 & S5). rewrite A. split; auto. 
      assert (y <> nxf a) by (intros Q; subst; apply H1; left; auto). split.
      * rewrite E2 by auto. rewrite S3, Nat.eqb_refl. auto.
      * apply (seg_frame nxf pvf); auto.
        -- intros z Hz. rewrite E1. 2:{ intros Q; subst; apply H1; auto. }
           destruct (Nat.eqb_spec z (pvf (nxf a))) as [Q|Q]; auto. exfalso. rewrite S2 in Q. subst. apply Ha. right; auto.
        -- intros z Hz. assert (z <> nxf a).
           { intros Q. subst z. destruct Hz as [Hz|Hz]; [apply H1; right; auto|]. apply Hb. left. auto. }
           rewrite E2 by auto. destruct (Nat.eqb_spec z (nxf (nxf a))) as [Q|Q]; auto. exfalso.
           inversion H2; subst. destruct Hz as [Hz|Hz].
           ++ apply H5. congruence.
           ++ apply Hb. right. left. congruence.
  - cbn [seg] in HS. destruct HS as (S1 & S2 & S3). inversion HN as [|? ? N1 N2]; subst.
    assert (HP : In (pvf n) (nxf a :: l1)).
    { apply seg_app in S3. destruct S3 as (S3 & _). rewrite (seg_last _ _ _ _ _ S3).
      clear. generalize (nxf a). induction l1 as [|y l IH]; intros m; cbn; auto. destruct l; cbn in *; auto.
      destruct (IH m); auto. }
    assert (HQ : In (nxf n) l2 \/ nxf n = b).
    { apply seg_app in S3. destruct S3 as (_ & S3). destruct l2; cbn in S3; [right; tauto|left; left; symmetry; tauto]. }
    cbn [seg]. split; [|split].
    + rewrite E1. 2:{ intros Q. subst. apply Ha. right. apply in_or_app. right. now left. }
      destruct (Nat.eqb_spec a (pvf n)) as [Q|Q]; auto. exfalso. apply Ha. rewrite <- Q in HP.
      destruct HP as [HP|HP]; [now left|]. right. apply in_or_app. now left.
    + rewrite E2. 2:{ intros Q. apply N1. rewrite Q. apply in_or_app. right. now left. }
      destruct (Nat.eqb_spec (nxf a) (nxf n)) as [Q|Q]; auto. exfalso.
      destruct HQ as [HQ|HQ].
      * apply N1. rewrite Q. apply in_or_app. right. now right.
      * apply Hb. left. congruence.
    + apply IH; auto.
      intros Q. apply Hb. now right.
Qed.

Lemma seg_add nxf pvf h n l : ~ In h l -> NoDup l -> ~ In n (h :: l) -> seg nxf pvf h l h ->
  forall nx2 pv2,
  (forall x, nx2 x = if Nat.eqb x h then n else if Nat.eqb x n then nxf h else nxf x) ->
  (forall x, pv2 x = if Nat.eqb x n then h else if Nat.eqb x (nxf h) then n else pvf x) ->
  seg nx2 pv2 h (n :: l) h.
Proof.
  intros Hh HN Hn HS nx2 pv2 E1 E2. cbn [seg].
  assert (n <> h) by (intros ->; apply Hn; now left).
  split; [rewrite E1, Nat.eqb_refl; auto|]. split; [rewrite E2, Nat.eqb_refl; auto|].
  assert (A : nx2 n = nxf h).
  { rewrite E1. destruct (Nat.eqb_spec n h); [contradiction|]. now rewrite Nat.eqb_refl. }
  destruct l as [|x r]; cbn [seg] in *.
  - destruct HS as (S1 & S2). rewrite A. split; auto.
    rewrite E2. destruct (Nat.eqb_spec h n); [congruence|]. now rewrite S1, Nat.eqb_refl.
  - destruct HS as (S1 & S2 & S3). rewrite A. split; auto.
    assert (x <> n) by (intros ->; apply Hn; right; now left). split.
    + rewrite E2. destruct (Nat.eqb_spec x n); [congruence|]. now rewrite S1, Nat.eqb_refl.
    + apply (seg_frame nxf pvf); auto.
      * intros z Hz. rewrite E1. destruct (Nat.eqb_spec z h); [subst; contradiction|].
        destruct (Nat.eqb_spec z n); auto. subst. exfalso. apply Hn. now right.
      * intros z Hz. inversion HN; subst. rewrite E2. destruct (Nat.eqb_spec z n).
        { subst. exfalso. apply Hn. destruct Hz; [right; now right|now left]. }
        destruct (Nat.eqb_spec z (nxf h)) as [Q|Q]; auto. exfalso. subst z.
        destruct Hz as [Hz|Hz]; auto. apply Hh. now left.
Qed.

Lemma walk_seg nxf pvf stop l : forall a fuel, seg nxf pvf a l stop -> ~ In stop l -> length l < fuel ->
  walk nxf stop (nxf a) fuel = Some l.
Proof.
  induction l as [|x l IH]; intros a fuel HS Hs Hf; cbn in *.
  - destruct HS as (-> & _). destruct fuel; cbn; rewrite Nat.eqb_refl; auto.
  - destruct HS as (-> & _ & HS). destruct fuel as [|fuel]; [lia|]. cbn.
    destruct (Nat.eqb_spec x stop); [subst; tauto|]. rewrite (IH x fuel); auto; lia.
Qed.

Lemma seg_snoc nxf pvf l a x b : seg nxf pvf a (l ++ [x]) b <-> seg nxf pvf a l x /\ nxf x = b /\ pvf b = x.
Proof. rewrite seg_app. cbn. tauto. Qed.

Lemma seg_rev nxf pvf l : forall a b, seg nxf pvf a l b -> seg pvf nxf b (rev l) a.
Proof.
  induction l as [|x l IH]; intros a b H; cbn in *; [tauto|].
  apply seg_snoc. destruct H as (H1 & H2 & H3). auto.
Qed.

(** ** Invariant relating heap and sequences *)
Record linv (h : lheap) (S : seqs) (o : nat -> nat) : Prop := {
  li_seg  : forall l s, S l = Some s -> seg (nx h) (pv h) l s l;
  li_nd   : forall l s, S l = Some s -> NoDup s;
  li_head : forall l s x, S l = Some s -> In x s -> S x = None;
  li_one  : forall l1 l2 s1 s2 x, S l1 = Some s1 -> S l2 = Some s2 -> In x s1 -> In x s2 -> l1 = l2;
  li_len  : forall l s, S l = Some s -> ln h l = length s;
  li_ow   : forall x, ow h x = o x
}.

Lemma fupd_spec {A} (f : nat -> A) i x j : fupd f i x j = if Nat.eqb j i then x else f j.
Proof. reflexivity. Qed.

Lemma list_init_inv h S o l : linv h S o -> unlinked S l -> linv (list_init h l) (smap S l []) (fupd o l l).
Proof.
  intros [I1 I2 I3 I4 I5 I6] (U1 & U2). unfold smap.
  assert (NE : forall l' s, fupd S l (Some []) l' = Some s -> (l' = l /\ s = []) \/ (l' <> l /\ S l' = Some s)).
  { intros l' s. rewrite fupd_spec. destruct (Nat.eqb_spec l' l); intros E; [left|right]; split; auto; congruence. }
  constructor; cbn.
  - intros l' s E. destruct (NE _ _ E) as [(-> & ->)|(N & E')]; cbn.
    + now rewrite !fupd_eq.
    + apply (seg_frame (nx h) (pv h)); auto.
      * intros x Hx. apply fupd_ne. intros ->. destruct Hx as [->|Hx]; auto. apply U2. exists l', s. auto.
      * intros x Hx. apply fupd_ne. intros ->. destruct Hx as [Hx| ->]; auto. apply U2. exists l', s. auto.
  - intros l' s E. destruct (NE _ _ E) as [(-> & ->)|(N & E')]; [constructor|eauto].
  - intros l' s x E Hx. destruct (NE _ _ E) as [(-> & ->)|(N & E')]; [destruct Hx|].
    rewrite fupd_ne; [eauto|]. intros ->. apply U2. exists l', s. auto.
  - intros l1 l2 s1 s2 x E1 E2 X1 X2. destruct (NE _ _ E1) as [(-> & ->)|(N & E')]; [destruct X1|].
    destruct (NE _ _ E2) as [(-> & ->)|(N2 & E'')]; [destruct X2|]. eauto.
  - intros l' s E. rewrite fupd_spec. destruct (NE _ _ E) as [(-> & ->)|(N & E')].
    + now rewrite Nat.eqb_refl.
    + apply Nat.eqb_neq in N. rewrite N. auto.
  - intros x. rewrite !fupd_spec. destruct (Nat.eqb x l); auto.
Qed.

Lemma node_init_inv h S o n w : linv h S o -> unlinked S n -> linv (list_node_init h n w) S (fupd o n w).
Proof.
  intros [I1 I2 I3 I4 I5 I6] (U1 & U2). constructor; cbn; eauto.
  - intros l s E. apply (seg_frame (nx h) (pv h)); auto.
    + intros x Hx. apply fupd_ne. intros ->. destruct Hx as [->|Hx]; [congruence|]. apply U2. exists l, s. auto.
    + intros x Hx. apply fupd_ne. intros ->. destruct Hx as [Hx| ->]; [|congruence]. apply U2. exists l, s. auto.
  - intros x. rewrite !fupd_spec. destruct (Nat.eqb x n); auto.
Qed.

Lemma list_add_nx h l n x : n <> l -> nx (list_add h l n) x = if Nat.eqb x l then n else if Nat.eqb x n then nx h l else nx h x.
Proof.
  intros H. unfold list_add, list_node_add. cbn. rewrite !fupd_spec. reflexivity.
Qed.
Lemma list_add_pv h l n x : n <> l -> pv (list_add h l n) x = if Nat.eqb x n then l else if Nat.eqb x (nx h l) then n else pv h x.
Proof. intros H. unfold list_add, list_node_add. cbn. rewrite !fupd_spec. reflexivity. Qed.
Lemma list_add_ln h l n x : ln (list_add h l n) x = if Nat.eqb x l then ln h l + 1 else ln h x.
Proof. unfold list_add, list_node_add. cbn. rewrite !fupd_spec. reflexivity. Qed.

Lemma list_add_inv h S o l n s : linv h S o -> S l = Some s -> unlinked S n ->
  linv (list_add h l n) (smap S l (n :: s)) o.
Proof.
  intros [I1 I2 I3 I4 I5 I6] El (U1 & U2). unfold smap.
  assert (Hnl : n <> l) by congruence.
  assert (Hns : ~ In n s) by (intros H; apply U2; exists l, s; auto).
  assert (Hls : ~ In l s) by (intros H; rewrite (I3 l s l El H) in El; discriminate).
  assert (NE : forall l' s', fupd S l (Some (n :: s)) l' = Some s' -> (l' = l /\ s' = n :: s) \/ (l' <> l /\ S l' = Some s')).
  { intros l' s'. rewrite fupd_spec. destruct (Nat.eqb_spec l' l); intros E; [left|right]; split; auto; congruence. }
  constructor.
  - intros l' s' E. destruct (NE _ _ E) as [(-> & ->)|(N & E')].
    + apply (seg_add (nx h) (pv h)); eauto.
      intros [Q|Q]; [congruence|contradiction].
    + apply (seg_frame (nx h) (pv h)); auto.
      * intros x Hx. rewrite list_add_nx by auto.
        destruct (Nat.eqb_spec x l). { subst. destruct Hx as [->|Hx]; [congruence|]. rewrite (I3 _ _ _ E' Hx) in El. discriminate. }
        destruct (Nat.eqb_spec x n); auto. subst. exfalso. destruct Hx as [->|Hx]; [congruence|]. apply U2. exists l', s'. auto.
      * intros x Hx. rewrite list_add_pv by auto.
        destruct (Nat.eqb_spec x n). { subst. exfalso. destruct Hx as [Hx| ->]; [|congruence]. apply U2. exists l', s'. auto. }
        destruct (Nat.eqb_spec x (nx h l)) as [Q|Q]; auto. exfalso.
        pose proof (I1 _ _ El) as HS. destruct s as [|y r]; cbn in HS.
        -- destruct HS as (HS & _). rewrite HS in Q. subst x. destruct Hx as [Hx|Hx]; [|congruence].
           rewrite (I3 _ _ _ E' Hx) in El. discriminate.
        -- destruct HS as (HS & _). rewrite HS in Q. subst x. destruct Hx as [Hx|Hx].
           ++ apply N. apply (I4 l' l s' (y :: r) y); auto. now left.
           ++ subst y. rewrite (I3 l (l' :: r) l' El (or_introl eq_refl)) in E'. discriminate.
  - intros l' s' E. destruct (NE _ _ E) as [(-> & ->)|(N & E')]; eauto. constructor; eauto.
  - intros l' s' x E Hx. rewrite fupd_spec. destruct (NE _ _ E) as [(-> & ->)|(N & E')].
    + destruct (Nat.eqb_spec x l). { subst. exfalso. destruct Hx; [congruence|contradiction]. }
      destruct Hx as [<-|Hx]; eauto.
    + destruct (Nat.eqb_spec x l); eauto. subst. rewrite (I3 _ _ _ E' Hx) in El. discriminate.
  - intros l1 l2 s1 s2 x E1 E2 X1 X2.
    destruct (NE _ _ E1) as [(-> & ->)|(N1 & E1')]; destruct (NE _ _ E2) as [(-> & ->)|(N2 & E2')]; auto.
    + destruct X1 as [<-|X1]; [exfalso; apply U2; exists l2, s2; auto|]. eauto.
    + destruct X2 as [<-|X2]; [exfalso; apply U2; exists l1, s1; auto|]. eauto.
    + eauto.
  - intros l' s' E. rewrite list_add_ln. destruct (NE _ _ E) as [(-> & ->)|(N & E')].
    + rewrite Nat.eqb_refl. rewrite (I5 _ _ El). cbn. lia.
    + apply Nat.eqb_neq in N. rewrite N. auto.
  - intros x. apply I6.
Qed.

Lemma list_del_nx h l n x : x <> n -> pv h n <> n -> nx h n <> n ->
  nx (list_del h l n) x = if Nat.eqb x (pv h n) then nx h n else nx h x.
Proof.
  intros H Hp Hn. unfold list_del. cbn. rewrite !fupd_spec.
  apply Nat.eqb_neq in H. rewrite H. destruct (Nat.eqb_spec n (nx h n)); [congruence|]. reflexivity.
Qed.
Lemma list_del_pv h l n x : x <> n -> pv (list_del h l n) x = if Nat.eqb x (nx h n) then pv h n else pv h x.
Proof.
  intros H. unfold list_del. cbn. rewrite !fupd_spec. apply Nat.eqb_neq in H. now rewrite H.
Qed.
Lemma list_del_ln h l n x : ln (list_del h l n) x = if Nat.eqb x l then ln h l - 1 else ln h x.
Proof. unfold list_del. cbn. rewrite !fupd_spec. reflexivity. Qed.
Lemma list_del_self h l n : nx (list_del h l n) n = n /\ pv (list_del h l n) n = n.
Proof. unfold list_del. cbn. rewrite !fupd_eq. auto. Qed.

Lemma remove_mid n l1 l2 : ~ In n l1 -> ~ In n l2 -> remove Nat.eq_dec n (l1 ++ n :: l2) = l1 ++ l2.
Proof.
  intros H1 H2. rewrite remove_app. cbn. destruct (Nat.eq_dec n n); [|congruence].
  rewrite !notin_remove; auto.
Qed.

Lemma seg_prev nxf pvf l1 n l2 a b : seg nxf pvf a (l1 ++ n :: l2) b -> pvf n = last l1 a /\ nxf n = hd b l2.
Proof.
  rewrite seg_app. intros (H1 & H2). split; [eapply seg_last; eauto|]. destruct l2; cbn in *; tauto.
Qed.

Lemma last_In {A} (l : list A) d : In (last l d) (d :: l).
Proof. induction l as [|x l IH]; cbn; auto. destruct l; auto. cbn in *. destruct IH; auto. Qed.
Lemma hd_In {A} (l : list A) d : In (hd d l) (d :: l).
Proof. destruct l; cbn; auto. Qed.

Lemma list_del_inv h S o l n l1 l2 : linv h S o -> S l = Some (l1 ++ n :: l2) ->
  linv (list_del h l n) (smap S l (l1 ++ l2)) o.
Proof.
  intros [I1 I2 I3 I4 I5 I6] El. unfold smap.
  set (s := l1 ++ n :: l2) in *.
  assert (Hn : In n s) by (apply in_or_app; right; now left).
  assert (Hls : ~ In l s) by (intros H; rewrite (I3 l s l El H) in El; discriminate).
  assert (Hsub : forall x, In x (l1 ++ l2) -> In x s /\ x <> n).
  { intros x Hx. pose proof (NoDup_remove_2 _ _ _ (I2 _ _ El)) as ND. split.
    - unfold s. apply in_app_or in Hx. apply in_or_app. destruct Hx; auto. right. now right.
    - intros ->. contradiction. }
  destruct (seg_prev _ _ _ _ _ _ _ (I1 _ _ El)) as (Hpv & Hnx).
  assert (PI : In (pv h n) (l :: l1)) by (rewrite Hpv; apply last_In).
  assert (NI : In (nx h n) (l :: l2)) by (rewrite Hnx; apply hd_In).
  assert (PN : pv h n <> n).
  { intros Q. rewrite Q in PI. destruct PI as [->|PI]; [contradiction|]. apply (Hsub n); auto. apply in_or_app. now left. }
  assert (NN : nx h n <> n).
  { intros Q. rewrite Q in NI. destruct NI as [->|NI]; [contradiction|]. apply (Hsub n); auto. apply in_or_app. now right. }
  assert (PS : pv h n = l \/ In (pv h n) s).
  { destruct PI as [PI|PI]; auto. right. unfold s. apply in_or_app. now left. }
  assert (NS : nx h n = l \/ In (nx h n) s).
  { destruct NI as [NI|NI]; auto. right. unfold s. apply in_or_app. right. now right. }
  assert (NE : forall l' s', fupd S l (Some (l1 ++ l2)) l' = Some s' -> (l' = l /\ s' = l1 ++ l2) \/ (l' <> l /\ S l' = Some s')).
  { intros l' s'. rewrite fupd_spec. destruct (Nat.eqb_spec l' l); intros E; [left|right]; split; auto; congruence. }
  assert (FR : forall l' s' x, l' <> l -> S l' = Some s' -> (In x s' \/ x = l') -> x <> l /\ ~ In x s).
  { intros l' s' x N E' [Hx| ->].
    - split; [intros ->; rewrite (I3 _ _ _ E' Hx) in El; discriminate|]. intros Hx2. apply N. eauto.
    - split; auto. intros Hx2. rewrite (I3 _ _ _ El Hx2) in E'. discriminate. }
  constructor.
  - intros l' s' E. destruct (NE _ _ E) as [(-> & ->)|(N & E')].
    + apply (seg_del (nx h) (pv h) n l2 l1 l l); eauto.
      * intros x Hx. now apply list_del_nx.
      * intros x Hx. now apply list_del_pv.
    + apply (seg_frame (nx h) (pv h)); auto.
      * intros x Hx. destruct (FR l' s' x N E') as (F1 & F2). { destruct Hx; auto. }
        rewrite list_del_nx; auto; [|intros ->; contradiction].
        destruct (Nat.eqb_spec x (pv h n)) as [Q|Q]; auto. exfalso. rewrite <- Q in PS. destruct PS; auto.
      * intros x Hx. destruct (FR l' s' x N E') as (F1 & F2). { destruct Hx; auto. }
        rewrite list_del_pv; auto; [|intros ->; contradiction].
        destruct (Nat.eqb_spec x (nx h n)) as [Q|Q]; auto. exfalso. rewrite <- Q in NS. destruct NS; auto.
  - intros l' s' E. destruct (NE _ _ E) as [(-> & ->)|(N & E')]; eauto. eapply NoDup_remove_1. apply (I2 _ _ El).
  - intros l' s' x E Hx. rewrite fupd_spec. destruct (NE _ _ E) as [(-> & ->)|(N & E')].
    + apply Hsub in Hx. destruct Hx as (Hx & _). destruct (Nat.eqb_spec x l); eauto. subst. contradiction.
    + destruct (Nat.eqb_spec x l); eauto. subst. rewrite (I3 _ _ _ E' Hx) in El. discriminate.
  - intros a1 a2 s1 s2 x E1 E2 X1 X2.
    destruct (NE _ _ E1) as [(-> & ->)|(N1 & E1')]; destruct (NE _ _ E2) as [(-> & ->)|(N2 & E2')]; auto.
    + apply Hsub in X1. destruct X1. eauto.
    + apply Hsub in X2. destruct X2. eauto.
    + eauto.
  - intros l' s' E. rewrite list_del_ln. destruct (NE _ _ E) as [(-> & ->)|(N & E')].
    + rewrite Nat.eqb_refl. rewrite (I5 _ _ El). unfold s. rewrite !app_length. cbn. lia.
    + apply Nat.eqb_neq in N. rewrite N. auto.
  - intros x. apply I6.
Qed.

Lemma lcode_spec fuel h S o op : linv h S o -> lpre S op -> (forall l s, S l = Some s -> length s < fuel) ->
  exists h', lcode fuel h op = Some (h', snd (lspec S o op)) /\
    linv h' (fst (fst (lspec S o op))) (snd (fst (lspec S o op))).
Proof.
  intros HI Hpre Hf. pose proof HI as [I1 I2 I3 I4 I5 I6].
  destruct op as [l|n w|l n|l n|l|l|l|l|l|l|n]; cbn [lcode lspec lpre] in *.
  - eexists. split; [reflexivity|]. cbn. now apply list_init_inv.
  - eexists. split; [reflexivity|]. cbn. now apply node_init_inv.
  - destruct Hpre as (H1 & H2). unfold getl. destruct (S l) as [s|] eqn:El; [|congruence].
    eexists. split; [reflexivity|]. cbn. apply list_add_inv; auto.
  - destruct Hpre as (s & El & Hn). unfold getl. rewrite El.
    destruct (in_split _ _ Hn) as (l1 & l2 & ->).
    pose proof (NoDup_remove_2 _ _ _ (I2 _ _ El)) as ND. rewrite in_app_iff in ND.
    rewrite remove_mid by tauto.
    eexists. split; [reflexivity|]. cbn. now apply list_del_inv.
  - unfold list_pop_head, getl. destruct (S l) as [s|] eqn:El; [|congruence]. rewrite (I5 _ _ El).
    destruct s as [|x r]; cbn.
    + exists h. auto.
    + pose proof (I1 _ _ El) as HS. cbn in HS. destruct HS as (HS & _). rewrite HS.
      eexists. split; [reflexivity|]. cbn. apply (list_del_inv h S o l x [] r); auto.
  - unfold list_pop_tail, getl. destruct (S l) as [s|] eqn:El; [|congruence]. rewrite (I5 _ _ El).
    destruct (rev s) as [|x r] eqn:Er.
    + assert (s = []) by (rewrite <- (rev_involutive s), Er; reflexivity). subst. cbn. exists h. auto.
    + assert (Es : s = rev r ++ [x]) by (rewrite <- (rev_involutive s), Er; reflexivity).
      pose proof (seg_last _ _ _ _ _ (I1 _ _ El)) as HL. rewrite Es, last_last in HL. rewrite HL.
      replace (Nat.eqb (length s) 0) with false. 2:{ rewrite Es, app_length. cbn. rewrite Nat.add_1_r. reflexivity. }
      eexists. split; [reflexivity|]. cbn. rewrite <- (app_nil_r (rev r)). apply list_del_inv; auto. now rewrite Es in El.
  - unfold list_to_array, getl. destruct (S l) as [s|] eqn:El; [|congruence]. rewrite (I5 _ _ El).
    assert (Hls : ~ In l s) by (intros H; rewrite (I3 l s l El H) in El; discriminate).
    destruct s as [|x r]; [cbn; exists h; auto|]. cbn [length Nat.eqb]. unfold for_each.
    rewrite (walk_seg _ (pv h) l (x :: r)); eauto.
    exists h. cbn [fst snd]. split; auto. f_equal. f_equal. f_equal. apply map_ext. auto.
  - unfold for_each, getl. destruct (S l) as [s|] eqn:El; [|congruence].
    assert (Hls : ~ In l s) by (intros H; rewrite (I3 l s l El H) in El; discriminate).
    rewrite (walk_seg _ (pv h) l s); eauto.
  - unfold for_each_reverse, getl. destruct (S l) as [s|] eqn:El; [|congruence].
    assert (Hls : ~ In l s) by (intros H; rewrite (I3 l s l El H) in El; discriminate).
    rewrite (walk_seg _ (nx h) l (rev s)); eauto.
    + apply seg_rev. eauto.
    + rewrite <- in_rev. auto.
    + rewrite rev_length. eauto.
  - unfold getl. destruct (S l) as [s|] eqn:El; [|congruence]. rewrite (I5 _ _ El). exists h. auto.
  - destruct Hpre as (l & s & El & Hn). exists h. cbn. split; auto. do 3 f_equal.
    unfold list_node_linked. destruct (Nat.eqb_spec (nx h n) n) as [Q|Q]; auto. exfalso.
    destruct (in_split _ _ Hn) as (l1 & l2 & ->).
    destruct (seg_prev _ _ _ _ _ _ _ (I1 _ _ El)) as (_ & Hnx). rewrite Q in Hnx.
    pose proof (NoDup_remove_2 _ _ _ (I2 _ _ El)) as ND. rewrite in_app_iff in ND.
    pose proof (hd_In l2 l) as H. rewrite <- Hnx in H. destruct H as [H|H]; [|tauto].
    rewrite H in El. rewrite (I3 n _ n El Hn) in El. discriminate.
Qed.

(** ** Histories *)
Fixpoint llegal (S : seqs) (o : nat -> nat) (ops : list lop) : Prop :=
  match ops with
  | [] => True
  | op :: r => lpre S op /\ llegal (fst (fst (lspec S o op))) (snd (fst (lspec S o op))) r
  end.
Fixpoint lspec_run (S : seqs) (o : nat -> nat) (ops : list lop) : seqs * list lres :=
  match ops with
  | [] => (S, [])
  | op :: r => let q := lspec_run (fst (fst (lspec S o op))) (snd (fst (lspec S o op))) r in
               (fst q, snd (lspec S o op) :: snd q)
  end.
Fixpoint lrun (fuel : nat) (h : lheap) (ops : list lop) : option (lheap * list lres) :=
  match ops with
  | [] => Some (h, [])
  | op :: r => match lcode fuel h op with
               | None => None
               | Some (h1, x) => match lrun fuel h1 r with None => None | Some (h2, xs) => Some (h2, x :: xs) end
               end
  end.

Definition bounded (S : seqs) (m : nat) : Prop := forall l s, S l = Some s -> length s <= m.
Lemma lspec_bounded S o op m : bounded S m -> bounded (fst (fst (lspec S o op))) (m + 1).
Proof.
  intros H. assert (G : forall l, length (getl S l) <= m).
  { intros l. unfold getl. destruct (S l) eqn:E; [eauto|cbn; lia]. }
  assert (HS : bounded S (m + 1)) by (intros l s E; specialize (H _ _ E); lia).
  assert (K : forall l s, length s <= m + 1 -> bounded (smap S l s) (m + 1)).
  { intros l s Hs l' s'. unfold smap. rewrite fupd_spec. destruct (Nat.eqb l' l); intros E; [inversion E; subst; auto|]. specialize (H _ _ E). lia. }
  destruct op as [l|n w|l n|l n|l|l|l|l|l|l|n]; cbn; auto.
  - apply K. cbn. lia.
  - apply K. cbn. specialize (G l). lia.
  - apply K. pose proof (remove_length_le Nat.eq_dec (getl S l) n). specialize (G l). lia.
  - specialize (G l). destruct (getl S l); cbn; auto. apply K. cbn in G. lia.
  - specialize (G l). rewrite <- rev_length in G. destruct (rev (getl S l)); cbn; auto. apply K. rewrite rev_length. cbn in G. lia.
Qed.

Lemma lrun_spec ops : forall fuel h S o m, linv h S o -> llegal S o ops -> bounded S m -> m + length ops < fuel ->
  exists h', lrun fuel h ops = Some (h', snd (lspec_run S o ops)) /\
    exists o', linv h' (fst (lspec_run S o ops)) o'.
Proof.
  induction ops as [|op r IH]; intros fuel h S o m HI HL HB Hf; cbn [lrun lspec_run llegal] in *.
  - exists h. split; eauto.
  - destruct HL as (L1 & L2). cbn [length] in Hf.
    destruct (lcode_spec fuel h S o op HI L1) as (h1 & E1 & R1).
    { intros l s E. specialize (HB _ _ E). lia. }
    rewrite E1. destruct (IH fuel h1 _ _ (m + 1) R1 L2 (lspec_bounded _ _ _ _ HB) ltac:(lia)) as (h2 & E2 & R2).
    rewrite E2. cbn [fst snd]. eauto.
Qed.

(** ** C10 *)
(** From any heap contents, every history of calls that respects ownership returns exactly what the
    sequences return (iteration terminates: the fuel needed is bounded by the number of calls). *)
Theorem C10_lists_are_sequences : forall h ops,
  llegal (fun _ => None) (ow h) ops ->
  exists h', lrun (length ops + 1) h ops = Some (h', snd (lspec_run (fun _ => None) (ow h) ops)).
Proof.
  intros h ops HL.
  destruct (lrun_spec ops (length ops + 1) h (fun _ => None) (ow h) 0) as (h' & E & _); eauto.
  - constructor; discriminate || auto.
  - intros l s E. discriminate.
  - lia.
Qed.

(** Deleting from or adding to a list leaves every other list exactly as it was. *)
Definition reads_as (h : lheap) (l : nat) (s : list nat) : Prop :=
  (forall fuel, length s < fuel -> for_each h l fuel = Some s /\ for_each_reverse h l fuel = Some (rev s)) /\
  ln h l = length s.

Lemma linv_reads h S o l s : linv h S o -> S l = Some s -> reads_as h l s.
Proof.
  intros [I1 I2 I3 I4 I5 I6] E'. split; [|eauto]. intros fuel Hf.
  assert (Hls : ~ In l s) by (intros H; rewrite (I3 _ _ _ E' H) in E'; discriminate).
  split; [apply (walk_seg _ (pv h)); eauto|]. apply (walk_seg _ (nx h)); auto.
  - apply seg_rev. eauto.
  - now rewrite <- in_rev.
  - now rewrite rev_length.
Qed.

Theorem C10_other_lists_untouched : forall h S o l n l' s', linv h S o -> S l' = Some s' -> l' <> l ->
  reads_as h l' s' /\
  ((exists s, S l = Some s /\ In n s) -> reads_as (list_del h l n) l' s') /\
  (S l <> None -> unlinked S n -> reads_as (list_add h l n) l' s').
Proof.
  intros h S o l n l' s' HI E N. split; [eapply linv_reads; eauto|]. split.
  - intros (s & El & Hn). destruct (in_split _ _ Hn) as (l1 & l2 & ->).
    eapply linv_reads; [eapply list_del_inv; eauto|]. unfold smap. rewrite fupd_ne; auto.
  - intros El Hu. destruct (S l) as [s|] eqn:Es; [|congruence].
    eapply linv_reads; [eapply list_add_inv; eauto|]. unfold smap. rewrite fupd_ne; auto.
Qed.

(** for_each_safe with deletion in the body: exactly the selected members are removed, order kept. *)
Lemma walk_del_inv p l : forall fuel todo done h S o, linv h S o -> S l = Some (done ++ todo) ->
  length todo < fuel ->
  exists h' , walk_del p h l (hd l todo) fuel = Some h' /\
    linv h' (smap S l (done ++ filter (fun x => negb (p x)) todo)) o.
Proof.
  assert (SM : forall h S o s, linv h S o -> S l = Some s -> linv h (smap S l s) o).
  { intros h S o s [I1 I2 I3 I4 I5 I6] E.
    assert (X : forall k, smap S l s k = S k).
    { intros k. unfold smap, fupd. destruct (Nat.eqb_spec k l); subst; auto. }
    constructor; intros *; rewrite ?X; eauto. }
  induction fuel as [|fuel IH]; intros todo done h S o HI El Hf; [lia|].
  destruct todo as [|x todo]; cbn [hd].
  - cbn. rewrite Nat.eqb_refl. exists h. split; auto.
  - cbn [walk_del]. pose proof HI as [I1 I2 I3 I4 I5 I6].
    assert (Hls : ~ In l (done ++ x :: todo)) by (intros H; rewrite (I3 _ _ _ El H) in El; discriminate).
    destruct (Nat.eqb_spec x l) as [Q|Q]. { exfalso. apply Hls. apply in_or_app. right. now left. }
    assert (Hnx : nx h x = hd l todo) by (apply (seg_prev _ _ _ _ _ _ _ (I1 _ _ El))).
    rewrite Hnx. cbn [filter]. cbn [length] in Hf. destruct (p x); cbn [negb].
    + pose proof (list_del_inv h S o l x done todo HI El) as HI2.
      destruct (IH todo done (list_del h l x) (smap S l (done ++ todo)) o HI2) as (h' & E & R).
      { unfold smap. apply fupd_eq. } { lia. }
      exists h'. split; auto. destruct R as [R1 R2 R3 R4 R5 R6].
      assert (X : forall s k, smap (smap S l (done ++ todo)) l s k = smap S l s k).
      { intros s k. unfold smap, fupd. destruct (Nat.eqb k l); auto. }
      constructor; intros *; rewrite <- ?(X (done ++ filter (fun x0 => negb (p x0)) todo)); eauto.
    + destruct (IH todo (done ++ [x]) h S o HI) as (h' & E & R); auto.
      { rewrite <- app_assoc. exact El. } { lia. }
      exists h'. split; auto. rewrite <- app_assoc in R. exact R.
Qed.

Theorem C10_iterate_and_delete : forall p h S o l s, linv h S o -> S l = Some s ->
  exists h', walk_del p h l (nx h l) (length s + 1) = Some h' /\
    reads_as h' l (filter (fun x => negb (p x)) s) /\
    (forall l' s', S l' = Some s' -> l' <> l -> reads_as h' l' s').
Proof.
  intros p h S o l s HI El.
  assert (Hnx : nx h l = hd l s).
  { pose proof (li_seg _ _ _ HI _ _ El) as HS. destruct s; cbn in *; tauto. }
  rewrite Hnx. destruct (walk_del_inv p l (length s + 1) s [] h S o HI El ltac:(lia)) as (h' & E & R).
  exists h'. split; auto. cbn [app] in R. split.
  - eapply linv_reads; eauto. unfold smap. apply fupd_eq.
  - intros l' s' E' N. eapply linv_reads; eauto. unfold smap. now rewrite fupd_ne.
Qed.

(** A node just initialised or just deleted reports "not linked". *)
Theorem C10_not_linked_after : forall h l n w,
  list_node_linked (list_node_init h n w) n = false /\ list_node_linked (list_del h l n) n = false.
Proof.
  intros h l n w. unfold list_node_linked. destruct (list_del_self h l n) as (-> & _).
  rewrite Nat.eqb_refl. cbn. rewrite fupd_eq, Nat.eqb_refl. auto.
Qed.

Example C10_case : forall h,
  llegal (fun _ => None) (ow h) [LInit 1; LInit 2; LNode 10 100; LNode 11 110; LAdd 1 10; LAdd 1 11; LAdd 2 12; LArray 1; LDel 1 10; LPopTail 1; LPopHead 1] /\
  snd (lspec_run (fun _ => None) (ow h) [LInit 1; LInit 2; LNode 10 100; LNode 11 110; LAdd 1 10; LAdd 1 11; LAdd 2 12; LArray 1; LDel 1 10; LPopTail 1; LPopHead 1])
  = [RUnit; RUnit; RUnit; RUnit; RUnit; RUnit; RUnit; RArr [110; 100] 2; RNode (Some 10); RNode (Some 11); RNode None].
Proof.
  intros h. split; [|reflexivity].
  cbn [llegal lpre lspec fst snd].
  repeat split; try discriminate; try reflexivity;
    try (intros (l & s & E & Hx); unfold smap, fupd, getl in E;
         repeat match type of E with context [Nat.eqb ?a ?b] => destruct (Nat.eqb_spec a b) end;
         cbn in E; inversion E; subst; cbn in Hx; intuition congruence).
  eexists. split; [reflexivity|]. cbn. auto.
Qed.

Print Assumptions C10_lists_are_sequences.
Print Assumptions C10_other_lists_untouched.
Print Assumptions C10_iterate_and_delete.
