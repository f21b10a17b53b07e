(** Key/value store, src/utils/Kv.c, and property C11. *)
From Verif Require Import Base.
Local Open Scope N_scope.

(** utils_kv_s (Kv.h:11-21): the array kv[ARAX_KV_CAP] of (key, value) and the count [pairs].
    Every call runs under kv->lock, so calls are one step here; [KvConc] has them step by step, from many threads (C69). *)
Record kv := mkkv { kv_arr : list (N * N); kv_pairs : nat }.

(** utils_kv_init, Kv.c:5-9 *)
Definition kv_init (cap : nat) : kv := mkkv (repeat (0, 0) cap) 0.

(** the search loop common to set and get, Kv.c:18-24 and 39-44: index of the first match among
    the first [n] pairs starting at [i] *)
Fixpoint kv_find (arr : list (N * N)) (key : N) (i n : nat) : outcome (option nat) :=
  match n with
  | O => Ok None
  | S m => do p <- rd arr i;
           if fst p =? key then Ok (Some i) else kv_find arr key (S i) m
  end.

(** utils_kv_set, Kv.c:11-32 *)
Definition kv_set (cap : nat) (s : kv) (key value : N) : outcome kv :=
  do f <- kv_find (kv_arr s) key 0 (kv_pairs s);
  match f with
  | Some i => do p <- rd (kv_arr s) i; do a <- wr (kv_arr s) i (fst p, value); Ok (mkkv a (kv_pairs s))
  | None =>
    if (kv_pairs s <? cap)%nat
    then do a <- wr (kv_arr s) (kv_pairs s) (key, value); Ok (mkkv a (S (kv_pairs s)))
    else Abort
  end.

(** utils_kv_get, Kv.c:34-48: the value behind the returned pointer, [None] for NULL *)
Definition kv_get (s : kv) (key : N) : outcome (option N) :=
  do f <- kv_find (kv_arr s) key 0 (kv_pairs s);
  match f with
  | Some i => do p <- rd (kv_arr s) i; Ok (Some (snd p))
  | None => Ok None
  end.

(** A history of utils_kv_set calls (src/utils/Kv.c:11-33). *)
Fixpoint kv_sets (cap : nat) (s : kv) (ops : list (N * N)) : outcome kv :=
  match ops with [] => Ok s | (k, v) :: r => do s' <- kv_set cap s k v; kv_sets cap s' r end.

(** ** Specification: last value set for a key *)
Fixpoint last_set (ops : list (N * N)) (key : N) : option N :=
  match ops with
  | [] => None
  | (k, v) :: r => match last_set r key with Some x => Some x | None => if k =? key then Some v else None end
  end.
(** number of different keys in a history *)
Definition distinct_keys (ops : list (N * N)) : nat := length (nodup N.eq_dec (map fst ops)).

(** ** Invariant *)
Definition content (s : kv) : list (N * N) := firstn (kv_pairs s) (kv_arr s).
Fixpoint assoc (l : list (N * N)) (k : N) : option N :=
  match l with [] => None | (a, v) :: r => if a =? k then Some v else assoc r k end.

Record kvinv (cap : nat) (s : kv) (m : N -> option N) : Prop := {
  ki_len : length (kv_arr s) = cap;
  ki_p   : (kv_pairs s <= cap)%nat;
  ki_nd  : NoDup (map fst (content s));
  ki_m   : forall k, assoc (content s) k = m k
}.

Lemma nth_error_firstn_lt {A} (l : list A) : forall n i, (i < n)%nat -> nth_error (firstn n l) i = nth_error l i.
Proof. induction l as [|x l IH]; intros [|n] [|i] H; cbn; auto; try lia. apply IH. lia. Qed.

Lemma find_spec arr key p : (p <= length arr)%nat -> forall n i, (i + n = p)%nat ->
  (forall j, (j < i)%nat -> fst (nth j arr (0, 0)) <> key) ->
  exists r, kv_find arr key i n = Ok r /\
  match r with
  | Some q => (q < p)%nat /\ fst (nth q arr (0, 0)) = key
  | None => forall j, (j < p)%nat -> fst (nth j arr (0, 0)) <> key
  end.
Proof.
  intros Hp. induction n as [|n IH]; intros i Hi Hb; cbn [kv_find].
  - exists None. split; auto. intros j Hj. apply Hb. lia.
  - rewrite (rd_ok _ _ (0, 0)) by lia. cbn [bind].
    destruct (N.eqb_spec (fst (nth i arr (0, 0))) key) as [E|E].
    + exists (Some i). repeat split; auto. lia.
    + apply IH; [lia|]. intros j Hj. destruct (Nat.eq_dec j i); [subst; auto|apply Hb; lia].
Qed.

Lemma assoc_none l k : assoc l k = None <-> ~ In k (map fst l).
Proof.
  induction l as [|[a v] l IH]; cbn; [tauto|].
  destruct (N.eqb_spec a k); [split; [discriminate|intros H; exfalso; auto]|]. rewrite IH. tauto.
Qed.
Lemma assoc_nth l : NoDup (map fst l) -> forall i, (i < length l)%nat -> assoc l (fst (nth i l (0, 0))) = Some (snd (nth i l (0, 0))).
Proof.
  induction l as [|[a v] l IH]; intros HN i Hi; cbn in *; [lia|]. inversion HN; subst.
  destruct i as [|i]; cbn.
  - now rewrite N.eqb_refl.
  - destruct (N.eqb_spec a (fst (nth i l (0, 0)))) as [E|E]; [|apply IH; auto; lia].
    exfalso. apply H1. rewrite E. change (0, 0) with (0, 0). apply in_map. apply nth_In. lia.
Qed.
Lemma nth_firstn' {A} (l : list A) k n d : (k < n)%nat -> nth k (firstn n l) d = nth k l d.
Proof. revert k n. induction l as [|x l IH]; intros [|k] [|n] H; cbn; auto; try lia. apply IH. lia. Qed.

Lemma map_upd {A B} (f : A -> B) l i x d : (i < length l)%nat -> f x = f (nth i l d) -> map f (upd l i x) = map f l.
Proof.
  revert i. induction l as [|y l IH]; intros [|i] Hi E; cbn in *; auto; try lia.
  - now rewrite E.
  - f_equal. apply IH; auto. lia.
Qed.
Lemma firstn_upd {A} (l : list A) i x n : (i < n)%nat -> firstn n (upd l i x) = upd (firstn n l) i x.
Proof. revert i n. induction l as [|y l IH]; intros [|i] [|n] H; cbn; auto; try lia. f_equal. apply IH. lia. Qed.
Lemma assoc_upd l i key v : (i < length l)%nat -> NoDup (map fst l) -> fst (nth i l (0, 0)) = key -> 
  forall k, assoc (upd l i (key, v)) k = if key =? k then Some v else assoc l k.
Proof.
  revert i. induction l as [|[a w] l IH]; intros [|i] Hi HN E k; cbn in *; try lia; inversion HN; subst.
  - match goal with |- context [?x =? k] => destruct (x =? k) end; auto.
  - rewrite IH; auto; [|lia]. destruct (N.eqb_spec a k) as [Q|Q]; auto.
    destruct (N.eqb_spec (fst (nth i l (0, 0))) k) as [R|R]; auto.
    exfalso. apply H1. rewrite Q, <- R. apply in_map, nth_In. lia.
Qed.
Lemma firstn_snoc_upd {A} (l : list A) n x : (n < length l)%nat -> firstn (S n) (upd l n x) = firstn n l ++ [x].
Proof. revert n. induction l as [|y l IH]; intros [|n] H; cbn in *; try lia; auto. f_equal. apply IH. lia. Qed.
Lemma assoc_app l k v j : assoc (l ++ [(k, v)]) j = match assoc l j with Some x => Some x | None => if k =? j then Some v else None end.
Proof. induction l as [|[a w] l IH]; cbn; auto. destruct (a =? j); auto. Qed.

Lemma find_content cap s m key : kvinv cap s m ->
  exists r, kv_find (kv_arr s) key 0 (kv_pairs s) = Ok r /\
  match r with
  | Some q => (q < kv_pairs s)%nat /\ fst (nth q (kv_arr s) (0, 0)) = key /\ m key = Some (snd (nth q (kv_arr s) (0, 0)))
  | None => m key = None
  end.
Proof.
  intros [Hl Hp Hn Hm].
  destruct (find_spec (kv_arr s) key (kv_pairs s) ltac:(lia) (kv_pairs s) 0%nat) as (r & E & P); [lia|intros; lia|].
  exists r. split; auto. assert (Lc : length (content s) = kv_pairs s) by (unfold content; rewrite firstn_length; lia).
  destruct r as [q|].
  - destruct P as (P1 & P2). repeat split; auto. rewrite <- Hm, <- P2.
    pose proof (assoc_nth (content s) Hn q ltac:(lia)) as A. unfold content in A at 2 3.
    rewrite nth_firstn' in A by lia. exact A.
  - rewrite <- Hm. apply assoc_none. intros H. apply in_map_iff in H. destruct H as (x & Hx & Hi).
    apply (In_nth _ _ (0, 0)) in Hi. destruct Hi as (j & Hj & E2). unfold content in E2.
    rewrite nth_firstn' in E2 by lia. apply (P j); [lia|]. now rewrite E2.
Qed.

Definition mset (m : N -> option N) (k v : N) : N -> option N := fun j => if k =? j then Some v else m j.

Lemma kv_set_spec cap s m key v : kvinv cap s m ->
  match kv_set cap s key v with
  | Ok s' => kvinv cap s' (mset m key v) /\ kv_pairs s' = (match m key with Some _ => kv_pairs s | None => S (kv_pairs s) end)
  | Abort => m key = None /\ kv_pairs s = cap
  | UB => False
  end.
Proof.
  intros HI. pose proof HI as [Hl Hp Hn Hm]. unfold kv_set.
  destruct (find_content cap s m key HI) as (r & E & P). rewrite E. cbn [bind].
  assert (Lc : length (content s) = kv_pairs s) by (unfold content; rewrite firstn_length; lia).
  destruct r as [q|].
  - destruct P as (P1 & P2 & P3). rewrite (rd_ok _ _ (0, 0)) by lia. cbn [bind].
    rewrite wr_ok by lia. cbn [bind]. rewrite P3. split; [|reflexivity].
    assert (C : content (mkkv (upd (kv_arr s) q (fst (nth q (kv_arr s) (0, 0)), v)) (kv_pairs s)) = upd (content s) q (key, v)).
    { unfold content; cbn [kv_arr kv_pairs]. rewrite firstn_upd by lia. now rewrite P2. }
    assert (N0 : fst (nth q (content s) (0, 0)) = key) by (unfold content; rewrite nth_firstn' by lia; exact P2).
    constructor; cbn [kv_arr kv_pairs].
    + now rewrite upd_length.
    + exact Hp.
    + rewrite C, (map_upd _ _ _ _ (0, 0)); [exact Hn|lia|]. now rewrite N0.
    + intros k. rewrite C, assoc_upd by (auto; lia). unfold mset. now rewrite Hm.
  - destruct (Nat.ltb_spec (kv_pairs s) cap) as [Hc|Hc].
    + rewrite wr_ok by lia. cbn [bind]. rewrite P. split; [|reflexivity].
      assert (C : content (mkkv (upd (kv_arr s) (kv_pairs s) (key, v)) (S (kv_pairs s))) = content s ++ [(key, v)]).
      { unfold content; cbn [kv_arr kv_pairs]. apply firstn_snoc_upd. lia. }
      constructor; cbn [kv_arr kv_pairs].
      * now rewrite upd_length.
      * lia.
      * rewrite C, map_app. cbn [map]. assert (~ In key (map fst (content s))) by (apply assoc_none; now rewrite Hm).
        clear -Hn H. induction (map fst (content s)) as [|a l IH]; cbn; [repeat constructor; auto|].
        inversion Hn; subst. constructor; [|apply IH; auto; intros X; apply H; now right].
        rewrite in_app_iff. cbn. intros [|[X|[]]]; auto. subst a. apply H. now left.
      * intros k. rewrite C, assoc_app, Hm. unfold mset. destruct (N.eqb_spec key k) as [Q|Q].
        -- subst k. now rewrite P.
        -- destruct (m k); auto.
    + split; auto. lia.
Qed.

Lemma kv_get_spec cap s m key : kvinv cap s m -> kv_get s key = Ok (m key).
Proof.
  intros HI. pose proof HI as [Hl Hp Hn Hm]. unfold kv_get.
  destruct (find_content cap s m key HI) as (r & E & P). rewrite E. cbn [bind].
  destruct r as [q|].
  - destruct P as (P1 & P2 & P3). rewrite (rd_ok _ _ (0, 0)) by lia. cbn [bind]. now rewrite P3.
  - now rewrite P.
Qed.

Lemma kv_sets_spec cap ops : forall s m, kvinv cap s m ->
  match kv_sets cap s ops with
  | Ok s' => kvinv cap s' (fun k => match last_set ops k with Some v => Some v | None => m k end)
  | Abort => True
  | UB => False
  end.
Proof.
  induction ops as [|[k v] r IH]; intros s m HI; cbn [kv_sets last_set].
  - exact HI.
  - pose proof (kv_set_spec cap s m k v HI) as P. destruct (kv_set cap s k v) as [s1| |]; cbn [bind]; auto.
    destruct P as (P & _). specialize (IH s1 _ P). destruct (kv_sets cap s1 r) as [s2| |]; auto.
    destruct IH as [A B C D]. constructor; auto. intros j. rewrite D. unfold mset.
    destruct (last_set r j); auto. destruct (k =? j); auto.
Qed.

Lemma init_kvinv cap : kvinv cap (kv_init cap) (fun _ => None).
Proof.
  constructor; cbn.
  - apply repeat_length.
  - lia.
  - unfold content. cbn. constructor.
  - reflexivity.
Qed.

(** ** C11 *)
(** After any sequence of sets that completed, get returns the last value set for the key and NULL
    for a key never set; no key is stored twice; at most [cap] keys are stored. *)
Theorem C11_map : forall cap ops s, kv_sets cap (kv_init cap) ops = Ok s ->
  (forall key, kv_get s key = Ok (last_set ops key)) /\
  NoDup (map fst (firstn (kv_pairs s) (kv_arr s))) /\ (kv_pairs s <= cap)%nat.
Proof.
  intros cap ops s E. pose proof (kv_sets_spec cap ops _ _ (init_kvinv cap)) as P. rewrite E in P.
  split; [|split; apply P]. intros key. rewrite (kv_get_spec _ _ _ key P). destruct (last_set ops key); reflexivity.
Qed.

Lemma last_set_none ops k : last_set ops k = None <-> ~ In k (map fst ops).
Proof.
  induction ops as [|[a v] r IH]; cbn; [tauto|].
  destruct (last_set r k) eqn:E.
  - split; [discriminate|]. intros H. exfalso. apply H. right. 
    destruct (in_dec N.eq_dec k (map fst r)) as [|N]; auto. apply IH in N. discriminate.
  - destruct IH as (IH & _). specialize (IH eq_refl).
    destruct (N.eqb_spec a k); split; try discriminate; auto; tauto.
Qed.

(** Only a new key in a full store is refused, and it aborts. *)
Theorem C11_refusal : forall cap ops s key v, kv_sets cap (kv_init cap) ops = Ok s ->
  (kv_set cap s key v = Abort <-> ~ In key (map fst ops) /\ kv_pairs s = cap) /\
  kv_set cap s key v <> UB.
Proof.
  intros cap ops s key v E. pose proof (kv_sets_spec cap ops _ _ (init_kvinv cap)) as P. rewrite E in P.
  pose proof (kv_set_spec cap s _ key v P) as Q. cbv beta in Q.
  assert (X : (match last_set ops key with Some v => Some v | None => None end) = None <-> ~ In key (map fst ops)).
  { rewrite <- last_set_none. destruct (last_set ops key); split; congruence. }
  destruct (kv_set cap s key v) as [s'| |]; split; try discriminate; auto; try contradiction.
  - split; [discriminate|]. intros (A & B). exfalso. destruct Q as (Q1 & Q2).
    apply X in A. rewrite A in Q2. pose proof (ki_p _ _ _ Q1). lia.
  - split; auto. intros _. destruct Q as (Q1 & Q2). split; auto. now apply X.
Qed.

(** A store holds as many pairs as distinct keys were set: capacity is consumed only by new keys. *)
Lemma nodup_len (l1 l2 : list N) : NoDup l1 -> NoDup l2 -> (forall x, In x l1 <-> In x l2) -> length l1 = length l2.
Proof.
  intros H1 H2 H. apply Nat.le_antisymm; apply NoDup_incl_length; auto; intros x; apply H.
Qed.
Theorem C11_capacity : forall cap ops s, kv_sets cap (kv_init cap) ops = Ok s -> kv_pairs s = distinct_keys ops.
Proof.
  intros cap ops s E. pose proof (kv_sets_spec cap ops _ _ (init_kvinv cap)) as P. rewrite E in P.
  destruct P as [A B C D].
  assert (L : length (content s) = kv_pairs s) by (unfold content; rewrite firstn_length; lia).
  rewrite <- L, <- (map_length fst). apply nodup_len; auto; [apply NoDup_nodup|].
  intros x. rewrite nodup_In. specialize (D x). split.
  - intros Hx. destruct (in_dec N.eq_dec x (map fst ops)) as [|N]; auto. exfalso.
    apply last_set_none in N. rewrite N in D. apply assoc_none in D. contradiction.
  - intros Hx. destruct (in_dec N.eq_dec x (map fst (content s))) as [|N]; auto. exfalso.
    apply assoc_none in N. rewrite N in D. destruct (last_set ops x) eqn:El; [discriminate|].
    apply last_set_none in El. contradiction.
Qed.

Example C11_case : exists s, kv_sets 3 (kv_init 3) [(1, 10); (2, 20); (3, 30); (2, 21)] = Ok s /\
  kv_get s 2 = Ok (Some 21) /\ kv_get s 9 = Ok None /\ kv_set 3 s 4 40 = Abort /\ kv_pairs s = 3%nat.
Proof. eexists. split; [reflexivity|]. repeat split. Qed.

Print Assumptions C11_map.
Print Assumptions C11_refusal.
Print Assumptions C11_capacity.
