(** Preservation of the invariant of the object layer by reference counting and destruction. *)
From Verif Require Import Base CoreModel CoreInv.
Ltac Zify.zify_post_hook ::= idtac.
Arguments N.modulo : simpl never.
Arguments N.add : simpl never.
Arguments N.sub : simpl never.
Arguments Nat.eqb : simpl never.

Lemma refs_change s s' x y : x < next s -> next s' = next s -> (forall i, i <> x -> heap s' i = heap s i) ->
  refs s' y + cnt y (hedges s x) = refs s y + cnt y (hedges s' x).
Proof.
  intros L N H. unfold refs. rewrite N.
  apply (sumn_upd (next s) (fun i => cnt y (hedges s' i)) (fun i => cnt y (hedges s i)) x L).
  intros i Hi. unfold hedges. now rewrite H.
Qed.
Lemma total_change s s' x : x < next s -> next s' = next s -> (forall i, i <> x -> heap s' i = heap s i) ->
  (total s' + osize s x = total s + osize s' x)%N.
Proof.
  intros L N H. unfold total. rewrite N. apply (sumNn_upd (next s) (osize s') (osize s) x L).
  intros i Hi. unfold osize. now rewrite H.
Qed.

(** views after a change that keeps the kind of one object *)
Lemma views_same s s' x o o' : heap s x = Some o -> heap s' x = Some o' -> knd o' = knd o -> (forall i, i <> x -> heap s' i = heap s i) ->
  (forall y, vv s' y = vv s y) /\ (forall y, pp s' y = pp s y) /\ (forall y, tt_ s' y = tt_ s y) /\ (forall y, dd s' y = dd s y) /\ (forall y, kt s' y = kt s y).
Proof.
  intros E E' K H. unfold vv, pp, tt_, dd, kt.
  repeat split; intros y; (destruct (Nat.eq_dec y x) as [->|N]; [rewrite E, E', K; reflexivity|rewrite H by auto; reflexivity]).
Qed.
Lemma kind_ok_kt s s' k : (forall y, kt s' y = kt s y) -> kind_ok s k -> kind_ok s' k.
Proof. intros H. destruct k; cbn; auto; try (intros A y; rewrite H; auto). intros [A B]. split; [intros d Hd|intros Hb]; rewrite H; auto. Qed.

(** ** Changing a reference count *)
Lemma setrc_inv init own own' perm drift s x o r :
  Inv init own perm drift s -> heap s x = Some o -> dying o = false -> 0 < r ->
  r + own x = rc o + own' x -> (forall y, y <> x -> own' y = own y) ->
  (forall v w, vv s v = Some w -> In x (vq w) -> 1 <= own' x) ->
  Inv init own' perm drift (seto s x (with_rc o r)).
Proof.
  intros HI E D Hr HO HN HQ. pose proof (live_lt HI x o E) as L. set (s' := seto s x (with_rc o r)).
  assert (E' : heap s' x = Some (with_rc o r)) by (unfold s', seto; cbn; apply fupd_eq).
  assert (EN : forall i, i <> x -> heap s' i = heap s i) by (intros i Hi; unfold s', seto; cbn; apply fupd_ne; auto).
  destruct (views_same s s' x o (with_rc o r) E E' eq_refl EN) as (V1 & V2 & V3 & V4 & V5).
  pose proof HI as [A B C F G I J P].
  constructor.
  - intros y Hy. rewrite EN; [apply A; exact Hy|]. intros ->. unfold s' in Hy. cbn in Hy. lia.
  - intros y. pose proof (refs_change s s' x y L eq_refl EN) as R.
    assert (HE : hedges s' x = hedges s x) by (unfold hedges; rewrite E, E'; reflexivity). rewrite HE in R.
    pose proof (B y) as By. unfold rcof in *. destruct (Nat.eq_dec y x) as [->|N].
    + rewrite E' . rewrite E in By. cbn [with_rc rc]. lia.
    + rewrite EN, HN by auto. lia.
  - intros y o1 H1. destruct (Nat.eq_dec y x) as [->|N].
    + rewrite E' in H1. inversion H1; subst. cbn. rewrite D. exact Hr.
    + rewrite EN in H1 by auto. exact (C y o1 H1).
  - intros y o1 H1 D1. apply (kind_ok_kt s s' _ V5). destruct (Nat.eq_dec y x) as [->|N].
    + rewrite E' in H1. inversion H1; subst. cbn. eauto.
    + rewrite EN in H1 by auto. eauto.
  - intros ty. destruct (G ty) as [G1 G2]. split; [exact G1|]. intros y. change (reg s' ty) with (reg s ty). rewrite G2. unfold lives.
    destruct (Nat.eq_dec y x) as [->|N].
    + rewrite E'. split; intros (o1 & E1 & D1 & T1).
      * rewrite E in E1. inversion E1; subst o1. exists (with_rc o r). auto.
      * inversion E1; subst o1. exists o. auto.
    + rewrite EN by auto. tauto.
  - destruct I as [I1 I2]. split; [|exact I2]. pose proof (total_change s s' x L eq_refl EN) as T.
    assert (osize s' x = osize s x) by (unfold osize; rewrite E, E'; reflexivity).
    replace (total s') with (total s) by lia. exact I1.
  - exact J.
  - apply (place_views own own' perm drift s s'); auto. intros v w t Hv Ht Ho. destruct (Nat.eq_dec t x) as [->|N]; [eauto|rewrite HN; auto].
Qed.

(** ** The last reference goes: the object is marked, unregistered, and its own references become tokens *)
Definition drop (own : nat -> nat) (x : nat) : nat -> nat := fupd own x (own x - 1).
Definition add (own : nat -> nat) (l : list nat) : nat -> nat := fun y => own y + cnt y l.
Definition die (s : st) (x : nat) (o : obj) : st := unregister (seto s x (mkobj 0 (osz o) (onm o) true (knd o))) x (otype_of (knd o)).

Lemma die_inv init own perm drift s x o :
  Inv init own perm drift s -> heap s x = Some o -> rc o = 1 -> 1 <= own x ->
  (forall v w, vv s v = Some w -> In x (vq w) -> 2 <= own x) ->
  Inv init (add (drop own x) (edges o)) perm drift (die s x o).
Proof.
  intros HI E R1 HO HQ. pose proof (live_lt HI x o E) as L. set (s' := die s x o).
  set (o' := mkobj 0 (osz o) (onm o) true (knd o)).
  assert (E' : heap s' x = Some o') by (unfold s', die, unregister, seto; cbn; apply fupd_eq).
  assert (EN : forall i, i <> x -> heap s' i = heap s i) by (intros i Hi; unfold s', die, unregister, seto; cbn; apply fupd_ne; auto).
  destruct (views_same s s' x o o' E E' eq_refl EN) as (V1 & V2 & V3 & V4 & V5).
  pose proof HI as [A B C F G I J P].
  assert (O1 : own x = 1 /\ refs s x = 0). { pose proof (B x) as Bx. unfold rcof in Bx. rewrite E in Bx. lia. }
  destruct O1 as [O1 R0].
  assert (DF : dying o = false). { pose proof (C x o E) as D. destruct (dying o); auto; lia. }
  assert (HX : hedges s x = edges o) by (unfold hedges; rewrite E; reflexivity).
  assert (HX' : hedges s' x = []) by (unfold hedges; rewrite E'; reflexivity).
  assert (CX : cnt x (edges o) = 0). { destruct (Nat.eq_dec (cnt x (edges o)) 0) as [|N]; auto. exfalso.
    assert (1 <= refs s x) by (apply (refs_edge HI x x); rewrite HX; apply cnt_in; lia). lia. }
  constructor.
  - intros y Hy. rewrite EN; auto. intros ->. unfold s', die in Hy. cbn in Hy. lia.
  - intros y. pose proof (refs_change s s' x y L eq_refl EN) as R. rewrite HX, HX' in R. change (cnt y []) with 0 in R.
    pose proof (B y) as By. unfold rcof in *. unfold add, drop. destruct (Nat.eq_dec y x) as [->|N].
    + rewrite E'. rewrite fupd_eq. cbn [rc o']. lia.
    + rewrite EN, fupd_ne by auto. lia.
  - intros y o1 H1. destruct (Nat.eq_dec y x) as [->|N].
    + rewrite E' in H1. inversion H1; subst. reflexivity.
    + rewrite EN in H1 by auto. exact (C y o1 H1).
  - intros y o1 H1 D1. apply (kind_ok_kt s s' _ V5). destruct (Nat.eq_dec y x) as [->|N].
    + rewrite E' in H1. inversion H1; subst. discriminate.
    + rewrite EN in H1 by auto. eauto.
  - intros ty. destruct (G ty) as [G1 G2].
    assert (RG : reg s' ty = if otype_eqb ty (otype_of (knd o)) then remove Nat.eq_dec x (reg s ty) else reg s ty).
    { unfold s', die, unregister, regset. cbn. destruct (otype_eqb_spec ty (otype_of (knd o))) as [->|]; reflexivity. }
    rewrite RG. destruct (otype_eqb_spec ty (otype_of (knd o))) as [->|NT].
    + split; [apply nodup_remove; exact G1|]. intros y. rewrite in_remove_iff, G2. unfold lives. destruct (Nat.eq_dec y x) as [->|N].
      * rewrite E'. split; [tauto|]. intros (o1 & E1 & D1 & T1). inversion E1; subst o1. discriminate.
      * rewrite EN by auto. tauto.
    + split; [exact G1|]. intros y. rewrite G2. unfold lives. destruct (Nat.eq_dec y x) as [->|N].
      * rewrite E, E'. split; intros (o1 & E1 & D1 & T1); inversion E1; subst o1; [congruence|discriminate].
      * rewrite EN by auto. tauto.
  - destruct I as [I1 I2]. split; [|exact I2]. pose proof (total_change s s' x L eq_refl EN) as T.
    assert (osize s' x = osize s x) by (unfold osize; rewrite E, E'; reflexivity).
    replace (total s') with (total s) by lia. exact I1.
  - exact J.
  - apply (place_views own _ perm drift s s'); auto. intros v w t Hv Ht Ho. unfold add, drop. destruct (Nat.eq_dec t x) as [->|N].
    + pose proof (HQ v w Hv Ht). lia.
    + rewrite fupd_ne by auto. lia.
Qed.

(** ** Returning the memory of a dead object *)
Lemma release_inv init own perm drift s x o :
  Inv init own perm drift s -> heap s x = Some o -> dying o = true ->
  (forall w, vv s x = Some w -> vphys w = None /\ ~ In x (orph s)) ->
  (forall r, pp s x = Some r -> pvacs r = []) ->
  Inv init own perm drift (release_mem s x (osz o)).
Proof.
  intros HI E D HV HP. pose proof (live_lt HI x o E) as L. set (s' := release_mem s x (osz o)).
  assert (E' : heap s' x = None) by (unfold s', release_mem; cbn; now rewrite Nat.eqb_refl).
  assert (EN : forall i, i <> x -> heap s' i = heap s i) by (intros i Hi; unfold s', release_mem; cbn; apply Nat.eqb_neq in Hi; now rewrite Hi).
  pose proof HI as [A B C F G I J P].
  pose proof (C x o E) as R0. rewrite D in R0.
  assert (Z0 : own x = 0 /\ refs s x = 0). { pose proof (B x) as Bx. unfold rcof in Bx. rewrite E in Bx. lia. }
  destruct Z0 as [O0 RF].
  assert (HX : hedges s x = []) by (unfold hedges; rewrite E; unfold edges; rewrite D; reflexivity).
  assert (HX' : hedges s' x = []) by (unfold hedges; rewrite E'; reflexivity).
  assert (RS : forall y, refs s' y = refs s y). { intros y. pose proof (refs_change s s' x y L eq_refl EN) as R. rewrite HX, HX' in R. lia. }
  assert (VN : forall y, y <> x -> vv s' y = vv s y /\ pp s' y = pp s y /\ tt_ s' y = tt_ s y /\ kt s' y = kt s y).
  { intros y N. unfold vv, pp, tt_, kt. rewrite EN by auto. auto. }
  assert (VX : vv s' x = None /\ pp s' x = None /\ tt_ s' x = None).
  { unfold vv, pp, tt_. rewrite E'. auto. }
  constructor.
  - intros y Hy. destruct (Nat.eq_dec y x) as [->|N]; [exact E'|]. rewrite EN; auto.
  - intros y. rewrite RS. unfold rcof. destruct (Nat.eq_dec y x) as [->|N].
    + rewrite E'. lia.
    + rewrite EN by auto. exact (B y).
  - intros y o1 H1. destruct (Nat.eq_dec y x) as [->|N]; [congruence|]. rewrite EN in H1 by auto. exact (C y o1 H1).
  - intros y o1 H1 D1. destruct (Nat.eq_dec y x) as [->|N]; [congruence|]. rewrite EN in H1 by auto. pose proof (F y o1 H1 D1) as K.
    assert (NE : forall z, In z (kedges (knd o1)) -> z <> x).
    { intros z Hz ->. assert (1 <= refs s x); [|lia]. apply (refs_edge HI x y). unfold hedges. rewrite H1. unfold edges. rewrite D1. exact Hz. }
    destruct (knd o1) as [p| | |d|t] eqn:K1; cbn in *; auto.
    + intros v Ev. rewrite (proj2 (proj2 (proj2 (VN v (NE v ltac:(rewrite Ev; now left)))))). auto.
    + intros v Ev. rewrite (proj2 (proj2 (proj2 (VN v (NE v ltac:(rewrite Ev; now left)))))). auto.
    + destruct K as [K2 K3]. split.
      * intros v Ev. rewrite (proj2 (proj2 (proj2 (VN v (NE v ltac:(apply in_app_iff; auto)))))). auto.
      * intros Sb. rewrite Sb in NE. rewrite (proj2 (proj2 (proj2 (VN (tacc t) (NE _ ltac:(apply in_app_iff; cbn; auto)))))). auto.
  - intros ty. destruct (G ty) as [G1 G2]. split; [exact G1|]. intros y. change (reg s' ty) with (reg s ty). rewrite G2. unfold lives.
    destruct (Nat.eq_dec y x) as [->|N].
    + rewrite E, E'. split; intros (o1 & E1 & D1 & T1); [|discriminate]. inversion E1; subst. congruence.
    + rewrite EN by auto. tauto.
  - destruct I as [I1 I2]. pose proof (total_change s s' x L eq_refl EN) as T.
    unfold osize in T. rewrite E, E' in T. rewrite N.add_0_r in T.
    assert (HM : M64 <> 0%N) by discriminate.
    split; [|apply N.mod_lt; exact HM]. unfold s'. cbn [avail release_mem]. fold s'.
    rewrite N.add_mod_idemp_l by exact HM. rewrite <- T in I1. rewrite <- N.add_assoc, (N.add_comm (osz o)). exact I1.
  - exact J.
  - destruct P as [P1 P2 P3 P4 P5 P6].
    assert (SQ : forall l, ~ In x l -> sumq s' l = sumq s l).
    { intros l Hl. unfold sumq. f_equal. apply map_ext_in. intros y Hy. unfold qlen. destruct (VN y) as (-> & _); [intros ->; auto|reflexivity]. }
    assert (NX : forall p r, p <> x -> pp s p = Some r -> ~ In x (pvacs r)).
    { intros p r Hp Hr Hx. destruct (P2 p r Hr) as [_ Q]. destruct (Q x Hx) as (w & Hw & Hph). destruct (HV w Hw). congruence. }
    constructor.
    + intros v w p V W. destruct (Nat.eq_dec v x) as [->|N]; [destruct VX; congruence|]. rewrite (proj1 (VN v N)) in V.
      destruct (P1 v w p V W) as (r & Hr & Hin). exists r. split; auto. destruct (Nat.eq_dec p x) as [->|Np].
      * rewrite (HP r Hr) in Hin. destruct Hin.
      * now rewrite (proj1 (proj2 (VN p Np))).
    + intros p r Hr. destruct (Nat.eq_dec p x) as [->|Np]; [destruct VX as (_ & ? & _); congruence|].
      rewrite (proj1 (proj2 (VN p Np))) in Hr. destruct (P2 p r Hr) as [Q1 Q2]. split; auto. intros v Hv.
      destruct (Nat.eq_dec v x) as [->|N]; [exfalso; eapply NX; eauto|]. rewrite (proj1 (VN v N)). auto.
    + destruct P3 as [Q1 Q2]. split; [exact Q1|]. intros v Hv. change (orph s') with (orph s) in Hv. destruct (Nat.eq_dec v x) as [->|N].
      * exfalso. destruct (Q2 x Hv) as (w & Hw & _). destruct (HV w Hw). auto.
      * rewrite (proj1 (VN v N)). auto.
    + intros v w t V T. destruct (Nat.eq_dec v x) as [->|N]; [destruct VX; congruence|]. rewrite (proj1 (VN v N)) in V.
      destruct (P4 v w t V T) as (Ho & tr & Q). split; auto. exists tr. destruct (Nat.eq_dec t x) as [->|Nt]; [lia|].
      now rewrite (proj1 (proj2 (proj2 (VN t Nt)))).
    + intros v w V. destruct (Nat.eq_dec v x) as [->|N]; [destruct VX; congruence|]. rewrite (proj1 (VN v N)) in V. eauto.
    + intros p r Hr. destruct (Nat.eq_dec p x) as [->|Np]; [destruct VX as (_ & ? & _); congruence|].
      rewrite (proj1 (proj2 (VN p Np))) in Hr. rewrite SQ by (eapply NX; eauto). auto.
Qed.
