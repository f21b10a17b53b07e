(** Invariant of the object layer (CoreModel.v) and its preservation by the primitive state changes. *)
From Verif Require Import Base CoreModel.
Ltac Zify.zify_post_hook ::= idtac.
Arguments N.modulo : simpl never.
Arguments N.add : simpl never.
Arguments N.sub : simpl never.
Arguments Nat.eqb : simpl never.

(** ** Sums over identifiers *)
Fixpoint sumn (n : nat) (f : nat -> nat) : nat := match n with O => 0 | S k => sumn k f + f k end.
Fixpoint sumNn (n : nat) (f : nat -> N) : N := match n with O => 0%N | S k => (sumNn k f + f k)%N end.
Lemma sumn_ext n f g : (forall i, i < n -> f i = g i) -> sumn n f = sumn n g.
Proof. induction n; cbn; intros H; auto. rewrite IHn, H; auto. Qed.
Lemma sumNn_ext n f g : (forall i, i < n -> f i = g i) -> sumNn n f = sumNn n g.
Proof. induction n; cbn; intros H; auto. rewrite IHn, H; auto. Qed.
Lemma sumn_upd n f g x : x < n -> (forall i, i <> x -> f i = g i) -> sumn n f + g x = sumn n g + f x.
Proof.
  induction n; cbn; intros L H; [lia|]. destruct (Nat.eq_dec x n) as [->|N].
  - rewrite (sumn_ext n f g); [lia|]. intros i Hi. apply H. lia.
  - specialize (IHn ltac:(lia) H). rewrite (H n) by lia. lia.
Qed.
Lemma sumNn_upd n f g x : x < n -> (forall i, i <> x -> f i = g i) -> (sumNn n f + g x = sumNn n g + f x)%N.
Proof.
  induction n; cbn; intros L H; [lia|]. destruct (Nat.eq_dec x n) as [->|N].
  - rewrite (sumNn_ext n f g); [lia|]. intros i Hi. apply H. lia.
  - specialize (IHn ltac:(lia) H). rewrite (H n) by lia. lia.
Qed.
Lemma sumn_ge n f x : x < n -> f x <= sumn n f.
Proof. induction n; cbn; intros L; [lia|]. destruct (Nat.eq_dec x n) as [->|N]; [lia|]. specialize (IHn ltac:(lia)). lia. Qed.
Lemma sumNn_ge n f x : x < n -> (f x <= sumNn n f)%N.
Proof. induction n; cbn; intros L; [lia|]. destruct (Nat.eq_dec x n) as [->|N]; [lia|]. specialize (IHn ltac:(lia)). lia. Qed.
Lemma sumn_zero n f : (forall i, i < n -> f i = 0) -> sumn n f = 0.
Proof. induction n; cbn; intros H; auto. rewrite IHn, H; auto. Qed.

Definition cnt (x : nat) (l : list nat) : nat := count_occ Nat.eq_dec l x.
Lemma cnt_app x l l' : cnt x (l ++ l') = cnt x l + cnt x l'.
Proof. apply count_occ_app. Qed.
Lemma cnt_in x l : In x l <-> 0 < cnt x l.
Proof. unfold cnt. apply count_occ_In. Qed.
Lemma cnt_cons x y l : cnt x (y :: l) = (if Nat.eq_dec y x then 1 else 0) + cnt x l.
Proof. unfold cnt. cbn. destruct (Nat.eq_dec y x); reflexivity. Qed.

Lemma mem_spec x l : mem x l = true <-> In x l.
Proof.
  unfold mem. rewrite existsb_exists. split.
  - intros (y & H & E). apply Nat.eqb_eq in E. now subst.
  - intros H. exists x. split; auto. apply Nat.eqb_refl.
Qed.
Lemma mem_false x l : mem x l = false <-> ~ In x l.
Proof. rewrite <- mem_spec. destruct (mem x l); split; intros; congruence. Qed.
Lemma in_remove_iff x y l : In x (remove Nat.eq_dec y l) <-> In x l /\ x <> y.
Proof. split; [apply in_remove|]. intros [A B]. now apply in_in_remove. Qed.
Lemma nodup_remove y l : NoDup l -> NoDup (remove Nat.eq_dec y l).
Proof.
  induction l as [|z l IH]; cbn; intros H; auto. inversion H; subst. destruct (Nat.eq_dec y z); auto. constructor; auto.
  rewrite in_remove_iff. tauto.
Qed.

(** ** Views of the heap *)
Definition vv (s : st) (x : nat) : option virtr := match heap s x with Some o => match knd o with KVirt w => Some w | _ => None end | None => None end.
Definition pp (s : st) (x : nat) : option physr := match heap s x with Some o => match knd o with KPhys w => Some w | _ => None end | None => None end.
Definition tt_ (s : st) (x : nat) : option taskr := match heap s x with Some o => match knd o with KTask w => Some w | _ => None end | None => None end.
Definition dd (s : st) (x : nat) : option datar := match heap s x with Some o => match knd o with KData w => Some w | _ => None end | None => None end.
Definition kt (s : st) (x : nat) : option otype := match heap s x with Some o => Some (otype_of (knd o)) | None => None end.
Definition rcof (s : st) (x : nat) : nat := match heap s x with Some o => rc o | None => 0 end.

(** the references an object holds on others *)
Definition kedges (k : kind) : list nat :=
  match k with
  | KPhys p => match pfvaq p with Some v => [v] | None => [] end
  | KVirt _ | KProc _ => []
  | KData d => match dacc d with Some a => [a] | None => [] end
  | KTask t => tio t ++ (if tsub t then [tacc t] else [])
  end.
Definition edges (o : obj) : list nat := if dying o then [] else kedges (knd o).
Definition hedges (s : st) (y : nat) : list nat := match heap s y with Some o => edges o | None => [] end.
Definition refs (s : st) (x : nat) : nat := sumn (next s) (fun y => cnt x (hedges s y)).
Definition osize (s : st) (y : nat) : N := match heap s y with Some o => osz o | None => 0%N end.
Definition total (s : st) : N := sumNn (next s) (osize s).
Definition qlen (s : st) (v : nat) : nat := match vv s v with Some w => length (vq w) | None => 0 end.
Definition sumq (s : st) (l : list nat) : nat := list_sum (map (qlen s) l).

Definition kind_ok (s : st) (k : kind) : Prop :=
  match k with
  | KPhys p => forall v, pfvaq p = Some v -> kt s v = Some TVirt
  | KData d => forall a, dacc d = Some a -> kt s a = Some TVirt
  | KTask t => (forall d, In d (tio t) -> kt s d = Some TData) /\ (tsub t = true -> kt s (tacc t) = Some TVirt)
  | _ => True
  end.
Definition lives (s : st) (x : nat) (ty : otype) : Prop :=
  exists o, heap s x = Some o /\ dying o = false /\ otype_of (knd o) = ty.

(** placement of virtual accelerators, their queues, and the pending counters *)
Record place (own perm drift : nat -> nat) (s : st) : Prop := {
  i_vp : forall v w p, vv s v = Some w -> vphys w = Some p -> exists r, pp s p = Some r /\ In v (pvacs r);
  i_pv : forall p r, pp s p = Some r -> NoDup (pvacs r) /\ forall v, In v (pvacs r) -> exists w, vv s v = Some w /\ vphys w = Some p;
  i_or : NoDup (orph s) /\ forall v, In v (orph s) -> exists w, vv s v = Some w /\ vphys w = None;
  i_q  : forall v w t, vv s v = Some w -> In t (vq w) -> 1 <= own t /\ exists tr, tt_ s t = Some tr /\ tsub tr = true /\ tacc tr = v;
  i_qn : forall v w, vv s v = Some w -> NoDup (vq w);
  i_cnt : forall p r, pp s p = Some r -> (0 <= ptasks r /\ ptasks r + Z.of_nat (perm p) = Z.of_nat (sumq s (pvacs r) + drift p))%Z
}.
Record Inv (init : N) (own perm drift : nat -> nat) (s : st) : Prop := {
  i_bound : forall x, next s <= x -> heap s x = None;
  i_ref : forall x, rcof s x = own x + refs s x;
  i_dy : forall x o, heap s x = Some o -> if dying o then rc o = 0 else 0 < rc o;
  i_kind : forall x o, heap s x = Some o -> dying o = false -> kind_ok s (knd o);
  i_reg : forall ty, NoDup (reg s ty) /\ forall x, In x (reg s ty) <-> lives s x ty;
  i_acc : ((avail s + total s) mod M64 = init mod M64)%N /\ (avail s < M64)%N;
  i_ghost : forall x, next s <= x -> perm x = 0 /\ drift x = 0;
  i_place : place own perm drift s
}.

(** ** Basic facts *)
Section Facts.
Context {init : N} {own perm drift : nat -> nat} {s : st} (HI : Inv init own perm drift s).

Lemma live_lt x o : heap s x = Some o -> x < next s.
Proof. intros E. destruct (Nat.lt_ge_cases x (next s)) as [|L]; auto. rewrite (i_bound _ _ _ _ _ HI x L) in E. discriminate. Qed.
Lemma own_live x : 1 <= own x -> exists o, heap s x = Some o /\ dying o = false /\ rc o = own x + refs s x.
Proof.
  intros H. pose proof (i_ref _ _ _ _ _ HI x) as R. unfold rcof in R. destruct (heap s x) as [o|] eqn:E; [|lia].
  exists o. split; auto. split; auto. pose proof (i_dy _ _ _ _ _ HI x o E) as D. destruct (dying o); auto; lia.
Qed.
Lemma refs_edge x y : In x (hedges s y) -> 1 <= refs s x.
Proof.
  intros H. unfold hedges in H. destruct (heap s y) as [o|] eqn:E; [|destruct H]. pose proof (live_lt y o E) as L.
  unfold refs. pose proof (sumn_ge (next s) (fun y => cnt x (hedges s y)) y L) as G. cbn in G. unfold hedges in G at 1. rewrite E in G.
  apply cnt_in in H. lia.
Qed.
Lemma refs_live x : 1 <= refs s x -> exists o, heap s x = Some o /\ dying o = false.
Proof.
  intros H. pose proof (i_ref _ _ _ _ _ HI x) as R. unfold rcof in R. destruct (heap s x) as [o|] eqn:E; [|lia].
  exists o. split; auto. pose proof (i_dy _ _ _ _ _ HI x o E) as D. destruct (dying o); auto; lia.
Qed.
End Facts.

Lemma vv_kt s x w : vv s x = Some w -> kt s x = Some TVirt.
Proof. unfold vv, kt. destruct (heap s x) as [o|]; [|discriminate]. destruct (knd o); try discriminate. reflexivity. Qed.
Lemma pp_kt s x w : pp s x = Some w -> kt s x = Some TPhys.
Proof. unfold pp, kt. destruct (heap s x) as [o|]; [|discriminate]. destruct (knd o); try discriminate. reflexivity. Qed.
Lemma tt_kt s x w : tt_ s x = Some w -> kt s x = Some TTask.
Proof. unfold tt_, kt. destruct (heap s x) as [o|]; [|discriminate]. destruct (knd o); try discriminate. reflexivity. Qed.
Lemma dd_kt s x w : dd s x = Some w -> kt s x = Some TData.
Proof. unfold dd, kt. destruct (heap s x) as [o|]; [|discriminate]. destruct (knd o); try discriminate. reflexivity. Qed.
Lemma vv_heap s x w : vv s x = Some w -> exists o, heap s x = Some o /\ knd o = KVirt w.
Proof. unfold vv. destruct (heap s x) as [o|]; [|discriminate]. destruct (knd o) eqn:E; try discriminate. intros H. inversion H; subst. eauto. Qed.
Lemma pp_heap s x w : pp s x = Some w -> exists o, heap s x = Some o /\ knd o = KPhys w.
Proof. unfold pp. destruct (heap s x) as [o|]; [|discriminate]. destruct (knd o) eqn:E; try discriminate. intros H. inversion H; subst. eauto. Qed.
Lemma tt_heap s x w : tt_ s x = Some w -> exists o, heap s x = Some o /\ knd o = KTask w.
Proof. unfold tt_. destruct (heap s x) as [o|]; [|discriminate]. destruct (knd o) eqn:E; try discriminate. intros H. inversion H; subst. eauto. Qed.
Lemma dd_heap s x w : dd s x = Some w -> exists o, heap s x = Some o /\ knd o = KData w.
Proof. unfold dd. destruct (heap s x) as [o|]; [|discriminate]. destruct (knd o) eqn:E; try discriminate. intros H. inversion H; subst. eauto. Qed.
Lemma kt_vv s x : kt s x = Some TVirt -> exists w, vv s x = Some w.
Proof. unfold kt, vv. destruct (heap s x) as [o|]; [|discriminate]. destruct (knd o); try discriminate. eauto. Qed.
Lemma kt_dd s x : kt s x = Some TData -> exists w, dd s x = Some w.
Proof. unfold kt, dd. destruct (heap s x) as [o|]; [|discriminate]. destruct (knd o); try discriminate. eauto. Qed.
Lemma kt_pp s x : kt s x = Some TPhys -> exists w, pp s x = Some w.
Proof. unfold kt, pp. destruct (heap s x) as [o|]; [|discriminate]. destruct (knd o); try discriminate. eauto. Qed.
Lemma kt_tt s x : kt s x = Some TTask -> exists w, tt_ s x = Some w.
Proof. unfold kt, tt_. destruct (heap s x) as [o|]; [|discriminate]. destruct (knd o); try discriminate. eauto. Qed.

Lemma get_virt_ok s x w : vv s x = Some w -> exists o, get_virt s x = Ok (o, w) /\ heap s x = Some o /\ knd o = KVirt w.
Proof. intros H. apply vv_heap in H. destruct H as (o & E & K). exists o. unfold get_virt, get. rewrite E. cbn. rewrite K. auto. Qed.
Lemma get_phys_ok s x w : pp s x = Some w -> exists o, get_phys s x = Ok (o, w) /\ heap s x = Some o /\ knd o = KPhys w.
Proof. intros H. apply pp_heap in H. destruct H as (o & E & K). exists o. unfold get_phys, get. rewrite E. cbn. rewrite K. auto. Qed.
Lemma get_data_ok s x w : dd s x = Some w -> exists o, get_data s x = Ok (o, w) /\ heap s x = Some o /\ knd o = KData w.
Proof. intros H. apply dd_heap in H. destruct H as (o & E & K). exists o. unfold get_data, get. rewrite E. cbn. rewrite K. auto. Qed.
Lemma get_task_ok s x w : tt_ s x = Some w -> exists o, get_task s x = Ok (o, w) /\ heap s x = Some o /\ knd o = KTask w.
Proof. intros H. apply tt_heap in H. destruct H as (o & E & K). exists o. unfold get_task, get. rewrite E. cbn. rewrite K. auto. Qed.

(** a queued task refers to its virtual accelerator, so a virtual accelerator without references has an empty queue *)
Lemma queue_refs {init own perm drift s} (HI : Inv init own perm drift s) v w t : vv s v = Some w -> In t (vq w) -> 1 <= refs s v.
Proof.
  intros V T. destruct (i_q _ _ _ _ (i_place _ _ _ _ _ HI) v w t V T) as (O & tr & E & Sb & A).
  destruct (own_live HI t O) as (o & Eo & D & _). apply tt_heap in E. destruct E as (o' & E' & K). rewrite Eo in E'. inversion E'; subst o'.
  apply (refs_edge HI v t). unfold hedges. rewrite Eo. unfold edges. rewrite D, K. cbn. rewrite Sb. apply in_app_iff. right. left. auto.
Qed.
Lemma noref_queue {init own perm drift s} (HI : Inv init own perm drift s) v w : vv s v = Some w -> refs s v = 0 -> vq w = [].
Proof.
  intros V R. destruct (vq w) as [|t l] eqn:E; auto. exfalso. assert (1 <= refs s v) by (eapply (queue_refs HI v w t); eauto; rewrite E; now left). lia.
Qed.

(** [Inv] depends on the ghosts pointwise *)
Lemma Inv_own_ext init own own' perm drift s : (forall x, own' x = own x) -> Inv init own perm drift s -> Inv init own' perm drift s.
Proof.
  intros E [A B C D F G GG P]. constructor; auto.
  - intros x. now rewrite E.
  - destruct P as [P1 P2 P3 P4 P5 P6]. constructor; auto. intros v w t V T. rewrite E. eauto.
Qed.

(** changing only reference counts / liveness marks keeps the placement *)
Lemma place_views own own' perm drift s s' :
  (forall x, vv s' x = vv s x) -> (forall x, pp s' x = pp s x) -> (forall x, tt_ s' x = tt_ s x) -> orph s' = orph s ->
  (forall v w t, vv s v = Some w -> In t (vq w) -> 1 <= own t -> 1 <= own' t) ->
  place own perm drift s -> place own' perm drift s'.
Proof.
  intros EV EP ET EO HO [P1 P2 P3 P4 P5 P6].
  assert (SQ : forall l, sumq s' l = sumq s l).
  { intros l. unfold sumq. f_equal. apply map_ext. intros x. unfold qlen. now rewrite EV. }
  constructor.
  - intros v w p. rewrite EV. intros A B. rewrite EP. eauto.
  - intros p r. rewrite EP. intros A. destruct (P2 p r A) as [B C]. split; auto. intros v Hv. rewrite EV. auto.
  - rewrite EO. destruct P3 as [A B]. split; auto. intros v Hv. rewrite EV. auto.
  - intros v w t. rewrite EV. intros A B. rewrite ET. destruct (P4 v w t A B) as [C D]. split; auto. eapply HO; eauto.
  - intros v w. rewrite EV. apply P5.
  - intros p r. rewrite EP. intros A. rewrite SQ. auto.
Qed.
