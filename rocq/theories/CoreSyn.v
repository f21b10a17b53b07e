(** Frame facts of the object layer that need no invariant: what a release can touch, that destroyed objects
    never come back, that no call leaves a half-destroyed object behind. *)
From Verif Require Import Base CoreModel CoreInv CoreStep CoreWorld.
Arguments N.modulo : simpl never.
Arguments N.add : simpl never.
Arguments N.sub : simpl never.
Arguments Nat.eqb : simpl never.

(** what an object refers to *)
Definition names (k : kind) : list nat :=
  match k with
  | KPhys p => match pfvaq p with Some v => [v] | None => [] end
  | KVirt _ | KProc _ => []
  | KData d => match dacc d with Some a => [a] | None => [] end
  | KTask t => tio t ++ [tacc t]
  end.
(** [affected s x y]: [y] is [x], or something [x] refers to directly or indirectly, or the physical
    accelerator on whose list one of these virtual accelerators is. *)
Inductive affected (s : st) : nat -> nat -> Prop :=
| af_self x : affected s x x
| af_edge x o y z : heap s x = Some o -> In y (names (knd o)) -> affected s y z -> affected s x z
| af_phys x o w p : heap s x = Some o -> knd o = KVirt w -> vphys w = Some p -> affected s x p.

Definition shr (r r' : physr) : Prop :=
  (prev r' = prev r /\ pvacs r' = pvacs r) \/ (prev r < prev r' /\ length (pvacs r') < length (pvacs r)).
Lemma shr_refl r : shr r r. Proof. now left. Qed.
Lemma shr_trans a b c : shr a b -> shr b c -> shr a c.
Proof.
  unfold shr. intros [[A1 A2]|[A1 A2]] [[B1 B2]|[B1 B2]].
  - left. split; congruence.
  - right. rewrite <- A2. split; [lia|auto].
  - right. rewrite B2. split; [lia|auto].
  - right. lia.
Qed.
Definition krx (k k' : kind) : Prop :=
  match k, k' with
  | KPhys r, KPhys r' => shr r r' /\ pfvaq r' = pfvaq r /\ ptype r' = ptype r
  | KVirt w, KVirt w' => (vphys w' = vphys w \/ vphys w' = None) /\ vtype w' = vtype w /\ vq w' = vq w
  | _, _ => k' = k
  end.
Lemma krx_refl k : krx k k. Proof. destruct k; cbn; auto using shr_refl. Qed.
Lemma krx_trans a b c : krx a b -> krx b c -> krx a c.
Proof.
  destruct a, b, c; cbn; intros A B; try discriminate; try congruence; auto.
  - destruct A as (A1 & A2 & A3), B as (B1 & B2 & B3). split; [eapply shr_trans; eauto|]. split; congruence.
  - destruct A as (A1 & A2 & A3), B as (B1 & B2 & B3). split; [|split; congruence]. destruct B1 as [B1|B1]; [|auto]. destruct A1 as [A1|A1]; [left|right]; congruence.
Qed.
Lemma krx_names k k' : krx k k' -> names k' = names k.
Proof. destruct k, k'; cbn; intros H; try discriminate; auto; [destruct H as (_ & -> & _); reflexivity|inversion H; reflexivity|inversion H; reflexivity]. Qed.

(** [P]: objects that may start dying, [T]: objects that may change *)
Record dsy (P T : nat -> Prop) (s s' : st) : Prop := {
  ds_next : next s' = next s;
  ds_obj : forall x o', heap s' x = Some o' -> exists o, heap s x = Some o /\ (dying o' = true -> dying o = true \/ P x) /\ krx (knd o) (knd o');
  ds_frame : forall y, ~ T y -> heap s' y = heap s y
}.
Lemma dsy_refl P T s : dsy P T s s.
Proof. constructor; auto. intros x o' H. exists o'. auto using krx_refl. Qed.
Lemma dsy_trans P T a b c : dsy P T a b -> dsy P T b c -> dsy P T a c.
Proof.
  intros [A1 A2 A3] [B1 B2 B3]. constructor; [congruence| |].
  - intros x o' H. destruct (B2 x o' H) as (o1 & E1 & D1 & K1). destruct (A2 x o1 E1) as (o & E & D & K). exists o. split; auto. split; [|eapply krx_trans; eauto].
    intros Q. destruct (D1 Q); auto.
  - intros y Hy. rewrite B3, A3; auto.
Qed.
Lemma dsy_weak (P T P' T' : nat -> Prop) s s' : (forall y, P y -> P' y) -> (forall y, T y -> T' y) -> dsy P T s s' -> dsy P' T' s s'.
Proof.
  intros HP HT [A1 A2 A3]. constructor; auto. intros x o' H. destruct (A2 x o' H) as (o & E & D & K). exists o. split; auto. split; auto.
  intros Q. destruct (D Q); auto.
Qed.
Lemma affected_mono P T s s' x y : dsy P T s s' -> affected s' x y -> affected s x y.
Proof.
  intros D H. induction H as [x|x o y z E I H IH|x o w p E K W].
  - constructor.
  - destruct (ds_obj _ _ _ _ D x o E) as (o0 & E0 & _ & KR). eapply af_edge; eauto. rewrite <- (krx_names _ _ KR). exact I.
  - destruct (ds_obj _ _ _ _ D x o E) as (o0 & E0 & _ & KR). rewrite K in KR. destruct (knd o0) as [|w0| | |] eqn:K0; cbn in KR; try discriminate.
    destruct KR as ([Q|Q] & _); [|congruence]. eapply af_phys; eauto. congruence.
Qed.

Ltac invb := repeat match goal with
  | H : bind _ _ = Ok _ |- _ => apply bind_ok in H; let a := fresh "a" in let E := fresh "E" in destruct H as (a & E & H); cbn beta in H
  | a : (_ * _)%type |- _ => destruct a
  | H : Ok _ = Ok _ |- _ => inversion H; clear H; subst
  | H : Abort = Ok _ |- _ => discriminate H
  | H : UB = Ok _ |- _ => discriminate H
  end.
Lemma get_inv s x o : get s x = Ok o -> heap s x = Some o.
Proof. unfold get. destruct (heap s x); intros H; inversion H; auto. Qed.
Lemma get_virt_inv s x o w : get_virt s x = Ok (o, w) -> heap s x = Some o /\ knd o = KVirt w.
Proof. unfold get_virt. intros H. invb. apply get_inv in E. destruct (knd a) eqn:K; invb; auto. Qed.
Lemma get_phys_inv s x o w : get_phys s x = Ok (o, w) -> heap s x = Some o /\ knd o = KPhys w.
Proof. unfold get_phys. intros H. invb. apply get_inv in E. destruct (knd a) eqn:K; invb; auto. Qed.
Lemma get_data_inv s x o w : get_data s x = Ok (o, w) -> heap s x = Some o /\ knd o = KData w.
Proof. unfold get_data. intros H. invb. apply get_inv in E. destruct (knd a) eqn:K; invb; auto. Qed.
Lemma get_task_inv s x o w : get_task s x = Ok (o, w) -> heap s x = Some o /\ knd o = KTask w.
Proof. unfold get_task. intros H. invb. apply get_inv in E. destruct (knd a) eqn:K; invb; auto. Qed.
Lemma seto_dsy (P T : nat -> Prop) s x o o' : heap s x = Some o -> (dying o' = true -> dying o = true \/ P x) -> krx (knd o) (knd o') -> T x -> dsy P T s (seto s x o').
Proof.
  intros E D K HT. constructor; auto.
  - intros y oy. unfold seto. cbn. unfold fupd. destruct (Nat.eqb_spec y x) as [->|N]; intros H; [inversion H; subst; eauto|]. exists oy. auto using krx_refl.
  - intros y Hy. unfold seto. cbn. apply fupd_ne. intros ->. auto.
Qed.
Lemma remove_short x l : In x l -> length (remove Nat.eq_dec x l) < length l.
Proof.
  assert (G : forall l, length (remove Nat.eq_dec x l) <= length l) by (induction l0 as [|y l0 IH]; cbn; auto; destruct (Nat.eq_dec x y); cbn; lia).
  induction l as [|y l IH]; cbn; intros H; [tauto|]. destruct (Nat.eq_dec x y) as [->|N]; [specialize (G l); lia|]. cbn. destruct H; [congruence|]. specialize (IH H). lia.
Qed.

Lemma del_dsy P (T : nat -> Prop) s p v s' : del_vaccel s p v = Ok s' -> T p -> T v -> dsy P T s s'.
Proof.
  unfold del_vaccel. intros H Tp Tv. invb. apply get_virt_inv in E. destruct E as [EV KV]. apply get_phys_inv in E1. destruct E1 as [EP KP].
  destruct (mem v (pvacs p0)) eqn:M; invb. apply mem_spec in M.
  assert (N : v <> p) by (intros ->; congruence).
  eapply dsy_trans.
  - apply (seto_dsy P T s p o0 (with_knd o0 (KPhys (mkphys (ptype p0) (if length (vq v0) =? 0 then ptasks p0 else (ptasks p0 - (Z.of_nat (length (vq v0)) - 1))%Z) (remove Nat.eq_dec v (pvacs p0)) (pfvaq p0) (S (prev p0)))))); auto.
    rewrite KP. cbn. split; [right; cbn; split; [lia|now apply remove_short]|auto].
  - unfold set_virt. apply seto_dsy with (o := o); auto.
    + unfold set_phys, seto. cbn. rewrite fupd_ne; auto.
    + rewrite KV. cbn. auto.
Qed.
Lemma rorph_dsy P T s v s' : remove_orphan s v = Ok s' -> dsy P T s s'.
Proof.
  unfold remove_orphan. intros H. invb. destruct (linked s v); [|invb; apply dsy_refl]. destruct (mem v (orph s)); invb. constructor; auto. intros x o' H. exists o'. auto using krx_refl.
Qed.
Lemma die_dsy s x o : heap s x = Some o -> dsy (eq x) (eq x) s (die s x o).
Proof.
  intros E. unfold die. assert (D : dsy (eq x) (eq x) s (seto s x (mkobj 0 (osz o) (onm o) true (knd o)))) by (eapply seto_dsy; eauto; cbn; auto using krx_refl).
  destruct D as [A B C]. constructor; auto.
Qed.
Lemma release_dsy s s2 x (T : nat -> Prop) z : T x -> dsy (eq x) T s s2 -> dsy (fun _ => False) T s (release_mem s2 x z).
Proof.
  intros Tx [A B C]. constructor; auto.
  - intros y o'. unfold release_mem. cbn. destruct (Nat.eqb_spec y x) as [->|N]; [discriminate|]. intros H. destruct (B y o' H) as (o & E & D & K). exists o. split; auto. split; auto.
    intros Q. destruct (D Q) as [|W]; auto.
  - intros y Hy. unfold release_mem. cbn. destruct (Nat.eqb_spec y x) as [->|N]; [tauto|auto].
Qed.

Lemma iter_dsy (P T : nat -> Prop) (dec : st -> nat -> outcome (st * nat)) l : forall s s',
  (forall s y s' n, In y l -> dec s y = Ok (s', n) -> dsy (fun _ => False) (affected s y) s s') ->
  (forall y, In y l -> forall z, affected s y z -> T z) -> iter_dec dec s l = Ok s' -> dsy P T s s'.
Proof.
  induction l as [|y l IH]; intros s s' HD HT H; cbn in H; invb; [apply dsy_refl|].
  assert (D : dsy P T s s0).
  { eapply dsy_weak; [| |eapply (HD s y s0 n); [now left|exact E]]; [intros ? []|]. intros z Hz. apply (HT y); [now left|exact Hz]. }
  eapply dsy_trans; [exact D|]. apply (IH s0 s'); auto.
  - intros; eapply HD; eauto. now right.
  - intros u Hu z Hz. apply (HT u); [now right|]. eapply affected_mono; eauto.
Qed.

Lemma dec_dsy f : forall s x s' n, ref_dec f s x = Ok (s', n) -> dsy (fun _ => False) (affected s x) s s'.
Proof.
  induction f as [|f IH]; intros s x s' n H; cbn [ref_dec] in H; [discriminate|]. invb. apply get_inv in E. clear E0.
  destruct (rc a =? 1).
  - invb. fold (die s x a) in E0. pose proof (die_dsy s x a E) as D. set (s1 := die s x a) in *.
    assert (E1 : heap s1 x = Some (mkobj 0 (osz a) (onm a) true (knd a))) by (unfold s1, die, unregister, seto; cbn; apply fupd_eq).
    assert (D' : dsy (eq x) (affected s x) s s1) by (eapply dsy_weak; [| |exact D]; auto; intros y <-; constructor).
    apply release_dsy; [constructor|]. eapply dsy_trans; [exact D'|].
    assert (SUB : forall y z, affected s1 y z -> affected s y z) by (intros; eapply affected_mono; eauto).
    destruct (knd a) as [r|w|pr|d|t] eqn:K.
    + destruct (pfvaq r) as [v|] eqn:Q; invb. apply IH in E2. eapply dsy_weak; [| |exact E2]; [intros ? []|]. intros z Hz. eapply af_edge; eauto. rewrite K. cbn. rewrite Q. now left.
    + destruct (vphys w) as [p|] eqn:Q; [|eapply rorph_dsy; eauto]. eapply del_dsy; eauto; [eapply af_phys; eauto|constructor].
    + invb. apply dsy_refl.
    + destruct (dacc d) as [b|] eqn:Q; invb; [|apply dsy_refl]. apply IH in E4. eapply dsy_weak; [| |exact E4]; [intros ? []|]. intros z Hz. eapply af_edge; eauto. rewrite K. cbn. rewrite Q. now left.
    + invb. assert (D2 : dsy (eq x) (affected s x) s1 a2).
      { eapply (iter_dsy _ _ (ref_dec f)); eauto. intros y Hy z Hz. eapply af_edge; eauto. rewrite K. cbn. apply in_app_iff. now left. }
      eapply dsy_trans; [exact D2|]. apply IH in E3. eapply dsy_weak; [| |exact E3]; [intros ? []|]. intros z Hz. eapply af_edge; [exact E| |].
      * rewrite K. cbn. apply in_app_iff. right. left. reflexivity.
      * apply SUB. eapply affected_mono; eauto.
  - invb. eapply seto_dsy; eauto; [cbn; auto using krx_refl|constructor].
Qed.

(** * Every call *)
(** no object is resurrected or left half-destroyed *)
Record syn (s s' : st) : Prop := {
  sy_next : next s <= next s';
  sy_dy : forall x o', heap s' x = Some o' -> dying o' = true -> exists o, heap s x = Some o /\ dying o = true;
  sy_lv : forall x, x < next s -> heap s x = None -> heap s' x = None;
  sy_kt : forall x o o', heap s x = Some o -> heap s' x = Some o' -> x < next s -> otype_of (knd o') = otype_of (knd o)
}.
Lemma syn_refl s : syn s s. Proof. constructor; auto; [eauto|congruence]. Qed.
Lemma syn_trans a b c : syn a b -> syn b c -> syn a c.
Proof.
  intros [A1 A2 A3 A4] [B1 B2 B3 B4]. constructor; [lia| | |].
  - intros x o' H D. destruct (B2 x o' H D) as (o & E & D1). eauto.
  - intros x L H. apply B3; [lia|auto].
  - intros x o o' H H' L. destruct (heap b x) as [ob|] eqn:Eb; [|rewrite B3 in H'; [discriminate|lia|auto]]. rewrite (B4 x ob o'); auto; [eapply A4; eauto|lia].
Qed.
Lemma krx_type k k' : krx k k' -> otype_of k' = otype_of k.
Proof. destruct k, k'; cbn; intros H; try discriminate; auto. Qed.
Lemma dsy_syn T s s' : dsy (fun _ => False) T s s' -> syn s s'.
Proof.
  intros [A B C]. constructor; [lia| | |].
  - intros x o' H D. destruct (B x o' H) as (o & E & D1 & _). destruct (D1 D); [eauto|tauto].
  - intros x _ H. destruct (heap s' x) as [o'|] eqn:E; auto. destruct (B x o' E) as (o & E1 & _). congruence.
  - intros x o o' H H' _. destruct (B x o' H') as (o1 & E1 & _ & K). rewrite H in E1. inversion E1; subst. now apply krx_type.
Qed.
Lemma seto_syn s x o o' : heap s x = Some o -> (dying o' = true -> dying o = true) -> otype_of (knd o') = otype_of (knd o) -> syn s (seto s x o').
Proof.
  intros E D K. constructor; auto; unfold seto; cbn; unfold fupd.
  - intros y oy. destruct (Nat.eqb_spec y x) as [->|N]; [|eauto]. intros H Q. inversion H; subst. eauto.
  - intros y _ H. destruct (Nat.eqb_spec y x) as [->|N]; [congruence|auto].
  - intros y oy o1 H. destruct (Nat.eqb_spec y x) as [->|N]; congruence.
Qed.
Lemma reg_syn s k name size : (forall y, next s <= y -> heap s y = None) -> syn s (fst (register s k name size)).
Proof.
  intros B. unfold register. constructor; cbn; auto; unfold fupd.
  - intros x o'. destruct (Nat.eqb_spec x (next s)) as [->|N]; [|eauto]. intros H D. inversion H; subst. discriminate.
  - intros x L H. destruct (Nat.eqb_spec x (next s)) as [->|N]; [lia|auto].
  - intros x o o' H. destruct (Nat.eqb_spec x (next s)) as [->|N]; [rewrite B in H by lia; discriminate|congruence].
Qed.
Lemma orph_syn s l : syn s (setorph s l). Proof. constructor; auto; cbn; [eauto|congruence]. Qed.
Lemma rorph_syn s v s' : remove_orphan s v = Ok s' -> syn s s'.
Proof. intros H. eapply dsy_syn. eapply (rorph_dsy _ (fun _ => True)); eauto. Qed.
Lemma del_syn s p v s' : del_vaccel s p v = Ok s' -> syn s s'.
Proof. intros H. eapply dsy_syn. eapply (del_dsy _ (fun _ => True)); eauto. Qed.
Lemma inc_syn s x s' : ref_inc s x = Ok s' -> syn s s'.
Proof. unfold ref_inc. intros H. invb. apply get_inv in E. eapply seto_syn; eauto. Qed.
Lemma dec_syn f s x s' n : ref_dec f s x = Ok (s', n) -> syn s s'.
Proof. intros H. eapply dsy_syn. eapply dec_dsy; eauto. Qed.
Lemma addo_syn s v s' : add_orphan s v = Ok s' -> syn s s'.
Proof. unfold add_orphan. intros H. invb. destruct (linked s v); invb. apply orph_syn. Qed.
Lemma iter_syn f l : forall s s', iter_dec (ref_dec f) s l = Ok s' -> syn s s'.
Proof. induction l as [|y l IH]; intros s s' H; cbn in H; invb; [apply syn_refl|]. eapply syn_trans; [eapply dec_syn; eauto|eauto]. Qed.
Lemma incs_syn l : forall s s', incs s l = Ok s' -> syn s s'.
Proof. induction l as [|y l IH]; intros s s' H; cbn in H; invb; [apply syn_refl|]. eapply syn_trans; [eapply inc_syn; eauto|eauto]. Qed.
Lemma addv_syn s p v s' : add_vaccel s p v = Ok s' -> syn s s'.
Proof.
  unfold add_vaccel. intros H. invb. destruct (vphys v0); [destruct (n =? p); invb; apply syn_refl|]. invb. apply get_virt_inv in E. destruct E as [EV KV]. apply get_phys_inv in E1. destruct E1 as [EP KP].
  destruct (linked a v); invb. eapply syn_trans; [eapply rorph_syn; eauto|].
  destruct (rorph_dsy (fun _ => False) (fun _ => True) _ _ _ E0) as [R1 R2 _].
  assert (EV2 : heap a v = Some o). { unfold remove_orphan in E0. invb. destruct (linked s v); [destruct (mem v (orph s))|]; invb; auto. }
  eapply syn_trans; [|unfold set_virt; eapply seto_syn with (o := o); [|auto|rewrite KV; reflexivity]].
  - unfold set_phys. eapply seto_syn; eauto. rewrite KP. reflexivity.
  - unfold set_phys, seto. cbn. rewrite fupd_ne; auto. intros ->. congruence.
Qed.
Lemma migrate_syn s d a s' : migrate s d a = Ok s' -> syn s s'.
Proof.
  unfold migrate. intros H. invb. destruct (dacc d0) as [b|].
  - destruct (b =? a); invb; [apply syn_refl|]. destruct (knd a0), (knd a1); invb. destruct (match vphys v with Some _ => _ | None => _ end); invb.
    apply get_data_inv in E4. destruct E4 as [E4 K4]. eapply syn_trans; [eapply dec_syn; eauto|]. eapply syn_trans; [eapply inc_syn; eauto|]. eapply seto_syn; eauto. rewrite K4. reflexivity.
  - invb. apply get_data_inv in E1. destruct E1 as [E1 K1]. eapply syn_trans; [eapply inc_syn; eauto|]. eapply seto_syn; eauto. rewrite K1. reflexivity.
Qed.
Lemma argi_syn s t d a s' : arg_init s t d a = Ok s' -> syn s s'.
Proof.
  unfold arg_init. intros H. invb. apply get_task_inv in E. destruct E as [E K]. eapply syn_trans; [|eapply syn_trans; [eapply inc_syn; eauto|eapply migrate_syn; eauto]]. eapply seto_syn; eauto. rewrite K. reflexivity.
Qed.
Lemma argsi_syn t a l : forall s s', args_init s t a l = Ok s' -> syn s s'.
Proof. induction l as [|y l IH]; intros s s' H; cbn in H; invb; [apply syn_refl|]. eapply syn_trans; [eapply argi_syn; eauto|eauto]. Qed.
Lemma addt_syn s v t s' : add_task s v t = Ok s' -> syn s s'.
Proof.
  unfold add_task. intros H. invb. apply get_virt_inv in E. destruct E as [EV KV]. destruct (vphys v0); invb.
  - apply get_phys_inv in E. destruct E as [EP KP]. eapply syn_trans; [|unfold set_phys; eapply seto_syn; [exact EP|auto|rewrite KP; reflexivity]]. unfold set_virt. eapply seto_syn; eauto. rewrite KV. reflexivity.
  - unfold set_virt. eapply seto_syn; eauto. rewrite KV. reflexivity.
Qed.
Lemma submit_syn s t s' : task_submit s t = Ok s' -> syn s s'.
Proof.
  unfold task_submit. intros H. invb. apply get_task_inv in E1. destruct E1 as [ET KT]. eapply syn_trans; [eapply inc_syn; eauto|]. eapply syn_trans; [|eapply addt_syn; eauto]. eapply seto_syn; eauto. rewrite KT. reflexivity.
Qed.
Lemma reg_bound s k name size : (forall y, next s <= y -> heap s y = None) -> forall y, next (fst (register s k name size)) <= y -> heap (fst (register s k name size)) y = None.
Proof. intros B y. unfold register. cbn. intros L. unfold fupd. destruct (Nat.eqb_spec y (next s)); [lia|]. apply B. lia. Qed.
Lemma vinit_syn c s name ty p s' v : (forall y, next s <= y -> heap s y = None) -> vaccel_init c s name ty p = Ok (s', v) -> syn s s' /\ (next s < next s').
Proof.
  unfold vaccel_init. intros B H. pose proof (reg_syn s (KVirt (mkvirt ty None [])) name (sVirt c) B) as R. destruct (register s (KVirt (mkvirt ty None [])) name (sVirt c)) as [s1 x] eqn:Q. cbn in R.
  assert (N : next s1 = S (next s)) by (unfold register in Q; inversion Q; reflexivity).
  destruct p; invb; [apply addv_syn in E|apply addo_syn in E]; pose proof (sy_next _ _ E); (split; [eapply syn_trans; eauto|lia]).
Qed.

Ltac dk := match goal with H : (match knd ?a with _ => _ end) = Ok _ |- _ => destruct (knd a); invb end.
Lemma step_syn c w o w' : (forall y, next (ws w) <= y -> heap (ws w) y = None) -> step c w o = Ok w' -> syn (ws w) (ws w').
Proof.
  intros B H. destruct o; cbn [step] in H.
  - unfold accel_init in H. pose proof (reg_syn (ws w) (KPhys (mkphys ty 0 [] None 0)) name (sPhys c) B) as R. pose proof (reg_bound (ws w) (KPhys (mkphys ty 0 [] None 0)) name (sPhys c) B) as B1.
    destruct (register (ws w) (KPhys (mkphys ty 0 [] None 0)) name (sPhys c)) as [s1 x]. cbn in R, B1. invb. cbn.
    match goal with HV : vaccel_init _ _ _ _ _ = Ok _, HP : get_phys _ _ = Ok _ |- _ => apply vinit_syn in HV; [|exact B1]; apply get_phys_inv in HP; destruct HV as [HV _]; destruct HP as [HP KP];
      eapply syn_trans; [exact R|]; eapply syn_trans; [exact HV|]; unfold set_phys; eapply seto_syn; [exact HP|auto|rewrite KP; reflexivity] end.
  - unfold delete_accel in H. invb. cbn. destruct (mem p (reg (ws w) TPhys)); invb; [eapply dec_syn; eauto|apply syn_refl].
  - unfold acquire_phys in H. invb. cbn. dk; try apply syn_refl. eapply vinit_syn; eauto.
  - unfold acquire_type in H. invb. cbn. eapply vinit_syn; eauto.
  - unfold accel_release in H. invb. cbn. dk; eapply dec_syn; eauto.
  - unfold set_physical in H. invb. cbn. eapply addv_syn; eauto.
  - unfold unassign in H. invb. cbn. eapply syn_trans; [eapply del_syn; eauto|eapply addo_syn; eauto].
  - invb. unfold get_orphan in E. destruct (orph (ws w)); invb; [apply syn_refl|]. cbn. apply orph_syn.
  - unfold proc_register in H. destruct (find_proc (ws w) name); [invb; apply syn_refl|]. unfold proc_init in H. pose proof (reg_syn (ws w) (KProc (mkproc (fun _ => None) 0)) name (sProc c) B) as R.
    destruct (register (ws w) (KProc (mkproc (fun _ => None) 0)) name (sProc c)) as [s1 x]. invb. exact R.
  - unfold proc_get in H. invb. cbn. destruct (find_proc (ws w) name); invb; [eapply inc_syn; eauto|apply syn_refl].
  - unfold proc_put in H. invb. cbn. eapply dec_syn; eauto.
  - unfold data_init in H. pose proof (reg_syn (ws w) (KData (mkdata None size)) 1 (sData c + (size + align + 8))%N B) as R.
    destruct (register (ws w) _ _ _) as [s1 x]. invb. exact R.
  - unfold data_free in H. invb. cbn. eapply dec_syn; eauto.
  - unfold task_issue, task_alloc in H. invb. destruct (register _ _ _ _) as [s1 x] eqn:Q. invb. cbn.
    match type of Q with register ?s ?k ?n ?z = _ => pose proof (reg_syn s k n z B) as R; rewrite Q in R end.
    eapply syn_trans; [exact R|]. eapply syn_trans; [eapply argsi_syn; eauto|eapply submit_syn; eauto].
  - unfold task_free in H. invb. cbn. eapply dec_syn; eauto.
  - unfold wait_for_task in H. invb. cbn. match goal with HP : get_phys _ _ = Ok _ |- _ => apply get_phys_inv in HP; destruct HP as [HP KP] end. destruct (ptasks _ =? 0)%Z; invb; [apply syn_refl|]. unfold set_phys. eapply seto_syn; eauto. rewrite KP. reflexivity.
  - unfold pop_task in H. invb. match goal with HP : get_virt _ _ = Ok _ |- _ => apply get_virt_inv in HP; destruct HP as [HP KP] end. destruct (vq _); invb; [apply syn_refl|]. cbn. eapply syn_trans; [|eapply inc_syn; eauto]. unfold set_virt. eapply seto_syn; eauto. rewrite KP. reflexivity.
  - invb. apply syn_refl.
  - unfold accel_list in H. invb. cbn. eapply incs_syn; eauto.
  - unfold accel_list_free in H. invb. cbn. eapply iter_syn; eauto.
  - invb. cbn. eapply migrate_syn; eauto.
Qed.
