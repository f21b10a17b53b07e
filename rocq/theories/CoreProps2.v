(** More properties of the object layer: C22 (refutation of exactness), C23 (revision, dangling pointers),
    C29, C32, C33, C34. *)
From Verif Require Import Base CoreModel CoreInv CoreStep CorePlace CoreDec CoreOps CoreIssue CoreWorld CoreMain CoreSyn CoreProps.
Ltac Zify.zify_post_hook ::= idtac.
Arguments N.modulo : simpl never.
Arguments N.add : simpl never.
Arguments N.sub : simpl never.
Arguments Nat.eqb : simpl never.

(** * C22: the counter is not exact once a virtual accelerator with waiting tasks is taken away *)
Definition f1 := nxt c0 e6 (Unassign 0 2).
Definition f2 := nxt c0 f1 (Wait 0).
Lemma f2_reach : reach c0 I0 f2.
Proof. assert (R1 : reach c0 I0 f1) by (rstep e6_reach; exists (mkvirt 1 (Some 0) [5]); vm_compute; auto). rstep R1. vm_compute. auto. Qed.
(** the worker of accelerator 0 was granted work, and there is none *)
Theorem C22_exact_refuted : exists w p o r, reach c0 I0 w /\ heap (ws w) p = Some o /\ knd o = KPhys r /\ perm w p = 1 /\ forall v, In v (pvacs r) -> queue_of (ws w) v = [].
Proof.
  exists f2, 0. eexists. eexists. split; [apply f2_reach|]. split; [vm_compute; reflexivity|]. split; [reflexivity|]. split; [reflexivity|].
  intros v. vm_compute. intros [<-|[]]. reflexivity.
Qed.

(** * C23: revisions *)
Section PR.
Context (R : physr -> physr -> Prop) (RR : forall r, R r r) (RT : forall a b d, R a b -> R b d -> R a d).
Definition pr (s s' : st) : Prop := next s <= next s' /\ forall p r', p < next s -> pp s' p = Some r' -> exists r, pp s p = Some r /\ R r r'.
Lemma pr_refl s : pr s s. Proof using RR RT. split; eauto. Qed.
Lemma pr_trans a b d : pr a b -> pr b d -> pr a d.
Proof using RR RT.
  intros [A1 A2] [B1 B2]. split; [exact (Nat.le_trans _ _ _ A1 B1)|]. intros p r' L H. destruct (B2 p r' (Nat.lt_le_trans _ _ _ L A1) H) as (r1 & H1 & Q1). destruct (A2 p r1 L H1) as (r & H0 & Q0). exists r. split; [exact H0|exact (RT _ _ _ Q0 Q1)].
Qed.
Lemma seto_pr s x o o' : heap s x = Some o -> (forall r', knd o' = KPhys r' -> exists r, knd o = KPhys r /\ R r r') -> pr s (seto s x o').
Proof using RR RT.
  intros E H. split; [auto|]. intros p r' _. unfold pp, seto. cbn. unfold fupd. destruct (Nat.eqb_spec p x) as [->|N]; [|eauto].
  destruct (knd o') eqn:K; try discriminate. intros Q. inversion Q; subst. destruct (H r' eq_refl) as (r & Kr & Rr). exists r. rewrite E, Kr. auto.
Qed.
Lemma inc_pr s x s' : ref_inc s x = Ok s' -> pr s s'.
Proof using RR RT. unfold ref_inc. intros H. invb. apply get_inv in E. eapply seto_pr; [exact E|]. cbn. intros r' ->. eauto. Qed.
Lemma incs_pr l : forall s s', incs s l = Ok s' -> pr s s'.
Proof using RR RT. induction l as [|y l IH]; intros s s' H; cbn in H; invb; [apply pr_refl|]. eapply pr_trans; [eapply inc_pr; eauto|eauto]. Qed.
Lemma reg_pr s k name size : pr s (fst (register s k name size)).
Proof using RR RT. unfold register. split; cbn; [lia|]. intros p r' L. unfold pp. cbn. rewrite fupd_ne by lia. eauto. Qed.
Lemma orph_pr s l : pr s (setorph s l). Proof using RR RT. split; eauto. Qed.
Lemma rorph_pr s v s' : remove_orphan s v = Ok s' -> pr s s'.
Proof using RR RT. unfold remove_orphan. intros H. invb. destruct (linked s v); [|invb; apply pr_refl]. destruct (mem v (orph s)); invb. apply orph_pr. Qed.
Lemma addo_pr s v s' : add_orphan s v = Ok s' -> pr s s'.
Proof using RR RT. unfold add_orphan. intros H. invb. destruct (linked s v); invb. apply orph_pr. Qed.
Lemma dsy_pr P T s s' : (forall r r', shr r r' -> R r r') -> dsy P T s s' -> pr s s'.
Proof using RR RT.
  intros HR [A B _]. split; [lia|]. intros p r' _ H. destruct (pp_heap _ _ _ H) as (o' & E' & K'). destruct (B p o' E') as (o & E & _ & KR). rewrite K' in KR.
  destruct (knd o) as [r| | | |] eqn:K; cbn in KR; try discriminate. exists r. split; [unfold pp; now rewrite E, K|]. apply HR, KR.
Qed.
End PR.
Ltac spr := eapply (seto_pr shr shr_refl shr_trans).

Lemma dec_pr f s x s' n : ref_dec f s x = Ok (s', n) -> pr shr s s'.
Proof. intros H. eapply (dsy_pr shr shr_refl shr_trans); [auto|eapply dec_dsy; eauto]. Qed.
Lemma iter_pr f l : forall s s', iter_dec (ref_dec f) s l = Ok s' -> pr shr s s'.
Proof. induction l as [|y l IH]; intros s s' H; cbn in H; invb; [apply (pr_refl shr shr_refl shr_trans)|]. eapply (pr_trans shr shr_refl shr_trans); [eapply dec_pr; eauto|eauto]. Qed.
Lemma migrate_pr s d a s' : migrate s d a = Ok s' -> pr shr s s'.
Proof.
  unfold migrate. intros H. invb. destruct (dacc d0) as [b|].
  - destruct (b =? a); invb; [apply (pr_refl shr shr_refl shr_trans)|]. destruct (knd a0), (knd a1); invb. destruct (match vphys v with Some _ => _ | None => _ end); invb.
    apply get_data_inv in E4. destruct E4 as [E4 K4]. eapply (pr_trans shr shr_refl shr_trans); [eapply dec_pr; eauto|]. eapply (pr_trans shr shr_refl shr_trans); [eapply (inc_pr shr shr_refl shr_trans); eauto|].
    spr; eauto. cbn. discriminate.
  - invb. apply get_data_inv in E1. destruct E1 as [E1 K1]. eapply (pr_trans shr shr_refl shr_trans); [eapply (inc_pr shr shr_refl shr_trans); eauto|]. spr; eauto. cbn. discriminate.
Qed.
Lemma argi_pr s t d a s' : arg_init s t d a = Ok s' -> pr shr s s'.
Proof.
  unfold arg_init. intros H. invb. apply get_task_inv in E. destruct E as [E K]. eapply (pr_trans shr shr_refl shr_trans); [ |eapply (pr_trans shr shr_refl shr_trans); [eapply (inc_pr shr shr_refl shr_trans); eauto|eapply migrate_pr; eauto]].
  spr; eauto. cbn. discriminate.
Qed.
Lemma argsi_pr t a l : forall s s', args_init s t a l = Ok s' -> pr shr s s'.
Proof. induction l as [|y l IH]; intros s s' H; cbn in H; invb; [apply (pr_refl shr shr_refl shr_trans)|]. eapply (pr_trans shr shr_refl shr_trans); [eapply argi_pr; eauto|eauto]. Qed.
Lemma addt_pr s v t s' : add_task s v t = Ok s' -> pr shr s s'.
Proof.
  unfold add_task. intros H. invb. match goal with HV : get_virt _ _ = Ok _ |- _ => apply get_virt_inv in HV; destruct HV as [EV KV] end.
  assert (A : forall w, pr shr s (set_virt s v o w)) by (intros w; apply (seto_pr shr shr_refl shr_trans s v o _ EV); cbn; discriminate).
  destruct (vphys _); invb.
  - match goal with HP : get_phys _ _ = Ok _ |- _ => apply get_phys_inv in HP; destruct HP as [EP KP] end. eapply (pr_trans shr shr_refl shr_trans); [apply A|].
    unfold set_phys. spr; eauto. cbn. intros r' Q. inversion Q; subst. eexists. split; [exact KP|]. left. auto.
  - apply A.
Qed.
Lemma submit_pr s t s' : task_submit s t = Ok s' -> pr shr s s'.
Proof.
  unfold task_submit. intros H. invb. apply addt_pr in H. eapply (pr_trans shr shr_refl shr_trans); [eapply (inc_pr shr shr_refl shr_trans); eauto|]. eapply (pr_trans shr shr_refl shr_trans); [|exact H].
  match goal with HP : get_task a _ = Ok _ |- _ => apply get_task_inv in HP; destruct HP as [EP KP] end. spr; eauto. cbn. discriminate.
Qed.
Definition gro (r r' : physr) : Prop := (prev r' = prev r /\ pvacs r' = pvacs r) \/ (prev r < prev r' /\ length (pvacs r) < length (pvacs r')).
Lemma gro_refl r : gro r r. Proof. now left. Qed.
Lemma gro_trans a b d : gro a b -> gro b d -> gro a d.
Proof.
  unfold gro. intros [[A1 A2]|[A1 A2]] [[B1 B2]|[B1 B2]].
  - left. split; congruence.
  - right. rewrite <- A2. split; [lia|auto].
  - right. rewrite B2. split; [lia|auto].
  - right. lia.
Qed.
Ltac spr ::= first [eapply (seto_pr shr shr_refl shr_trans)|eapply (seto_pr gro gro_refl gro_trans)].
Lemma addv_pr s p v s' : add_vaccel s p v = Ok s' -> pr gro s s'.
Proof.
  unfold add_vaccel. intros H. invb. destruct (vphys v0); [destruct (n =? p); invb; apply (pr_refl gro gro_refl gro_trans)|]. invb. apply get_virt_inv in E. destruct E as [EV KV]. apply get_phys_inv in E1. destruct E1 as [EP KP].
  destruct (linked a v); invb. eapply (pr_trans gro gro_refl gro_trans); [eapply (rorph_pr gro gro_refl gro_trans); eauto|].
  assert (EV2 : heap a v = Some o). { unfold remove_orphan in E0. invb. destruct (linked s v); [destruct (mem v (orph s))|]; invb; auto. }
  eapply (pr_trans gro gro_refl gro_trans); [ |unfold set_virt; eapply (seto_pr gro gro_refl gro_trans) with (o := o)].
  - unfold set_phys. spr; eauto. cbn. intros r' Q. inversion Q; subst. exists p0. split; auto. right. cbn. lia.
  - unfold set_phys, seto. cbn. rewrite fupd_ne; auto. intros ->. congruence.
  - cbn. discriminate.
Qed.
Lemma vinit_pr c s name ty p s' v : vaccel_init c s name ty p = Ok (s', v) -> pr gro s s'.
Proof.
  unfold vaccel_init. intros H. pose proof (reg_pr gro gro_refl gro_trans s (KVirt (mkvirt ty None [])) name (sVirt c)) as RG. destruct (register s (KVirt (mkvirt ty None [])) name (sVirt c)) as [s1 x]. cbn in RG.
  destruct p; invb; (eapply (pr_trans gro gro_refl gro_trans); [exact RG|]); [eapply addv_pr; eauto|eapply (addo_pr gro gro_refl gro_trans); eauto].
Qed.
Lemma step_pr c w o w' : step c w o = Ok w' -> pr shr (ws w) (ws w') \/ pr gro (ws w) (ws w').
Proof.
  intros H. destruct o; cbn [step] in H.
  - right. unfold accel_init in H. pose proof (reg_pr gro gro_refl gro_trans (ws w) (KPhys (mkphys ty 0 [] None 0)) name (sPhys c)) as RG.
    destruct (register (ws w) (KPhys (mkphys ty 0 [] None 0)) name (sPhys c)) as [s1 x]. cbn in RG. invb. cbn.
    match goal with HV : vaccel_init _ _ _ _ _ = Ok _, HP : get_phys _ _ = Ok _ |- _ => apply vinit_pr in HV; apply get_phys_inv in HP; destruct HP as [HP KP];
      eapply (pr_trans gro gro_refl gro_trans); [exact RG|]; eapply (pr_trans gro gro_refl gro_trans); [exact HV|]; unfold set_phys; spr; [exact HP|];
      cbn; intros r' Q; inversion Q; subst; eexists; split; [exact KP|left; auto] end.
  - left. unfold delete_accel in H. invb. cbn. destruct (mem p (reg (ws w) TPhys)); invb; [eapply dec_pr; eauto|apply (pr_refl shr shr_refl shr_trans)].
  - right. unfold acquire_phys in H. invb. cbn. dk; try (apply (pr_refl gro gro_refl gro_trans)). eapply vinit_pr; eauto.
  - right. unfold acquire_type in H. invb. cbn. eapply vinit_pr; eauto.
  - left. unfold accel_release in H. invb. cbn. dk; eapply dec_pr; eauto.
  - right. unfold set_physical in H. invb. cbn. eapply addv_pr; eauto.
  - left. unfold unassign in H. invb. cbn. eapply (pr_trans shr shr_refl shr_trans); [ |eapply (addo_pr shr shr_refl shr_trans); eauto]. eapply (dsy_pr shr shr_refl shr_trans (fun _ => False) (fun _ => True)); [auto|eapply del_dsy; eauto].
  - left. invb. unfold get_orphan in E. destruct (orph (ws w)); invb; [apply (pr_refl shr shr_refl shr_trans)|]. cbn. apply (orph_pr shr shr_refl shr_trans).
  - left. unfold proc_register in H. destruct (find_proc (ws w) name); [invb; apply (pr_refl shr shr_refl shr_trans)|]. unfold proc_init in H.
    pose proof (reg_pr shr shr_refl shr_trans (ws w) (KProc (mkproc (fun _ => None) 0)) name (sProc c)) as RG. destruct (register (ws w) (KProc (mkproc (fun _ => None) 0)) name (sProc c)) as [s1 x]. invb. exact RG.
  - left. unfold proc_get in H. invb. cbn. destruct (find_proc (ws w) name); invb; [eapply (inc_pr shr shr_refl shr_trans); eauto|apply (pr_refl shr shr_refl shr_trans)].
  - left. unfold proc_put in H. invb. cbn. eapply dec_pr; eauto.
  - left. unfold data_init in H. pose proof (reg_pr shr shr_refl shr_trans (ws w) (KData (mkdata None size)) 1 (sData c + (size + align + 8))%N) as RG.
    destruct (register (ws w) _ _ _) as [s1 x]. invb. exact RG.
  - left. unfold data_free in H. invb. cbn. eapply dec_pr; eauto.
  - left. unfold task_issue, task_alloc in H. invb. destruct (register _ _ _ _) as [s1 x] eqn:Q. invb. cbn.
    match type of Q with register ?s ?k ?n ?z = _ => pose proof (reg_pr shr shr_refl shr_trans s k n z) as RG; rewrite Q in RG end.
    eapply (pr_trans shr shr_refl shr_trans); [exact RG|]. eapply (pr_trans shr shr_refl shr_trans); [eapply argsi_pr; eauto|eapply submit_pr; eauto].
  - left. unfold task_free in H. invb. cbn. eapply dec_pr; eauto.
  - left. unfold wait_for_task in H. invb. cbn. match goal with HP : get_phys _ _ = Ok _ |- _ => apply get_phys_inv in HP; destruct HP as [HP KP] end.
    destruct (ptasks _ =? 0)%Z; invb; [apply (pr_refl shr shr_refl shr_trans)|]. unfold set_phys. spr; eauto. cbn. intros r' Q. inversion Q; subst. eexists. split; [exact KP|left; auto].
  - left. unfold pop_task in H. invb. match goal with HP : get_virt _ _ = Ok _ |- _ => apply get_virt_inv in HP; destruct HP as [HP KP] end. destruct (vq _); invb; [apply (pr_refl shr shr_refl shr_trans)|]. cbn.
    eapply (pr_trans shr shr_refl shr_trans); [ |eapply (inc_pr shr shr_refl shr_trans); eauto]. unfold set_virt. spr; eauto. cbn. discriminate.
  - left. invb. apply (pr_refl shr shr_refl shr_trans).
  - left. unfold accel_list in H. invb. cbn. eapply (incs_pr shr shr_refl shr_trans); eauto.
  - left. unfold accel_list_free in H. invb. cbn. eapply iter_pr; eauto.
  - left. invb. cbn. eapply migrate_pr; eauto.
Qed.
(** the revision changes exactly when the set of virtual accelerators does, and never goes back *)
Theorem C23_revision c init w o w' p ob r ob' r' : (init < M64)%N -> reach c init w -> step c w o = Ok w' ->
  heap (ws w) p = Some ob -> knd ob = KPhys r -> heap (ws w') p = Some ob' -> knd ob' = KPhys r' ->
  (prev r' = prev r <-> pvacs r' = pvacs r) /\ prev r <= prev r'.
Proof.
  intros L RC ST E K E' K'. pose proof (live_lt (w_inv _ _ (reach_inv init c w L RC)) p ob E) as LT.
  assert (P' : pp (ws w') p = Some r') by (unfold pp; now rewrite E', K'). assert (P : pp (ws w) p = Some r) by (unfold pp; now rewrite E, K).
  destruct (step_pr c w o w' ST) as [[_ H]|[_ H]]; destruct (H p r' LT P') as (r0 & P0 & Q); rewrite P in P0; inversion P0; subst r0; (destruct Q as [[Q1 Q2]|[Q1 Q2]]; [split; [tauto|lia]|]);
    (split; [|lia]); (split; [lia|]); intros Q; rewrite Q in Q2; lia.
Qed.
Example C23_nonvacuous : reach c0 I0 e2 /\ step c0 e2 (Assign 2 0) = Ok e3 /\ (exists o r, heap (ws e2) 0 = Some o /\ knd o = KPhys r /\ pvacs r = [1] /\ prev r = 1) /\
  (exists o r, heap (ws e3) 0 = Some o /\ knd o = KPhys r /\ pvacs r = [2; 1] /\ prev r = 2).
Proof.
  split; [|split; [|split]].
  - assert (R1 : reach c0 I0 e1) by (rstep (reach0 c0 I0); auto). rstep R1. auto.
  - unfold e3, nxt. destruct (step c0 e2 (Assign 2 0)) as [w| |] eqn:Q; auto; vm_compute in Q; discriminate.
  - eexists. eexists. vm_compute. eauto.
  - eexists. eexists. vm_compute. eauto.
Qed.

(** ** The raw pointers behind the placement *)
Fixpoint run (c : cfg) (w : world) (l : list op) : outcome world := match l with [] => Ok w | o :: r => do w' <- step c w o; run c w' r end.
(** The balancer takes an unassigned accelerator off the orphan list without taking a reference
    (arax_pipe.c:78-98, VacBalancerThread.cpp:13-22); its only owner may legitimately release it; the balancer
    then assigns freed memory. *)
Theorem C23_balancer_use_after_free c init : run c (w0 init) [AccelInit 7 1; AcquireType 1; TakeOrphan; AccelRelease 2; Assign 2 0] = UB.
Proof. reflexivity. Qed.
(** Deleting a physical accelerator does not unassign its virtual accelerators (arax_accel.c:180-194): releasing
    one of them afterwards touches the deleted accelerator. *)
Theorem C23_delete_leaves_dangling c init : run c (w0 init) [AccelInit 7 1; AcquirePhys 0; DeleteAccel 0; AccelRelease 2] = UB.
Proof. reflexivity. Qed.

(** * C29 *)
(** Assigning or moving a buffer: [d] ends up assigned to [a]; the count of every other object is its owners
    plus the objects referring to it (the same law as C20, now for the state right after the move). *)
Theorem C29_migrate_balanced c init w d a : (init < M64)%N -> reach c init w -> 1 <= own w d -> 1 <= own w a -> kt (ws w) d = Some TData -> kt (ws w) a = Some TVirt -> compat (ws w) d a ->
  exists s', migrate (ws w) d a = Ok s' /\
    (exists o r, heap s' d = Some o /\ knd o = KData r /\ dacc r = Some a) /\
    (forall y o r, y <> d -> heap s' y = Some o -> knd o = KData r -> exists o0, heap (ws w) y = Some o0 /\ knd o0 = KData r) /\
    (forall x, match heap s' x with Some o => rc o | None => 0 end =
       own w x + (count (next s') (arg_refs s' x) + count (next s') (run_refs s' x) + count (next s') (buf_refs s' x) + count (next s') (own_queue s' x))).
Proof.
  intros L R Od Oa Kd Ka CP. pose proof (reach_inv init c w L R) as HW. destruct (kt_dd _ _ Kd) as (dr & Dr).
  destruct (migrate_ok (own w) (ws w) d a dr (w_inv _ _ HW) Od Oa Dr Ka CP) as (s1 & A & I1 & L1 & N1 & D1 & DO & T1). exists s1. split; auto.
  assert (DY : forall x o, heap s1 x = Some o -> dying o = false).
  { intros x o E. destruct (dying o) eqn:Q; auto. destruct (sy_dy _ _ (migrate_syn _ _ _ _ A) x o E Q) as (o1 & E1 & Q1). rewrite (reach_dying c init L w R x o1 E1) in Q1. discriminate. }
  split; [|split].
  - destruct (dd_heap _ _ _ D1) as (o & E & K). eexists. eexists. split; [exact E|]. split; [exact K|reflexivity].
  - intros y o r N E K. assert (D : dd s1 y = Some r) by (unfold dd; now rewrite E, K). apply DO in D; auto. destruct (dd_heap _ _ _ D) as (o0 & E0 & K0). eauto.
  - intros x. pose proof (i_ref _ _ _ _ _ I1 x) as RF. unfold rcof in RF. rewrite RF. f_equal. unfold refs. apply (count_sum init L). intros y.
    unfold hedges, arg_refs, run_refs, buf_refs, own_queue. destruct (heap s1 y) as [o|] eqn:E; [|reflexivity].
    unfold edges. rewrite (DY y o E). destruct (knd o) as [r|v|pr|dd0|t] eqn:K; cbn [kedges].
    + destruct (pfvaq r); [|reflexivity]. rewrite cnt_cons. change (cnt x []) with 0. lia.
    + reflexivity.
    + reflexivity.
    + destruct (dacc dd0); [|reflexivity]. rewrite cnt_cons. change (cnt x []) with 0. lia.
    + assert (TS : tsub t = true).
      { destruct (tsub t) eqn:SB; auto. assert (TT : tt_ s1 y = Some t) by (unfold tt_; now rewrite E, K). destruct (lf_ts _ _ L1 y t TT SB) as (tr & T0 & S0). rewrite (w_sub _ _ HW y tr T0) in S0. discriminate. }
      rewrite TS. rewrite cnt_app, cnt_cons. change (cnt x []) with 0. unfold cnt. lia.
Qed.
(** moving to another device is refused *)
Theorem C29_migrate_refused s d a o r b ob vb oa va : heap s d = Some o -> knd o = KData r -> dacc r = Some b -> b <> a ->
  heap s b = Some ob -> knd ob = KVirt vb -> heap s a = Some oa -> knd oa = KVirt va -> vphys vb <> vphys va -> migrate s d a = Abort.
Proof. intros. eapply (migrate_refused s d a r b vb va); eauto; [unfold dd|unfold vv|unfold vv]; match goal with H : heap s _ = Some _ |- _ => idtac end; repeat match goal with H : heap s ?x = _ |- context[heap s ?x] => rewrite H end; match goal with H : knd ?x = _ |- context[knd ?x] => rewrite H end; reflexivity. Qed.
(** arax_data_set_accel does not give the previous accelerator's reference back *)
Theorem C29_set_accel_refuted s d o r a b oa ob : heap s d = Some o -> knd o = KData r -> dacc r = Some b -> b <> a -> a <> d -> b <> d -> heap s a = Some oa -> heap s b = Some ob ->
  exists s', data_set_accel s d a = Ok s' /\ rcof s' a = rcof s a + 1 /\ rcof s' b = rcof s b /\ dd s' d = Some (mkdata (Some a) (dsize r)).
Proof.
  intros E K A N Na Nb Ea Eb. unfold data_set_accel, get_data, get. rewrite E. cbn [bind]. rewrite K. cbn [bind]. rewrite A. assert (Q : (b =? a) = false) by now apply Nat.eqb_neq. rewrite Q.
  unfold ref_inc, get, seto at 1. cbn [heap]. rewrite fupd_ne by auto. rewrite Ea. cbn [bind]. eexists. split; [reflexivity|]. unfold rcof, dd, seto. cbn [heap]. rewrite fupd_eq. rewrite Ea. split; [cbn; lia|].
  rewrite fupd_ne by auto. rewrite fupd_ne by auto. rewrite Eb. split; auto. rewrite fupd_ne by auto. rewrite fupd_eq. reflexivity.
Qed.
Example C29_nonvacuous : exists w, reach c0 I0 w /\ 1 <= own w 3 /\ 1 <= own w 4 /\ kt (ws w) 3 = Some TData /\ kt (ws w) 4 = Some TVirt /\ compat (ws w) 3 4 /\ (exists r, dd (ws w) 3 = Some r /\ dacc r = Some 2).
Proof.
  pose (g1 := nxt c0 e3 (DataInit 64 8)). pose (g2 := nxt c0 g1 (AcquirePhys 0)). pose (g3 := nxt c0 g2 (Migrate 3 2)).
  assert (R1 : reach c0 I0 g1) by (rstep e3_reach; discriminate). assert (R2 : reach c0 I0 g2) by (rstep R1; vm_compute; auto).
  assert (R3 : reach c0 I0 g3).
  { rstep R2. split; [vm_compute; auto|]. split; [vm_compute; auto|]. split; [reflexivity|]. split; [reflexivity|]. split; [|nospare]. intros dr b D. vm_compute in D. inversion D; subst. discriminate. }
  exists g3. split; [exact R3|]. split; [vm_compute; auto|]. split; [vm_compute; auto|]. split; [reflexivity|]. split; [reflexivity|]. split; [|eexists; split; reflexivity].
  intros dr b D A N wb wa V1 V2. vm_compute in D. inversion D; subst. cbn in A. inversion A; subst. vm_compute in V1, V2. inversion V1. inversion V2. reflexivity.
Qed.

(** * C32 *)
(** arax_proc_get takes a reference, arax_proc_put gives one back, arax_proc_register of a new name starts at one *)
Theorem C32_get_put_partial c init w name x : (init < M64)%N -> reach c init w -> find_proc (ws w) name = Some x ->
  exists s', proc_get (ws w) name = Ok (s', Some x) /\ rcof s' x = S (rcof (ws w) x) /\
    exists s'', proc_put s' x = Ok (s'', rcof (ws w) x) /\ rcof s'' x = rcof (ws w) x.
Proof.
  intros L R F. pose proof F as F0. apply find_some in F. destruct F as [I _]. pose proof (reach_inv init c w L R) as HW. destruct (reg_live _ _ _ _ HW I) as (o & E & D & T).
  pose proof (reach_rc c init L w R x o E) as P. unfold proc_get. rewrite F0. unfold ref_inc, get. rewrite E. cbn [bind]. eexists. split; [reflexivity|].
  split; [unfold rcof, seto; cbn [heap]; rewrite fupd_eq, E; reflexivity|].
  unfold proc_put, FUEL. cbn [ref_dec]. unfold get. unfold seto at 1. cbn [heap]. rewrite fupd_eq. cbn [bind rc with_rc]. change (0 <? S (rc o)) with true. cbn [assert_ bind].
  assert (Q : (S (rc o) =? 1) = false) by (apply Nat.eqb_neq; lia). rewrite Q. replace (S (rc o) - 1) with (rc o) by lia. unfold rcof. rewrite E. eexists. split; [reflexivity|]. unfold seto. cbn [heap]. now rewrite fupd_eq.
Qed.
(** but registering a name that is already registered takes none: the first user's put destroys the procedure
    under the second user *)
Theorem C32_register_refuted c init : exists s1 s2 s3 x, proc_register c (st0 init) 5 = (s1, x) /\ proc_register c s1 5 = (s2, x) /\ proc_put s2 x = Ok (s3, 0) /\ heap s3 x = None /\ proc_put s3 x = UB.
Proof. do 4 eexists. split; [reflexivity|]. split; [reflexivity|]. split; [reflexivity|]. split; reflexivity. Qed.
(** registering twice yields the same object (C31), without a second reference *)
Theorem C31_register_same c s name s' x : proc_register c s name = (s', x) -> (forall y, In y (reg s TProc) -> heap s y <> None) -> proc_register c s' name = (s', x).
Proof.
  unfold proc_register. intros H HL. destruct (find_proc s name) as [y|] eqn:F; [inversion H; subst; now rewrite F|].
  assert (Q : find_proc s' name = Some x); [|now rewrite Q]. unfold proc_init, register in H. inversion H; subst. unfold find_proc. cbn. unfold named at 1. cbn. rewrite fupd_eq. cbn. now rewrite Nat.eqb_refl.
Qed.
(** lookup by name finds a procedure exactly when one with that name is registered *)
Theorem C31_lookup c init w name : (init < M64)%N -> reach c init w ->
  match find_proc (ws w) name with
  | Some x => exists o p, heap (ws w) x = Some o /\ knd o = KProc p /\ onm o = name
  | None => forall x o p, heap (ws w) x = Some o -> knd o = KProc p -> onm o <> name
  end.
Proof.
  intros L R. pose proof (reach_inv init c w L R) as HW. destruct (find_proc (ws w) name) as [x|] eqn:F; unfold find_proc in F.
  - apply find_some in F. destruct F as [I N]. destruct (reg_live _ _ _ _ HW I) as (o & E & D & T). unfold named in N. rewrite E in N. apply Nat.eqb_eq in N. destruct (knd o) eqn:K; try discriminate. eauto.
  - intros x o p E K N. assert (I : In x (reg (ws w) TProc)). { apply (i_reg _ _ _ _ _ (w_inv _ _ HW)). exists o. split; auto. split; [eapply reach_dying; eauto|now rewrite K]. }
    pose proof (find_none _ _ F x I) as Q. unfold named in Q. rewrite E, N, Nat.eqb_refl in Q. discriminate.
Qed.

(** * C33 *)
Definition valid_args (s : st) (args : list (option nat)) : Prop := forall a, In a args -> exists x o d, a = Some x /\ heap s x = Some o /\ knd o = KData d.
Theorem C33_issue_accepts_valid s args : (forall x, In (Some x) args -> heap s x <> None) ->
  (check_semantics s args = Ok true <-> valid_args s args) /\ (check_semantics s args = Ok false <-> ~ valid_args s args).
Proof.
  intros HL. assert (D : (check_semantics s args = Ok true /\ valid_args s args) \/ (check_semantics s args = Ok false /\ ~ valid_args s args)).
  { induction args as [|a l IH]; [left; split; auto; intros a []|]. destruct a as [x|]; cbn [check_semantics].
    - assert (HX : heap s x <> None) by (apply HL; now left). unfold get. destruct (heap s x) as [o|] eqn:E; [|congruence]. cbn [bind].
      destruct (knd o) as [r|v|pr|d|t] eqn:K; cbn [otype_of otype_eqb];
        try (right; split; auto; intros V; destruct (V (Some x) (or_introl eq_refl)) as (y & oy & d & Q1 & Q2 & Q3); inversion Q1; subst y; congruence).
      destruct IH as [[A B]|[A B]]; [intros y Hy; apply HL; now right|left|right]; split; auto.
      + intros a [<-|Ha]; [exists x, o, d; auto|auto].
      + intros V. apply B. intros a Ha. apply V. now right.
    - right. split; auto. intros V. destruct (V None (or_introl eq_refl)) as (y & oy & d & Q1 & _). discriminate. }
  destruct D as [[A B]|[A B]]; rewrite A; split; split; intros; auto; try discriminate; tauto.
Qed.
(** an invalid list aborts before anything is created or changed *)
Theorem C33_invalid_aborts c s a p host args : (forall x, In (Some x) args -> heap s x <> None) -> ~ valid_args s args -> task_issue c s a p host args = Abort.
Proof. intros HL V. apply (C33_issue_accepts_valid s args HL) in V. unfold task_issue. rewrite V. reflexivity. Qed.
Example C33_nonvacuous : valid_args (ws e4) [Some 3; Some 3] /\ ~ valid_args (ws e4) [Some 3; Some 2] /\ ~ valid_args (ws e4) [Some 3; None] /\ heap (ws e4) 2 <> None /\ heap (ws e4) 3 <> None.
Proof.
  split; [|split; [|split; [|split; vm_compute; discriminate]]].
  - intros a [<-|[<-|[]]]; (exists 3; eexists; eexists; split; [reflexivity|]; split; [vm_compute; reflexivity|reflexivity]).
  - intros V. destruct (V (Some 2)) as (x & o & d & Q1 & Q2 & Q3); [right; now left|]. inversion Q1; subst x. vm_compute in Q2. inversion Q2; subst. discriminate.
  - intros V. destruct (V None) as (x & o & d & Q1 & _); [right; now left|]. discriminate.
Qed.

(** * C34 *)
(** a live accelerator of the wanted kind and type; type 0 is ANY *)
Definition listed (s : st) (ty : atype) (physical : bool) (x : nat) : Prop :=
  exists o, heap s x = Some o /\
    match knd o, physical with
    | KPhys r, true => ty = 0 \/ ptype r = ty
    | KVirt v, false => ty = 0 \/ vtype v = ty
    | _, _ => False
    end.
Lemma incs_rc l : forall s s', incs s l = Ok s' -> forall x, rcof s' x = rcof s x + cnt x l.
Proof.
  induction l as [|y l IH]; intros s s' H x; cbn in H; invb; [change (cnt x []) with 0; lia|]. rewrite (IH _ _ H x), cnt_cons. unfold ref_inc in E. invb. apply get_inv in E0.
  unfold rcof, seto. cbn [heap]. unfold fupd. destruct (Nat.eqb_spec x y) as [->|N]; [rewrite E0; cbn; destruct (Nat.eq_dec y y); [lia|congruence]|destruct (Nat.eq_dec y x); [congruence|lia]].
Qed.
Lemma filter_nodup (f : nat -> bool) l : NoDup l -> NoDup (filter f l).
Proof. induction l as [|x l IH]; cbn; intros H; auto. inversion H; subst. destruct (f x); auto. constructor; auto. intros Q. apply filter_In in Q. tauto. Qed.
Lemma listed_in c init w ty (ph : bool) x : (init < M64)%N -> reach c init w -> In x (filter (match_type (ws w) ty) (reg (ws w) (if ph then TPhys else TVirt))) <-> listed (ws w) ty ph x.
Proof.
  intros L R. pose proof (reach_inv init c w L R) as HW. rewrite filter_In. pose proof (fun ty => proj2 (i_reg _ _ _ _ _ (w_inv _ _ HW) ty)) as RG. split.
  - intros [I M]. apply RG in I. destruct I as (o & E & D & T). exists o. split; auto. unfold match_type in M. rewrite E in M. destruct (knd o) eqn:K, ph; cbn in T; try discriminate T; apply orb_true_iff in M; rewrite !Nat.eqb_eq in M; auto.
  - intros (o & E & H). split.
    + apply RG. exists o. split; auto. split; [eapply reach_dying; eauto|]. destruct (knd o), ph; cbn; tauto.
    + unfold match_type. rewrite E. apply orb_true_iff. destruct (knd o), ph; try tauto; rewrite !Nat.eqb_eq; auto.
Qed.
Theorem C34_list c init w ty ph : (init < M64)%N -> reach c init w ->
  exists s' l, accel_list (ws w) ty ph true = Ok (s', (length l, Some l)) /\ accel_list (ws w) ty ph false = Ok (ws w, (length l, None)) /\
    NoDup l /\ (forall x, In x l <-> listed (ws w) ty ph x) /\ (forall x, rcof s' x = rcof (ws w) x + count_occ Nat.eq_dec l x) /\
    (forall x, kt s' x = kt (ws w) x).
Proof.
  intros L R. pose proof (reach_inv init c w L R) as HW. unfold accel_list. set (l := filter _ _). destruct (incs_winv init l w HW) as (s1 & A & W').
  { intros x Hx. apply filter_In in Hx. destruct Hx as [Hx _]. destruct (reg_live _ _ _ _ HW Hx) as (o & E & D & _). eauto. }
  rewrite A. cbn [bind]. exists s1, l. split; [reflexivity|]. split; [reflexivity|]. split; [apply filter_nodup; apply (i_reg _ _ _ _ _ (w_inv _ _ HW))|].
  split; [intros x; apply (listed_in c init); auto|]. split; [intros x; apply (incs_rc l _ _ A)|].
  clear - A. clearbody l. revert A. generalize (ws w). clear w. induction l as [|y l IH]; intros s A x; cbn in A; invb; auto. rewrite (IH _ A x). unfold ref_inc in E. invb. apply get_inv in E0. unfold kt, seto. cbn [heap]. unfold fupd.
  destruct (Nat.eqb_spec x y) as [->|]; auto. rewrite E0. reflexivity.
Qed.
(** freeing the list gives the references back *)
Theorem C34_list_free c init w l : (init < M64)%N -> reach c init w -> ok c w (ListFree l) ->
  exists w', step c w (ListFree l) = Ok w' /\ reach c init w' /\ forall x, own w' x = own w x - count_occ Nat.eq_dec l x.
Proof.
  intros L R OKo. destruct (C18_no_call_fails c init L w _ R OKo) as (w' & A & R'). exists w'. split; auto. split; auto. cbn [step] in A. invb. reflexivity.
Qed.
(** lookup by name and type *)
Theorem C34_find c init w name ty : (init < M64)%N -> reach c init w ->
  match find_accel (ws w) name ty with
  | Some x => listed (ws w) ty true x /\ (forall n, name = Some n -> exists o, heap (ws w) x = Some o /\ onm o = n)
  | None => forall x, listed (ws w) ty true x -> exists n o, name = Some n /\ heap (ws w) x = Some o /\ onm o <> n
  end.
Proof.
  intros L R. pose proof (fun x => listed_in c init w ty true x L R) as LI. cbn [negb] in LI. destruct (find_accel (ws w) name ty) as [x|] eqn:F; unfold find_accel in F.
  - apply find_some in F. destruct F as [I M]. apply andb_true_iff in M. destruct M as [M N]. split.
    + apply LI. apply filter_In. auto.
    + intros n ->. unfold named in N. destruct (heap (ws w) x) as [o|] eqn:E; [|discriminate]. exists o. split; auto. now apply Nat.eqb_eq.
  - intros x HX. apply LI in HX. apply filter_In in HX. destruct HX as [I M]. pose proof (find_none _ _ F x I) as Q. cbv beta in Q. rewrite M in Q. cbn in Q. destruct name as [n|]; [|discriminate].
    assert (I' := I). apply (i_reg _ _ _ _ _ (w_inv _ _ (reach_inv init c w L R))) in I'. destruct I' as (o & E & _). exists n, o. split; auto. split; auto. unfold named in Q. rewrite E in Q. now apply Nat.eqb_neq.
Qed.
Example C34_nonvacuous : reach c0 I0 e3 /\ listed (ws e3) 0 false 1 /\ listed (ws e3) 1 false 2 /\ listed (ws e3) 1 true 0 /\ ~ listed (ws e3) 1 true 2 /\
  (exists w, reach c0 I0 w /\ own w 1 = 1 /\ own w 2 = 2 /\ ok c0 w (ListFree [2; 1])).
Proof.
  split; [apply e3_reach|]. split; [eexists; split; [vm_compute; reflexivity|cbn; auto]|]. split; [eexists; split; [vm_compute; reflexivity|cbn; auto]|]. split; [eexists; split; [vm_compute; reflexivity|cbn; auto]|]. split.
  - intros (o & E & H). vm_compute in E. inversion E; subst. exact H.
  - exists (nxt c0 e3 (AccelList 1 false)). split; [rstep e3_reach; auto|]. split; [reflexivity|]. split; [reflexivity|]. cbn [ok]. split; [|nospare].
    intros x [<-|[<-|[]]]; vm_compute; auto.
Qed.
