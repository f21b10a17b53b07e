(** Properties of the object layer (C18-C23, C29, C32-C34), over all histories of API calls that follow the
    discipline [ok] of CoreWorld.v ([reach]).  What the statements use: [heap s x] the object stored at [x]
    ([None]: not allocated), [reg s ty] the registry of a type, [orph s] the orphan list, [own w x] the
    references held by clients and the controller. *)
From Verif Require Import Base CoreModel CoreInv CoreStep CorePlace CoreDec CoreOps CoreIssue CoreWorld CoreMain CoreSyn.
Ltac Zify.zify_post_hook ::= idtac.
Arguments N.modulo : simpl never.
Arguments N.add : simpl never.
Arguments N.sub : simpl never.
Arguments Nat.eqb : simpl never.

(** any number of further calls *)
Inductive steps (c : cfg) : world -> world -> Prop :=
| steps0 w : steps c w w
| steps1 w o w' w'' : ok c w o -> step c w o = Ok w' -> steps c w' w'' -> steps c w w''.

(** * Non-vacuity: a concrete session *)
Definition nxt c w o := match step c w o with Ok w' => w' | _ => w end.
Definition isok {A} (x : outcome A) : bool := match x with Ok _ => true | _ => false end.
Lemma nxt_reach c init w o : reach c init w -> ok c w o -> isok (step c w o) = true -> reach c init (nxt c w o).
Proof. intros R O K. eapply reach1; eauto. unfold nxt. destruct (step c w o); try discriminate. reflexivity. Qed.
Definition c0 : cfg := mkcfg 200 160 120 80 144 256.
Definition I0 : N := 1000000.
Definition e1 := nxt c0 (w0 I0) (AccelInit 7 1).          (* physical 0 with its own virtual 1 *)
Definition e2 := nxt c0 e1 (AcquireType 1).               (* virtual 2, orphan *)
Definition e3 := nxt c0 e2 (Assign 2 0).
Definition e4 := nxt c0 e3 (DataInit 64 8).               (* buffer 3 *)
Definition e5 := nxt c0 e4 (ProcRegister 5).              (* procedure 4 *)
Definition e6 := nxt c0 e5 (Issue 2 4 16 [Some 3; Some 3]). (* task 5 *)
Definition e7 := nxt c0 e6 (Wait 0).
Definition e8 := nxt c0 e7 (Pop 2).
Definition e9 := nxt c0 e8 (TaskFree 5).
Definition e10 := nxt c0 e9 (TaskFree 5).
Definition e11 := nxt c0 e10 (DataFree 3).
Definition e12 := nxt c0 e11 (AccelRelease 2).
Definition e13 := nxt c0 e12 (ProcPut 4).
Definition e14 := nxt c0 e13 (AccelRelease 0).
Ltac nospare := intros ? ? _ ? Hv; vm_compute in Hv; destruct Hv.
Ltac notphys := let R := fresh in let H := fresh in intros ? R H; vm_compute in R; discriminate R.
Ltac rstep H := apply nxt_reach; [exact H| |vm_compute; reflexivity]; cbn [ok].
Ltac noq := let v := fresh "v" in let w := fresh "w" in let V := fresh "V" in let H := fresh "H" in
  intros (v & w & V & H); exfalso; destruct v as [|[|[|[|[|[|v]]]]]]; vm_compute in V; try discriminate V; inversion V; subst; destruct H.
Lemma e3_reach : reach c0 I0 e3.
Proof.
  assert (R1 : reach c0 I0 e1) by (rstep (reach0 c0 I0); auto). assert (R2 : reach c0 I0 e2) by (rstep R1; auto).
  rstep R2. exists (mkvirt 1 None []). vm_compute. auto 10.
Qed.
Lemma e5_reach : reach c0 I0 e5.
Proof. assert (R4 : reach c0 I0 e4) by (rstep e3_reach; discriminate). rstep R4. auto. Qed.
Lemma e6_reach : reach c0 I0 e6.
Proof.
  rstep e5_reach. split; [vm_compute; auto|]. split; [reflexivity|]. split; [vm_compute; lia|]. split; [|nospare].
  intros x Hx. exists 3. destruct Hx as [<-|[<-|[]]]; (split; [reflexivity|]; split; [vm_compute; auto|]; split; [reflexivity|]; intros dr b D; vm_compute in D; inversion D; subst; discriminate).
Qed.
Lemma e7_reach : reach c0 I0 e7.
Proof. rstep e6_reach. vm_compute. auto. Qed.
Lemma e8_reach : reach c0 I0 e8.
Proof. rstep e7_reach. exists (mkvirt 1 (Some 0) [5]), 0. vm_compute. auto. Qed.
Lemma e13_reach : reach c0 I0 e13.
Proof.
  assert (R9 : reach c0 I0 e9) by (rstep e8_reach; split; [reflexivity|]; split; [|nospare]; split; [vm_compute; auto|]; split; [vm_compute; auto|notphys]).
  assert (R10 : reach c0 I0 e10) by (rstep R9; split; [reflexivity|]; split; [|nospare]; split; [vm_compute; auto|]; split; [noq|notphys]).
  assert (R11 : reach c0 I0 e11) by (rstep R10; split; [reflexivity|]; split; [|nospare]; split; [vm_compute; auto|]; split; [noq|notphys]).
  assert (R12 : reach c0 I0 e12) by (rstep R11; split; [right; reflexivity|]; split; [|nospare]; split; [vm_compute; auto|]; split; [noq|notphys]).
  rstep R12. split; [reflexivity|]; split; [|nospare]; split; [vm_compute; auto|]; split; [noq|notphys].
Qed.
Lemma e14_drops : drops e13 0.
Proof.
  split; [|nospare]. split; [vm_compute; auto|]. split; [noq|]. intros r R _. vm_compute in R. inversion R; subst. exists 1. cbn. split; auto. split; [intros u [<-|[]]; auto|reflexivity].
Qed.
Lemma e14_reach : reach c0 I0 e14.
Proof. rstep e13_reach. split; [left; reflexivity|apply e14_drops]. Qed.
Example session : own e8 5 = 2 /\ rcof (ws e8) 3 = 3 /\ rcof (ws e8) 2 = 3 /\ started e8 2 = [5] /\ avail (ws e14) = I0 /\ next (ws e14) = 6.
Proof. vm_compute. auto 10. Qed.

Section Props.
Context (c : cfg) (init : N) (INIT : (init < M64)%N).

Lemma reach_dying w : reach c init w -> forall x o, heap (ws w) x = Some o -> dying o = false.
Proof.
  intros R. induction R as [|w o w' R IH OKo ST]; [intros x o H; discriminate|]. intros x ob H. destruct (dying ob) eqn:D; auto. exfalso.
  pose proof (i_bound _ _ _ _ _ (w_inv _ _ (reach_inv init c w INIT R))) as B. destruct (sy_dy _ _ (step_syn c w o w' B ST) x ob H D) as (o1 & E1 & D1).
  rewrite (IH x o1 E1) in D1. discriminate.
Qed.
Lemma reach_rc w : reach c init w -> forall x o, heap (ws w) x = Some o -> 0 < rc o.
Proof. intros R x o H. pose proof (i_dy _ _ _ _ _ (w_inv _ _ (reach_inv init c w INIT R)) x o H) as D. now rewrite (reach_dying w R x o H) in D. Qed.

(** * C18 *)
Theorem C18_no_call_fails w o : reach c init w -> ok c w o -> exists w', step c w o = Ok w' /\ reach c init w'.
Proof.
  intros R OKo. destruct (step_ok init c w o (reach_inv init c w INIT R) OKo) as (w' & A & _). exists w'. split; auto. eapply reach1; eauto.
Qed.
Theorem C18_registered_iff_referenced w : reach c init w -> forall ty x,
  (count_occ Nat.eq_dec (reg (ws w) ty) x = 1 <-> exists o, heap (ws w) x = Some o /\ otype_of (knd o) = ty /\ 0 < rc o) /\
  count_occ Nat.eq_dec (reg (ws w) ty) x <= 1.
Proof.
  intros R ty x. pose proof (reach_inv init c w INIT R) as HW. destruct (i_reg _ _ _ _ _ (w_inv _ _ HW) ty) as [ND HR].
  pose proof (proj1 (NoDup_count_occ Nat.eq_dec _) ND x) as L. split; auto. specialize (HR x). rewrite (count_occ_In Nat.eq_dec) in HR. unfold lives in HR. split.
  - intros E. destruct (proj1 HR ltac:(lia)) as (o & E1 & D & T). exists o. split; auto. split; auto. eapply reach_rc; eauto.
  - intros (o & E & T & P). assert (0 < count_occ Nat.eq_dec (reg (ws w) ty) x); [|lia]. apply HR. exists o. split; auto. split; auto. eapply reach_dying; eauto.
Qed.
Theorem C18_allocated_iff_referenced w x : reach c init w -> heap (ws w) x <> None <-> exists o, heap (ws w) x = Some o /\ 0 < rc o.
Proof. intros R. split; [|intros (o & -> & _); discriminate]. intros H. destruct (heap (ws w) x) as [o|] eqn:E; [|congruence]. exists o. split; auto. eapply reach_rc; eauto. Qed.
Theorem C18_drop_last w x o : reach c init w -> drops w x -> heap (ws w) x = Some o -> rc o = 1 ->
  exists s', ref_dec FUEL (ws w) x = Ok (s', 0) /\ heap s' x = None /\ (forall ty, ~ In x (reg s' ty)) /\
    (forall y, ~ affected (ws w) x y -> heap s' y = heap (ws w) y).
Proof.
  intros R DR E RC. pose proof (reach_inv init c w INIT R) as HW. destruct DR as [(O & Q & P) SP].
  destruct (ref_dec_ok init (own w) (perm w) (drift w) (ws w) x (w_inv _ _ HW)) as (s' & A & I & F & LAST).
  { split; auto. split; auto. split; auto. intros t T. eapply (w_sub _ _ HW); eauto. }
  assert (RO : rcof (ws w) x = 1) by (unfold rcof; now rewrite E). rewrite RO in *. exists s'. split; auto. apply proj1 in LAST. specialize (LAST eq_refl). split; auto. split.
  - intros ty Hin. apply (i_reg _ _ _ _ _ I) in Hin. destruct Hin as (o' & E' & _). congruence.
  - apply (ds_frame _ _ _ _ (dec_dsy _ _ _ _ _ A)).
Qed.
Theorem C18_drop_not_last w x o : reach c init w -> heap (ws w) x = Some o -> 1 < rc o ->
  ref_dec FUEL (ws w) x = Ok (seto (ws w) x (with_rc o (rc o - 1)), rc o - 1).
Proof.
  intros R E RC. unfold FUEL. cbn [ref_dec]. unfold get. rewrite E. cbn [bind]. assert (Q : (0 <? rc o) = true) by (apply Nat.ltb_lt; lia). rewrite Q. cbn [assert_ bind].
  assert (Q1 : (rc o =? 1) = false) by (apply Nat.eqb_neq; lia). now rewrite Q1.
Qed.
Theorem C18_destroyed_for_good w w' x : reach c init w -> steps c w w' -> x < next (ws w) -> heap (ws w) x = None -> heap (ws w') x = None.
Proof.
  intros R S. induction S as [w|w o w' w'' OKo ST S IH]; auto. intros L H.
  pose proof (i_bound _ _ _ _ _ (w_inv _ _ (reach_inv init c w INIT R))) as B. pose proof (step_syn c w o w' B ST) as Y.
  apply IH; [eapply reach1; eauto|pose proof (sy_next _ _ Y); lia|]. apply (sy_lv _ _ Y); auto.
Qed.
(** the model's verdict on touching a destroyed object (the code does not detect it reliably: the memory has
    been given back) *)
Theorem C18_use_after_destroy s x : heap s x = None -> ref_inc s x = UB /\ ref_dec FUEL s x = UB /\ accel_release s x = UB /\ data_free s x = UB /\ task_free s x = UB.
Proof. intros E. unfold ref_inc, accel_release, data_free, task_free, FUEL. cbn [ref_dec]. unfold get. rewrite E. auto. Qed.
Example C18_nonvacuous : reach c0 I0 e13 /\ (exists o, heap (ws e13) 0 = Some o /\ rc o = 1 /\ drops e13 0) /\ (exists o, heap (ws e8) 3 = Some o /\ rc o = 3) /\
  affected (ws e13) 0 1 /\ ~ affected (ws e8) 3 5 /\ (heap (ws e14) 5 = None /\ 5 < next (ws e14)).
Proof.
  split; [|split; [|split; [|split; [|split]]]].
  - apply e13_reach.
  - eexists. split; [vm_compute; reflexivity|]. split; [reflexivity|]. apply e14_drops.
  - eexists. vm_compute. eauto.
  - eapply af_edge; [vm_compute; reflexivity| |apply af_self]. cbn. auto.
  - intros H. inversion H as [|x o y z E I A|x o w p E K W]; subst.
    + vm_compute in E. inversion E; subst. cbn in I. destruct I as [<-|[]]. inversion A as [|x o y z E1 I1 A1|x o w p E1 K1 W1]; subst.
      * vm_compute in E1. inversion E1; subst. destruct I1.
      * vm_compute in E1. inversion E1; subst. cbn in K1. inversion K1; subst. discriminate.
    + vm_compute in E. inversion E; subst. discriminate.
  - vm_compute. split; [reflexivity|lia].
Qed.

(** * C19 *)
Definition size_at (s : st) (x : nat) : N := match heap s x with Some o => osz o | None => 0%N end.
Fixpoint sizes (s : st) (n : nat) : N := match n with O => 0%N | S k => (sizes s k + size_at s k)%N end.
Lemma total_sizes s : total s = sizes s (next s).
Proof. unfold total. induction (next s); cbn; auto. rewrite IHn. reflexivity. Qed.

(** available + sizes of everything allocated = the initial figure *)
Theorem C19_accounting w : reach c init w ->
  ((avail (ws w) + sizes (ws w) (next (ws w))) mod M64 = init)%N /\ (forall x, next (ws w) <= x -> heap (ws w) x = None) /\
  (sizes (ws w) (next (ws w)) <= init -> avail (ws w) = init - sizes (ws w) (next (ws w)))%N.
Proof.
  intros R. pose proof (reach_inv init c w INIT R) as HW. destruct (i_acc _ _ _ _ _ (w_inv _ _ HW)) as [A B]. rewrite total_sizes in A. rewrite (N.mod_small init) in A by auto.
  split; auto. split; [apply (i_bound _ _ _ _ _ (w_inv _ _ HW))|]. intros L. set (T := sizes (ws w) (next (ws w))) in *.
  destruct (N.lt_ge_cases (avail (ws w) + T) M64) as [H|H]; [rewrite N.mod_small in A by auto; lia|].
  assert (Q : ((avail (ws w) + T) mod M64 = avail (ws w) + T - M64)%N).
  { replace (avail (ws w) + T)%N with ((avail (ws w) + T - M64) + 1 * M64)%N at 1 by lia. rewrite N.mod_add by (unfold M64; lia). apply N.mod_small. lia. }
  lia.
Qed.

Lemma no_owner w : reach c init w -> (forall x, own w x = 0) -> forall x, heap (ws w) x = None.
Proof.
  intros R Z. pose proof (reach_inv init c w INIT R) as HW. pose proof (w_inv _ _ HW) as HI.
  assert (SRC : forall x o, heap (ws w) x = Some o -> exists y oy, heap (ws w) y = Some oy /\ In x (kedges (knd oy))).
  { intros x o E. pose proof (reach_rc w R x o E) as P. pose proof (i_ref _ _ _ _ _ HI x) as RF. unfold rcof in RF. rewrite E, Z in RF.
    assert (Q : 1 <= refs (ws w) x) by lia. unfold refs in Q. destruct (Nat.eq_dec (sumn (next (ws w)) (fun y => cnt x (hedges (ws w) y))) 0) as [Q0|Q0]; [lia|].
    assert (EX : exists y, cnt x (hedges (ws w) y) <> 0).
    { clear - Q0. induction (next (ws w)) as [|n IH]; cbn in Q0; [lia|]. destruct (Nat.eq_dec (cnt x (hedges (ws w) n)) 0); [apply IH; lia|eauto]. }
    destruct EX as (y & Hy). assert (Hi : In x (hedges (ws w) y)) by (apply cnt_in; lia). unfold hedges in Hi. destruct (heap (ws w) y) as [oy|] eqn:Ey; [|destruct Hi].
    unfold edges in Hi. destruct (dying oy); [destruct Hi|]. eauto. }
  assert (KO : forall y oy x, heap (ws w) y = Some oy -> In x (kedges (knd oy)) ->
     (kt (ws w) x = Some TVirt /\ (otype_of (knd oy) = TPhys \/ otype_of (knd oy) = TData \/ otype_of (knd oy) = TTask)) \/ (kt (ws w) x = Some TData /\ otype_of (knd oy) = TTask)).
  { intros y oy x E I. pose proof (i_kind _ _ _ _ _ HI y oy E (reach_dying w R y oy E)) as K. destruct (knd oy) as [r|v|pr|d|t] eqn:KY; cbn in I, K |- *.
    - destruct (pfvaq r) as [v|]; [|destruct I]. destruct I as [<-|[]]. left. split; auto.
    - destruct I.
    - destruct I.
    - destruct (dacc d) as [a|]; [|destruct I]. destruct I as [<-|[]]. left. split; auto.
    - destruct K as [K1 K2]. apply in_app_iff in I. destruct I as [I|I]; [right; split; auto|]. destruct (tsub t); [|destruct I]. destruct I as [<-|[]]. left. split; auto. }
  assert (NT : forall x o, heap (ws w) x = Some o -> otype_of (knd o) = TData \/ otype_of (knd o) = TVirt).
  { intros x o E. destruct (SRC x o E) as (y & oy & Ey & I). destruct (KO y oy x Ey I) as [[K _]|[K _]]; unfold kt in K; rewrite E in K; inversion K; auto. }
  assert (ND : forall x o, heap (ws w) x = Some o -> otype_of (knd o) = TVirt).
  { intros x o E. destruct (NT x o E) as [K|K]; auto. destruct (SRC x o E) as (y & oy & Ey & I).
    assert (T : otype_of (knd oy) = TTask). { destruct (KO y oy x Ey I) as [[K' _]|[_ K']]; auto. unfold kt in K'. rewrite E, K in K'. discriminate. }
    destruct (NT y oy Ey); congruence. }
  intros x. destruct (heap (ws w) x) as [o|] eqn:E; auto. exfalso. destruct (SRC x o E) as (y & oy & Ey & I).
  pose proof (ND y oy Ey) as T. destruct (KO y oy x Ey I) as [[_ [K|[K|K]]]|[_ K]]; congruence.
Qed.
(** when everybody has released everything nothing is left and the accounting is back to the start: the check
    made by arax_exit *)
Theorem C19_all_released w : reach c init w -> (forall x, own w x = 0) ->
  (forall x, heap (ws w) x = None) /\ repo_exit (ws w) = 0 /\ orph (ws w) = [] /\ avail (ws w) = init.
Proof.
  intros R Z. pose proof (no_owner w R Z) as N. pose proof (reach_inv init c w INIT R) as HW. pose proof (w_inv _ _ HW) as HI. split; auto.
  assert (RG : forall ty, reg (ws w) ty = []).
  { intros ty. destruct (reg (ws w) ty) as [|x l] eqn:E; auto. exfalso. assert (Hin : In x (reg (ws w) ty)) by (rewrite E; now left).
    apply (i_reg _ _ _ _ _ HI) in Hin. destruct Hin as (o & Eo & _). rewrite N in Eo. discriminate. }
  split; [unfold repo_exit; now rewrite !RG|]. split.
  - destruct (orph (ws w)) as [|x l] eqn:E; auto. exfalso. destruct (proj2 (i_or _ _ _ _ (i_place _ _ _ _ _ HI)) x) as (v & V & _); [rewrite E; now left|]. unfold vv in V. rewrite N in V. discriminate.
  - destruct (C19_accounting w R) as (A & _ & B). assert (Q : sizes (ws w) (next (ws w)) = 0%N).
    { clear - N. induction (next (ws w)) as [|n IH]; cbn; auto. rewrite IH. unfold size_at. now rewrite N. }
    rewrite Q in *. rewrite B; lia.
Qed.
Example C19_nonvacuous : reach c0 I0 e14 /\ (forall x, own e14 x = 0) /\ reach c0 I0 e8 /\ (0 < sizes (ws e8) (next (ws e8)))%N.
Proof. split; [apply e14_reach|]. split; [|split; [apply e8_reach|vm_compute; reflexivity]]. intros x. destruct x as [|[|[|[|[|[|x]]]]]]; reflexivity. Qed.

(** * C20 *)
Fixpoint count (n : nat) (f : nat -> nat) : nat := match n with O => 0 | S k => count k f + f k end.
Definition arg_refs (s : st) (x y : nat) : nat :=     (* occurrences of [x] among the arguments of task [y] *)
  match heap s y with Some o => match knd o with KTask t => count_occ Nat.eq_dec (tio t) x | _ => 0 end | None => 0 end.
Definition run_refs (s : st) (x y : nat) : nat :=     (* task [y] was issued to accelerator [x] *)
  match heap s y with Some o => match knd o with KTask t => if Nat.eq_dec (tacc t) x then 1 else 0 | _ => 0 end | None => 0 end.
Definition buf_refs (s : st) (x y : nat) : nat :=     (* buffer [y] is assigned to accelerator [x] *)
  match heap s y with Some o => match knd o with KData d => match dacc d with Some a => if Nat.eq_dec a x then 1 else 0 | None => 0 end | _ => 0 end | None => 0 end.
Definition own_queue (s : st) (x y : nat) : nat :=    (* [x] is the physical accelerator [y]'s own virtual accelerator *)
  match heap s y with Some o => match knd o with KPhys r => match pfvaq r with Some a => if Nat.eq_dec a x then 1 else 0 | None => 0 end | _ => 0 end | None => 0 end.
Lemma count_sum n f g h i j : (forall y, f y = g y + h y + i y + j y) -> sumn n f = count n g + count n h + count n i + count n j.
Proof. intros H. induction n; cbn; auto. rewrite IHn, H. lia. Qed.

Theorem C20_references_exact w : reach c init w -> forall x,
  match heap (ws w) x with Some o => rc o | None => 0 end =
  own w x + (count (next (ws w)) (arg_refs (ws w) x) + count (next (ws w)) (run_refs (ws w) x) +
             count (next (ws w)) (buf_refs (ws w) x) + count (next (ws w)) (own_queue (ws w) x)).
Proof.
  intros R x. pose proof (reach_inv init c w INIT R) as HW. pose proof (i_ref _ _ _ _ _ (w_inv _ _ HW) x) as RF. unfold rcof in RF. rewrite RF. f_equal. unfold refs.
  apply count_sum. intros y. unfold hedges, arg_refs, run_refs, buf_refs, own_queue. destruct (heap (ws w) y) as [o|] eqn:E; [|reflexivity].
  unfold edges. rewrite (reach_dying w R y o E). destruct (knd o) as [r|v|pr|d|t] eqn:K; cbn [kedges].
  - destruct (pfvaq r); [|reflexivity]. rewrite cnt_cons. change (cnt x []) with 0. lia.
  - reflexivity.
  - reflexivity.
  - destruct (dacc d); [|reflexivity]. rewrite cnt_cons. change (cnt x []) with 0. lia.
  - rewrite (w_sub _ _ HW y t) by (unfold tt_; now rewrite E, K). rewrite cnt_app, cnt_cons. change (cnt x []) with 0. unfold cnt. lia.
Qed.
(** so whatever is in use is alive: the arguments and the accelerator of a live task, the accelerator of a
    live buffer, and everything somebody owns *)
Theorem C20_in_use_alive w : reach c init w ->
  (forall y o t x, heap (ws w) y = Some o -> knd o = KTask t -> In x (tio t) -> exists ox d, heap (ws w) x = Some ox /\ knd ox = KData d /\ 0 < rc ox) /\
  (forall y o t, heap (ws w) y = Some o -> knd o = KTask t -> exists ox v, heap (ws w) (tacc t) = Some ox /\ knd ox = KVirt v /\ 0 < rc ox) /\
  (forall y o d x, heap (ws w) y = Some o -> knd o = KData d -> dacc d = Some x -> exists ox v, heap (ws w) x = Some ox /\ knd ox = KVirt v /\ 0 < rc ox) /\
  (forall x, 1 <= own w x -> exists ox, heap (ws w) x = Some ox /\ own w x <= rc ox).
Proof.
  intros R. pose proof (reach_inv init c w INIT R) as HW. pose proof (w_inv _ _ HW) as HI.
  assert (KD : forall x, kt (ws w) x = Some TData -> exists ox d, heap (ws w) x = Some ox /\ knd ox = KData d /\ 0 < rc ox).
  { intros x H. destruct (kt_dd _ _ H) as (d & D). destruct (dd_heap _ _ _ D) as (ox & E & K). exists ox, d. split; auto. split; auto. eapply reach_rc; eauto. }
  assert (KV : forall x, kt (ws w) x = Some TVirt -> exists ox d, heap (ws w) x = Some ox /\ knd ox = KVirt d /\ 0 < rc ox).
  { intros x H. destruct (kt_vv _ _ H) as (d & D). destruct (vv_heap _ _ _ D) as (ox & E & K). exists ox, d. split; auto. split; auto. eapply reach_rc; eauto. }
  split; [|split; [|split]].
  - intros y o t x E K I. pose proof (i_kind _ _ _ _ _ HI y o E (reach_dying w R y o E)) as Q. rewrite K in Q. apply KD, Q, I.
  - intros y o t E K. pose proof (i_kind _ _ _ _ _ HI y o E (reach_dying w R y o E)) as Q. rewrite K in Q. apply KV, Q. apply (w_sub _ _ HW y). unfold tt_. now rewrite E, K.
  - intros y o d x E K A. pose proof (i_kind _ _ _ _ _ HI y o E (reach_dying w R y o E)) as Q. rewrite K in Q. apply KV, Q, A.
  - intros x O. destruct (own_live HI x O) as (ox & E & _ & RC). exists ox. split; auto. lia.
Qed.
Example C20_nonvacuous : reach c0 I0 e8 /\ count 6 (arg_refs (ws e8) 3) = 2 /\ count 6 (run_refs (ws e8) 2) = 1 /\ count 6 (buf_refs (ws e8) 2) = 1 /\ count 6 (own_queue (ws e8) 1) = 1.
Proof. split; [apply e8_reach|vm_compute; auto]. Qed.

(** * C21 *)
Definition queue_of (s : st) (v : nat) : list nat := match heap s v with Some o => match knd o with KVirt w => vq w | _ => [] end | None => [] end.
Lemma qof_queue s v : qof s v = queue_of s v.
Proof. unfold qof, vv, queue_of. destruct (heap s v) as [o|]; auto. destruct (knd o); auto. Qed.
(** what was started is the beginning of what was issued, the rest is waiting in the queue, in order *)
Theorem C21_fifo w v : reach c init w -> issued w v = started w v ++ queue_of (ws w) v.
Proof. intros R. rewrite <- qof_queue. apply (w_log _ _ (reach_inv init c w INIT R)). Qed.

Lemma issued_step w o w' : reach c init w -> ok c w o -> step c w o = Ok w' ->
  (forall v, issued w' v = issued w v) \/ (exists a, next (ws w) < next (ws w') /\ forall v, issued w' v = if v =? a then issued w v ++ [next (ws w)] else issued w v).
Proof.
  intros R OKo ST. destruct o; cbn [step] in ST; try (left; unfold upd_s in ST; invb; reflexivity).
  - invb. left. destruct o; reflexivity.
  - destruct (proc_register c (ws w) name). invb. left. reflexivity.
  - right. exists a. destruct OKo as (Oa & Ka & _ & HA & SP). pose proof (reach_inv init c w INIT R) as HW. destruct (issue_ok init c w a p host args HW Oa Ka HA) as (s1 & A & W' & T). rewrite A in ST. cbn [bind] in ST.
    inversion ST; subst w'. cbn [ws issued]. split.
    + assert (HH : forall v, In v (hand w) -> heap s1 v <> None) by (intros v Hv; eapply SP; eauto). specialize (W' HH).
      destruct (tt_heap _ _ _ T) as (o & E & _). apply (live_lt (w_inv _ _ W') _ _ E).
    + intros v. unfold fupd. destruct (Nat.eqb_spec v a) as [->|]; reflexivity.
  - invb. left. destruct o; reflexivity.
Qed.
Lemma issued_bound w : reach c init w -> (forall v t, In t (issued w v) -> t < next (ws w)) /\ (forall v, NoDup (issued w v)) /\
  (forall v u t, In t (issued w v) -> In t (issued w u) -> v = u).
Proof.
  intros R. induction R as [|w o w' R IH OKo ST]; [cbn; split; [tauto|split; [constructor|tauto]]|]. destruct IH as (B & ND & DJ).
  pose proof (i_bound _ _ _ _ _ (w_inv _ _ (reach_inv init c w INIT R))) as BB. pose proof (sy_next _ _ (step_syn c w o w' BB ST)) as NX.
  destruct (issued_step w o w' R OKo ST) as [E|(a & L & E)].
  - split; [|split]; [intros v t|intros v|intros v u t]; rewrite !E; eauto. intros H. specialize (B v t H). lia.
  - assert (NEW : forall v, ~ In (next (ws w)) (issued w v)) by (intros v H; specialize (B v _ H); lia). split; [|split].
    + intros v t. rewrite E. destruct (v =? a); [rewrite in_app_iff; intros [H|[<-|[]]]; [specialize (B v t H)|]; lia|intros H; specialize (B v t H); lia].
    + intros v. rewrite E. destruct (v =? a); auto. apply NoDup_app_snoc; auto.
    + intros v u t. rewrite !E. destruct (Nat.eqb_spec v a) as [->|Nv], (Nat.eqb_spec u a) as [->|Nu]; auto; try (rewrite in_app_iff); cbn [In]; eauto.
      * intros [H|[<-|[]]] H'; [eauto|exfalso; eapply NEW; eauto].
      * intros H [H'|[<-|[]]]; [eauto|exfalso; eapply NEW; eauto].
Qed.
(** each task is issued to one accelerator only and starts at most once *)
Theorem C21_exactly_once w : reach c init w ->
  (forall v, NoDup (started w v ++ queue_of (ws w) v)) /\ (forall v u t, In t (issued w v) -> In t (issued w u) -> v = u).
Proof. intros R. destruct (issued_bound w R) as (_ & ND & DJ). split; auto. intros v. rewrite <- C21_fifo by auto. apply ND. Qed.
(** and a call never rewrites history *)
Theorem C21_history_grows w o w' v : reach c init w -> ok c w o -> step c w o = Ok w' ->
  (exists l, issued w' v = issued w v ++ l) /\ (exists l, started w' v = started w v ++ l).
Proof.
  intros R OKo ST. split.
  - destruct (issued_step w o w' R OKo ST) as [E|(a & L & E)]; rewrite E; [exists []; now rewrite app_nil_r|]. destruct (v =? a); eauto. exists []. now rewrite app_nil_r.
  - destruct o; cbn [step] in ST; try (exists []; rewrite app_nil_r; unfold upd_s in ST; invb; reflexivity).
    + invb. exists []. rewrite app_nil_r. destruct o; reflexivity.
    + destruct (proc_register c (ws w) name). invb. exists []. now rewrite app_nil_r.
    + invb. destruct o; [|exists []; now rewrite app_nil_r]. cbn. unfold fupd. destruct (Nat.eqb_spec v v0) as [->|]; [eauto|exists []; now rewrite app_nil_r].
Qed.
Example C21_nonvacuous : reach c0 I0 e8 /\ issued e8 2 = [5] /\ started e8 2 = [5] /\ queue_of (ws e6) 2 = [5].
Proof. split; [apply e8_reach|vm_compute; auto]. Qed.

(** * C22 *)
Fixpoint queued_on (s : st) (l : list nat) : nat := match l with [] => 0 | v :: r => length (queue_of s v) + queued_on s r end.
Lemma sumq_queued s l : sumq s l = queued_on s l.
Proof. induction l as [|v l IH]; auto. rewrite sumq_cons, IH. cbn. f_equal. unfold qlen, queue_of, vv. destruct (heap s v) as [o|]; auto. destruct (knd o); auto. Qed.
(** counter + unused permits = queued tasks + the number of times a virtual accelerator with waiting tasks was
    taken away (minus the wake-ups that found nothing) *)
Theorem C22_counter w p o r : reach c init w -> heap (ws w) p = Some o -> knd o = KPhys r ->
  (0 <= ptasks r)%Z /\ (ptasks r + Z.of_nat (perm w p) = Z.of_nat (queued_on (ws w) (pvacs r) + drift w p))%Z.
Proof. intros R E K. rewrite <- sumq_queued. apply (i_cnt _ _ _ _ (i_place _ _ _ _ _ (w_inv _ _ (reach_inv init c w INIT R)))). unfold pp. now rewrite E, K. Qed.
(** exact as long as no virtual accelerator with waiting tasks was taken away *)
Theorem C22_exact_partial w p o r : reach c init w -> heap (ws w) p = Some o -> knd o = KPhys r -> drift w p = 0 ->
  (ptasks r + Z.of_nat (perm w p) = Z.of_nat (queued_on (ws w) (pvacs r)))%Z.
Proof. intros R E K D. pose proof (C22_counter w p o r R E K). lia. Qed.
Theorem C22_granted_finds_work_partial w p o r : reach c init w -> heap (ws w) p = Some o -> knd o = KPhys r -> drift w p = 0 -> 1 <= perm w p ->
  exists v t q, In v (pvacs r) /\ queue_of (ws w) v = t :: q.
Proof.
  intros R E K D P. pose proof (C22_counter w p o r R E K) as C. assert (Q : 1 <= queued_on (ws w) (pvacs r)) by lia. clear - Q.
  induction (pvacs r) as [|v l IH]; cbn in Q; [lia|]. destruct (queue_of (ws w) v) as [|t q] eqn:E; [|exists v, t, q; split; [now left|auto]].
  destruct IH as (u & t & q & I & H); [cbn in Q; lia|]. exists u, t, q. split; auto. now right.
Qed.
(** none is forgotten: with a task waiting and no permit out, the worker's wait succeeds *)
Theorem C22_none_forgotten w p o r v t : reach c init w -> heap (ws w) p = Some o -> knd o = KPhys r -> In v (pvacs r) -> In t (queue_of (ws w) v) -> perm w p = 0 ->
  exists s', wait_for_task (ws w) p = Ok (s', true).
Proof.
  intros R E K I T P. pose proof (C22_counter w p o r R E K) as [C1 C2]. assert (Q : 1 <= queued_on (ws w) (pvacs r)).
  { clear - I T. induction (pvacs r) as [|u l IH]; cbn; [destruct I|]. destruct I as [->|I]; [|specialize (IH I); lia]. destruct (queue_of (ws w) v); [destruct T|cbn; lia]. }
  unfold wait_for_task, get_phys, get. rewrite E. cbn [bind]. rewrite K. cbn [bind]. destruct (Z.eqb_spec (ptasks r) 0) as [Z0|Z0]; [lia|]. eexists. reflexivity.
Qed.

(** * C23 *)
Theorem C23_one_place w v o q : reach c init w -> heap (ws w) v = Some o -> knd o = KVirt q ->
  match vphys q with
  | Some p => exists po r, heap (ws w) p = Some po /\ knd po = KPhys r /\ count_occ Nat.eq_dec (pvacs r) v = 1 /\
              ~ In v (orph (ws w)) /\ ~ In v (hand w) /\ (forall p' po' r', heap (ws w) p' = Some po' -> knd po' = KPhys r' -> In v (pvacs r') -> p' = p)
  | None => (count_occ Nat.eq_dec (orph (ws w)) v + count_occ Nat.eq_dec (hand w) v = 1) /\
            (forall p' po' r', heap (ws w) p' = Some po' -> knd po' = KPhys r' -> ~ In v (pvacs r'))
  end.
Proof.
  intros R E K. pose proof (reach_inv init c w INIT R) as HW. pose proof (w_inv _ _ HW) as HI. pose proof (i_place _ _ _ _ _ HI) as PL.
  assert (V : vv (ws w) v = Some q) by (unfold vv; now rewrite E, K).
  assert (LST : forall p' po' r', heap (ws w) p' = Some po' -> knd po' = KPhys r' -> In v (pvacs r') -> vphys q = Some p').
  { intros p' po' r' E' K' I. destruct (i_pv _ _ _ _ PL p' r') as [_ Q]; [unfold pp; now rewrite E', K'|]. destruct (Q v I) as (q' & V' & W'). congruence. }
  destruct (vphys q) as [p|] eqn:W.
  - destruct (i_vp _ _ _ _ PL v q p V W) as (r & RR & I). destruct (pp_heap _ _ _ RR) as (po & Ep & Kp). exists po, r. split; auto. split; auto. split.
    + destruct (i_pv _ _ _ _ PL p r RR) as [ND _]. pose proof (proj1 (NoDup_count_occ Nat.eq_dec _) ND v). apply (count_occ_In Nat.eq_dec) in I. lia.
    + split; [|split].
      * intros H. destruct (proj2 (i_or _ _ _ _ PL) v H) as (q' & V' & W'). congruence.
      * intros H. destruct (proj2 (w_hand _ _ HW) v H) as [(q' & V' & W') _]. congruence.
      * intros p' po' r' E' K' I'. specialize (LST p' po' r' E' K' I'). congruence.
  - split.
    + destruct (i_or _ _ _ _ PL) as [ND1 _]. destruct (w_hand _ _ HW) as [ND2 HD]. pose proof (proj1 (NoDup_count_occ Nat.eq_dec _) ND1 v). pose proof (proj1 (NoDup_count_occ Nat.eq_dec _) ND2 v).
      destruct (w_all _ _ HW v q V W) as [I|I].
      * assert (~ In v (hand w)) as N by (intros H1; apply (HD v H1); auto). apply (count_occ_not_In Nat.eq_dec) in N. apply (count_occ_In Nat.eq_dec) in I. lia.
      * destruct (HD v I) as [_ N]. apply (count_occ_not_In Nat.eq_dec) in N. apply (count_occ_In Nat.eq_dec) in I. lia.
    + intros p' po' r' E' K' I'. specialize (LST p' po' r' E' K' I'). discriminate.
Qed.
Theorem C23_assign_again_noop s v o q p : heap s v = Some o -> knd o = KVirt q -> vphys q = Some p -> set_physical s v p = Ok s.
Proof. intros E K W. unfold set_physical, add_vaccel, get_virt, get. rewrite E. cbn [bind]. rewrite K. cbn [bind]. rewrite W, Nat.eqb_refl. reflexivity. Qed.
Theorem C23_assign_elsewhere_refused s v o q p p' : heap s v = Some o -> knd o = KVirt q -> vphys q = Some p' -> p' <> p -> set_physical s v p = Abort.
Proof. intros E K W N. apply Nat.eqb_neq in N. unfold set_physical, add_vaccel, get_virt, get. rewrite E. cbn [bind]. rewrite K. cbn [bind]. rewrite W, N. reflexivity. Qed.
Theorem C23_assign_places w v o q p po r : reach c init w -> heap (ws w) v = Some o -> knd o = KVirt q -> vphys q = None -> heap (ws w) p = Some po -> knd po = KPhys r ->
  exists s' o' po', set_physical (ws w) v p = Ok s' /\ heap s' v = Some o' /\ knd o' = KVirt (mkvirt (vtype q) (Some p) (vq q)) /\
    heap s' p = Some po' /\ knd po' = KPhys (mkphys (ptype r) (ptasks r + Z.of_nat (length (vq q))) (v :: pvacs r) (pfvaq r) (S (prev r))) /\ ~ In v (orph s') /\
    (forall y, y <> v -> y <> p -> heap s' y = heap (ws w) y).
Proof.
  intros R E K W Ep Kp. pose proof (reach_inv init c w INIT R) as HW. assert (V : vv (ws w) v = Some q) by (unfold vv; now rewrite E, K). assert (P : pp (ws w) p = Some r) by (unfold pp; now rewrite Ep, Kp).
  pose proof (add_vaccel_ok (own w) (ws w) v q p r (w_inv _ _ HW) V P) as A. rewrite W in A. destruct A as [A _].
  assert (Nvp : v <> p) by (intros ->; congruence).
  set (r1 := mkphys _ _ _ _ _) in *. set (so := setorph (ws w) _) in *. set (w1 := mkvirt _ _ _) in *.
  exists (setv (setp so p r1) v w1), (with_knd o (KVirt w1)), (with_knd po (KPhys r1)). split; [exact A|].
  assert (HP : heap so p = Some po) by exact Ep. assert (SP : setp so p r1 = set_phys so p po r1) by (unfold setp; now rewrite HP). rewrite SP.
  assert (HV : heap (set_phys so p po r1) v = Some o) by (unfold set_phys, seto; cbn; rewrite fupd_ne; auto).
  assert (SV : setv (set_phys so p po r1) v w1 = set_virt (set_phys so p po r1) v o w1) by (unfold setv; now rewrite HV). rewrite SV.
  unfold set_virt, set_phys, seto. cbn [heap orph]. rewrite fupd_eq. rewrite fupd_ne by auto. rewrite fupd_eq. split; [reflexivity|]. split; [reflexivity|]. split; [reflexivity|]. split; [reflexivity|]. split.
  - unfold so. cbn [orph setorph]. rewrite in_remove_iff. tauto.
  - intros y N1 N2. rewrite !fupd_ne by auto. reflexivity.
Qed.
End Props.
