(** Attaching to and detaching from the shared segment: properties C36, C37 and C43.

    Code modelled
    - [src/core/arax_pipe.c:5-56]    arax_pipe_init
    - [src/core/arax_pipe.c:116-124] arax_pipe_add_process, arax_pipe_del_process
    - [src/core/arax_pipe.c:241-251] arax_pipe_exit
    - [src/arch/shm/impl.c:33-130]   _arax_init (from system_mmap on)
    - [src/arch/shm/impl.c:156-191]  arax_exit (last thread of a process)
    - [src/arch/shm/impl.c:193-207]  arax_clean (unlinking the segment's file)

    Any number of processes run these functions concurrently; one step is one
    access to shared memory (or one initialisation call).  The memory is
    sequentially consistent.  A process has one thread here, and it may attach
    again after it has detached. *)
From Coq Require Import List Arith Lia Bool NArith ZArith.
Import ListNotations.

Arguments Nat.eqb : simpl never.

(* ------------------------------------------------------------------ *)
(** ** The segment *)

(** The parts of [arax_pipe_s] that arax_pipe_init sets up, in the order of
    [arax_pipe.c:24,33-53]: shm_size, objs, allocator, orphan_vacs, async,
    cntrl_ready_cond, orphan_cond, throttle, ass_kv, metrics_kv. *)
Inductive part := PSize | PObjs | PAlloc | POrphans | PAsync | PCtrlCond | POrphanCond
  | PThrottle | PAssKv | PMetricsKv.

(** Comparison, no code of its own. *)
Definition part_eqb (a b : part) : bool :=
  match a, b with
  | PSize, PSize | PObjs, PObjs | PAlloc, PAlloc | POrphans, POrphans | PAsync, PAsync
  | PCtrlCond, PCtrlCond | POrphanCond, POrphanCond | PThrottle, PThrottle
  | PAssKv, PAssKv | PMetricsKv, PMetricsKv => true
  | _, _ => false
  end.

(** Raw: still the zeroes of a fresh file.  Ready: initialised.  Torn: destroyed
    by the last user. *)
(** State of a part of include/arax_pipe.h:24-47. *)
Inductive pstate := Raw | Ready | Torn.

(** One segment (one inode).  [procs] is pipe->processes; [sha0] is sha[0] being
    non-zero; [shaR] what the other bytes of pipe->sha hold (a revision number
    stands for the string). *)
(** include/arax_pipe.h:24-47. *)
Record seg := mkseg { procs : Z; sha0 : bool; shaR : option N; parts : part -> pstate }.

(** A freshly created file is all zeroes ([system.c:37-66] O_CREAT + ftruncate). *)
Definition fresh : seg := mkseg 0 false None (fun _ => Raw).

(** The steps of the initialiser, [arax_pipe.c:24-53], in program order. *)
Inductive istep := WriteShaRest | WriteSha0 | InitPart (x : part).

(** src/core/arax_pipe.c:20-54, in this order. *)
Definition init_steps : list istep :=
  [ InitPart PSize; WriteShaRest; WriteSha0; InitPart PObjs; InitPart PAlloc; InitPart POrphans;
    InitPart PAsync; InitPart PCtrlCond; InitPart POrphanCond; InitPart PThrottle;
    InitPart PAssKv; InitPart PMetricsKv ].

(** What the last user destroys, [arax_pipe.c:246-248]: arax_object_repo_exit
    only reports, async_meta_exit and arch_alloc_exit destroy. *)
Definition exit_parts : list part := [ PAsync; PAlloc ].

(** Where a process is in src/arch/shm/impl.c:33-207 and arax_pipe.c:5-56, 241-251. *)
Inductive pc :=
| Out                                     (* not attached *)
| Mapped (g : nat)                        (* segment file g opened and mapped, arax_pipe_init not entered *)
| Initing (g : nat) (todo : list istep)   (* saw value == 0 *)
| Spinning (g : nat)                      (* line 13: while (!pipe->sha[0]) *)
| Checking (g : nat)                      (* line 14: strcmp *)
| In_ (g : nat)                           (* attach returned the pipe *)
| Failed (g : nat)                        (* attach returned 0; _arax_init calls exit(1) *)
| Tearing (g : nat) (todo : list part)    (* arax_pipe_exit, last user *)
| Unlinking (g : nat).                    (* arax_clean *)

(** Ghost: what a process observed; no code of its own. *)
Inductive event :=
| EAdd (p g : nat) (first : bool)         (* arax_pipe_add_process; first = it returned 0 *)
| EInit (p g : nat) (s : istep)
| EAttached (p g : nat)                   (* attach call returned successfully *)
| EFailed (p g : nat)                     (* attach call failed, process exits *)
| EDel (p g : nat) (last : bool).         (* arax_pipe_exit's return value *)

(** Segments (files) and processes; src/arch/shm/impl.c:33-207. *)
Record st := mkst { segs : nat -> seg; cur : nat (* the file now at the path *); pcs : nat -> pc; tr : list event }.

(** No process yet, a fresh file; no code of its own. *)
Definition init_st : st := mkst (fun _ => fresh) 0 (fun _ => Out) [].

(** Update of a map, no code of its own. *)
Definition upd {A} (f : nat -> A) (i : nat) (v : A) : nat -> A := fun j => if j =? i then v else f j.

(** Field update of include/arax_pipe.h:24-47. *)
Definition set_part (s : seg) (x : part) (v : pstate) : seg :=
  mkseg (procs s) (sha0 s) (shaR s) (fun y => if part_eqb y x then v else parts s y).

Section Machine.
(** [rev p]: the ARAX_GIT_REV process [p] was built from; [enforce p]: its
    enforce_version setting. *)
Variable rev : nat -> N.
Variable enforce : nat -> bool.

(** src/core/arax_pipe.c:20-54. *)
Definition do_istep (p : nat) (s : seg) (i : istep) : seg :=
  match i with
  | WriteShaRest => mkseg (procs s) (sha0 s) (Some (rev p)) (parts s)
  | WriteSha0 => mkseg (procs s) true (shaR s) (parts s)
  | InitPart x => set_part s x Ready
  end.

(** One step of process [p]; [None] when it has nothing to do or must wait. *)
Definition step (p : nat) (s : st) : option st :=
  match pcs s p with
  | Out => (* impl.c:79: open/create and map the file now at the path *)
      Some (mkst (segs s) (cur s) (upd (pcs s) p (Mapped (cur s))) (tr s))
  | Mapped g => (* arax_pipe.c:10-12 *)
      let sg := segs s g in
      let first := (procs sg =? 0)%Z in
      Some (mkst (upd (segs s) g (mkseg (procs sg + 1) (sha0 sg) (shaR sg) (parts sg))) (cur s)
                 (upd (pcs s) p (if first then Initing g init_steps else Spinning g))
                 (EAdd p g first :: tr s))
  | Initing g (i :: todo) =>
      Some (mkst (upd (segs s) g (do_istep p (segs s g) i)) (cur s)
                 (upd (pcs s) p (Initing g todo)) (EInit p g i :: tr s))
  | Initing g [] =>
      Some (mkst (segs s) (cur s) (upd (pcs s) p (In_ g)) (EAttached p g :: tr s))
  | Spinning g =>
      if sha0 (segs s g) then Some (mkst (segs s) (cur s) (upd (pcs s) p (Checking g)) (tr s)) else None
  | Checking g => (* arax_pipe.c:14-20; arch_alloc_init_always only sets a process-local pointer *)
      let same := match shaR (segs s g) with Some r => N.eqb r (rev p) | None => false end in
      if negb same && enforce p
      then Some (mkst (segs s) (cur s) (upd (pcs s) p (Failed g)) (EFailed p g :: tr s))
      else Some (mkst (segs s) (cur s) (upd (pcs s) p (In_ g)) (EAttached p g :: tr s))
  | In_ g => (* arax_exit: arax_pipe.c:243 *)
      let sg := segs s g in
      let last := (procs sg =? 1)%Z in
      Some (mkst (upd (segs s) g (mkseg (procs sg - 1) (sha0 sg) (shaR sg) (parts sg))) (cur s)
                 (upd (pcs s) p (if last then Tearing g exit_parts else Out))
                 (EDel p g last :: tr s))
  | Failed g => None
  | Tearing g (x :: todo) =>
      Some (mkst (upd (segs s) g (set_part (segs s g) x Torn)) (cur s)
                 (upd (pcs s) p (Tearing g todo)) (tr s))
  | Tearing g [] => Some (mkst (segs s) (cur s) (upd (pcs s) p (Unlinking g)) (tr s))
  | Unlinking g => (* impl.c:183-185: shm_unlink of the path, whatever file is there *)
      Some (mkst (segs s) (S (cur s)) (upd (pcs s) p Out) (tr s))
  end.

Inductive reach : st -> Prop :=
| reach_init : reach init_st
| reach_step : forall s p s', reach s -> step p s = Some s' -> reach s'.

(** Any interleaving, no code of its own. *)
Fixpoint run (l : list nat) (s : st) : option st :=
  match l with
  | [] => Some s
  | p :: l' => match step p s with Some s' => run l' s' | None => None end
  end.

Lemma run_reach : forall l s s', reach s -> run l s = Some s' -> reach s'.
Proof.
  induction l as [|p l IH]; cbn [run]; intros s s' R H.
  - congruence.
  - destruct (step p s) eqn:E; [|discriminate]. apply (IH s0 s'); [eapply reach_step; eauto|exact H].
Qed.
End Machine.

(* ------------------------------------------------------------------ *)
(** ** Specification vocabulary, over the trace only (newest event first) *)

(** Processes that attached to segment [g] and have not detached. *)
Fixpoint users (g : nat) (t : list event) : Z :=
  match t with
  | [] => 0
  | EAdd _ g' _ :: t' => users g t' + (if Nat.eqb g' g then 1 else 0)
  | EDel _ g' _ :: t' => users g t' - (if Nat.eqb g' g then 1 else 0)
  | _ :: t' => users g t'
  end%Z.

(** Processes that attached, have not detached, and whose attach did not fail:
    the processes that really are (or are becoming) users. *)
Fixpoint remaining (g : nat) (t : list event) : Z :=
  match t with
  | [] => 0
  | EAdd _ g' _ :: t' => remaining g t' + (if Nat.eqb g' g then 1 else 0)
  | EDel _ g' _ :: t' => remaining g t' - (if Nat.eqb g' g then 1 else 0)
  | EFailed _ g' :: t' => remaining g t' - (if Nat.eqb g' g then 1 else 0)
  | _ :: t' => remaining g t'
  end%Z.

(** Events of the trace that report 'first' / 'last' on [g]. *)
Fixpoint firsts (g : nat) (t : list event) : Z :=
  match t with
  | [] => 0
  | EAdd _ g' true :: t' => firsts g t' + (if Nat.eqb g' g then 1 else 0)
  | _ :: t' => firsts g t'
  end%Z.
Fixpoint lasts (g : nat) (t : list event) : Z :=
  match t with
  | [] => 0
  | EDel _ g' true :: t' => lasts g t' + (if Nat.eqb g' g then 1 else 0)
  | _ :: t' => lasts g t'
  end%Z.

Definition no_failed_attach (g : nat) (t : list event) : Prop := forall p, ~ In (EFailed p g) t.

(** Some process of segment [g] reported 'last'. *)
Definition never_torn (g : nat) (t : list event) : Prop := forall p, ~ In (EDel p g true) t.

(* ------------------------------------------------------------------ *)
(** ** Invariant *)

Section Proofs.
Variable rev : nat -> N.
Variable enforce : nat -> bool.

Notation step := (step rev enforce).
Notation reach := (reach rev enforce).
Notation run := (run rev enforce).

Lemma upd_same : forall A (f : nat -> A) i v, upd f i v i = v.
Proof using. intros. unfold upd. now rewrite Nat.eqb_refl. Qed.
Lemma upd_other : forall A (f : nat -> A) i j v, j <> i -> upd f i v j = f j.
Proof using. intros. unfold upd. apply Nat.eqb_neq in H. now rewrite H. Qed.

(** The counter is the number of users. *)
Lemma procs_users : forall s, reach s -> forall g, procs (segs s g) = users g (tr s).
Proof using.
  induction 1 as [|s p s' R IH ST]; intros g; [reflexivity|].
  unfold PipeInit.step in ST.
  destruct (pcs s p) as [|g0|g0 td|g0|g0|g0|g0|g0 td|g0] eqn:P.
  - injection ST as <-. apply IH.
  - injection ST as <-. cbn [segs tr users].
    destruct (Nat.eqb_spec g0 g) as [->|N].
    + rewrite upd_same. cbn. now rewrite IH.
    + rewrite upd_other by congruence. rewrite IH. lia.
  - destruct td as [|i td]; injection ST as <-; cbn [segs tr users]; [apply IH|].
    destruct (Nat.eqb_spec g0 g) as [->|N].
    + rewrite upd_same. destruct i; cbn; apply IH.
    + rewrite upd_other by congruence. apply IH.
  - destruct (sha0 (segs s g0)); [|discriminate]. injection ST as <-. apply IH.
  - cbv zeta in ST. destruct (negb _ && _); injection ST as <-; cbn [segs tr users]; apply IH.
  - injection ST as <-. cbn [segs tr users].
    destruct (Nat.eqb_spec g0 g) as [->|N].
    + rewrite upd_same. cbn. now rewrite IH.
    + rewrite upd_other by congruence. rewrite IH. lia.
  - discriminate.
  - destruct td as [|i td]; injection ST as <-; cbn [segs tr users]; [apply IH|].
    destruct (Nat.eqb_spec g0 g) as [->|N].
    + rewrite upd_same. apply IH.
    + rewrite upd_other by congruence. apply IH.
  - injection ST as <-. apply IH.
Qed.

(** Every prefix of a trace is the trace of a reachable state, as far as the
    counter is concerned: every 'first' flag tells whether there were no users
    before, every 'last' flag whether there are none after. *)
Lemma flags_exact : forall s, reach s -> forall before e after,
  tr s = after ++ e :: before ->
  match e with
  | EAdd p g first => first = (users g before =? 0)%Z
  | EDel p g last => last = (users g (e :: before) =? 0)%Z
  | _ => True
  end.
Proof using.
  induction 1 as [|s p s' R IH ST]; intros before e after E.
  { destruct after; discriminate. }
  assert (K : tr s' = tr s \/ exists e', tr s' = e' :: tr s /\
     match e' with
     | EAdd p g first => first = (users g (tr s) =? 0)%Z
     | EDel p g last => last = (users g (e' :: tr s) =? 0)%Z
     | _ => True
     end).
  { pose proof (procs_users s R) as PU. unfold PipeInit.step in ST.
    destruct (pcs s p) as [|g0|g0 td|g0|g0|g0|g0|g0 td|g0] eqn:P.
    - injection ST as <-. now left.
    - injection ST as <-. right. eexists. split; [reflexivity|]. cbn. now rewrite PU.
    - destruct td; injection ST as <-; right; (eexists; split; [reflexivity|exact I]).
    - destruct (sha0 (segs s g0)); [|discriminate]. injection ST as <-. now left.
    - cbv zeta in ST. destruct (negb _ && _); injection ST as <-; right; (eexists; split; [reflexivity|exact I]).
    - injection ST as <-. right. eexists. split; [reflexivity|]. cbn [users]. rewrite Nat.eqb_refl, PU.
      apply eq_true_iff_eq. rewrite !Z.eqb_eq. lia.
    - discriminate.
    - destruct td; injection ST as <-; now left.
    - injection ST as <-. now left. }
  destruct K as [K|(e' & K & F)].
  - rewrite K in E. eapply IH; eauto.
  - rewrite K in E. destruct after as [|a after].
    + cbn in E. injection E as E1 E2. subst. exact F.
    + cbn in E. injection E as _ E. eapply IH; eauto.
Qed.

(** Reachability of prefixes: the trace only grows. *)
Lemma prefix_reach : forall s, reach s -> forall after before,
  tr s = after ++ before -> exists s0, reach s0 /\ tr s0 = before.
Proof using.
  induction 1 as [|s p s' R IH ST]; intros after before E.
  - destruct after; [|discriminate]. exists init_st. split; [constructor|exact E].
  - assert (K : tr s' = tr s \/ exists e', tr s' = e' :: tr s).
    { unfold PipeInit.step in ST. destruct (pcs s p) as [|g0|g0 td|g0|g0|g0|g0|g0 td|g0] eqn:P.
      - injection ST as <-. now left.
      - injection ST as <-. right. eexists. reflexivity.
      - destruct td; injection ST as <-; right; eexists; reflexivity.
      - destruct (sha0 (segs s g0)); [|discriminate]. injection ST as <-. now left.
      - cbv zeta in ST. destruct (negb _ && _); injection ST as <-; right; eexists; reflexivity.
      - injection ST as <-. right. eexists. reflexivity.
      - discriminate.
      - destruct td; injection ST as <-; now left.
      - injection ST as <-. now left. }
    destruct K as [K|(e' & K)]; rewrite K in E.
    + eapply IH; eauto.
    + destruct after as [|a after].
      * exists s'. split; [eapply reach_step; eauto|]. rewrite K. exact E.
      * cbn in E. injection E as _ E. eapply IH; eauto.
Qed.

Definition holding (g : nat) (c : pc) : bool :=
  match c with
  | Initing g' _ | Spinning g' | Checking g' | In_ g' | Failed g' => g' =? g
  | _ => false
  end.

(** The number of holders among the first [n] processes is at most the counter
    and every holder is counted. *)
Fixpoint count (f : nat -> bool) (n : nat) : Z :=
  match n with O => 0 | S m => count f m + (if f m then 1 else 0) end%Z.

Lemma count_ext : forall f h n, (forall i, i < n -> f i = h i) -> count f n = count h n.
Proof using.
  induction n; intros E; [reflexivity|]. cbn. rewrite E by lia. rewrite IHn; [reflexivity|].
  intros i L. apply E. lia.
Qed.

Lemma count_upd : forall (f : nat -> bool) n p v, p < n ->
  count (fun i => if i =? p then v else f i) n = (count f n + (if v then 1 else 0) - (if f p then 1 else 0))%Z.
Proof using.
  induction n; intros p v L; [lia|]. cbn.
  destruct (Nat.eqb_spec n p) as [->|N].
  - rewrite (count_ext _ f p); [lia|]. intros i Li. now replace (i =? p) with false by (symmetry; apply Nat.eqb_neq; lia).
  - rewrite IHn by lia. lia.
Qed.

Lemma count_nonneg : forall f n, (0 <= count f n)%Z.
Proof using. induction n; cbn; [lia|]. destruct (f n); lia. Qed.

Lemma count_ge1 : forall f n p, p < n -> f p = true -> (1 <= count f n)%Z.
Proof using.
  induction n; intros p L E; [lia|]. cbn.
  destruct (Nat.eq_dec p n) as [->|N].
  - rewrite E. pose proof (count_nonneg f n). lia.
  - pose proof (IHn p ltac:(lia) E). destruct (f n); lia.
Qed.

(** The counter equals the number of processes holding the segment. *)
Lemma holders : forall s, reach s -> exists n, (forall p, n <= p -> pcs s p = Out) /\
  forall m, n <= m -> forall g, procs (segs s g) = count (fun p => holding g (pcs s p)) m.
Proof using.
  induction 1 as [|s p s' R (n & HO & HC) ST].
  { exists 0. split; [reflexivity|]. intros m _ g. cbn.
    induction m; cbn; [reflexivity|]. rewrite <- IHm. reflexivity. }
  exists (Nat.max n (S p)). split.
  { intros q L. unfold PipeInit.step in ST.
    assert (Q : pcs s q = Out) by (apply HO; lia). assert (q <> p) by lia.
    destruct (pcs s p) as [|g0|g0 td|g0|g0|g0|g0|g0 td|g0] eqn:P;
    try destruct td; try destruct (sha0 (segs s g0)); cbv zeta in ST; try destruct (negb _ && _);
    try discriminate; injection ST as <-; cbn [pcs]; rewrite upd_other by assumption; exact Q. }
  intros m L g.
  assert (HCm : procs (segs s g) = count (fun q => holding g (pcs s q)) m) by (apply HC; lia).
  assert (Lp : p < m) by lia.
  assert (U : forall c, count (fun q => holding g (upd (pcs s) p c q)) m =
     (procs (segs s g) + (if holding g c then 1 else 0) - (if holding g (pcs s p) then 1 else 0))%Z).
  { intros c. rewrite HCm. rewrite <- (count_upd (fun q => holding g (pcs s q)) m p (holding g c) Lp).
    apply count_ext. intros i _. unfold upd. now destruct (i =? p). }
  unfold PipeInit.step in ST.
  destruct (pcs s p) as [|g0|g0 td|g0|g0|g0|g0|g0 td|g0] eqn:P.
  - injection ST as <-. cbn [segs pcs]. rewrite U. cbn [holding]. lia.
  - injection ST as <-. cbn [segs pcs]. rewrite U.
    replace (holding g (if (procs (segs s g0) =? 0)%Z then Initing g0 init_steps else Spinning g0)) with (g0 =? g)
      by (destruct (procs (segs s g0) =? 0)%Z; reflexivity).
    cbn [holding]. destruct (Nat.eqb_spec g0 g) as [->|N].
    + rewrite upd_same. cbn [procs]. lia.
    + rewrite upd_other by congruence. lia.
  - destruct td as [|i td]; injection ST as <-; cbn [segs pcs]; rewrite U; cbn [holding].
    + lia.
    + destruct (Nat.eqb_spec g0 g) as [->|N].
      * rewrite upd_same. destruct i; cbn; lia.
      * rewrite upd_other by congruence. lia.
  - destruct (sha0 (segs s g0)); [|discriminate]. injection ST as <-. cbn [segs pcs]. rewrite U. cbn [holding]. lia.
  - cbv zeta in ST. destruct (negb _ && _); injection ST as <-; cbn [segs pcs]; rewrite U; cbn [holding]; lia.
  - injection ST as <-. cbn [segs pcs]. rewrite U.
    replace (holding g (if (procs (segs s g0) =? 1)%Z then Tearing g0 exit_parts else Out)) with false
      by (destruct (procs (segs s g0) =? 1)%Z; reflexivity).
    cbn [holding]. destruct (Nat.eqb_spec g0 g) as [->|N].
    + rewrite upd_same. cbn [procs]. lia.
    + rewrite upd_other by congruence. lia.
  - discriminate.
  - destruct td as [|i td]; injection ST as <-; cbn [segs pcs]; rewrite U; cbn [holding].
    + lia.
    + destruct (Nat.eqb_spec g0 g) as [->|N].
      * rewrite upd_same. cbn. lia.
      * rewrite upd_other by congruence. lia.
  - injection ST as <-. cbn [segs pcs]. rewrite U. cbn [holding]. lia.
Qed.

Lemma procs_nonneg : forall s, reach s -> forall g, (0 <= procs (segs s g))%Z.
Proof using.
  intros s R g. destruct (holders s R) as (n & _ & HC). rewrite (HC n (le_n n) g). apply count_nonneg.
Qed.

Lemma holding_procs : forall s, reach s -> forall p g, holding g (pcs s p) = true -> (1 <= procs (segs s g))%Z.
Proof using.
  intros s R p g H. destruct (holders s R) as (n & HO & HC).
  assert (p < n). { destruct (Nat.lt_ge_cases p n); auto. rewrite HO in H by assumption. discriminate. }
  rewrite (HC n (le_n n) g). eapply count_ge1; eauto.
Qed.

Lemma users_nonneg : forall s, reach s -> forall g, (0 <= users g (tr s))%Z.
Proof using. intros s R g. rewrite <- procs_users by assumption. now apply procs_nonneg. Qed.

(** 'first' and 'last' reports alternate. *)
Lemma first_last_alternate : forall s, reach s -> forall g,
  firsts g (tr s) = (lasts g (tr s) + (if (users g (tr s) =? 0)%Z then 0 else 1))%Z.
Proof using.
  induction 1 as [|s p s' R IH ST]; intros g; [reflexivity|].
  assert (R' : reach s') by (eapply reach_step; eauto).
  pose proof (users_nonneg s R g) as NN. pose proof (users_nonneg s' R' g) as NN'.
  pose proof (procs_users s R) as PU. specialize (IH g).
  unfold PipeInit.step in ST.
  destruct (pcs s p) as [|g0|g0 td|g0|g0|g0|g0|g0 td|g0] eqn:P.
  - injection ST as <-. exact IH.
  - injection ST as <-. cbn [tr users firsts lasts] in *.
    destruct (Nat.eqb_spec g0 g) as [->|N].
    + rewrite PU. destruct (Z.eqb_spec (users g (tr s)) 0) as [E|E].
      * rewrite E in *. cbn [Z.eqb Z.add]. cbn. lia.
      * replace (users g (tr s) + 1 =? 0)%Z with false by (symmetry; apply Z.eqb_neq; lia). exact IH.
    + rewrite ?Z.add_0_r. destruct (procs (segs s g0) =? 0)%Z; rewrite ?Z.add_0_r; exact IH.
  - destruct td; injection ST as <-; exact IH.
  - destruct (sha0 (segs s g0)); [|discriminate]. injection ST as <-. exact IH.
  - cbv zeta in ST. destruct (negb _ && _); injection ST as <-; exact IH.
  - injection ST as <-. cbn [tr users firsts lasts] in *.
    destruct (Nat.eqb_spec g0 g) as [->|N].
    + rewrite PU. destruct (Z.eqb_spec (users g (tr s)) 1) as [E|E].
      * rewrite E in *. cbn. replace (1 =? 0)%Z with false in IH by reflexivity. lia.
      * assert (users g (tr s) <> 0)%Z.
        { pose proof (holding_procs s R p g) as HP. rewrite P in HP. cbn in HP. rewrite Nat.eqb_refl in HP.
          specialize (HP eq_refl). rewrite PU in HP. lia. }
        replace (users g (tr s) =? 0)%Z with false in IH by (symmetry; apply Z.eqb_neq; lia).
        replace (users g (tr s) - 1 =? 0)%Z with false by (symmetry; apply Z.eqb_neq; lia). exact IH.
    + rewrite ?Z.sub_0_r. destruct (procs (segs s g0) =? 1)%Z; rewrite ?Z.add_0_r; exact IH.
  - discriminate.
  - destruct td; injection ST as <-; exact IH.
  - injection ST as <-. exact IH.
Qed.

(** Only the process that was told it is first initialises. *)
Lemma initing_first : forall s, reach s -> forall p g td, pcs s p = Initing g td ->
  exists a b, tr s = a ++ EAdd p g true :: b /\ (forall b', ~ In (EDel p g b') a) .
Proof using.
  induction 1 as [|s p s' R IH ST]; intros q g td E; [discriminate|].
  assert (K : q <> p -> pcs s q = Initing g td ->
     exists a b, tr s = a ++ EAdd q g true :: b /\ (forall b', ~ In (EDel q g b') a)).
  { intros _ E'. eauto. }
  unfold PipeInit.step in ST.
  destruct (pcs s p) as [|g0|g0 td0|g0|g0|g0|g0|g0 td0|g0] eqn:P.
  - injection ST as <-. cbn [pcs tr] in *. destruct (Nat.eq_dec q p) as [->|N].
    + rewrite upd_same in E. discriminate.
    + rewrite upd_other in E by assumption. apply (K N E).
  - injection ST as <-. cbn [pcs tr] in *. destruct (Nat.eq_dec q p) as [->|N].
    + rewrite upd_same in E. destruct (procs (segs s g0) =? 0)%Z; [|discriminate]. injection E as -> <-.
      exists [], (tr s). split; [reflexivity|]. intros b' [].
    + rewrite upd_other in E by assumption. destruct (K N E) as (a & b & T & D). rewrite T.
      exists (EAdd p g0 (procs (segs s g0) =? 0)%Z :: a), b. split; [reflexivity|].
      intros b' [X|X]; [discriminate|now apply (D b')].
  - destruct td0 as [|i td0]; injection ST as <-; cbn [pcs tr] in *; destruct (Nat.eq_dec q p) as [->|N].
    + rewrite upd_same in E. discriminate.
    + rewrite upd_other in E by assumption. destruct (K N E) as (a & b & T & D). rewrite T.
      exists (EAttached p g0 :: a), b. split; [reflexivity|]. intros b' [X|X]; [discriminate|now apply (D b')].
    + rewrite upd_same in E. injection E as -> ->. destruct (IH p g (i :: td) P) as (a & b & T & D). rewrite T.
      exists (EInit p g i :: a), b. split; [reflexivity|]. intros b' [X|X]; [discriminate|now apply (D b')].
    + rewrite upd_other in E by assumption. destruct (K N E) as (a & b & T & D). rewrite T.
      exists (EInit p g0 i :: a), b. split; [reflexivity|]. intros b' [X|X]; [discriminate|now apply (D b')].
  - destruct (sha0 (segs s g0)); [|discriminate]. injection ST as <-. cbn [pcs tr] in *. destruct (Nat.eq_dec q p) as [->|N].
    + rewrite upd_same in E. discriminate.
    + rewrite upd_other in E by assumption. apply (K N E).
  - cbv zeta in ST. destruct (negb _ && _); injection ST as <-; cbn [pcs tr] in *; (destruct (Nat.eq_dec q p) as [->|N];
    [ rewrite upd_same in E; discriminate
    | rewrite upd_other in E by assumption; destruct (K N E) as (a & b & T & D); rewrite T ]).
    + exists (EFailed p g0 :: a), b. split; [reflexivity|]. intros b' [X|X]; [discriminate|now apply (D b')].
    + exists (EAttached p g0 :: a), b. split; [reflexivity|]. intros b' [X|X]; [discriminate|now apply (D b')].
  - injection ST as <-. cbn [pcs tr] in *. destruct (Nat.eq_dec q p) as [->|N].
    + rewrite upd_same in E. destruct (procs (segs s g0) =? 1)%Z; discriminate.
    + rewrite upd_other in E by assumption. destruct (K N E) as (a & b & T & D). rewrite T.
      eexists (_ :: a), b. split; [reflexivity|]. intros b' [X|X]; [congruence|now apply (D b')].
  - discriminate.
  - destruct td0; injection ST as <-; cbn [pcs tr] in *; (destruct (Nat.eq_dec q p) as [->|N];
    [ rewrite upd_same in E; discriminate | rewrite upd_other in E by assumption; apply (K N E) ]).
  - injection ST as <-. cbn [pcs tr] in *. destruct (Nat.eq_dec q p) as [->|N].
    + rewrite upd_same in E. discriminate.
    + rewrite upd_other in E by assumption. apply (K N E).
Qed.

Lemma init_by_first : forall s, reach s -> forall a p g i b,
  tr s = a ++ EInit p g i :: b -> In (EAdd p g true) b.
Proof using.
  induction 1 as [|s p s' R IH ST]; intros a q g i b E; [destruct a; discriminate|].
  assert (K : tr s' = tr s \/ exists e, tr s' = e :: tr s /\
     forall q g i, e = EInit q g i -> In (EAdd q g true) (tr s)).
  { pose proof (initing_first s R) as F. unfold PipeInit.step in ST.
    destruct (pcs s p) as [|g0|g0 td|g0|g0|g0|g0|g0 td|g0] eqn:P.
    - injection ST as <-. now left.
    - injection ST as <-. right. eexists. split; [reflexivity|discriminate].
    - destruct td as [|i0 td]; injection ST as <-; right; (eexists; split; [reflexivity|]); [discriminate|].
      intros q0 g1 i1 X. injection X as -> -> ->. destruct (F _ _ _ P) as (x & y & T & _). rewrite T.
      apply in_or_app. right. now left.
    - destruct (sha0 (segs s g0)); [|discriminate]. injection ST as <-. now left.
    - cbv zeta in ST. destruct (negb _ && _); injection ST as <-; right; (eexists; split; [reflexivity|discriminate]).
    - injection ST as <-. right. eexists. split; [reflexivity|discriminate].
    - discriminate.
    - destruct td; injection ST as <-; now left.
    - injection ST as <-. now left. }
  destruct K as [K|(e & K & F)]; rewrite K in E.
  - eapply IH; eauto.
  - destruct a as [|x a]; cbn in E; injection E as E1 E2.
    + subst. eapply F; reflexivity.
    + eapply IH; eauto.
Qed.

(* ------------------------------------------------------------------ *)
(** ** C37: what is initialised when *)

Lemma part_eqb_refl : forall x, part_eqb x x = true.
Proof using. now destruct x. Qed.
Lemma part_eqb_eq : forall x y, part_eqb x y = true -> x = y.
Proof using. intros x y H; destruct x, y; try discriminate; reflexivity. Qed.

(** While a segment was never torn down: at most one process was told it is
    first, and the parts it has not yet to initialise are ready. *)
Definition done_with (sg : seg) (td : list istep) : Prop :=
  (forall x, ~ In (InitPart x) td -> parts sg x = Ready).

Lemma never_torn_firsts : forall s, reach s -> forall g, never_torn g (tr s) -> (firsts g (tr s) <= 1)%Z.
Proof using.
  intros s R g NT. rewrite (first_last_alternate s R g).
  assert (L : forall t, (forall p, ~ In (EDel p g true) t) -> lasts g t = 0%Z).
  { induction t as [|e t IH]; intros H; [reflexivity|].
    assert (H' : forall p, ~ In (EDel p g true) t) by (intros p X; apply (H p); now right).
    destruct e as [| | | |p g' l]; cbn; auto. destruct l; auto.
    destruct (Nat.eqb_spec g' g) as [->|N]; [|rewrite IH by assumption; reflexivity].
    exfalso. apply (H p). now left. }
  rewrite L by assumption. destruct (users g (tr s) =? 0)%Z; lia.
Qed.

Lemma firsts_in : forall g t p, In (EAdd p g true) t -> (1 <= firsts g t)%Z.
Proof using.
  induction t as [|e t IH]; intros p H; [destruct H|].
  assert (NN : forall t, (0 <= firsts g t)%Z).
  { induction t0 as [|e0 t0 I]; cbn; [lia|]. destruct e0 as [? g' [|]| | | |]; auto. destruct (g' =? g); lia. }
  destruct H as [->|H].
  - cbn. rewrite Nat.eqb_refl. specialize (NN t). lia.
  - specialize (IH p H). destruct e as [? g' [|]| | | |]; cbn; auto. destruct (g' =? g); lia.
Qed.

Lemma firsts_unique : forall s, reach s -> forall g, never_torn g (tr s) ->
  forall p q, In (EAdd p g true) (tr s) -> In (EAdd q g true) (tr s) -> p = q.
Proof using.
  intros s R g NT p q Hp Hq. pose proof (never_torn_firsts s R g NT) as LE.
  apply in_split in Hp. destruct Hp as (a & b & E). rewrite E in *.
  assert (NN : forall t, (0 <= firsts g t)%Z).
  { induction t as [|e0 t0 I]; cbn; [lia|]. destruct e0 as [? g' [|]| | | |]; auto. destruct (g' =? g); lia. }
  assert (AP : forall x y, firsts g (x ++ y) = (firsts g x + firsts g y)%Z).
  { induction x as [|e x IX]; intros y; [reflexivity|]. destruct e as [? g' [|]| | | |]; cbn; rewrite ?IX; lia. }
  rewrite AP in LE. cbn in LE. rewrite Nat.eqb_refl in LE.
  pose proof (NN a). pose proof (NN b).
  apply in_app_or in Hq. destruct Hq as [Hq|[Hq|Hq]].
  - apply firsts_in in Hq. lia.
  - congruence.
  - apply firsts_in in Hq. lia.
Qed.

Lemma never_torn_cons : forall g e t, never_torn g (e :: t) -> never_torn g t.
Proof using. intros g e t H p X. apply (H p). now right. Qed.

(** Main invariant for a segment that was never torn down. *)
Record seg_inv (g : nat) (s : st) : Prop := mkinv {
  inv_tear : forall p td, pcs s p <> Tearing g td;
  inv_prog : forall p td, pcs s p = Initing g td ->
     exists pre, init_steps = pre ++ td /\
     (forall x, In (InitPart x) pre -> parts (segs s g) x = Ready) /\
     (In WriteShaRest pre -> shaR (segs s g) = Some (rev p)) /\
     (sha0 (segs s g) = true -> In WriteSha0 pre);
  inv_done : forall p, In (EAdd p g true) (tr s) -> (forall td, pcs s p <> Initing g td) ->
     (forall x, parts (segs s g) x = Ready) /\ shaR (segs s g) = Some (rev p);
  inv_sha0 : sha0 (segs s g) = true -> exists p, In (EAdd p g true) (tr s);
  inv_shaR : forall r, shaR (segs s g) = Some r -> exists f, In (EAdd f g true) (tr s) /\ rev f = r;
  inv_chk : forall p, pcs s p = Checking g -> sha0 (segs s g) = true;
  inv_att : forall p, In (EAttached p g) (tr s) -> enforce p = true ->
     exists f, In (EAdd f g true) (tr s) /\ rev f = rev p;
  inv_fail : forall p, In (EFailed p g) (tr s) -> exists f, In (EAdd f g true) (tr s) /\ rev f <> rev p }.

Lemma sha_order : forall pre td, init_steps = pre ++ td -> In WriteSha0 pre -> In WriteShaRest pre.
Proof using.
  intros pre td E H. unfold init_steps in E.
  destruct pre as [|a pre]; [destruct H|]. injection E as <- E.
  destruct pre as [|b pre]; [destruct H as [H|[]]; discriminate|]. injection E as <- E.
  right. now left.
Qed.

Lemma first_twice : forall s, reach s -> forall g p q, never_torn g (tr s) ->
  forall t, tr s = EAdd p g true :: t -> In (EAdd q g true) t -> False.
Proof using.
  intros s R g p q NT t E H. pose proof (never_torn_firsts s R g NT) as L. rewrite E in L. cbn in L.
  rewrite Nat.eqb_refl in L. apply firsts_in in H. lia.
Qed.

Lemma all_init : forall x, In (InitPart x) init_steps.
Proof using. intros []; cbn; tauto. Qed.

Lemma no_init_no_first : forall s, reach s -> forall g p, (procs (segs s g) =? 0)%Z = true ->
  never_torn g (tr s) -> ~ In (EAdd p g true) (tr s).
Proof using.
  intros s R g p E NT H. pose proof (first_last_alternate s R g) as A.
  apply Z.eqb_eq in E. rewrite (procs_users s R) in E. rewrite E in A. cbn in A.
  apply firsts_in in H.
  assert (L : forall t, (forall p, ~ In (EDel p g true) t) -> lasts g t = 0%Z).
  { induction t as [|e t IH]; intros HH; [reflexivity|].
    assert (H' : forall p, ~ In (EDel p g true) t) by (intros p0 X; apply (HH p0); now right).
    destruct e as [| | | |p0 g' l]; cbn; auto. destruct l; auto.
    destruct (Nat.eqb_spec g' g) as [->|N]; [|rewrite IH by assumption; reflexivity].
    exfalso. apply (HH p0). now left. }
  rewrite (L (tr s) NT) in A. lia.
Qed.

(** Once the segment is known to be published, its revision is readable. *)
Lemma published : forall s, reach s -> forall g, never_torn g (tr s) -> seg_inv g s -> sha0 (segs s g) = true ->
  exists f, In (EAdd f g true) (tr s) /\ shaR (segs s g) = Some (rev f).
Proof using.
  intros s R g NT I S0. destruct (inv_sha0 _ _ I S0) as (f & F). exists f. split; [assumption|].
  destruct (pcs s f) as [|g0|g0 td|g0|g0|g0|g0|g0 td|g0] eqn:P;
  try (apply (inv_done _ _ I f F); intros td'; congruence).
  destruct (Nat.eq_dec g0 g) as [->|N].
  - destruct (inv_prog _ _ I f td P) as (pre & E & _ & B & C). apply B. eapply sha_order; eauto.
  - apply (inv_done _ _ I f F). intros td'. congruence.
Qed.

(** Steps that leave segment [g], its flags and its initialisers alone. *)
Lemma inv_frame : forall s s' g p c, seg_inv g s -> segs s' g = segs s g \/
   (sha0 (segs s' g) = sha0 (segs s g) /\ shaR (segs s' g) = shaR (segs s g) /\ parts (segs s' g) = parts (segs s g)) ->
  (forall q, pcs s' q = upd (pcs s) p c q) ->
  (forall td, c <> Tearing g td) -> (forall td, c <> Initing g td) -> (c = Checking g -> sha0 (segs s g) = true) ->
  (forall td, pcs s p <> Initing g td) ->
  (forall e, In e (tr s) -> In e (tr s')) ->
  (forall q, In (EAdd q g true) (tr s') -> In (EAdd q g true) (tr s)) ->
  (forall q, In (EAttached q g) (tr s') -> enforce q = true -> In (EAttached q g) (tr s) \/
      exists f, In (EAdd f g true) (tr s) /\ rev f = rev q) ->
  (forall q, In (EFailed q g) (tr s') -> In (EFailed q g) (tr s) \/
      exists f, In (EAdd f g true) (tr s) /\ rev f <> rev q) ->
  seg_inv g s'.
Proof using.
  intros s s' g p c [I1 I2 I3 I4 IR IC I5 I6] SG PC C1 C2 C3 PI MON NF NA NX.
  assert (SG' : sha0 (segs s' g) = sha0 (segs s g) /\ shaR (segs s' g) = shaR (segs s g) /\ parts (segs s' g) = parts (segs s g)).
  { destruct SG as [->|SG]; [auto|exact SG]. }
  destruct SG' as (E1 & E2 & E3). clear SG.
  constructor; try rewrite E1; try rewrite E2; try rewrite E3.
  - intros q td. rewrite PC. unfold upd. destruct (q =? p); auto.
  - intros q td. rewrite PC. unfold upd. destruct (q =? p).
    + intros X. exfalso. now apply (C2 td).
    + apply I2.
  - intros q H Q. apply I3; [now apply NF|]. intros td X. destruct (Nat.eqb_spec q p) as [->|N].
    + now apply (PI td).
    + apply (Q td). rewrite PC. now rewrite upd_other.
  - intros S0. destruct (I4 S0) as (f & F). exists f. now apply MON.
  - intros r S0. destruct (IR r S0) as (f & F & X). exists f. split; [now apply MON|assumption].
  - intros q. rewrite PC. unfold upd. destruct (q =? p); auto. intros X. eauto.
  - intros q H Q. destruct (NA q H Q) as [H'|(f & F & X)].
    + destruct (I5 q H' Q) as (f & F & X). exists f. split; [now apply MON|assumption].
    + exists f. split; [now apply MON|assumption].
  - intros q H. destruct (NX q H) as [H'|(f & F & X)].
    + destruct (I6 q H') as (f & F & X). exists f. split; [now apply MON|assumption].
    + exists f. split; [now apply MON|assumption].
Qed.

Lemma never_torn_inv : forall s, reach s -> forall g, never_torn g (tr s) -> seg_inv g s.
Proof using.
  induction 1 as [|s p s' R IH ST]; intros g NT.
  { constructor; cbn; try discriminate; try tauto. }
  assert (R' : reach s') by (eapply reach_step; eauto).
  assert (KT : exists l, tr s' = l ++ tr s).
  { unfold PipeInit.step in ST. destruct (pcs s p) as [|g0|g0 td|g0|g0|g0|g0|g0 td|g0] eqn:P.
    - injection ST as <-. now exists [].
    - injection ST as <-. now eexists [_].
    - destruct td; injection ST as <-; now eexists [_].
    - destruct (sha0 (segs s g0)); [|discriminate]. injection ST as <-. now exists [].
    - cbv zeta in ST. destruct (negb _ && _); injection ST as <-; now eexists [_].
    - injection ST as <-. now eexists [_].
    - discriminate.
    - destruct td; injection ST as <-; now exists [].
    - injection ST as <-. now exists []. }
  assert (NT0 : never_torn g (tr s)).
  { destruct KT as (l & E). intros q X. apply (NT q). rewrite E. apply in_or_app. now right. }
  assert (I : seg_inv g s) by exact (IH g NT0). clear IH KT.
  pose proof (initing_first s R) as IF.
  pose proof I as J. destruct J as [I1 I2 I3 I4 IR IC I5 I6].
  unfold PipeInit.step in ST.
  destruct (pcs s p) as [|g0|g0 td|g0|g0|g0|g0|g0 td|g0] eqn:P.
  - (* open *) injection ST as <-. eapply (inv_frame s _ g p (Mapped (cur s))); cbn [pcs tr segs]; auto; try congruence.
  - (* add *) injection ST as <-. cbn [tr] in NT.
    destruct (Nat.eq_dec g0 g) as [->|NG].
    + destruct (procs (segs s g) =? 0)%Z eqn:Z0.
      * constructor; cbn [pcs tr segs] in *; try rewrite upd_same; cbn [sha0 shaR parts].
        -- intros q td. unfold upd. destruct (q =? p); [discriminate|apply I1].
        -- intros q td. unfold upd at 1. destruct (Nat.eqb_spec q p) as [->|N]; [|apply I2].
           intros X. injection X as <-.
           exists []. split; [reflexivity|]. split; [intros x []|]. split; [intros []|].
           intros S0. destruct (I4 S0) as (f & F). exfalso. exact (no_init_no_first s R g f Z0 NT0 F).
        -- intros q [H|H] Q.
           ++ injection H as ->. exfalso. apply (Q init_steps). apply upd_same.
           ++ exfalso. exact (no_init_no_first s R g q Z0 NT0 H).
        -- intros S0. destruct (I4 S0) as (f & F). exists f. now right.
        -- intros r S0. destruct (IR r S0) as (f & F & X). exists f. split; [now right|assumption].
        -- intros q. unfold upd. destruct (q =? p); [discriminate|apply IC].
        -- intros q [H|H] Q; [discriminate|]. destruct (I5 q H Q) as (f & F & E). exists f. split; [now right|assumption].
        -- intros q [H|H]; [discriminate|]. destruct (I6 q H) as (f & F & E). exists f. split; [now right|assumption].
      * eapply (inv_frame s _ g p (Spinning g)); cbn [pcs tr segs]; try rewrite upd_same; cbn [sha0 shaR parts]; auto; try congruence.
        -- intros e H. now right.
        -- intros q [H|H]; [discriminate|assumption].
        -- intros q [H|H] _; [discriminate|now left].
        -- intros q [H|H]; [discriminate|now left].
    + eapply (inv_frame s _ g p (if (procs (segs s g0) =? 0)%Z then Initing g0 init_steps else Spinning g0));
        cbn [pcs tr segs]; try rewrite (upd_other _ (segs s)) by congruence; auto;
        try (destruct (procs (segs s g0) =? 0)%Z; congruence).
      * intros e H. now right.
      * intros q [H|H]; [congruence|assumption].
      * intros q [H|H] _; [discriminate|now left].
      * intros q [H|H]; [discriminate|now left].
  - destruct td as [|i td]; injection ST as <-; cbn [tr] in NT.
    + (* initialiser returns *)
      destruct (Nat.eq_dec g0 g) as [->|NG].
      * destruct (IF p g [] P) as (a & b & T & _).
        assert (FP : In (EAdd p g true) (tr s)) by (rewrite T; apply in_or_app; right; now left).
        constructor; cbn [pcs tr segs] in *.
        -- intros q td. unfold upd. destruct (q =? p); [discriminate|apply I1].
        -- intros q td. unfold upd. destruct (q =? p); [discriminate|apply I2].
        -- intros q [H|H] Q; [discriminate|].
           assert (q = p) by (apply (firsts_unique s R g NT0); assumption).
           subst q. destruct (I2 p [] P) as (pre & E & A & B & _). rewrite app_nil_r in E. subst pre.
           split; [intros x; apply A, all_init|apply B; cbn; tauto].
        -- intros S0. exists p. now right.
        -- intros r S0. destruct (IR r S0) as (f & F & X). exists f. split; [now right|assumption].
        -- intros q. unfold upd. destruct (q =? p); [discriminate|apply IC].
        -- intros q [H|H] Q.
           ++ injection H as ->. exists q. split; [now right|reflexivity].
           ++ destruct (I5 q H Q) as (f & F & E). exists f. split; [now right|assumption].
        -- intros q [H|H]; [discriminate|]. destruct (I6 q H) as (f & F & E). exists f. split; [now right|assumption].
      * eapply (inv_frame s _ g p (In_ g0)); cbn [pcs tr segs]; auto; try congruence.
        -- intros e H. now right.
        -- intros q [H|H]; [discriminate|assumption].
        -- intros q [H|H] _; [congruence|now left].
        -- intros q [H|H]; [discriminate|now left].
    + (* initialisation step *)
      destruct (Nat.eq_dec g0 g) as [->|NG].
      * destruct (IF p g (i :: td) P) as (a & b & T & _).
        assert (FP : In (EAdd p g true) (tr s)) by (rewrite T; apply in_or_app; right; now left).
        destruct (I2 p (i :: td) P) as (pre & E & A & B & C).
        constructor; cbn [pcs tr segs] in *; try rewrite upd_same.
        -- intros q td0. unfold upd. destruct (q =? p); [discriminate|apply I1].
        -- intros q td0 Q.
           assert (q = p).
           { destruct (Nat.eq_dec q p); [assumption|]. rewrite upd_other in Q by assumption.
             destruct (IF q g td0 Q) as (a' & b' & T' & _). apply (firsts_unique s R g NT0); [|assumption].
             rewrite T'. apply in_or_app. right. now left. }
           subst q. rewrite upd_same in Q. injection Q as <-.
           exists (pre ++ [i]). split; [rewrite <- app_assoc; exact E|].
           split; [|split].
           ++ intros x H. apply in_app_or in H. destruct i as [| |y]; cbn.
              ** destruct H as [H|[H|[]]]; [now apply A|discriminate].
              ** destruct H as [H|[H|[]]]; [now apply A|discriminate].
              ** destruct (part_eqb x y) eqn:EQ; [reflexivity|]. destruct H as [H|[H|[]]]; [now apply A|].
                 injection H as <-. rewrite part_eqb_refl in EQ. discriminate.
           ++ intros H. apply in_app_or in H. destruct i as [| |y]; cbn.
              ** reflexivity.
              ** destruct H as [H|[H|[]]]; [now apply B|discriminate].
              ** destruct H as [H|[H|[]]]; [now apply B|discriminate].
           ++ intros H. apply in_or_app. destruct i as [| |y]; cbn in H |- *; auto.
        -- intros q [H|H] Q; [discriminate|]. exfalso.
           assert (q = p) by (apply (firsts_unique s R g NT0); assumption). subst q.
           apply (Q td). apply upd_same.
        -- intros _. exists p. now right.
        -- intros r H. destruct i as [| |y]; cbn in H.
           ++ injection H as <-. exists p. split; [now right|reflexivity].
           ++ destruct (IR r H) as (f & F & X). exists f. split; [now right|assumption].
           ++ destruct (IR r H) as (f & F & X). exists f. split; [now right|assumption].
        -- intros q. unfold upd. destruct (q =? p); [discriminate|]. intros Q. apply IC in Q. destruct i; cbn; auto.
        -- intros q [H|H] Q; [discriminate|]. destruct (I5 q H Q) as (f & F & E0). exists f. split; [now right|assumption].
        -- intros q [H|H]; [discriminate|]. destruct (I6 q H) as (f & F & E0). exists f. split; [now right|assumption].
      * eapply (inv_frame s _ g p (Initing g0 td)); cbn [pcs tr segs]; try rewrite (upd_other _ (segs s)) by congruence; auto; try congruence.
        -- intros e H. now right.
        -- intros q [H|H]; [discriminate|assumption].
        -- intros q [H|H] _; [discriminate|now left].
        -- intros q [H|H]; [discriminate|now left].
  - (* saw sha[0] *)
    destruct (sha0 (segs s g0)) eqn:S0; [|discriminate]. injection ST as <-.
    eapply (inv_frame s _ g p (Checking g0)); cbn [pcs tr segs]; auto; try congruence.
  - (* version check *)
    cbv zeta in ST.
    destruct (negb match shaR (segs s g0) with Some r => (r =? rev p)%N | None => false end && enforce p) eqn:CK;
    injection ST as <-; cbn [tr] in NT.
    + apply andb_true_iff in CK. destruct CK as [CK _]. apply negb_true_iff in CK.
      eapply (inv_frame s _ g p (Failed g0)); cbn [pcs tr segs]; auto; try congruence.
      * intros e H. now right.
      * intros q [H|H]; [discriminate|assumption].
      * intros q [H|H] _; [discriminate|now left].
      * intros q [H|H]; [|now left]. injection H as -> ->. right.
        destruct (published s R g NT0 I (IC q P)) as (f & F & E). exists f. split; [assumption|].
        rewrite E in CK. now apply N.eqb_neq.
    + eapply (inv_frame s _ g p (In_ g0)); cbn [pcs tr segs]; auto; try congruence.
      * intros e H. now right.
      * intros q [H|H]; [discriminate|assumption].
      * intros q [H|H] Q; [|now left]. injection H as -> ->. right.
        rewrite Q in CK. rewrite andb_true_r in CK. apply negb_false_iff in CK.
        destruct (shaR (segs s g)) as [r|] eqn:SR; [|discriminate]. apply N.eqb_eq in CK. subst r. now apply IR.
      * intros q [H|H]; [discriminate|now left].
  - (* detach *) injection ST as <-. cbn [tr] in NT.
    eapply (inv_frame s _ g p (if (procs (segs s g0) =? 1)%Z then Tearing g0 exit_parts else Out)); cbn [pcs tr segs]; auto;
      try (destruct (procs (segs s g0) =? 1)%Z eqn:L; congruence).
    + destruct (Nat.eq_dec g0 g) as [->|N]; [right; rewrite upd_same; auto|left; rewrite upd_other by congruence; reflexivity].
    + intros td. destruct (procs (segs s g0) =? 1)%Z eqn:L; [|discriminate]. intros X. injection X as -> _.
      apply (NT p). now left.
    + intros e H. now right.
    + intros q [H|H]; [discriminate|assumption].
    + intros q [H|H] _; [discriminate|now left].
    + intros q [H|H]; [discriminate|now left].
  - discriminate.
  - assert (NG : g0 <> g) by (intros ->; now apply (I1 p td)).
    destruct td as [|x td]; injection ST as <-.
    + eapply (inv_frame s _ g p (Unlinking g0)); cbn [pcs tr segs]; auto; try congruence.
    + eapply (inv_frame s _ g p (Tearing g0 td)); cbn [pcs tr segs]; auto; try congruence.
      left. now rewrite upd_other by congruence.
  - injection ST as <-. eapply (inv_frame s _ g p Out); cbn [pcs tr segs]; auto; try congruence.
Qed.

(* ------------------------------------------------------------------ *)
(** ** C36 *)

(** C36, counter part, for every execution (any number of processes, any
    schedule, attaching and detaching any number of times, any revisions):
    attach reports 'first' exactly when no process had attached without
    detaching; detach reports 'last' exactly when none is left that attached
    without detaching; only a process told 'first' initialises; 'first' and
    'last' strictly alternate. *)
Theorem C36_first_and_last_partial : forall s, reach s -> forall g,
  (forall after p f before, tr s = after ++ EAdd p g f :: before -> f = (users g before =? 0)%Z) /\
  (forall after p l before, tr s = after ++ EDel p g l :: before -> l = (users g (EDel p g l :: before) =? 0)%Z) /\
  (forall after p i before, tr s = after ++ EInit p g i :: before -> In (EAdd p g true) before) /\
  (forall after before, tr s = after ++ before ->
     firsts g before = (lasts g before + (if (users g before =? 0)%Z then 0 else 1))%Z /\ (0 <= users g before)%Z).
Proof using.
  intros s R g. split; [|split; [|split]].
  - intros a p f b E. exact (flags_exact s R b _ a E).
  - intros a p l b E. exact (flags_exact s R b _ a E).
  - intros a p i b E. eapply init_by_first; eauto.
  - intros a b E. destruct (prefix_reach s R a b E) as (s0 & R0 & <-). split.
    + now apply first_last_alternate.
    + now apply users_nonneg.
Qed.

Lemma users_remaining : forall g t, no_failed_attach g t -> users g t = remaining g t.
Proof using.
  induction t as [|e t IH]; intros H; [reflexivity|].
  assert (H' : no_failed_attach g t) by (intros p X; apply (H p); now right).
  specialize (IH H'). destruct e as [p g' f|p g' i|p g'|p g'|p g' l]; cbn; try lia.
  destruct (Nat.eqb_spec g' g) as [->|N]; [|lia]. exfalso. apply (H p). now left.
Qed.

(** C36 in full whenever no process was turned away for its revision: 'last' is
    reported exactly when no process remains. *)
Theorem C36_last_when_none_remain_partial : forall s, reach s -> forall g, no_failed_attach g (tr s) ->
  forall after p l before, tr s = after ++ EDel p g l :: before ->
  (l = true <-> remaining g (EDel p g l :: before) = 0%Z).
Proof using.
  intros s R g NF a p l b E. pose proof (flags_exact s R b _ a E) as F. cbn beta iota in F.
  rewrite <- users_remaining.
  - rewrite F at 1. apply Z.eqb_eq.
  - intros q X. apply (NF q). rewrite E. apply in_or_app. now right.
Qed.

(** The processes that attached and did not detach are really there: the count
    of users is the number of processes inside the attach call, attached, or
    turned away. *)
Theorem C36_users_are_processes : forall s, reach s -> exists n,
  (forall p, n <= p -> pcs s p = Out) /\
  forall g, users g (tr s) = count (fun p => holding g (pcs s p)) n.
Proof using.
  intros s R. destruct (holders s R) as (n & HO & HC). exists n. split; [assumption|].
  intros g. rewrite <- procs_users by assumption. now apply HC.
Qed.

(** What someone who only watches where the processes are can see: process [p]
    moved from [a] to [b].  Entering the initialisation is being told 'first',
    entering the tear-down is being told 'last', coming back with the segment is
    a successful attach, ending in [Failed] an unsuccessful one. *)
Definition observe (p : nat) (a b : pc) : list event :=
  match a, b with
  | Mapped g, Initing _ _ => [EAdd p g true]
  | Mapped g, _ => [EAdd p g false]
  | Initing g (i :: _), Initing _ _ => [EInit p g i]
  | Initing g _, In_ _ => [EAttached p g]
  | Checking g, In_ _ => [EAttached p g]
  | Checking g, _ => [EFailed p g]
  | In_ g, Tearing _ _ => [EDel p g true]
  | In_ g, _ => [EDel p g false]
  | _, _ => []
  end.

(** The recorded history is exactly that observation, so that the theorems over
    the history are statements about what the processes do: a process told
    'first' goes on to run the whole initialisation and no other process does;
    a process told 'last' goes on to destroy the segment and no other does. *)
Theorem C36_history_is_observed : forall s p s', step p s = Some s' ->
  tr s' = app (observe p (pcs s p) (pcs s' p)) (tr s) /\
  (forall q, q <> p -> pcs s' q = pcs s q) /\
  (forall g td, pcs s' p = Initing g td -> pcs s p = Mapped g /\ td = init_steps \/ exists i, pcs s p = Initing g (i :: td)) /\
  (forall g td, pcs s' p = Tearing g td -> pcs s p = In_ g /\ td = exit_parts \/ exists x, pcs s p = Tearing g (x :: td)) /\
  (forall g, pcs s' p = In_ g -> pcs s p = Initing g [] \/ pcs s p = Checking g).
Proof using.
  intros s p s' ST. unfold PipeInit.step in ST.
  destruct (pcs s p) as [|g0|g0 td|g0|g0|g0|g0|g0 td|g0] eqn:P;
    try destruct td; try destruct (sha0 (segs s g0)); cbv zeta in ST; try destruct (negb _ && _);
    try discriminate; injection ST as <-; cbn [pcs tr]; rewrite upd_same;
    try (destruct (procs (segs s g0) =? 0)%Z); try (destruct (procs (segs s g0) =? 1)%Z);
    (split; [reflexivity|split; [intros q N; now apply upd_other|]]);
    (repeat split; intros; try discriminate);
    match goal with H : _ = _ |- _ => injection H; intros; subst end; eauto.
Qed.

(** Two processes never initialise the same segment at the same time. *)
Theorem C36_one_initialiser : forall s, reach s -> forall p q g td td',
  pcs s p = Initing g td -> pcs s q = Initing g td' -> p = q.
Proof using.
  induction 1 as [|s r s' R IH ST]; intros p q g td td' Hp Hq; [discriminate|].
  destruct (C36_history_is_observed s r s' ST) as (_ & O & OI & _).
  destruct (Nat.eq_dec p q) as [|NE]; [assumption|exfalso].
  assert (K : forall a b ta tb, a <> b -> a = r -> pcs s' a = Initing g ta -> pcs s' b = Initing g tb -> False).
  { intros a b ta tb N -> A B. rewrite (O b) in B by congruence.
    destruct (OI g ta A) as [[M _]|(i & M)].
    - pose proof (holding_procs s R b g) as H. rewrite B in H. cbn in H. rewrite Nat.eqb_refl in H. specialize (H eq_refl).
      unfold PipeInit.step in ST. rewrite M in ST. injection ST as <-. cbn [pcs] in A. rewrite upd_same in A.
      replace (procs (segs s g) =? 0)%Z with false in A by (symmetry; apply Z.eqb_neq; lia). discriminate.
    - apply N. eapply IH; eauto. }
  destruct (Nat.eq_dec p r) as [E|Np]; [eapply (K p q); eauto|].
  destruct (Nat.eq_dec q r) as [E|Nq]; [eapply (K q p); eauto|].
  rewrite O in Hp, Hq by assumption. apply NE. eapply IH; eauto.
Qed.

(* ------------------------------------------------------------------ *)
(** ** C37, the part that holds *)

Lemma holding_added : forall s, reach s -> forall q g, holding g (pcs s q) = true -> exists b, In (EAdd q g b) (tr s).
Proof using.
  induction 1 as [|s r s' R IH ST]; intros q g H; [discriminate|].
  unfold PipeInit.step in ST. destruct (Nat.eq_dec q r) as [->|N].
  - destruct (pcs s r) as [|g0|g0 td|g0|g0|g0|g0|g0 td|g0] eqn:P.
    + injection ST as <-. cbn [pcs] in H. rewrite upd_same in H. discriminate.
    + injection ST as <-. cbn [pcs tr] in *. rewrite upd_same in H. exists (procs (segs s g0) =? 0)%Z.
      left. f_equal. destruct (procs (segs s g0) =? 0)%Z; cbn in H; now apply Nat.eqb_eq in H.
    + destruct td; injection ST as <-; cbn [pcs tr] in *; rewrite upd_same in H; cbn in H;
      (destruct (IH r g) as (b & B); [rewrite P; exact H|exists b; now right]).
    + destruct (sha0 (segs s g0)); [|discriminate]. injection ST as <-; cbn [pcs tr] in *; rewrite upd_same in H; cbn in H.
      destruct (IH r g) as (b & B); [rewrite P; exact H|exists b; exact B].
    + cbv zeta in ST. destruct (negb _ && _); injection ST as <-; cbn [pcs tr] in *; rewrite upd_same in H; cbn in H;
      (destruct (IH r g) as (b & B); [rewrite P; exact H|exists b; now right]).
    + injection ST as <-. cbn [pcs tr] in *. rewrite upd_same in H. destruct (procs (segs s g0) =? 1)%Z; discriminate.
    + discriminate.
    + destruct td; injection ST as <-; cbn [pcs] in H; rewrite upd_same in H; discriminate.
    + injection ST as <-. cbn [pcs] in H. rewrite upd_same in H. discriminate.
  - destruct (pcs s r) as [|g0|g0 td|g0|g0|g0|g0|g0 td|g0] eqn:P; try destruct td; try destruct (sha0 (segs s g0));
    cbv zeta in ST; try destruct (negb _ && _); try discriminate; injection ST as <-; cbn [pcs tr] in *;
    rewrite upd_other in H by assumption; destruct (IH q g H) as (b & B); exists b; try right; exact B.
Qed.

Lemma attached_added : forall s, reach s -> forall p g, In (EAttached p g) (tr s) -> exists b, In (EAdd p g b) (tr s).
Proof using.
  induction 1 as [|s q s' R IH ST]; intros p g H; [destruct H|].
  pose proof (holding_added s R) as HG.
  assert (K : tr s' = tr s \/ exists e, tr s' = e :: tr s /\ forall p g, e = EAttached p g -> holding g (pcs s p) = true).
  { unfold PipeInit.step in ST.
    destruct (pcs s q) as [|g0|g0 td|g0|g0|g0|g0|g0 td|g0] eqn:P; try destruct td; try destruct (sha0 (segs s g0));
    cbv zeta in ST; try destruct (negb _ && _); try discriminate; injection ST as <-; cbn [tr];
    try (left; reflexivity); right; (eexists; split; [reflexivity|]); try discriminate;
    intros p1 g1 X; injection X as <- <-; rewrite P; cbn; apply Nat.eqb_refl. }
  destruct K as [K|(e & K & F)]; rewrite K in *.
  - destruct (IH p g H) as (b & B). now exists b.
  - destruct H as [H|H].
    + destruct (HG p g (F p g H)) as (b & B). exists b. now right.
    + destruct (IH p g H) as (b & B). exists b. now right.
Qed.

(** While it was never torn down, a segment that was ever attached to has users. *)
Lemma added_users : forall s, reach s -> forall g p b, never_torn g (tr s) -> In (EAdd p g b) (tr s) ->
  (procs (segs s g) =? 0)%Z = false.
Proof using.
  intros s R g p b NT H. apply in_split in H. destruct H as (x & y & E).
  pose proof (flags_exact s R y _ x E) as F. cbn beta iota in F.
  assert (E1 : In (EAdd p g true) (tr s) \/ exists q, In (EAdd q g true) y).
  { destruct b.
    - left. rewrite E. apply in_or_app. right. now left.
    - right. symmetry in F. apply Z.eqb_neq in F.
      destruct (prefix_reach s R (x ++ [EAdd p g false]) y) as (s0 & R0 & E0).
      { rewrite <- app_assoc. exact E. }
      pose proof (first_last_alternate s0 R0 g) as A. rewrite E0 in A.
      apply Z.eqb_neq in F. rewrite F in A.
      assert (L : forall t, (0 <= lasts g t)%Z).
      { induction t as [|e t I]; cbn; [lia|]. destruct e as [| | | |? g' [|]]; auto. destruct (Nat.eqb g' g); lia. }
      specialize (L y). clear - A L. assert (Z : (1 <= firsts g y)%Z) by lia. clear - Z.
      induction y as [|e y IH]; cbn in Z; [lia|].
      destruct e as [q g' [|]|? ? ?|? ?|? ?|? ? ?]; cbn in Z; try (destruct (IH Z) as (r & Hr); exists r; now right).
      destruct (Nat.eqb_spec g' g) as [->|N].
      + exists q. now left.
      + rewrite Z.add_0_r in Z. destruct (IH Z) as (r & Hr); exists r; now right. }
  destruct (procs (segs s g) =? 0)%Z eqn:Z0; [|reflexivity]. exfalso.
  destruct E1 as [E1|(q & E1)].
  - exact (no_init_no_first s R g p Z0 NT E1).
  - apply (no_init_no_first s R g q Z0 NT). rewrite E. apply in_or_app. right. now right.
Qed.

(** An initialiser that has returned is not initialising again. *)
Lemma attached_not_initing : forall s, reach s -> forall g, never_torn g (tr s) ->
  forall f td, pcs s f = Initing g td -> In (EAttached f g) (tr s) -> False.
Proof using.
  induction 1 as [|s p s' R IH ST]; intros g NT f td P A; [discriminate|].
  pose proof (attached_added s R) as AA. pose proof (added_users s R) as AU.
  unfold PipeInit.step in ST.
  destruct (pcs s p) as [|g0|g0 td0|g0|g0|g0|g0|g0 td0|g0] eqn:Pp.
  all: try (destruct td0 as [|i0 td0]).
  all: try (destruct (sha0 (segs s g0)); [|discriminate]).
  all: cbv zeta in ST.
  all: try (destruct (negb _ && _)).
  all: try discriminate.
  all: injection ST as <-; cbn [pcs tr] in *.
  all: try (apply never_torn_cons in NT as NT0).
  all: destruct (Nat.eq_dec f p) as [->|N];
       [rewrite upd_same in P; try discriminate|rewrite upd_other in P by assumption].
  all: try (eapply IH; eassumption).
  all: try (destruct A as [A|A]; [congruence|eapply IH; eassumption]).
  - destruct (procs (segs s g0) =? 0)%Z eqn:Z0; [|discriminate]. injection P as -> <-.
    destruct A as [A|A]; [discriminate|]. destruct (AA p g A) as (b & B).
    rewrite (AU g p b NT0 B) in Z0. discriminate.
  - injection P as -> <-. destruct A as [A|A]; [discriminate|]. eapply IH; eassumption.
  - destruct (procs (segs s g0) =? 1)%Z; discriminate.
Qed.

(** Until the segment's last user leaves it: from the moment the initialiser's
    attach call has returned, every part is initialised; every attached process
    that enforces versions has the initialiser's revision, and only a process
    of another revision is turned away (in particular no process ever reads a
    half-written revision string). *)
Theorem C37_after_initialiser_returned_partial : forall s, reach s -> forall g, never_torn g (tr s) ->
  (forall f, In (EAdd f g true) (tr s) -> In (EAttached f g) (tr s) -> forall x, parts (segs s g) x = Ready) /\
  (forall p, In (EAttached p g) (tr s) -> enforce p = true -> exists f, In (EAdd f g true) (tr s) /\ rev f = rev p) /\
  (forall p, In (EFailed p g) (tr s) -> exists f, In (EAdd f g true) (tr s) /\ rev f <> rev p).
Proof using.
  intros s R g NT. pose proof (never_torn_inv s R g NT) as I. split; [|split].
  - intros f F A. apply (inv_done _ _ I f F). intros td P. exact (attached_not_initing s R g NT f td P A).
  - intros p. exact (inv_att _ _ I p).
  - intros p. exact (inv_fail _ _ I p).
Qed.

(** In particular the initialiser itself always gets a fully initialised
    segment: at the very step at which its call returns. *)
Theorem C37_initialiser_partial : forall s, reach s -> forall p g, pcs s p = Initing g [] ->
  never_torn g (tr s) -> forall x, parts (segs s g) x = Ready.
Proof using.
  intros s R p g P NT x. pose proof (never_torn_inv s R g NT) as I.
  destruct (inv_prog _ _ I p [] P) as (pre & E & A & _). rewrite app_nil_r in E. subst pre. apply A, all_init.
Qed.
End Proofs.

(* ------------------------------------------------------------------ *)
(** ** Refutations and concrete cases *)

(** A process turned away for its revision exits without arax_pipe_exit
    ([impl.c:101-104,125-129]: GO_FAIL, exit(1)); from then on nobody who leaves
    this segment is ever told it is the last, so the segment is never torn down
    nor its file removed. *)
Theorem C36_turned_away_blocks_last : forall rev enforce s, reach rev enforce s -> forall f g,
  pcs s f = Failed g -> forall p s', step rev enforce p s = Some s' ->
  pcs s' f = Failed g /\ tr s' <> EDel p g true :: tr s.
Proof.
  intros rev enforce s R f g F p s' ST.
  assert (R' : reach rev enforce s') by (eapply reach_step; eauto).
  assert (FP : f <> p). { intros ->. unfold step in ST. rewrite F in ST. discriminate. }
  assert (F' : pcs s' f = Failed g).
  { unfold step in ST.
    destruct (pcs s p) as [|g0|g0 td|g0|g0|g0|g0|g0 td|g0] eqn:P; try destruct td; try destruct (sha0 (segs s g0));
    cbv zeta in ST; try destruct (negb _ && _); try discriminate; injection ST as <-; cbn [pcs];
    rewrite upd_other by assumption; exact F. }
  split; [exact F'|]. intros E.
  pose proof (flags_exact rev enforce s' R' (tr s) _ [] E) as X. cbn beta iota in X. rewrite <- E in X.
  rewrite <- (procs_users rev enforce s' R') in X. symmetry in X. apply Z.eqb_eq in X.
  assert (H : holding g (pcs s' f) = true) by (rewrite F'; cbn; apply Nat.eqb_refl).
  pose proof (holding_procs rev enforce s' R' f g H). lia.
Qed.

Definition ex_rev (p : nat) : N := if p =? 1 then 7%N else 3%N.
Definition ex_enforce (_ : nat) : bool := true.
Definition same_rev (_ : nat) : N := 3%N.
Definition final (rev : nat -> N) (l : list nat) : st :=
  match run rev ex_enforce l init_st with Some s => s | None => init_st end.
Definition ok (rev : nat -> N) (l : list nat) : bool :=
  match run rev ex_enforce l init_st with Some _ => true | None => false end.

Lemma final_reach : forall rev l, ok rev l = true -> reach rev ex_enforce (final rev l).
Proof.
  intros rev l. unfold ok, final. destruct (run rev ex_enforce l init_st) eqn:E; [|discriminate].
  intros _. eapply run_reach; [constructor|exact E].
Qed.

(** Full attach by process [p] as first user: open, add, 12 steps, return. *)
Definition attach_first (p : nat) : list nat := repeat p 15.
(** Attach by a later user: open, add, see sha[0], check. *)
Definition attach_later (p : nat) : list nat := repeat p 4.
(** Detach of the last user: del, two parts, done, unlink. *)
Definition detach_last (p : nat) : list nat := repeat p 5.

(** C36 refuted as stated: process 1 (another revision) is turned away, process 0
    then leaves; no process remains, but 'last' was not reported. *)
Theorem C36_refuted_version_mismatch : exists s, reach ex_rev ex_enforce s /\
  tr s = EDel 0 0 false :: EFailed 1 0 :: EAdd 1 0 false :: EAttached 0 0 ::
         map (EInit 0 0) (List.rev init_steps) ++ [EAdd 0 0 true] /\
  remaining 0 (tr s) = 0%Z /\ pcs s 0 = Out /\ pcs s 1 = Failed 0.
Proof.
  exists (final ex_rev (attach_first 0 ++ attach_later 1 ++ [0])). split; [apply final_reach; vm_compute; reflexivity|].
  vm_compute. repeat split; reflexivity.
Qed.

Definition early : list nat := [0; 0; 0; 0; 0] ++ attach_later 1.
Definition early_tr : list event := Eval vm_compute in tr (final same_rev early).
Lemma early_tr_eq : tr (final same_rev early) = early_tr.
Proof. vm_compute. reflexivity. Qed.

(** C37 refuted: process 1 attached successfully (and may allocate and register
    objects) while the allocator, the registries and the accounting are still the
    zeroes of the fresh file. *)
Theorem C37_refuted : exists s, reach same_rev ex_enforce s /\ never_torn 0 (tr s) /\
  pcs s 1 = In_ 0 /\ In (EAttached 1 0) (tr s) /\
  parts (segs s 0) PObjs = Raw /\ parts (segs s 0) PAlloc = Raw /\ parts (segs s 0) PThrottle = Raw.
Proof.
  exists (final same_rev early). rewrite early_tr_eq. split; [apply final_reach; vm_compute; reflexivity|].
  split; [|vm_compute; tauto].
  intros p H. unfold early_tr in H. repeat (destruct H as [H|H]; [discriminate|]). exact H.
Qed.

(** C36/C37: the last user's tear-down is not atomic with its decrement. Process 0
    leaves as last; before it destroys the allocator process 1, having mapped the
    file, attaches as first user and initialises; then process 0 destroys the
    allocator that process 1 uses, and removes the file, so that process 2 creates
    a second segment: two attached processes that do not see each other. *)
Theorem C37_teardown_overlaps_new_user : exists s, reach same_rev ex_enforce s /\
  pcs s 1 = In_ 0 /\ parts (segs s 0) PAlloc = Torn /\ pcs s 2 = In_ 1.
Proof.
  exists (final same_rev (attach_first 0 ++ [0] ++ attach_first 1 ++ [0; 0; 0; 0] ++ attach_first 2)).
  split; [apply final_reach; vm_compute; reflexivity|].
  vm_compute. repeat split; reflexivity.
Qed.

(** Likewise sha[0] survives the first period of use: a later process of the
    second period does not wait for the second initialiser at all. *)
Theorem C37_second_period_no_wait : exists s, reach same_rev ex_enforce s /\
  pcs s 2 = In_ 0 /\ pcs s 1 = Initing 0 init_steps.
Proof.
  exists (final same_rev (attach_first 0 ++ [0] ++ [1; 1] ++ attach_later 2)).
  split; [apply final_reach; vm_compute; reflexivity|].
  vm_compute. repeat split; reflexivity.
Qed.

(** Non-vacuity: three processes, the initialiser returned, one more attached,
    everything ready; then all leave and only the last to leave is told so. *)
Definition life : list nat := attach_first 0 ++ attach_later 1 ++ attach_later 2 ++ [0] ++ [1] ++ detach_last 2.
Definition life_tr : list event := Eval vm_compute in tr (final same_rev life).
Lemma life_tr_eq : tr (final same_rev life) = life_tr.
Proof. vm_compute. reflexivity. Qed.
Definition busy : list nat := attach_first 0 ++ attach_later 1 ++ attach_later 2.
Definition busy_tr : list event := Eval vm_compute in tr (final same_rev busy).
Lemma busy_tr_eq : tr (final same_rev busy) = busy_tr.
Proof. vm_compute. reflexivity. Qed.

Example pipe_normal_life : exists s, reach same_rev ex_enforce s /\
  firsts 0 (tr s) = 1%Z /\ lasts 0 (tr s) = 1%Z /\ users 0 (tr s) = 0%Z /\ no_failed_attach 0 (tr s) /\
  (exists a b, tr s = a ++ EDel 2 0 true :: b) /\ cur s = 1.
Proof.
  exists (final same_rev life). rewrite life_tr_eq.
  split; [apply final_reach; vm_compute; reflexivity|].
  split; [reflexivity|]. split; [reflexivity|]. split; [reflexivity|].
  split.
  - intros p H. unfold life_tr in H. repeat (destruct H as [H|H]; [discriminate|]). exact H.
  - split; [|vm_compute; reflexivity]. exists []. eexists. reflexivity.
Qed.

Example pipe_normal_attach : exists s, reach same_rev ex_enforce s /\ never_torn 0 (tr s) /\
  In (EAdd 0 0 true) (tr s) /\ In (EAttached 0 0) (tr s) /\ pcs s 1 = In_ 0 /\ pcs s 2 = In_ 0.
Proof.
  exists (final same_rev busy). rewrite busy_tr_eq.
  split; [apply final_reach; vm_compute; reflexivity|].
  split.
  - intros p H. unfold busy_tr in H. repeat (destruct H as [H|H]; [discriminate|]). exact H.
  - split; [unfold busy_tr; cbn; tauto|]. split; [unfold busy_tr; cbn; tauto|].
    split; vm_compute; reflexivity.
Qed.

(* ------------------------------------------------------------------ *)
(** ** C43: the leak check of the last process

    [impl.c:106] every process records the available size when it attaches;
    [impl.c:160-171] the last one to leave asserts that the available size is
    what it recorded.  arax_assert is active in every build, so the assertion
    aborts the process.  Sizes are integers here ([size_t] in the code). *)

(** src/core/arax_throttle.c:49-105 and arax_pipe.c:241-251. *)
Inductive lop :=
| LAttach (p : nat)          (* arax_init of process p returned *)
| LTake (n : Z)              (* some process takes n bytes from the segment *)
| LGive (n : Z)              (* some process gives n bytes back *)
| LDetach (p : nat).         (* arax_exit of process p *)

(** src/core/arax_throttle.h:12-21 and impl.c:33-130 (initialy_available). *)
Record lst := mklst { lcount : Z; lavail : Z; lrec : nat -> option Z (* initialy_available of attached processes *) }.

(** How arax_exit (impl.c:156-191) ends. *)
Inductive lresult := LNone | LLeft | LLast (abort : bool).

(** [total]: the size arax_pipe_init gives the throttle, [arax_pipe.c:49]. *)
Definition lstep (total : Z) (o : lop) (s : lst) : option (lst * lresult) :=
  match o with
  | LAttach p =>
      match lrec s p with
      | Some _ => None
      | None =>
          let av := if (lcount s =? 0)%Z then total else lavail s in
          Some (mklst (lcount s + 1) av (upd (lrec s) p (Some av)), LNone)
      end
  | LTake n => if (0 <? lcount s)%Z then Some (mklst (lcount s) (lavail s - n) (lrec s), LNone) else None
  | LGive n => if (0 <? lcount s)%Z then Some (mklst (lcount s) (lavail s + n) (lrec s), LNone) else None
  | LDetach p =>
      match lrec s p with
      | None => None
      | Some v =>
          let last := (lcount s =? 1)%Z in
          Some (mklst (lcount s - 1) (lavail s) (upd (lrec s) p None),
                if last then LLast (negb (lavail s =? v)%Z) else LLeft)
      end
  end.

(** An unused segment; no code of its own. *)
Definition linit : lst := mklst 0 0 (fun _ => None).

(** Specification: bytes in use after a history (oldest operation first), and
    the bytes that were in use when process [p] last attached. *)
Definition delta (o : lop) : Z := match o with LTake n => n | LGive n => - n | _ => 0 end.
Definition in_use (l : list lop) : Z := fold_left (fun a o => a + delta o)%Z l 0%Z.
Fixpoint in_use_at_attach (p : nat) (l : list lop) (acc : Z) (found : Z) : Z :=
  match l with
  | [] => found
  | o :: l' => in_use_at_attach p l' (acc + delta o)
                 (match o with LAttach q => if q =? p then acc else found | _ => found end)
  end.

(** Histories in which the segment is set up once (the first operation) and
    someone stays attached until the end. *)
Inductive lhist (total : Z) : list lop -> lst -> Prop :=
| lh_first : forall p s, lstep total (LAttach p) linit = Some (s, LNone) -> lhist total [LAttach p] s
| lh_more : forall l s o s' r, lhist total l s -> lstep total o s = Some (s', r) ->
    (r = LNone \/ r = LLeft) -> lhist total (l ++ [o]) s'.

Lemma in_use_app : forall l o, in_use (l ++ [o]) = (in_use l + delta o)%Z.
Proof. intros. unfold in_use. rewrite fold_left_app. reflexivity. Qed.

Lemma at_attach_app : forall p l o acc f, in_use_at_attach p (l ++ [o]) acc f =
  match o with
  | LAttach q => if q =? p then fold_left (fun a o => a + delta o)%Z l acc else in_use_at_attach p l acc f
  | _ => in_use_at_attach p l acc f
  end.
Proof.
  induction l as [|x l IH]; intros o acc f; cbn.
  - destruct o; try reflexivity.
  - apply IH.
Qed.

Lemma lhist_inv : forall total l s, lhist total l s ->
  (1 <= lcount s)%Z /\ lavail s = (total - in_use l)%Z /\
  (forall p v, lrec s p = Some v -> v = (total - in_use_at_attach p l 0 0)%Z) .
Proof.
  intros total l s H. induction H as [p s ST|l s o s' r H (C & A & V) ST RR].
  - cbn in ST. injection ST as <-. cbn [lcount lavail lrec in_use_at_attach delta].
    split; [lia|]. split; [unfold in_use; cbn; lia|].
    intros q v. unfold upd. destruct (Nat.eqb_spec q p) as [->|N].
    + intros X. injection X as <-. rewrite ?Nat.eqb_refl. lia.
    + discriminate.
  - destruct o as [p|n|n|p]; cbn [lstep] in ST.
    + destruct (lrec s p) eqn:L; [discriminate|].
      replace (lcount s =? 0)%Z with false in ST by (symmetry; apply Z.eqb_neq; lia).
      injection ST as <- <-. cbn [lcount lavail lrec]. rewrite in_use_app. cbn [delta].
      split; [lia|]. split; [lia|]. intros q v. rewrite at_attach_app. unfold upd.
      destruct (Nat.eqb_spec q p) as [->|N].
      * rewrite Nat.eqb_refl. intros X. injection X as <-. exact A.
      * replace (p =? q) with false by (symmetry; apply Nat.eqb_neq; congruence). apply V.
    + destruct (0 <? lcount s)%Z; [|discriminate]. injection ST as <- <-. cbn [lcount lavail lrec]. rewrite in_use_app.
      cbn [delta]. split; [lia|]. split; [lia|]. intros q v. rewrite at_attach_app. apply V.
    + destruct (0 <? lcount s)%Z; [|discriminate]. injection ST as <- <-. cbn [lcount lavail lrec]. rewrite in_use_app.
      cbn [delta]. split; [lia|]. split; [lia|]. intros q v. rewrite at_attach_app. apply V.
    + destruct (lrec s p) as [v0|] eqn:L; [|discriminate].
      destruct (Z.eqb_spec (lcount s) 1) as [E1|E1].
      * injection ST as <- <-. destruct RR; discriminate.
      * injection ST as <- <-. cbn [lcount lavail lrec]. rewrite in_use_app. cbn [delta].
        split; [lia|]. split; [lia|]. intros q v. rewrite at_attach_app. unfold upd.
        destruct (q =? p); [discriminate|apply V].
Qed.

(** What the check really compares: the last process aborts exactly when the
    bytes in use now differ from the bytes that were in use when that process
    itself attached. *)
Theorem C43_what_is_checked : forall total l s p s' b, lhist total l s ->
  lstep total (LDetach p) s = Some (s', LLast b) ->
  (b = true <-> in_use l <> in_use_at_attach p l 0 0).
Proof.
  intros total l s p s' b H ST. destruct (lhist_inv total l s H) as (C & A & V). cbn [lstep] in ST.
  destruct (lrec s p) as [v|] eqn:L; [|discriminate]. specialize (V p v L).
  destruct (lcount s =? 1)%Z; [|discriminate]. injection ST as _ <-.
  rewrite negb_true_iff, Z.eqb_neq. lia.
Qed.

(** The part that holds: if the last process had attached when nothing was in
    use, it aborts exactly when memory was leaked. *)
Theorem C43_leak_check_partial : forall total l s p s' b, lhist total l s ->
  in_use_at_attach p l 0 0 = 0%Z ->
  lstep total (LDetach p) s = Some (s', LLast b) ->
  (b = true <-> in_use l <> 0%Z).
Proof. intros total l s p s' b H E ST. rewrite <- E. eapply C43_what_is_checked; eauto. Qed.

(** Running a history that stays attached. *)
Fixpoint lgo (total : Z) (l : list lop) (s : lst) : option lst :=
  match l with
  | [] => Some s
  | o :: l' => match lstep total o s with
               | Some (s', LNone) | Some (s', LLeft) => lgo total l' s'
               | _ => None
               end
  end.
Lemma lgo_hist : forall total l s s' pre, lhist total pre s -> lgo total l s = Some s' -> lhist total (pre ++ l) s'.
Proof.
  induction l as [|o l IH]; cbn [lgo]; intros s s' pre H E.
  - rewrite app_nil_r. congruence.
  - destruct (lstep total o s) as [[s1 r]|] eqn:ST; [|discriminate].
    replace (pre ++ o :: l) with ((pre ++ [o]) ++ l) by (rewrite <- app_assoc; reflexivity).
    destruct r; try discriminate; (eapply IH; [eapply lh_more; eauto|exact E]).
Qed.

(** C43 refuted, spurious abort: process 1 attaches while process 0 has a buffer;
    all memory is given back, process 0 leaves, and process 1 aborts on leaving. *)
Theorem C43_refuted_spurious_abort : exists total l s s', lhist total l s /\ in_use l = 0%Z /\
  lstep total (LDetach 1) s = Some (s', LLast true).
Proof.
  exists 1000%Z, [LAttach 0; LTake 10; LAttach 1; LGive 10; LDetach 0]. do 2 eexists. split; [|split; [reflexivity|]].
  - eapply (lgo_hist 1000 [LTake 10; LAttach 1; LGive 10; LDetach 0]) with (pre := [LAttach 0]); [apply lh_first|]; reflexivity.
  - reflexivity.
Qed.

(** C43 refuted, missed leak: process 0 leaves without giving its 10 bytes back
    and the check of the last process passes. *)
Theorem C43_refuted_missed_leak : exists total l s s', lhist total l s /\ in_use l = 10%Z /\
  lstep total (LDetach 1) s = Some (s', LLast false).
Proof.
  exists 1000%Z, [LAttach 0; LTake 10; LAttach 1; LDetach 0]. do 2 eexists. split; [|split; [reflexivity|]].
  - eapply (lgo_hist 1000 [LTake 10; LAttach 1; LDetach 0]) with (pre := [LAttach 0]); [apply lh_first|]; reflexivity.
  - reflexivity.
Qed.

(** A single process that gives everything back leaves without an abort. *)
Example C43_normal : exists s s', lhist 1000 [LAttach 0; LTake 10; LGive 10] s /\
  lstep 1000 (LDetach 0) s = Some (s', LLast false).
Proof.
  do 2 eexists. split.
  - eapply (lgo_hist 1000 [LTake 10; LGive 10]) with (pre := [LAttach 0]); [apply lh_first|]; reflexivity.
  - reflexivity.
Qed.
