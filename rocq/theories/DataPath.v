(** Writing a buffer and reading it back: properties C27 and C46.

    Code modelled
    - [src/core/arax_data.c:52-93]    arax_data_get, arax_data_set
    - [src/core/arax_data.c:117-160]  arax_data_migrate_accel (which virtual accelerator a buffer belongs to)
    - [src/arch/shm/impl.c:467-488]   arax_task_issue (copies the argument bytes, then submits)
    - [controller/src/Core/accelThread.cpp:350-432] workFunc (take a task, execute it, next)
    - [controller/src/Cpu/CpuBuiltins.cpp:100-133]  the CPU handlers of arax_data_get / arax_data_set
    - [controller/src/Schedulers/ElasticScheduler.cpp:60-73] moving a virtual accelerator to another thread

    Client calls, worker threads and the balancer interleave in any way.  Queues
    are FIFO (C06/C08/C21).  Executing a task is two steps, taking it from its
    queue and finishing it; the copy inside a handler is one step.  A kernel's
    effect on its output buffers is arbitrary.  Device memories other than the
    CPU's are not modelled. *)
From Coq Require Import List Arith Lia Bool NArith.
Import ListNotations.

Arguments Nat.eqb : simpl never.
Arguments Nat.ltb : simpl never.

(** Bytes of a buffer or of a client's memory. *)
(** Contents of src/core/arax_data.h:36-51. *)
Definition bytes := list N.

(** src/core/arax_data.c:52-93, src/arch/shm/impl.c:467-488. *)
Inductive kind :=
| KSet (b : nat) (x : bytes)                  (* arax_data_set: argument block = copy of the user's bytes *)
| KGet (b : nat)                              (* arax_data_get *)
| KRun (ins outs : list nat).                 (* any other task *)

(** src/core/arax_task.h:9-23. *)
Record job := mkjob { j_id : nat; j_kind : kind }.

(** Does the task write buffer [b]? *)
(** Specification of a task, no code of its own. *)
Definition writes (k : kind) (b : nat) : bool :=
  match k with
  | KSet b' _ => b' =? b
  | KGet _ => false
  | KRun _ outs => existsb (fun o => o =? b) outs
  end.

(** The segment (arax_data.h:36-51, arax_vaccel.h:24-41) and the worker threads (accelThread.cpp:350-432). *)
Record st := mkst {
  bufs : nat -> bytes;               (* contents of each buffer *)
  src : nat -> bytes;                (* clients' private memory regions *)
  acc : nat -> option nat;           (* data->accel *)
  asg : nat -> option nat;           (* thread (physical accelerator) a virtual accelerator is assigned to *)
  q : nat -> list job;               (* queue of each virtual accelerator *)
  th : nat -> option (nat * job);    (* what each worker thread is executing, and from where *)
  next : nat;                        (* next task number *)
  res : list (nat * job * bytes) }.  (* finished reads: virtual accelerator, task, bytes delivered *)

(** Update of a map, no code of its own. *)
Definition upd {A} (f : nat -> A) (i : nat) (v : A) : nat -> A := fun j => if j =? i then v else f j.

(** src/core/arax_data.c:52-93, impl.c:467-488, accelThread.cpp:350-432, ElasticScheduler.cpp:60-73. *)
Inductive act :=
| ASrc (c : nat) (x : bytes)         (* a client changes its own memory *)
| ASet (v b c : nat)                 (* arax_data_set(b, v, memory c) *)
| AGet (b : nat)                     (* arax_data_get(b, ...) : issues the task *)
| ARun (v : nat) (ins outs : list nat)
| ATake (t v : nat)                  (* worker t takes the next task of v *)
| AFinish (t : nat) (eff : nat -> bytes)  (* worker t finishes; eff: what a kernel leaves in its outputs *)
| AAssign (v : nat) (t : option nat).     (* (re)assign a virtual accelerator *)

(** src/arch/shm/impl.c:467-488. *)
Definition push (s : st) (v : nat) (k : kind) (ac : nat -> option nat) : st :=
  mkst (bufs s) (src s) ac (asg s) (upd (q s) v (q s v ++ [mkjob (next s) k])) (th s) (S (next s)) (res s).

(** arax_data_migrate_accel for one buffer; [None]: assertion (other device). *)
(** Comparison of two pointers, src/core/arax_data.c:117-160. *)
Definition opt_eqb (a b : option nat) : bool :=
  match a, b with Some x, Some y => x =? y | None, None => true | _, _ => false end.
(** src/core/arax_data.c:117-160. *)
Definition migrate (s : st) (v : nat) (ac : nat -> option nat) (b : nat) : option (nat -> option nat) :=
  match ac b with
  | None => Some (upd ac b (Some v))
  | Some v' => if (v' =? v) || opt_eqb (asg s v') (asg s v) then Some (upd ac b (Some v)) else None
  end.
(** src/core/arax_task.c:64-75 and arax_data.c:220-250, for each buffer of a task. *)
Fixpoint migrate_all (s : st) (v : nat) (ac : nat -> option nat) (l : list nat) : option (nat -> option nat) :=
  match l with
  | [] => Some ac
  | b :: l' => match migrate s v ac b with Some ac' => migrate_all s v ac' l' | None => None end
  end.

(** What finishing a task does to the buffers. *)
(** controller/src/Cpu/CpuBuiltins.cpp:100-133; a kernel is arbitrary. *)
Definition effect (s : st) (k : kind) (eff : nat -> bytes) : nat -> bytes :=
  match k with
  | KSet b x => upd (bufs s) b x
  | KGet _ => bufs s
  | KRun _ outs => fun b => if existsb (fun o => o =? b) outs then eff b else bufs s b
  end.

(** controller/src/Core/accelThread.cpp:350-432. *)
Definition busy_with (s : st) (v : nat) (t : nat) : bool :=
  match th s t with Some (v', _) => v' =? v | None => false end.

Section Machine.
(** [strict]: a virtual accelerator is only reassigned while none of its tasks
    is being executed. *)
Variable strict : bool.

(** One constructor per call or worker step: arax_data.c:52-93, impl.c:467-488, accelThread.cpp:350-432, ElasticScheduler.cpp:60-73. *)
Inductive step : st -> act -> st -> Prop :=
| s_src : forall s c x, step s (ASrc c x) (mkst (bufs s) (upd (src s) c x) (acc s) (asg s) (q s) (th s) (next s) (res s))
| s_set : forall s v b c, acc s b = None \/ acc s b = Some v ->
    step s (ASet v b c) (push s v (KSet b (src s c)) (upd (acc s) b (Some v)))
| s_get : forall s v b, acc s b = Some v -> step s (AGet b) (push s v (KGet b) (acc s))
| s_run : forall s v ins outs ac, migrate_all s v (acc s) (ins ++ outs) = Some ac ->
    step s (ARun v ins outs) (push s v (KRun ins outs) ac)
| s_take : forall s t v j l, th s t = None -> asg s v = Some t -> q s v = j :: l ->
    step s (ATake t v) (mkst (bufs s) (src s) (acc s) (asg s) (upd (q s) v l) (upd (th s) t (Some (v, j))) (next s) (res s))
| s_finish : forall s t v j eff, th s t = Some (v, j) ->
    step s (AFinish t eff) (mkst (effect s (j_kind j) eff) (src s) (acc s) (asg s) (q s) (upd (th s) t None) (next s)
      (match j_kind j with KGet b => (v, j, bufs s b) :: res s | _ => res s end))
| s_assign : forall s v t, (strict = true -> forall u, busy_with s v u = false) ->
    step s (AAssign v t) (mkst (bufs s) (src s) (acc s) (upd (asg s) v t) (q s) (th s) (next s) (res s)).

(** An empty segment, no code of its own. *)
Definition init (b0 : nat -> bytes) : st :=
  mkst b0 (fun _ => []) (fun _ => None) (fun _ => None) (fun _ => []) (fun _ => None) 0 [].

(** Any interleaving, no code of its own. *)
Inductive run : st -> list act -> st -> Prop :=
| run_nil : forall s, run s [] s
| run_cons : forall s a s1 l s2, step s a s1 -> run s1 l s2 -> run s (a :: l) s2.

Definition reach (s : st) : Prop := exists b0 l, run (init b0) l s.

(** Nothing else writes [b] along a run: no writer of [b] is issued on [v], and no
    writer of [b] belonging to another virtual accelerator finishes. *)
Inductive no_other_writer (v b : nat) : st -> list act -> Prop :=
| nw_nil : forall s, no_other_writer v b s []
| nw_cons : forall s a l,
    (match a with
     | ASet v' b' _ => ~ (v' = v /\ b' = b)
     | ARun v' _ outs => v' = v -> ~ In b outs
     | AFinish t _ => forall v' j, th s t = Some (v', j) -> writes (j_kind j) b = true -> v' = v
     | _ => True
     end) ->
    (forall s1, step s a s1 -> no_other_writer v b s1 l) ->
    no_other_writer v b s (a :: l).

(* ------------------------------------------------------------------ *)

Lemma upd_same : forall A (f : nat -> A) i x, upd f i x i = x.
Proof using. intros. unfold upd. now rewrite Nat.eqb_refl. Qed.
Lemma upd_other : forall A (f : nat -> A) i j x, j <> i -> upd f i x j = f j.
Proof using. intros. unfold upd. apply Nat.eqb_neq in H. now rewrite H. Qed.

(** One thread at a time executes tasks of a virtual accelerator, and it is the
    one the virtual accelerator is assigned to. *)
Definition excl (s : st) : Prop := forall v t j, th s t = Some (v, j) -> asg s v = Some t.

Lemma reach_excl : forall s, strict = true -> reach s -> excl s.
Proof using.
  intros s ST (b0 & l & R).
  assert (G : forall s l s', run s l s' -> excl s -> excl s').
  { clear - ST. intros s l s' R. induction R as [|s a s1 l s2 STEP R IH]; [auto|]. intros E. apply IH. clear IH R.
    destruct STEP; intros v' t' j' H'; cbn in *; try (eapply E; eassumption).
    - unfold upd in H'. destruct (Nat.eqb_spec t' t) as [->|N].
      + injection H' as -> ->. assumption.
      + eapply E; eassumption.
    - unfold upd in H'. destruct (t' =? t); [discriminate|]. eapply E; eassumption.
    - unfold upd. destruct (Nat.eqb_spec v' v) as [->|N]; [|eapply E; eassumption].
      specialize (H ST t'). unfold busy_with in H. rewrite H', Nat.eqb_refl in H. discriminate. }
  eapply G; [exact R|]. intros v t j. cbn. discriminate.
Qed.

(** Task numbers in queues, threads and results are below [next]. *)
Definition fresh (s : st) : Prop :=
  (forall v j, In j (q s v) -> j_id j < next s) /\ (forall t v j, th s t = Some (v, j) -> j_id j < next s) /\
  (forall r, In r (res s) -> j_id (snd (fst r)) < next s).

Lemma step_fresh : forall s a s1, step s a s1 -> fresh s -> fresh s1.
Proof using.
  intros s a s1 ST (F1 & F2 & F3).
  assert (P : forall v k ac, fresh (push s v k ac)).
  { intros v k ac. split; [|split]; cbn.
    - intros v' j. unfold upd. destruct (v' =? v).
      + intros H. apply in_app_or in H. destruct H as [H|[<-|[]]]; [apply F1 in H; lia|cbn; lia].
      + intros H. apply F1 in H. lia.
    - intros t v' j H. apply F2 in H. lia.
    - intros r H. apply F3 in H. lia. }
  destruct ST; try apply P; (split; [|split]); cbn; auto.
  - intros v' j' H'. unfold upd in H'. destruct (Nat.eqb_spec v' v) as [->|N]; [|eauto].
    apply (F1 v). rewrite H1. now right.
  - intros t' v' j' H'. unfold upd in H'. destruct (t' =? t); [|eauto].
    injection H' as -> ->. apply (F1 v'). rewrite H1. now left.
  - intros t' v' j' H'. unfold upd in H'. destruct (t' =? t); [discriminate|eauto].
  - intros r Hr. destruct (j_kind j); auto. destruct Hr as [<-|Hr]; [cbn; eauto|auto].
Qed.

Lemma reach_fresh : forall s, reach s -> fresh s.
Proof using.
  intros s (b0 & l & R).
  assert (G : forall s l s', run s l s' -> fresh s -> fresh s').
  { clear. intros s l s' R. induction R; auto. intros F. apply IHR. eapply step_fresh; eauto. }
  eapply G; [exact R|]. split; [|split]; cbn; intros; try contradiction; discriminate.
Qed.

(** Along a quiet run after the write [S = mkjob n (KSet b x)] on [v]. *)
Section Track.
Variables (v b n : nat) (x : bytes).
Let S := mkjob n (KSet b x).
Definition harmless (j : job) : Prop := writes (j_kind j) b = false.

(** Before the write has been done / after. *)
Definition phaseA (s : st) : Prop :=
  (exists l1 l2, q s v = l1 ++ S :: l2 /\ Forall harmless l2 /\
     Forall (fun j => j_id j < n) l1 /\ (forall t j, th s t = Some (v, j) -> j_id j < n)) \/
  (exists t, th s t = Some (v, S) /\ Forall harmless (q s v) /\ (forall u j, th s u = Some (v, j) -> u = t)).
Definition phaseB (s : st) : Prop :=
  bufs s b = x /\ Forall harmless (q s v) /\ (forall t j, th s t = Some (v, j) -> harmless j).

Definition good (s : st) : Prop :=
  excl s /\ fresh s /\ n < next s /\ (phaseA s \/ phaseB s) /\
  (forall j w, In (v, j, w) (res s) -> n < j_id j -> j_kind j = KGet b -> w = x).

Lemma step_excl : strict = true -> forall s a s1, step s a s1 -> excl s -> excl s1.
Proof using.
  intros ST s a s1 STEP E. destruct STEP; intros v' t' j' H'; cbn in *; try (eapply E; eassumption).
  - unfold upd in H'. destruct (Nat.eqb_spec t' t) as [->|N].
    + injection H' as -> ->. assumption.
    + eapply E; eassumption.
  - unfold upd in H'. destruct (t' =? t); [discriminate|]. eapply E; eassumption.
  - unfold upd. destruct (Nat.eqb_spec v' v0) as [->|N]; [|eapply E; eassumption].
    specialize (H ST t'). unfold busy_with in H. rewrite H', Nat.eqb_refl in H. discriminate.
Qed.

Lemma good_step : strict = true -> forall s a s1, step s a s1 -> good s ->
  (match a with
   | ASet v' b' _ => ~ (v' = v /\ b' = b)
   | ARun v' _ outs => v' = v -> ~ In b outs
   | AFinish t _ => forall v' j, th s t = Some (v', j) -> writes (j_kind j) b = true -> v' = v
   | _ => True
   end) -> good s1.
Proof using.
  intros STR s a s1 STEP (E & F & NX & PH & RS) QT.
  split; [eapply step_excl; eauto|]. split; [eapply step_fresh; eauto|].
  destruct F as (F1 & F2 & F3).
  assert (PUSH : forall v0 k ac, (v0 = v -> writes k b = false) ->
     n < next (push s v0 k ac) /\ (phaseA (push s v0 k ac) \/ phaseB (push s v0 k ac)) /\
     (forall j w, In (v, j, w) (res (push s v0 k ac)) -> n < j_id j -> j_kind j = KGet b -> w = x)).
  { intros v0 k ac HK. split; [cbn; lia|]. split; [|exact RS].
    destruct PH as [[(l1 & l2 & Q & H2 & H1 & HT)|(t & T & HQ & U)]|(B & HQ & HT)].
    - left. left. exists l1. cbn [q push th]. unfold upd. destruct (Nat.eqb_spec v v0) as [<-|N].
      + rewrite Q. exists (l2 ++ [mkjob (next s) k]). split; [rewrite <- app_assoc; reflexivity|].
        split; [|auto]. apply Forall_app. split; [assumption|]. constructor; [|constructor]. now apply HK.
      + exists l2. auto.
    - left. right. exists t. cbn [q push th]. split; [assumption|]. split; [|assumption].
      unfold upd. destruct (Nat.eqb_spec v v0) as [<-|N]; [|assumption].
      apply Forall_app. split; [assumption|]. constructor; [|constructor]. now apply HK.
    - right. split; [exact B|]. cbn [q push th]. split; [|assumption].
      unfold upd. destruct (Nat.eqb_spec v v0) as [<-|N]; [|assumption].
      apply Forall_app. split; [assumption|]. constructor; [|constructor]. now apply HK. }
  destruct STEP as [s c y|s v0 b0 c A|s v0 b0 A|s v0 ins outs ac A|s t v0 j l TN AS Q|s t v0 j eff T|s v0 t A].
  - split; [exact NX|]. split; [exact PH|exact RS].
  - apply PUSH. intros ->. cbn. destruct (Nat.eqb_spec b0 b) as [->|]; [|reflexivity]. exfalso. apply QT. auto.
  - apply PUSH. reflexivity.
  - apply PUSH. intros ->. cbn. destruct (existsb (fun o => o =? b) outs) eqn:X; [|reflexivity].
    apply existsb_exists in X. destruct X as (o & O & OE). apply Nat.eqb_eq in OE. subst o. exfalso. now apply (QT eq_refl).
  - (* take *)
    split; [exact NX|]. split; [|exact RS]. cbn.
    destruct (Nat.eq_dec v0 v) as [->|N].
    + assert (NB : forall u j', th s u = Some (v, j') -> False).
      { intros u j' U. apply E in U as AU. assert (u = t) by congruence. subst. congruence. }
      destruct PH as [[(l1 & l2 & QQ & H2 & H1 & HT)|(u & T & HQ & U)]|(B & HQ & HT)].
      * left. destruct l1 as [|k l1].
        -- cbn in QQ. rewrite Q in QQ. injection QQ as -> ->. right. exists t. cbn. rewrite !upd_same.
           split; [reflexivity|]. split; [assumption|]. intros u j'. unfold upd.
           destruct (Nat.eqb_spec u t) as [->|]; [reflexivity|]. intros X. exfalso. eapply NB; eauto.
        -- cbn in QQ. rewrite Q in QQ. injection QQ as -> ->. left. exists l1, l2. cbn. rewrite upd_same.
           split; [reflexivity|]. split; [assumption|]. inversion H1; subst. split; [assumption|].
           intros u j'. unfold upd. destruct (u =? t); [|apply HT]. intros X. injection X as <-. assumption.
      * exfalso. eapply NB; eauto.
      * right. unfold phaseB. cbn. rewrite upd_same. rewrite Q in HQ. inversion HQ; subst. split; [first [reflexivity|assumption]|]. split; [assumption|].
        intros u j'. unfold upd. destruct (u =? t); [|apply HT]. intros X. injection X as <-. assumption.
    + destruct PH as [[(l1 & l2 & QQ & H2 & H1 & HT)|(u & T & HQ & U)]|(B & HQ & HT)].
      * left. left. exists l1, l2. cbn. rewrite upd_other by congruence. split; [assumption|]. split; [assumption|]. split; [assumption|].
        intros u j'. unfold upd. destruct (u =? t); [intros X; congruence|apply HT].
      * left. right. exists u. cbn. rewrite (upd_other _ (q s)) by congruence.
        assert (u <> t) by congruence. rewrite upd_other by assumption. split; [assumption|]. split; [assumption|].
        intros w j'. unfold upd. destruct (w =? t); [intros X; congruence|apply U].
      * right. unfold phaseB. cbn. rewrite upd_other by congruence. split; [assumption|]. split; [assumption|].
        intros u j'. unfold upd. destruct (u =? t); [intros X; congruence|apply HT].
  - (* finish *)
    split; [exact NX|].
    assert (REM : forall u j', upd (th s) t None u = Some (v, j') -> th s u = Some (v, j') /\ u <> t).
    { intros u j'. unfold upd. destruct (Nat.eqb_spec u t); [discriminate|auto]. }
    split.
    + destruct PH as [[(l1 & l2 & QQ & H2 & H1 & HT)|(u & TU & HQ & U)]|(B & HQ & HT)].
      * left. left. exists l1, l2. cbn. split; [assumption|]. split; [assumption|]. split; [assumption|].
        intros u j' X. apply REM in X. destruct X as [X _]. eauto.
      * destruct (Nat.eq_dec u t) as [->|N].
        -- right. assert (v0 = v /\ j = S) as (-> & ->) by (rewrite TU in T; injection T; auto).
           unfold phaseB. cbn. rewrite upd_same. split; [reflexivity|]. split; [assumption|].
           intros u j' X. apply REM in X. destruct X as [X D]. apply U in X. congruence.
        -- left. right. exists u. cbn. rewrite upd_other by congruence. split; [assumption|]. split; [assumption|].
           intros w j' X. apply REM in X. destruct X as [X _]. eauto.
      * right. unfold phaseB. cbn. split; [|split; [assumption|]].
        -- assert (W : writes (j_kind j) b = false).
           { destruct (writes (j_kind j) b) eqn:W; [|reflexivity]. assert (v0 = v) by (eapply QT; eauto). subst v0.
             apply HT in T. unfold harmless in T. congruence. }
           destruct (j_kind j) as [b' y|b'|ins outs]; cbn in *; auto.
           ++ rewrite upd_other; [assumption|]. apply Nat.eqb_neq in W. congruence.
           ++ rewrite W. assumption.
        -- intros u j' X. apply REM in X. destruct X as [X _]. eauto.
    + cbn. intros j' w. destruct (j_kind j) as [b' y|b'|ins outs] eqn:K; try apply RS.
      intros [X|X] LT KK; [|eauto]. injection X as -> -> <-. rewrite K in KK. injection KK as ->.
      destruct PH as [[(l1 & l2 & QQ & H2 & H1 & HT)|(u & TU & HQ & U)]|(B & HQ & HT)].
      * apply HT in T. lia.
      * apply U in T as T'. subst u. rewrite TU in T. injection T as <-. cbn in LT. lia.
      * exact B.
  - (* assign *)
    split; [exact NX|]. split; [exact PH|exact RS].
Qed.
End Track.

Lemma no_other_run : forall v b n x, strict = true -> forall s l s', run s l s' -> good v b n x s ->
  no_other_writer v b s l -> good v b n x s'.
Proof using.
  intros v b n x ST s l s' R. induction R as [|s a s1 l s2 STEP R IH]; intros G NW; [assumption|].
  inversion NW as [|? ? ? A B]; subst. apply IH; [|now apply B]. eapply good_step; eauto.
Qed.

(** Just after the write was issued. *)
Lemma good_start : strict = true -> forall s v b c s1, reach s -> step s (ASet v b c) s1 ->
  good v b (next s) (src s c) s1.
Proof using.
  intros ST s v b c s1 R STEP. pose proof (reach_excl s ST R) as E. pose proof (reach_fresh s R) as F.
  split; [eapply step_excl; eauto|]. split; [eapply step_fresh; eauto|].
  inversion STEP; subst; clear STEP. destruct F as (F1 & F2 & F3). split; [cbn; lia|]. split.
  - left. left. exists (q s v), []. cbn. rewrite upd_same. split; [reflexivity|]. split; [constructor|]. split.
    + apply Forall_forall. intros j Hj. eauto.
    + intros t j Hj. eauto.
  - cbn. intros j w I LT _. specialize (F3 _ I). cbn in F3. lia.
Qed.
End Machine.

(** C27: take any reachable state, write buffer [b] through virtual accelerator
    [v] from client memory [c], then let anything happen (other clients, other
    buffers, other accelerators, the source memory being changed) during which
    nobody else writes [b] and virtual accelerators are not reassigned while one
    of their tasks is executing: every read of [b] through [v] that was issued
    after the write and has finished delivered exactly the bytes that were in the
    client memory when the write was called. *)
Theorem C27_read_back_partial : forall s v b c s1 l s2, reach true s -> step true s (ASet v b c) s1 ->
  run true s1 l s2 -> no_other_writer true v b s1 l ->
  forall j w, In (v, j, w) (res s2) -> j_kind j = KGet b -> next s < j_id j -> w = src s c.
Proof.
  intros s v b c s1 l s2 R ST RN NW j w I K LT.
  pose proof (good_start true eq_refl s v b c s1 R ST) as G.
  pose proof (no_other_run true v b (next s) (src s c) eq_refl s1 l s2 RN G NW) as (_ & _ & _ & _ & RS).
  eauto.
Qed.

(* ------------------------------------------------------------------ *)
(** ** An executable version of the step relation, for concrete runs *)

Definition exec (strict : bool) (s : st) (a : act) : option st :=
  match a with
  | ASrc c x => Some (mkst (bufs s) (upd (src s) c x) (acc s) (asg s) (q s) (th s) (next s) (res s))
  | ASet v b c => if match acc s b with None => true | Some v' => v' =? v end
                  then Some (push s v (KSet b (src s c)) (upd (acc s) b (Some v))) else None
  | AGet b => match acc s b with Some v => Some (push s v (KGet b) (acc s)) | None => None end
  | ARun v ins outs => match migrate_all s v (acc s) (ins ++ outs) with
                       | Some ac => Some (push s v (KRun ins outs) ac) | None => None end
  | ATake t v => match th s t, asg s v, q s v with
                 | None, Some t', j :: l => if t' =? t then
                     Some (mkst (bufs s) (src s) (acc s) (asg s) (upd (q s) v l) (upd (th s) t (Some (v, j))) (next s) (res s))
                     else None
                 | _, _, _ => None
                 end
  | AFinish t eff => match th s t with
                     | Some (v, j) => Some (mkst (effect s (j_kind j) eff) (src s) (acc s) (asg s) (q s) (upd (th s) t None) (next s)
                         (match j_kind j with KGet b => (v, j, bufs s b) :: res s | _ => res s end))
                     | None => None
                     end
  | AAssign v t => if strict then None else Some (mkst (bufs s) (src s) (acc s) (upd (asg s) v t) (q s) (th s) (next s) (res s))
  end.

Lemma exec_step : forall s a s', exec false s a = Some s' -> step false s a s'.
Proof.
  intros s a s' E. destruct a as [c x|v b c|b|v ins outs|t v|t eff|v t]; cbn [exec] in E.
  - injection E as <-. constructor.
  - destruct (acc s b) as [v'|] eqn:A.
    + destruct (Nat.eqb_spec v' v) as [->|]; [|discriminate]. injection E as <-. constructor. auto.
    + injection E as <-. constructor. auto.
  - destruct (acc s b) as [v|] eqn:A; [|discriminate]. injection E as <-. now constructor.
  - destruct (migrate_all s v (acc s) (ins ++ outs)) as [ac|] eqn:M; [|discriminate]. injection E as <-. now constructor.
  - destruct (th s t) eqn:T; [discriminate|]. destruct (asg s v) as [t'|] eqn:A; [|discriminate].
    destruct (q s v) as [|j l] eqn:Q; [discriminate|]. destruct (Nat.eqb_spec t' t) as [->|]; [|discriminate].
    injection E as <-. now constructor.
  - destruct (th s t) as [[v j]|] eqn:T; [|discriminate]. injection E as <-. now constructor.
  - injection E as <-. constructor. discriminate.
Qed.

Fixpoint execs (s : st) (l : list act) : option st :=
  match l with [] => Some s | a :: l' => match exec false s a with Some s' => execs s' l' | None => None end end.

Lemma execs_run : forall l s s', execs s l = Some s' -> run false s l s'.
Proof.
  induction l as [|a l IH]; cbn [execs]; intros s s' E.
  - injection E as <-. constructor.
  - destruct (exec false s a) eqn:X; [|discriminate]. econstructor; [apply exec_step; eassumption|auto].
Qed.

Definition final (l : list act) : st :=
  match execs (init (fun _ => [0%N])) l with Some s => s | None => init (fun _ => []) end.
Definition ok (l : list act) : bool := match execs (init (fun _ => [0%N])) l with Some _ => true | None => false end.

Lemma final_run : forall l, ok l = true -> run false (init (fun _ => [0%N])) l (final l).
Proof. intros l. unfold ok, final. destruct (execs _ l) eqn:E; [|discriminate]. intros _. now apply execs_run. Qed.

(** C27 refuted when a virtual accelerator is moved to another thread while its
    task is executing (ElasticScheduler::assignVac does this from the balancer
    thread): thread 0 took the write, the accelerator is moved to thread 1, which
    executes the read first.  The write call and the read call are the only
    operations on the buffer; the read delivers the old contents. *)
Theorem C27_moved_while_running_refuted : exists l s, run false (init (fun _ => [0%N])) l s /\
  l = [ASrc 0 [7%N]; AAssign 0 (Some 0); ASet 0 5 0; ATake 0 0; AAssign 0 (Some 1); AGet 5; ATake 1 0; AFinish 1 (fun _ => [])] /\
  res s = [(0, mkjob 1 (KGet 5), [0%N])].
Proof.
  eexists. exists (final [ASrc 0 [7%N]; AAssign 0 (Some 0); ASet 0 5 0; ATake 0 0; AAssign 0 (Some 1); AGet 5; ATake 1 0; AFinish 1 (fun _ => [])]).
  split; [|split; [reflexivity|vm_compute; reflexivity]]. apply final_run. vm_compute. reflexivity.
Qed.

(** C46 refuted: a read goes to the virtual accelerator that last used the buffer,
    even if it only read it.  The buffer is written through accelerator 0, then
    used as an input on accelerator 1 of the same device, then read: the read is
    queued on accelerator 1 and may overtake the write.  Nothing is moved and one
    thread serves both accelerators. *)
Theorem C46_read_overtakes_write_refuted : exists l s, run false (init (fun _ => [0%N])) l s /\
  l = [AAssign 0 (Some 0); AAssign 1 (Some 0); ASrc 0 [7%N]; ASet 0 5 0; ARun 1 [5] []; AGet 5;
       ATake 0 1; AFinish 0 (fun _ => []); ATake 0 1; AFinish 0 (fun _ => [])] /\
  res s = [(1, mkjob 2 (KGet 5), [0%N])] /\ q s 0 = [mkjob 0 (KSet 5 [7%N])].
Proof.
  eexists. exists (final [AAssign 0 (Some 0); AAssign 1 (Some 0); ASrc 0 [7%N]; ASet 0 5 0; ARun 1 [5] []; AGet 5;
       ATake 0 1; AFinish 0 (fun _ => []); ATake 0 1; AFinish 0 (fun _ => [])]).
  split; [|split; [reflexivity|split; vm_compute; reflexivity]]. apply final_run. vm_compute. reflexivity.
Qed.

(** What holds of C46: if after the write the buffer is used through [v] only,
    every read issued after the write, whoever issues it, sees the write. *)
Definition only_user (v b : nat) (a : act) : Prop :=
  match a with ARun v' ins outs => In b (ins ++ outs) -> v' = v | _ => True end.

Lemma migrate_all_keep : forall s v b v0 l ac ac', migrate_all s v0 ac l = Some ac' -> ac b = Some v ->
  (In b l -> v0 = v) -> ac' b = Some v.
Proof.
  intros s v b v0. induction l as [|a l IH]; cbn [migrate_all]; intros ac ac' M A O; [injection M as <-; assumption|].
  destruct (migrate s v0 ac a) as [ac1|] eqn:M1; [|discriminate]. apply (IH ac1); [assumption| |intros; apply O; now right].
  assert (ac1 = upd ac a (Some v0)).
  { unfold migrate in M1. destruct (ac a); [|injection M1; auto]. destruct (_ || _) in M1; [|discriminate]. injection M1; auto. }
  subst ac1. unfold upd. destruct (Nat.eqb_spec b a) as [<-|]; [|assumption]. f_equal. apply O. now left.
Qed.

Section Only.
Variables (v b n : nat).
Definition late (j : job) : Prop := j_kind j = KGet b /\ n < j_id j.
Definition at_home (s : st) : Prop :=
  acc s b = Some v /\ (forall v' j, In j (q s v') -> late j -> v' = v) /\
  (forall t v' j, th s t = Some (v', j) -> late j -> v' = v) /\
  (forall v' j w, In (v', j, w) (res s) -> late j -> v' = v).

Lemma home_step : forall str s a s1, step str s a s1 -> only_user v b a -> at_home s -> at_home s1.
Proof.
  intros str s a s1 ST O (A & HQ & HT & HR).
  assert (P : forall v0 k ac, ac b = Some v -> (k = KGet b -> v0 = v) -> at_home (push s v0 k ac)).
  { intros v0 k ac AC K. split; [exact AC|]. split; [|split; assumption]. intros v' j. cbn. unfold upd.
    destruct (Nat.eqb_spec v' v0) as [->|]; [|apply HQ]. intros I L. apply in_app_or in I.
    destruct I as [I|[<-|[]]]; [eauto|]. apply K. apply L. }
  destruct ST as [s c y|s v0 b0 c A0|s v0 b0 A0|s v0 ins outs ac A0|s t v0 j l TN AS Q|s t v0 j eff T|s v0 t A0].
  - repeat split; assumption.
  - apply P; [|discriminate]. unfold upd. destruct (Nat.eqb_spec b b0) as [<-|]; [|assumption].
    destruct A0; congruence.
  - apply P; [assumption|]. congruence.
  - apply P; [|discriminate]. eapply migrate_all_keep; eauto.
  - split; [exact A|]. split; [|split]; cbn.
    + intros v' j'. unfold upd. destruct (Nat.eqb_spec v' v0) as [->|]; [|apply HQ].
      intros I. apply HQ. rewrite Q. now right.
    + intros t' v' j'. unfold upd. destruct (Nat.eqb_spec t' t) as [->|]; [|apply HT].
      intros E. injection E as <- <-. apply HQ. rewrite Q. now left.
    + exact HR.
  - split; [exact A|]. split; [exact HQ|]. split; cbn.
    + intros t' v' j'. unfold upd. destruct (t' =? t); [discriminate|apply HT].
    + intros v' j' w. destruct (j_kind j) eqn:K; try apply HR.
      intros [E|I]; [|eapply HR; eauto]. injection E as <- <- _. eauto.
  - repeat split; assumption.
Qed.
End Only.

Theorem C46_one_accelerator_partial : forall s v b c s1 l s2, reach true s -> step true s (ASet v b c) s1 ->
  run true s1 l s2 -> Forall (only_user v b) l -> no_other_writer true v b s1 l ->
  forall v' j w, In (v', j, w) (res s2) -> j_kind j = KGet b -> next s < j_id j -> w = src s c.
Proof.
  intros s v b c s1 l s2 R ST RN OU NW v' j w I K LT.
  assert (v' = v); [|subst v'; eapply C27_read_back_partial; eauto].
  assert (H1 : at_home v b (next s) s1).
  { pose proof (reach_fresh true s R) as (F1 & F2 & F3). inversion ST; subst; clear ST. split; [cbn; apply upd_same|].
    split; [|split].
    - intros v1 j1. cbn. unfold upd. destruct (v1 =? v).
      + intros J [L1 L2]. apply in_app_or in J. destruct J as [J|[<-|[]]]; [|discriminate]. apply F1 in J. lia.
      + intros J [L1 L2]. apply F1 in J. lia.
    - intros t v1 j1 T [L1 L2]. apply F2 in T. lia.
    - intros v1 j1 w1 J [L1 L2]. apply F3 in J. cbn in J. lia. }
  clear - RN OU H1 I K LT.
  assert (H2 : at_home v b (next s) s2).
  { induction RN; [assumption|]. inversion OU; subst. apply IHRN; auto. eapply home_step; eauto. }
  destruct H2 as (_ & _ & _ & HR). eapply HR; [exact I|]. split; assumption.
Qed.

(** A concrete run meeting the hypotheses of C27: a write, a kernel writing another
    buffer on the same accelerator, a write of another buffer elsewhere, the source
    changed, then the read finishes. *)
Definition c27_pre : list act := [AAssign 0 (Some 0); AAssign 1 (Some 1); ASrc 3 [7%N; 8%N]].
Definition c27_post : list act :=
  [ASrc 3 [9%N]; ARun 0 [5] [6]; ASet 1 8 3; ATake 1 1; AGet 5; ATake 0 0; AFinish 1 (fun _ => []); AFinish 0 (fun _ => []);
   ATake 0 0; AFinish 0 (fun _ => [1%N]); ATake 0 0; AFinish 0 (fun _ => [])].

Fixpoint texecs (s : st) (l : list act) : option st :=
  match l with
  | [] => Some s
  | a :: l' => match exec true s a with Some s' => texecs s' l' | None => None end
  end.
Lemma texec_step : forall s a s', exec true s a = Some s' -> step true s a s'.
Proof.
  intros s a s' E. destruct a as [c x|v b c|b|v ins outs|t v|t eff|v t]; cbn [exec] in E.
  - injection E as <-. constructor.
  - destruct (acc s b) as [v'|] eqn:A.
    + destruct (Nat.eqb_spec v' v) as [->|]; [|discriminate]. injection E as <-. constructor. auto.
    + injection E as <-. constructor. auto.
  - destruct (acc s b) as [v|] eqn:A; [|discriminate]. injection E as <-. now constructor.
  - destruct (migrate_all s v (acc s) (ins ++ outs)) as [ac|] eqn:M; [|discriminate]. injection E as <-. now constructor.
  - destruct (th s t) eqn:T; [discriminate|]. destruct (asg s v) as [t'|] eqn:A; [|discriminate].
    destruct (q s v) as [|j l] eqn:Q; [discriminate|]. destruct (Nat.eqb_spec t' t) as [->|]; [|discriminate].
    injection E as <-. now constructor.
  - destruct (th s t) as [[v j]|] eqn:T; [|discriminate]. injection E as <-. now constructor.
  - discriminate.
Qed.
Lemma texecs_run : forall l s s', texecs s l = Some s' -> run true s l s'.
Proof.
  induction l as [|a l IH]; cbn [texecs]; intros s s' E.
  - injection E as <-. constructor.
  - destruct (exec true s a) eqn:X; [|discriminate]. econstructor; [apply texec_step; eassumption|auto].
Qed.

Definition c27_s0 : st :=
  mkst (fun _ => [0%N]) (upd (fun _ => []) 3 [7%N; 8%N]) (fun _ => None)
       (upd (upd (fun _ => None) 0 (Some 0)) 1 (Some 1)) (fun _ => []) (fun _ => None) 0 [].

Lemma c27_s0_reach : reach true c27_s0.
Proof.
  exists (fun _ => [0%N]), c27_pre. unfold c27_pre.
  eapply run_cons; [apply s_assign; intros _ u; reflexivity|].
  eapply run_cons; [apply s_assign; intros _ u; reflexivity|].
  eapply run_cons; [apply s_src|]. apply run_nil.
Qed.

Lemma step_det : forall s a s1 s2, step true s a s1 -> step true s a s2 -> s1 = s2.
Proof.
  intros s a s1 s2 A B.
  destruct A as [s c y|s v0 b0 c A|s v0 b0 A|s v0 ins outs ac A|s t v0 j l TN AS Q|s t v0 j eff T|s v0 t A];
    inversion B as [s' c' y'|s' v' b' c' A'|s' v' b' A'|s' v' ins' outs' ac' A'|s' t' v' j' l' TN' AS' Q'|s' t' v' j' eff' T'|s' v' t' A'];
    clear B; try (subst; reflexivity).
  - assert (v' = v0) by congruence. subst. reflexivity.
  - assert (ac' = ac) by congruence. subst. reflexivity.
  - assert (j' = j /\ l' = l) as [-> ->] by (subst; rewrite Q in Q'; injection Q'; auto). subst. reflexivity.
  - assert (v' = v0 /\ j' = j) as [-> ->] by (subst; rewrite T in T'; injection T'; auto). subst. reflexivity.
Qed.

Fixpoint quiet (v b : nat) (s : st) (l : list act) : bool :=
  match l with
  | [] => true
  | a :: l' =>
      (match a with
       | ASet v' b' _ => negb ((v' =? v) && (b' =? b))
       | ARun v' _ outs => negb ((v' =? v) && existsb (fun o => o =? b) outs)
       | AFinish t _ => match th s t with
                        | Some (v', j) => negb (writes (j_kind j) b) || (v' =? v)
                        | None => true
                        end
       | _ => true
       end) && match exec true s a with Some s' => quiet v b s' l' | None => false end
  end.
Lemma quiet_ok : forall v b l s, quiet v b s l = true -> no_other_writer true v b s l.
Proof.
  induction l as [|a l IH]; intros s Q; [constructor|]. cbn [quiet] in Q. apply andb_true_iff in Q. destruct Q as [Q1 Q2].
  destruct (exec true s a) as [s'|] eqn:X; [|discriminate]. constructor.
  - destruct a as [c x|v' b' c|b'|v' ins outs|t v'|t eff|v' t]; auto.
    + intros [-> ->]. rewrite !Nat.eqb_refl in Q1. discriminate.
    + intros -> I. rewrite Nat.eqb_refl in Q1. cbn in Q1. apply negb_true_iff in Q1.
      assert (existsb (fun o => o =? b) outs = true).
      { apply existsb_exists. exists b. split; [assumption|apply Nat.eqb_refl]. }
      congruence.
    + intros v' j T W. rewrite T, W in Q1. cbn in Q1. now apply Nat.eqb_eq.
  - intros s1 ST. replace s1 with s' by (eapply step_det; [apply texec_step; eassumption|assumption]). auto.
Qed.

Definition opt_or {A} (d : A) (o : option A) : A := match o with Some x => x | None => d end.
Definition is_some {A} (o : option A) : bool := match o with Some _ => true | None => false end.
Lemma opt_or_some : forall A (d : A) o, is_some o = true -> o = Some (opt_or d o).
Proof. intros A d [x|]; [reflexivity|discriminate]. Qed.
Definition c27_s1 : st := opt_or c27_s0 (exec true c27_s0 (ASet 0 5 3)).
Definition c27_s2 : st := opt_or c27_s0 (texecs c27_s1 c27_post).
Lemma c27_q : quiet 0 5 c27_s1 c27_post = true.
Proof. vm_compute. reflexivity. Qed.
Lemma c27_r : res c27_s2 = [(0, mkjob 3 (KGet 5), [7%N; 8%N])].
Proof. vm_compute. reflexivity. Qed.

Example C27_example : exists s1 s2, reach true c27_s0 /\ step true c27_s0 (ASet 0 5 3) s1 /\
  run true s1 c27_post s2 /\ no_other_writer true 0 5 s1 c27_post /\ Forall (only_user 0 5) c27_post /\
  In (0, mkjob 3 (KGet 5), [7%N; 8%N]) (res s2).
Proof.
  exists c27_s1, c27_s2. split; [exact c27_s0_reach|].
  split; [apply texec_step; apply opt_or_some; vm_compute; reflexivity|].
  split; [apply texecs_run; apply opt_or_some; vm_compute; reflexivity|].
  split; [apply quiet_ok; exact c27_q|].
  split; [repeat constructor|].
  rewrite c27_r. left. reflexivity.
Qed.
