(** * What a client reads back from a device that works behind the completions (C72)

    Every worker thread of a GPU or OpenCL device has a stream of its own.  A handler only puts its operation on the stream and goes on; the
    device performs the operations of one stream in order, those of different streams in any order.  Several workers may share one device and its memory
    (controller/example_configs/nvidia_2strms.json).

    Code modelled
    - [controller/src/Core/accelThread.cpp:350-432]    the loop of a worker: take a task of an assigned virtual accelerator, call the handler
    - [controller/src/Cuda/CUDAaccelThread.cpp:48-52,83-86]   the handler gets the worker's stream; one stream per worker
    - [controller/src/Cuda/CUDABuiltins.cu:116-237]    "memcpy", "memset" (and kernels of the user's libraries, which are written the same way)
    - [controller/src/Cuda/CUDABuiltins.cu:239-243]    "init_phys"
    - [controller/src/Cuda/CUDABuiltins.cu:251-282]    "arax_data_set": copy, wait for the stream, free the task
    - [controller/src/Cuda/CUDABuiltins.cu:289-308]    "arax_data_get": copy, wait for the stream, mark the task done
    - [controller/src/OpenCL/OpenclBuiltins.cpp:85-234, controller/src/OpenCL/OpenclaccelThread.cpp:73-77,189-190]  the same with a command queue
    - [controller/src/Schedulers/ElasticScheduler.cpp:60-73]  moves a virtual accelerator to another worker, at any time

    Not modelled: sizes and offsets that go wrong (C67), allocation on the device (C66), waiting for memory (C14), the queue itself (C06, C44), migration of data
    between devices (its code is compiled out); the OpenCL "memcpy" that nobody waits for is marked done before the wait, not left unmarked. *)
From Verif Require Import Base.
From Coq Require Import Lia.
Local Open Scope nat_scope.

(** ** The model *)
(** The contents of the buffers on the device (data->remote, src/core/arax_data.h:56-70); every number is a byte. *)
Definition bytes := list nat.
Definition memory := nat -> bytes.
(** Tasks, by procedure: see the list of the code above.  A kernel reads the buffers [ins], writes the buffers [outs], and computes [f] (a buffer it only
    partly overwrites is also in [ins]); [sync]: for a kernel, whether its handler waits for the stream, for a copy the flag of
    memcpyArgs (controller/include/AraxLibUtilsMemOps.h:5-13). *)
Inductive task :=
| TSet (b : nat) (x : bytes) | TGet (b : nat) | TFill (b off n v : nat) | TCopy (src soff dst doff n : nat) (sync : bool)
| TRun (ins outs : list nat) (f : list bytes -> list bytes) (sync : bool) | TInit.
(** A task on its way: its number, the virtual accelerator it was issued to, the worker that took it, the task.
    src/core/arax_task.h:20-42. *)
Record entry := mke { eid : nat; ev : nat; ew : nat; et : task }.

(** Does the handler wait for the stream (cudaStreamSynchronize, clFinish)?  CUDABuiltins.cu:182,240,273,305. *)
Definition waits (t : task) : bool :=
  match t with TSet _ _ | TGet _ | TInit => true | TFill _ _ _ _ => false | TCopy _ _ _ _ _ sync => negb sync | TRun _ _ _ sync => sync end.
(** Does it mark the task as completed?  CUDABuiltins.cu:181-187,216,241,280,306. *)
Definition marks (t : task) : bool :=
  match t with TSet _ _ => false | TCopy _ _ _ _ _ sync => sync | _ => true end.
(** Does it free the task?  CUDABuiltins.cu:280. *)
Definition frees (t : task) : bool := match t with TSet _ _ => true | _ => false end.

(** cudaMemsetAsync and cudaMemcpyAsync on part of a buffer, CUDABuiltins.cu:160,209. *)
Definition splice (old : bytes) (off : nat) (x : bytes) : bytes := firstn off old ++ x ++ skipn (off + length x) old.
(** The buffers a task reads and writes. *)
(** CUDABuiltins.cu:116-308. *)
Definition reads (t : task) : list nat :=
  match t with TSet _ _ | TInit => [] | TGet b => [b] | TFill b _ _ _ => [b] | TCopy s _ d _ _ _ => [s; d] | TRun i _ _ _ => i end.
(** CUDABuiltins.cu:116-308. *)
Definition writes (t : task) : list nat :=
  match t with TGet _ | TInit => [] | TSet b _ => [b] | TFill b _ _ _ => [b] | TCopy _ _ d _ _ _ => [d] | TRun _ o _ _ => o end.
(** A kernel's results, buffer by buffer (a kernel of a user's library, no code of its own). *)
Fixpoint assign (outs : list nat) (xs : list bytes) (m : memory) : memory :=
  match outs, xs with o :: outs', x :: xs' => assign outs' xs' (fupd m o x) | _, _ => m end.
(** What the device does when it performs the operation.  CUDABuiltins.cu:160,209,271,297. *)
Definition effect (t : task) (m : memory) : memory :=
  match t with
  | TSet b x => fupd m b (splice (m b) 0 x)
  | TGet _ | TInit => m
  | TFill b off n v => fupd m b (splice (m b) off (repeat v n))
  | TCopy s so d off n _ => fupd m d (splice (m d) off (firstn n (skipn so (m s))))
  | TRun ins outs f _ => assign outs (f (map m ins)) m
  end.

(** The device's memory; the streams, oldest operation first; the workers, each free or waiting for its stream on behalf of a task; the
    queues of the virtual accelerators and the workers they are assigned to; what the reads brought back; the tasks marked done and those freed by a handler.
    For the statements only: the tasks in the order they were issued and in the order workers took them. *)
(** controller/include/accelThread.h, src/core/arax_vaccel.h:14-29. *)
Record st := mks { mem : memory; strm : nat -> list entry; wk : nat -> option entry; vq : nat -> list (nat * task); on : nat -> nat;
                   out : nat -> option bytes; done : list nat; freed : list nat; nid : nat; iss : list (nat * nat * task); log : list entry }.
(** [m0]: what the memory holds at the start; [a0]: the first assignment. *)
(** controller/src/Core/accelThread.cpp:293-349. *)
Definition init (m0 : memory) (a0 : nat -> nat) : st :=
  mks m0 (fun _ => []) (fun _ => None) (fun _ => []) a0 (fun _ => None) [] [] 0 [] [].
(** A client issues a task; a worker takes one; the device performs the oldest operation of a worker's stream; a worker finds its stream empty; the scheduler
    moves a virtual accelerator. *)
(** src/arch/shm/impl.c:467-488, accelThread.cpp:368-432, ElasticScheduler.cpp:60-73. *)
Inductive event := Issue (v : nat) (t : task) | Take (w v : nat) | Dev (w : nat) | Sync (w : nat) | Move (v w : nat).
(** Marking, src/core/arax_task.c:83-87. *)
Definition fin (s : st) (e : entry) : list nat * list nat :=
  (if marks (et e) then eid e :: done s else done s, if frees (et e) then eid e :: freed s else freed s).
(** Lines as in [event]; an event that cannot happen changes nothing. *)
Definition step (s : st) (x : event) : st :=
  match x with
  | Issue v t => mks (mem s) (strm s) (wk s) (fupd (vq s) v (vq s v ++ [(nid s, t)])) (on s) (out s) (done s) (freed s) (S (nid s)) (iss s ++ [(nid s, v, t)]) (log s)
  | Take w v =>
      match wk s w, vq s v with
      | None, (k, t) :: q =>
          if on s v =? w then
            let e := mke k v w t in
            let s1 := mks (mem s) (fupd (strm s) w (strm s w ++ [e])) (wk s) (fupd (vq s) v q) (on s) (out s) (done s) (freed s) (nid s) (iss s) (log s ++ [e]) in
            if waits t then mks (mem s1) (strm s1) (fupd (wk s1) w (Some e)) (vq s1) (on s1) (out s1) (done s1) (freed s1) (nid s1) (iss s1) (log s1)
            else mks (mem s1) (strm s1) (wk s1) (vq s1) (on s1) (out s1) (fst (fin s1 e)) (snd (fin s1 e)) (nid s1) (iss s1) (log s1)
          else s
      | _, _ => s
      end
  | Dev w =>
      match strm s w with
      | [] => s
      | e :: q => mks (effect (et e) (mem s)) (fupd (strm s) w q) (wk s) (vq s) (on s)
                    (match et e with TGet b => fupd (out s) (eid e) (Some (mem s b)) | _ => out s end) (done s) (freed s) (nid s) (iss s) (log s)
      end
  | Sync w =>
      match wk s w, strm s w with
      | Some e, [] => mks (mem s) (strm s) (fupd (wk s) w None) (vq s) (on s) (out s) (fst (fin s e)) (snd (fin s e)) (nid s) (iss s) (log s)
      | _, _ => s
      end
  | Move v w => mks (mem s) (strm s) (wk s) (vq s) (fupd (on s) v w) (out s) (done s) (freed s) (nid s) (iss s) (log s)
  end.
(** Any history, no code of its own. *)
Fixpoint run (s : st) (l : list event) : st := match l with [] => s | x :: l' => run (step s x) l' end.

(** ** Specification *)
(** The tasks performed one after the other. *)
Fixpoint replay (l : list task) (m : memory) : memory := match l with [] => m | t :: l' => replay l' (effect t m) end.
(** The buffers a task touches; two tasks conflict when one writes a buffer that the other touches. *)
Definition touches (t : task) : list nat := reads t ++ writes t.
Definition conflict (t u : task) : Prop :=
  exists b, (In b (writes t) /\ In b (touches u)) \/ (In b (touches t) /\ In b (writes u)).
(** [B] is a set of buffers that belong together: a task of the history that touches one touches no others.  [concerns B t]: it touches one of them. *)
Definition concerns (B : nat -> bool) (t : task) : bool := existsb B (touches t).
Definition closed (B : nat -> bool) (l : list event) : Prop := forall v t, In (Issue v t) l -> concerns B t = true -> forall b, In b (touches t) -> B b = true.
(** Whenever a worker takes a task that concerns [B], nothing in the stream of another worker that concerns [B] conflicts with it. *)
Definition safe_take (B : nat -> bool) (s : st) (x : event) : Prop :=
  match x with
  | Take w v => match vq s v with
                | (k, t) :: _ => on s v = w -> wk s w = None -> concerns B t = true -> forall w' e, w' <> w -> In e (strm s w') -> concerns B (et e) = true -> ~ conflict (et e) t
                | [] => True end
  | _ => True end.
Fixpoint safe (B : nat -> bool) (s : st) (l : list event) : Prop :=
  match l with [] => True | x :: l' => safe_take B s x /\ safe B (step s x) l' end.
(** Tasks issued to [v] in order. *)
Definition issued_to (v : nat) (s : st) : list (nat * task) :=
  map (fun p => (fst (fst p), snd p)) (filter (fun p => snd (fst p) =? v) (iss s)).

(** ** Proofs *)
Lemma run_app l1 : forall l2 s, run s (l1 ++ l2) = run (run s l1) l2.
Proof. induction l1; simpl; auto. Qed.
Lemma replay_app l1 : forall l2 m, replay (l1 ++ l2) m = replay l2 (replay l1 m).
Proof. induction l1; simpl; auto. Qed.

Definition meq (B : nat -> bool) (m m' : memory) : Prop := forall b, B b = true -> m b = m' b.
Lemma assign_other outs : forall xs m b, ~ In b outs -> assign outs xs m b = m b.
Proof.
  induction outs as [|o outs IH]; intros [|x xs] m b H; simpl in *; auto. rewrite IH by tauto. apply fupd_ne. intros ->. apply H. auto.
Qed.
Lemma effect_other t m b : ~ In b (writes t) -> effect t m b = m b.
Proof.
  intros H. destruct t; simpl in *; auto; try (apply fupd_ne; intros ->; tauto). now apply assign_other.
Qed.
Lemma assign_cong (P : nat -> Prop) outs : forall xs m m', (forall b, P b -> m b = m' b) -> forall b, P b -> assign outs xs m b = assign outs xs m' b.
Proof.
  induction outs as [|o outs IH]; intros [|x xs] m m' H b Pb; simpl in *; auto. apply IH; auto. intros c Pc. unfold fupd. destruct (c =? o); auto.
Qed.
(** the effect depends only on the buffers read; TSet keeps the tail of its buffer, so it depends on that buffer too *)
Lemma effect_cong (P : nat -> Prop) t m m' : (forall b, In b (touches t) -> P b) -> (forall b, P b -> m b = m' b) -> forall b, P b -> effect t m b = effect t m' b.
Proof.
  intros T H b Pb. unfold touches in T. destruct t; simpl in *; auto.
  - unfold fupd. destruct (b =? b0); auto. now rewrite (H b0) by auto.
  - unfold fupd. destruct (b =? b0); auto. now rewrite (H b0) by auto.
  - unfold fupd. destruct (b =? dst); auto. now rewrite (H dst), (H src) by auto.
  - replace (map m' ins) with (map m ins); [now apply (assign_cong P)|]. apply map_ext_in. intros c X. apply H, T, in_or_app. auto.
Qed.
Lemma replay_cong (P : nat -> Prop) l : (forall t, In t l -> forall b, In b (touches t) -> P b) -> forall m m', (forall b, P b -> m b = m' b) ->
  forall b, P b -> replay l m b = replay l m' b.
Proof.
  induction l as [|t l IH]; intros T m m' H b Pb; simpl in *; auto. apply IH; auto.
  - intros u U. apply T. auto.
  - intros c Pc. apply (effect_cong P); auto. intros d. apply T. auto.
Qed.
Lemma replay_other l b : (forall t, In t l -> ~ In b (writes t)) -> forall m, replay l m b = m b.
Proof.
  induction l as [|t l IH]; intros H m; simpl; auto. rewrite IH by (intros; apply H; simpl; auto). apply effect_other. apply H. simpl. auto.
Qed.
(** two operations that do not conflict may be swapped *)
Lemma effect_comm t u m b : ~ conflict t u -> effect t (effect u m) b = effect u (effect t m) b.
Proof.
  intros C. destruct (in_dec Nat.eq_dec b (writes t)) as [Wt|Wt].
  - rewrite (effect_other u) by (intros W; apply C; exists b; left; split; auto; apply in_or_app; auto).
    apply (effect_cong (fun c => In c (touches t))); auto; [|apply in_or_app; auto].
    intros c X. apply effect_other. intros Y. apply C. exists c. auto.
  - rewrite (effect_other t) by auto. destruct (in_dec Nat.eq_dec b (writes u)) as [Wu|Wu].
    + symmetry. apply (effect_cong (fun c => In c (touches u))); auto; [|apply in_or_app; auto].
      intros c X. apply effect_other. intros Y. apply C. exists c. auto.
    + rewrite !effect_other by auto. reflexivity.
Qed.
Lemma effect_ext t m m' : (forall b, m b = m' b) -> forall b, effect t m b = effect t m' b.
Proof. intros H b. apply (effect_cong (fun _ => True)); auto. Qed.
Lemma replay_ext l m m' : (forall b, m b = m' b) -> forall b, replay l m b = replay l m' b.
Proof. intros H b. apply (replay_cong (fun _ => True)); auto. Qed.
Lemma replay_comm l u : (forall t, In t l -> ~ conflict t u) -> forall m b, replay l (effect u m) b = effect u (replay l m) b.
Proof.
  induction l as [|t l IH]; intros H m b; simpl; auto. rewrite <- IH by (intros; apply H; simpl; auto).
  apply replay_ext. intros c. apply effect_comm. apply H. simpl. auto.
Qed.

Lemma NoDup_app_snoc {X} (l : list X) x : NoDup l -> ~ In x l -> NoDup (l ++ [x]).
Proof.
  induction 1 as [|y l N ND IH]; simpl; intros H; [repeat constructor; auto|]. constructor; [|apply IH; tauto].
  intros Y. apply in_app_or in Y as [Y|[<-|[]]]; tauto.
Qed.

(** *** What holds in every history *)
Definition eit (e : entry) : nat * task := (eid e, et e).
Record shape (s : st) : Prop := mkshape {
  s_ids : map (fun p => fst (fst p)) (iss s) = seq 0 (nid s);
  s_fifo : forall v, issued_to v s = map eit (filter (fun e => ev e =? v) (log s)) ++ vq s v;
  s_strm : forall w e, In e (strm s w) -> ew e = w /\ In e (log s);
  s_nd : forall w, NoDup (strm s w);
  s_log : NoDup (map eid (log s));
  s_wk : forall w e, wk s w = Some e -> ew e = w /\ In e (log s) /\ waits (et e) = true;
  s_pend : forall w e, In e (strm s w) -> out s (eid e) = None;
  s_perf : forall e b, In e (log s) -> et e = TGet b -> In e (strm s (ew e)) \/ out s (eid e) <> None;
  s_out : forall k, out s k <> None -> In k (map eid (log s));
  s_done : forall k, In k (done s) \/ In k (freed s) -> exists e, In e (log s) /\ eid e = k /\ (waits (et e) = true -> forall w, ~ In e (strm s w));
  s_freed : forall k, In k (freed s) -> exists e, In e (log s) /\ eid e = k /\ frees (et e) = true }.

Lemma nodup_eid l e f : NoDup (map eid l) -> In e l -> In f l -> eid e = eid f -> e = f.
Proof.
  induction l as [|x l IH]; simpl; [tauto|]. intros ND [->|A] [->|C] E; auto; inversion ND as [|? ? N ND' Q]; subst; clear ND.
  - exfalso. apply N. rewrite E. now apply in_map.
  - exfalso. apply N. rewrite <- E. now apply in_map.
  - auto.
Qed.
Lemma in_issued s v k t : In (k, t) (issued_to v s) <-> In (k, v, t) (iss s).
Proof.
  unfold issued_to. rewrite in_map_iff. split.
  - intros (((k', v'), t') & E & X). apply filter_In in X as [X Y]. simpl in *. apply Nat.eqb_eq in Y. now injection E as -> ->; subst.
  - intros X. exists (k, v, t). split; auto. apply filter_In. split; auto. simpl. apply Nat.eqb_refl.
Qed.
Lemma iss_inj s p q : shape s -> In p (iss s) -> In q (iss s) -> fst (fst p) = fst (fst q) -> p = q.
Proof.
  intros V. assert (ND : NoDup (map (fun p => fst (fst p)) (iss s))) by (rewrite (s_ids _ V); apply seq_NoDup).
  revert ND. generalize (iss s). induction l as [|x l IH]; simpl; [tauto|]. intros ND [->|A] [->|C] E; auto; inversion ND as [|? ? N ND' Q]; subst; clear ND.
  - exfalso. apply N. rewrite E. now apply (in_map (fun p => fst (fst p))).
  - exfalso. apply N. rewrite <- E. now apply (in_map (fun p => fst (fst p))).
  - auto.
Qed.
Lemma log_issued s e : shape s -> In e (log s) -> In (eid e, ev e, et e) (iss s).
Proof.
  intros V X. apply in_issued. rewrite (s_fifo _ V). apply in_or_app. left. apply (in_map eit). apply filter_In. split; auto. apply Nat.eqb_refl.
Qed.
Lemma nodup_filter_map {X} (p : X -> bool) (g : X -> nat) l : NoDup (map g l) -> NoDup (map g (filter p l)).
Proof.
  induction l as [|x l IH]; simpl; intros ND; auto. inversion ND as [|? ? N ND' Q]; subst. destruct (p x); simpl; auto. constructor; auto.
  intros Y. apply N. apply in_map_iff in Y as (y & E & Y). apply filter_In in Y as [Y _]. rewrite <- E. now apply in_map.
Qed.
Lemma fresh s v k t q : shape s -> vq s v = (k, t) :: q -> forall e, In e (log s) -> eid e <> k.
Proof.
  intros V Q e X E.
  pose proof (log_issued s e V X) as A.
  assert (C : In (k, v, t) (iss s)) by (apply in_issued; rewrite (s_fifo _ V), Q; apply in_or_app; simpl; auto).
  pose proof (iss_inj s _ _ V A C E) as Y. injection Y as _ Ev Et.
  pose proof (s_fifo _ V v) as F. rewrite Q in F.
  assert (ND : NoDup (map fst (issued_to v s))).
  { unfold issued_to. rewrite map_map. simpl. apply nodup_filter_map. rewrite (s_ids _ V). apply seq_NoDup. }
  rewrite F, map_app, map_map in ND. simpl in ND. apply NoDup_remove_2 in ND. apply ND. apply in_or_app. left.
  rewrite <- E. apply (in_map (fun e => fst (eit e))). apply filter_In. split; auto. now apply Nat.eqb_eq.
Qed.

Lemma shape_init m0 a0 : shape (init m0 a0).
Proof. split; simpl; try easy; try constructor; intuition (try easy). Qed.

Lemma shape_take s w v k t q : shape s -> wk s w = None -> vq s v = (k, t) :: q -> on s v = w -> shape (step s (Take w v)).
Proof.
  intros V K Q O. unfold step. rewrite K, Q, O, Nat.eqb_refl. set (e := mke k v w t). pose proof (fresh s v k t q V Q) as Fr.
  assert (Ne : ~ In e (log s)) by (intros X; now apply (Fr e X)).
  assert (G : forall wk' dn fr', (forall w' f, wk' w' = Some f -> (w' = w /\ f = e /\ waits t = true) \/ wk s w' = Some f) ->
     (forall x, In x dn \/ In x fr' -> In x (done s) \/ In x (freed s) \/ (x = k /\ waits t = false)) ->
     (forall x, In x fr' -> In x (freed s) \/ (x = k /\ frees t = true)) ->
     shape (mks (mem s) (fupd (strm s) w (strm s w ++ [e])) wk' (fupd (vq s) v q) (on s) (out s) dn fr' (nid s) (iss s) (log s ++ [e]))).
  { intros wk' dn fr' Hw Hd Hf. split; cbn [mem strm wk vq on out done freed nid iss log].
    - apply V.
    - intros v'. pose proof (s_fifo _ V v') as F. unfold issued_to in *. cbn [iss]. rewrite F, filter_app, map_app. simpl.
      destruct (Nat.eqb_spec v v') as [->|N].
      + rewrite fupd_eq, Q, <- app_assoc. reflexivity.
      + rewrite fupd_ne by auto. simpl. now rewrite app_nil_r.
    - intros w' f X. unfold fupd in X. destruct (Nat.eqb_spec w' w) as [->|N].
      + apply in_app_or in X as [X|[<-|[]]]; [|split; auto; apply in_or_app; simpl; auto].
        destruct (s_strm _ V w f X). split; auto. apply in_or_app; auto.
      + destruct (s_strm _ V w' f X). split; auto. apply in_or_app; auto.
    - intros w'. unfold fupd. destruct (Nat.eqb_spec w' w) as [->|N]; [|apply V].
      apply NoDup_app_snoc; [apply V|]. intros X. apply Ne. now apply (s_strm _ V w).
    - rewrite map_app. simpl. apply NoDup_app_snoc; [apply V|]. intros X. apply in_map_iff in X as (f & E & X). now apply (Fr f X).
    - intros w' f X. apply Hw in X as [(-> & -> & X)|X].
      + repeat split; auto. apply in_or_app; simpl; auto.
      + destruct (s_wk _ V w' f X) as (A & C & D). repeat split; auto. apply in_or_app; auto.
    - intros w' f X.
      assert (Y : In f (strm s w') \/ f = e).
      { unfold fupd in X. destruct (Nat.eqb_spec w' w) as [->|N]; auto. apply in_app_or in X as [X|[<-|[]]]; auto. }
      destruct Y as [Y| ->]; [now apply (s_pend _ V w')|]. simpl. destruct (out s k) eqn:E; auto. exfalso.
      assert (Z : In k (map eid (log s))) by (apply (s_out _ V); congruence). apply in_map_iff in Z as (f & E1 & Z). now apply (Fr f Z).
    - intros f b X Y. apply in_app_or in X as [X|[<-|[]]].
      + destruct (s_perf _ V f b X Y) as [Z|Z]; auto. left. unfold fupd. destruct (Nat.eqb_spec (ew f) w) as [E|N]; auto.
        rewrite E in Z. apply in_or_app; auto.
      + left. simpl. rewrite fupd_eq. apply in_or_app; simpl; auto.
    - intros k' X. rewrite map_app. apply in_or_app. left. now apply V.
    - intros k' X. apply Hd in X. assert (X' : (In k' (done s) \/ In k' (freed s)) \/ (k' = k /\ waits t = false)) by tauto. clear X.
      destruct X' as [X|[-> X]].
      { destruct (s_done _ V k' X) as (f & A & C & D). exists f. split; [apply in_or_app; auto|]. split; auto. intros Y w' Z. unfold fupd in Z.
        destruct (Nat.eqb_spec w' w) as [Ew|N]; [|now apply (D Y w')].
        apply in_app_or in Z as [Z|[<-|[]]]; [now apply (D Y w)|now apply Ne]. }
      exists e. repeat split; auto; [apply in_or_app; simpl; auto|]. simpl. congruence.
    - intros k' X. apply Hf in X as [X|[-> X]].
      + destruct (s_freed _ V k' X) as (f & A & C & D). exists f. repeat split; auto. apply in_or_app; auto.
      + exists e. repeat split; auto. apply in_or_app; simpl; auto. }
  cbn [mem strm wk vq on out done freed nid iss log]. destruct (waits t) eqn:Wt; apply G; cbn [fin et eid e fst snd]; auto.
  - intros w' f X. unfold fupd in X. destruct (Nat.eqb_spec w' w) as [->|N]; auto. left. repeat split; congruence.
  - tauto.
  - intros x X. destruct X as [X|X].
    + destruct (marks t); auto. destruct X as [<-|X]; auto.
    + destruct (frees t); auto. destruct X as [<-|X]; auto.
  - intros x X. destruct (frees t); auto. destruct X as [<-|X]; auto.
Qed.
Lemma shape_step s x : shape s -> shape (step s x).
Proof.
  intros V. destruct x as [v t|w v|w|w|v w].
  - (* Issue *)
    split; cbn [step mem strm wk vq on out done freed nid iss log]; try apply V.
    + rewrite map_app, (s_ids _ V). rewrite seq_S. reflexivity.
    + intros v'. pose proof (s_fifo _ V v') as F. unfold issued_to in *. cbn [iss]. rewrite filter_app, map_app, F, <- app_assoc. f_equal. simpl.
      destruct (Nat.eqb_spec v v') as [->|N]; [now rewrite fupd_eq|]. rewrite fupd_ne by auto. simpl. now rewrite app_nil_r.
  - (* Take *)
    destruct (wk s w) eqn:K; [unfold step; now rewrite K|]. destruct (vq s v) as [|[k t] q] eqn:Q; [unfold step; now rewrite K, Q|].
    destruct (Nat.eqb_spec (on s v) w) as [O|O].
    + now apply (shape_take s w v k t q).
    + unfold step. rewrite K, Q. apply Nat.eqb_neq in O. now rewrite O.
  - (* Dev *)
    unfold step. destruct (strm s w) as [|e q] eqn:S1; auto.
    assert (Se : In e (strm s w)) by (rewrite S1; simpl; auto). destruct (s_strm _ V w e Se) as [We Le].
    pose proof (s_nd _ V w) as ND. rewrite S1 in ND. inversion ND as [|? ? Nq NDq Q]; subst x l; clear ND.
    assert (Sub : forall w' f, In f (fupd (strm s) w q w') -> In f (strm s w') /\ f <> e).
    { intros w' f X. unfold fupd in X. destruct (Nat.eqb_spec w' w) as [->|N].
      - rewrite S1. simpl. split; auto. intros ->; auto.
      - split; auto. intros ->. apply N. apply (s_strm _ V w') in X as [X _]. congruence. }
    assert (Oo : forall k, (match et e with TGet b => fupd (out s) (eid e) (Some (mem s b)) | _ => out s end) k <> None -> k = eid e \/ out s k <> None).
    { intros k. destruct (et e); auto. unfold fupd. destruct (Nat.eqb_spec k (eid e)); auto. }
    split; cbn [mem strm wk vq on out done freed nid iss log]; try apply V.
    + intros w' f X. apply Sub in X as [X _]. now apply V.
    + intros w'. unfold fupd. destruct (Nat.eqb_spec w' w); [auto|apply V].
    + intros w' f X. apply Sub in X as [X N]. pose proof (s_pend _ V w' f X) as Z.
      match goal with |- ?o (eid f) = None => destruct (o (eid f)) eqn:E; auto end. exfalso.
      assert (eid f = eid e \/ out s (eid f) <> None) as [Y|Y] by (apply Oo; congruence); [|congruence].
      apply N. apply (nodup_eid (log s)); auto; [apply V|]. now apply (s_strm _ V w').
    + intros f b X Y. destruct (s_perf _ V f b X Y) as [Z|Z].
      * unfold fupd at 1. destruct (Nat.eqb_spec (ew f) w) as [E|N]; auto. rewrite E, S1 in Z. destruct Z as [<-|Z]; auto.
        right. rewrite Y, fupd_eq. discriminate.
      * right. destruct (et e); auto. unfold fupd. destruct (eid f =? eid e); [discriminate|auto].
    + intros k X. apply Oo in X as [->|X]; [now apply in_map|now apply V].
    + intros k X. destruct (s_done _ V k X) as (f & A & C & D). exists f. repeat split; auto. intros Y w' Z. apply Sub in Z as [Z _]. now apply (D Y w').
  - (* Sync *)
    unfold step. destruct (wk s w) as [e|] eqn:K; auto. destruct (strm s w) as [|] eqn:S1; auto.
    destruct (s_wk _ V w e K) as (A & C & D).
    split; cbn [mem strm wk vq on out done freed nid iss log]; try apply V.
    + intros w' f X. unfold fupd in X. destruct (Nat.eqb_spec w' w); [discriminate|now apply V].
    + intros k X. assert (Y : (In k (done s) \/ In k (freed s)) \/ k = eid e).
      { unfold fin in X. cbn [fst snd] in X. destruct X as [X|X]; [destruct (marks (et e))|destruct (frees (et e))]; auto; destruct X; auto. }
      destruct Y as [Y| ->]; [now apply V|]. exists e. repeat split; auto. intros _ w' Z. destruct (s_strm _ V w' e Z) as [E _].
      rewrite <- E, A, S1 in Z. contradiction.
    + intros k X. unfold fin in X. cbn [snd] in X. destruct (frees (et e)) eqn:Fe; [|now apply V]. destruct X as [<-|X]; [|now apply V]. exists e. auto.
  - split; cbn [step mem strm wk vq on out done freed nid iss log]; apply V.
Qed.
Lemma shape_run l : forall s, shape s -> shape (run s l).
Proof. induction l; simpl; auto. intros. apply IHl. now apply shape_step. Qed.

(** *** Operations that do not conflict *)
Lemma split_mid {X} (l1 l2 a c : list X) g : l1 ++ l2 = a ++ g :: c ->
  (exists d, l1 = a ++ g :: d /\ c = d ++ l2) \/ (exists d, a = l1 ++ d /\ l2 = d ++ g :: c).
Proof.
  revert a. induction l1 as [|x l1 IH]; intros a E; simpl in E.
  - right. exists a. auto.
  - destruct a as [|y a]; simpl in E; injection E as -> E.
    + left. exists l1. auto.
    + destruct (IH a E) as [(d & -> & ->)|(d & -> & ->)]; [left|right]; exists d; auto.
Qed.
Fixpoint apart (P : list entry) : Prop :=
  match P with [] => True | e :: l => (forall f, In f l -> ew e <> ew f -> ~ conflict (et e) (et f)) /\ apart l end.
Lemma apart_app l1 l2 : apart (l1 ++ l2) <-> apart l1 /\ apart l2 /\ forall e f, In e l1 -> In f l2 -> ew e <> ew f -> ~ conflict (et e) (et f).
Proof.
  induction l1 as [|x l1 IH]; simpl.
  - intuition.
  - rewrite IH. split.
    + intros (A & C & D & E). repeat split; auto; [intros; apply A; auto; apply in_or_app; auto|].
      intros e f [<-|X] Y N; auto. apply A; auto. apply in_or_app; auto.
    + intros ((A & C) & D & E). repeat split; auto. intros f X N. apply in_app_or in X as [X|X]; auto.
Qed.
Lemma filter_first {X} (p : X -> bool) l e q : filter p l = e :: q -> exists l1 l2, l = l1 ++ e :: l2 /\ (forall x, In x l1 -> p x = false) /\ p e = true /\ filter p l2 = q.
Proof.
  induction l as [|x l IH]; simpl; [discriminate|]. destruct (p x) eqn:E; intros H.
  - injection H as -> H. exists [], l. simpl. repeat split; auto. intros y [].
  - destruct (IH H) as (l1 & l2 & -> & A & C & D). exists (x :: l1), l2. repeat split; auto. intros y [<-|Y]; auto.
Qed.
Lemma filter_none {X} (p : X -> bool) l : (forall x, In x l -> p x = false) -> filter p l = [].
Proof. induction l as [|x l IH]; simpl; intros H; auto. rewrite (H x) by auto. auto. Qed.

Section Inv.
Variable B : nat -> bool.
Variable m0 : memory.
Definition rel (e : entry) : bool := concerns B (et e).
Definition within (t : task) : Prop := concerns B t = true -> forall b, In b (touches t) -> B b = true.
Definition rlog (l : list entry) : list task := map et (filter rel l).

Lemma not_concerned t b : concerns B t = false -> In b (touches t) -> B b = false.
Proof.
  unfold concerns. intros H X. destruct (B b) eqn:E; auto. assert (existsb B (touches t) = true) by (apply existsb_exists; eauto). congruence.
Qed.
Lemma concerned t b : In b (touches t) -> B b = true -> concerns B t = true.
Proof. intros X E. apply existsb_exists. eauto. Qed.
Lemma effect_irrelevant t m : concerns B t = false -> meq B (effect t m) m.
Proof.
  intros H b Eb. apply effect_other. intros X. assert (B b = false) by (apply (not_concerned t); auto; apply in_or_app; auto). congruence.
Qed.
Lemma rlog_all l : (forall e, In e l -> within (et e)) -> forall m m', meq B m m' -> meq B (replay (rlog l) m) (replay (map et l) m').
Proof.
  unfold rlog. induction l as [|e l IH]; intros H m m' E; simpl; auto.
  assert (He : within (et e)) by (apply H; simpl; auto).
  assert (Hl : forall f, In f l -> within (et f)) by (intros; apply H; simpl; auto).
  destruct (rel e) eqn:R; simpl; apply IH; auto.
  - intros b Eb. apply (effect_cong (fun c => B c = true)); auto.
  - intros b Eb. rewrite effect_irrelevant by auto. auto.
Qed.

(** [P]: the operations that concern [B] and are not performed yet, in the order they were taken *)
Record inv (s : st) (P : list entry) : Prop := mkinv {
  v_strm : forall w, filter rel (strm s w) = filter (fun e => ew e =? w) P;
  v_rel : forall e, In e P -> rel e = true /\ within (et e);
  v_apart : apart P;
  v_mem : meq B (replay (map et P) (mem s)) (replay (rlog (log s)) m0);
  v_get : forall l1 e l2 b, P = l1 ++ e :: l2 -> et e = TGet b ->
            exists a c, log s = a ++ e :: c /\ replay (map et l1) (mem s) b = replay (rlog a) m0 b;
  v_out : forall e b x, In e (log s) -> et e = TGet b -> B b = true -> out s (eid e) = Some x ->
            exists a c, log s = a ++ e :: c /\ x = replay (rlog a) m0 b;
  v_iss : forall p, In p (iss s) -> within (snd p) }.

Lemma in_pending s P e : inv s P -> In e P -> In e (strm s (ew e)).
Proof.
  intros I X. assert (Y : In e (filter rel (strm s (ew e)))).
  { rewrite (v_strm _ _ I). apply filter_In. split; auto. apply Nat.eqb_refl. }
  now apply filter_In in Y.
Qed.
Lemma touches_get e b : et e = TGet b -> In b (touches (et e)).
Proof. intros ->. simpl. auto. Qed.

Lemma inv_take s P w v k t q : shape s -> inv s P -> wk s w = None -> vq s v = (k, t) :: q -> on s v = w -> safe_take B s (Take w v) ->
  exists P', inv (step s (Take w v)) P'.
Proof.
  intros V I K Q O Sf. pose proof (fresh s v k t q V Q) as Fr. unfold safe_take in Sf. rewrite Q in Sf. specialize (Sf O K).
  unfold step. rewrite K, Q, O, Nat.eqb_refl. set (e := mke k v w t).
  assert (Wt : within t).
  { assert (C : In (k, v, t) (iss s)) by (apply in_issued; rewrite (s_fifo _ V), Q; apply in_or_app; simpl; auto). apply (v_iss _ _ I _ C). }
  assert (Ok : out s k = None).
  { destruct (out s k) eqn:E; auto. exfalso. assert (Z : In k (map eid (log s))) by (apply (s_out _ V); congruence).
    apply in_map_iff in Z as (f & E1 & Z). now apply (Fr f Z). }
  assert (G : exists P', forall wk' dn fr', inv (mks (mem s) (fupd (strm s) w (strm s w ++ [e])) wk' (fupd (vq s) v q) (on s) (out s) dn fr' (nid s) (iss s) (log s ++ [e])) P').
  { destruct (rel e) eqn:R.
    - exists (P ++ [e]). intros wk' dn fr'. split; cbn [mem strm wk vq on out done freed nid iss log].
      + intros w'. rewrite filter_app. simpl. unfold fupd. destruct (Nat.eqb_spec w' w) as [->|N].
        * rewrite filter_app, (v_strm _ _ I). simpl. now rewrite R, Nat.eqb_refl.
        * rewrite (v_strm _ _ I). destruct (Nat.eqb_spec w w'); [congruence|]. now rewrite app_nil_r.
      + intros f X. apply in_app_or in X as [X|[<-|[]]]; [now apply I|auto].
      + apply apart_app. split; [apply I|]. split; [simpl; tauto|]. intros f g X [<-|[]] N.
        apply (Sf R (ew f) f N); [now apply (in_pending _ P)|]. now apply (v_rel _ _ I).
      + unfold rlog. rewrite filter_app, !map_app, !replay_app. simpl. rewrite R. simpl.
        intros b Eb. apply (effect_cong (fun c => B c = true)); auto. intros c Ec. now apply (v_mem _ _ I).
      + intros l1 f l2 b E Eg. symmetry in E. assert (E' : P ++ [e] = l1 ++ f :: l2) by auto. apply split_mid in E' as [(d & E1 & E2)|(d & E1 & E2)].
        * destruct (v_get _ _ I l1 f d b E1 Eg) as (a & c & A & C). exists a, (c ++ [e]). rewrite A, <- app_assoc. auto.
        * assert (d = [] /\ f = e) as [-> ->]. { destruct d as [|y [|]]; simpl in E2; [injection E2 as E2 _; auto|discriminate|discriminate]. }
          rewrite app_nil_r in E1. subst l1. exists (log s), []. split; auto. apply (v_mem _ _ I). apply Wt; auto. apply (touches_get e). exact Eg.
      + intros f b x X Y Z Eo. apply in_app_or in X as [X|[<-|[]]].
        * destruct (v_out _ _ I f b x X Y Z Eo) as (a & c & A & C). exists a, (c ++ [e]). rewrite A, <- app_assoc. auto.
        * simpl in Eo. congruence.
      + apply I.
    - exists P. intros wk' dn fr'. split; cbn [mem strm wk vq on out done freed nid iss log]; try apply I.
      + intros w'. unfold fupd. destruct (Nat.eqb_spec w' w) as [->|N]; [|apply I]. rewrite filter_app, (v_strm _ _ I). simpl. now rewrite R, app_nil_r.
      + unfold rlog. rewrite filter_app. simpl. rewrite R, app_nil_r. apply I.
      + intros l1 f l2 b E Eg. destruct (v_get _ _ I l1 f l2 b E Eg) as (a & c & A & C). exists a, (c ++ [e]). rewrite A, <- app_assoc. auto.
      + intros f b x X Y Z Eo. apply in_app_or in X as [X|[<-|[]]].
        * destruct (v_out _ _ I f b x X Y Z Eo) as (a & c & A & C). exists a, (c ++ [e]). rewrite A, <- app_assoc. auto.
        * simpl in Eo. congruence. }
  destruct G as [P' G]. exists P'. cbn [mem strm wk vq on out done freed nid iss log]. destruct (waits t); apply G.
Qed.

Lemma inv_dev s P w e q : shape s -> inv s P -> strm s w = e :: q -> exists P', inv (step s (Dev w)) P'.
Proof.
  intros V I S1. unfold step. rewrite S1.
  assert (Se : In e (strm s w)) by (rewrite S1; simpl; auto). destruct (s_strm _ V w e Se) as [We Le].
  destruct (rel e) eqn:R.
  - pose proof (v_strm _ _ I w) as F. rewrite S1 in F. simpl in F. rewrite R in F. symmetry in F.
    destruct (filter_first _ _ _ _ F) as (l1 & l2 & EP & N1 & _ & F2).
    assert (In e P) by (rewrite EP; apply in_or_app; simpl; auto).
    pose proof (v_apart _ _ I) as Ap. rewrite EP in Ap. apply apart_app in Ap as (A1 & A2 & A3). simpl in A2. destruct A2 as [A2 A4].
    assert (Nc : forall f, In f l1 -> ~ conflict (et f) (et e)).
    { intros f X. apply A3; simpl; auto. specialize (N1 f X). apply Nat.eqb_neq in N1. congruence. }
    assert (Cm : forall l, (forall f, In f l -> In f l1) -> forall m b, replay (map et l) (effect (et e) m) b = effect (et e) (replay (map et l) m) b).
    { intros l H' m b. apply replay_comm. intros t X. apply in_map_iff in X as (f & <- & X). auto. }
    exists (l1 ++ l2). split; cbn [mem strm wk vq on out done freed nid iss log].
    + intros w'. unfold fupd. destruct (Nat.eqb_spec w' w) as [->|N].
      * rewrite filter_app, F2, (filter_none _ l1) by auto. reflexivity.
      * rewrite (v_strm _ _ I), EP, !filter_app. simpl. destruct (Nat.eqb_spec (ew e) w'); [congruence|reflexivity].
    + intros f X. apply (v_rel _ _ I). rewrite EP. apply in_app_or in X. apply in_or_app. simpl. tauto.
    + apply apart_app. repeat split; auto. intros f g X Y. apply A3; simpl; auto.
    + intros b Eb. rewrite <- (v_mem _ _ I b Eb), EP, !map_app, !replay_app. simpl. apply replay_ext. intros c. apply Cm. auto.
    + intros a g c b E Eg. apply split_mid in E as [(d & E1 & E2)|(d & E1 & E2)].
      * destruct (v_get _ _ I a g (d ++ e :: l2) b) as (x & y & C & D); auto; [rewrite EP, E1, <- app_assoc; reflexivity|].
        exists x, y. split; auto. rewrite <- D, Cm by (intros f X; rewrite E1; apply in_or_app; auto).
        apply effect_other. intros X. apply (Nc g); [rewrite E1; apply in_or_app; simpl; auto|]. exists b. right. split; auto. now apply touches_get.
      * destruct (v_get _ _ I (l1 ++ e :: d) g c b) as (x & y & C & D); auto; [rewrite EP, E2, <- app_assoc; reflexivity|].
        exists x, y. split; auto. rewrite <- D, E1, !map_app, !replay_app. simpl. apply replay_ext. intros z. apply Cm. auto.
    + intros f b x X Y Z Eo. destruct (Nat.eq_dec (eid f) (eid e)) as [Ei|Ni].
      * assert (f = e) as -> by (apply (nodup_eid (log s)); auto; apply V).
        rewrite Y, fupd_eq in Eo. injection Eo as <-.
        destruct (v_get _ _ I l1 e l2 b EP Y) as (a & c & C & D). exists a, c. split; auto. rewrite <- D. symmetry. apply replay_other.
        intros t T. apply in_map_iff in T as (g & <- & T). intros U. apply (Nc g T). exists b. left. split; auto. now apply touches_get.
      * apply (v_out _ _ I f b x X Y Z). destruct (et e); auto. now rewrite fupd_ne in Eo by auto.
    + apply I.
  - exists P. assert (M : meq B (effect (et e) (mem s)) (mem s)) by now apply effect_irrelevant.
    assert (RM : forall l, (forall f, In f l -> In f P) -> meq B (replay (map et l) (effect (et e) (mem s))) (replay (map et l) (mem s))).
    { intros l H b Eb. apply (replay_cong (fun c => B c = true)); auto. intros t T. apply in_map_iff in T as (f & <- & T).
      destruct (v_rel _ _ I f (H f T)) as [X Y]. apply Y. exact X. }
    split; cbn [mem strm wk vq on out done freed nid iss log]; try apply I.
    + intros w'. unfold fupd. destruct (Nat.eqb_spec w' w) as [->|N]; [|apply I]. rewrite <- (v_strm _ _ I), S1. simpl. now rewrite R.
    + intros b Eb. rewrite RM by auto. now apply (v_mem _ _ I).
    + intros l1 f l2 b E Eg. destruct (v_get _ _ I l1 f l2 b E Eg) as (a & c & A & C). exists a, c. split; auto. rewrite <- C. apply RM.
      * intros g X. rewrite E. apply in_or_app. auto.
      * destruct (v_rel _ _ I f) as [X Y]; [rewrite E; apply in_or_app; simpl; auto|]. apply Y; auto. now apply touches_get.
    + intros f b x X Y Z Eo. apply (v_out _ _ I f b x X Y Z). destruct (Nat.eq_dec (eid f) (eid e)) as [Ei|Ni].
      * exfalso. assert (f = e) as -> by (apply (nodup_eid (log s)); auto; apply V).
        assert (concerns B (et e) = true) by (apply (concerned _ b); auto; now apply touches_get). unfold rel in R. congruence.
      * destruct (et e); auto. now rewrite fupd_ne in Eo by auto.
Qed.

Lemma inv_step s P x : shape s -> inv s P -> safe_take B s x -> (forall v t, x = Issue v t -> within t) -> exists P', inv (step s x) P'.
Proof.
  intros V I Sf Wi. destruct x as [v t|w v|w|w|v w].
  - exists P. split; cbn [step mem strm wk vq on out done freed nid iss log]; try apply I.
    intros p X. apply in_app_or in X as [X|[<-|[]]]; [now apply I|]. simpl. eapply Wi. reflexivity.
  - destruct (wk s w) eqn:K; [unfold step; rewrite K; eauto|]. destruct (vq s v) as [|[k t] q] eqn:Q; [unfold step; rewrite K, Q; eauto|].
    destruct (Nat.eqb_spec (on s v) w) as [O|O].
    + now apply (inv_take s P w v k t q).
    + unfold step. rewrite K, Q. apply Nat.eqb_neq in O. rewrite O. eauto.
  - destruct (strm s w) as [|e q] eqn:S1; [unfold step; rewrite S1; eauto|]. now apply (inv_dev s P w e q).
  - unfold step. destruct (wk s w) as [e|]; eauto. destruct (strm s w); eauto. exists P. split; cbn [mem strm wk vq on out done freed nid iss log]; apply I.
  - exists P. split; cbn [step mem strm wk vq on out done freed nid iss log]; apply I.
Qed.
Lemma inv_run l : forall s P, shape s -> inv s P -> safe B s l -> closed B l -> exists P', inv (run s l) P'.
Proof.
  induction l as [|x l IH]; intros s P V I Sf C; [simpl; eauto|]. destruct Sf as [S1 S2].
  destruct (inv_step s P x V I S1) as [P' I'].
  - intros v t -> . intros X. apply (C v t); auto. simpl. auto.
  - simpl. apply (IH _ P'); auto; [now apply shape_step|]. intros v t X. apply (C v t). simpl. auto.
Qed.
Lemma inv_init a0 : inv (init m0 a0) [].
Proof.
  split; simpl; try easy. intros [|y l1] e l2 b E; discriminate.
Qed.
End Inv.

(** ** Theorems *)
(** In every history: each virtual accelerator's tasks are taken in the order they were issued, each at most once. *)
Theorem C72_taken_in_order m0 a0 l v : let s := run (init m0 a0) l in
  issued_to v s = map (fun e => (eid e, et e)) (filter (fun e => ev e =? v) (log s)) ++ vq s v.
Proof. simpl. apply (shape_run l _ (shape_init m0 a0)). Qed.
(** In every history, when a read is marked done its bytes have been brought back; when the task of a write is freed its bytes have been copied; when the first task of a client
    ("init_phys") is marked done, it was performed ([C72_stream_order]: and with it everything its worker had taken before). *)
Theorem C72_waiting_handlers m0 a0 l e : let s := run (init m0 a0) l in In e (log s) ->
  (forall b, et e = TGet b -> In (eid e) (done s) -> (forall w, ~ In e (strm s w)) /\ out s (eid e) <> None) /\
  (et e = TInit -> In (eid e) (done s) -> forall w, ~ In e (strm s w)) /\
  (In (eid e) (freed s) -> (exists b x, et e = TSet b x) /\ forall w, ~ In e (strm s w)).
Proof.
  simpl. set (s := run (init m0 a0) l). assert (V : shape s) by apply (shape_run l _ (shape_init m0 a0)). intros L.
  assert (G : waits (et e) = true -> In (eid e) (done s) \/ In (eid e) (freed s) -> forall w, ~ In e (strm s w)).
  { intros W D. destruct (s_done _ V _ D) as (f & A & C & F). assert (f = e) as -> by (apply (nodup_eid (log s)); auto; apply V). now apply F. }
  split; [|split].
  - intros b E D. assert (W : waits (et e) = true) by now rewrite E. pose proof (G W (or_introl D)) as N. split; auto.
    destruct (s_perf _ V e b L E) as [X|X]; auto. exfalso. now apply (N (ew e)).
  - intros E D. apply G; auto. now rewrite E.
  - intros D. destruct (s_freed _ V _ D) as (f & A & C & F). assert (f = e) as -> by (apply (nodup_eid (log s)); auto; apply V).
    destruct (et e) eqn:E; try discriminate F. split; eauto.
Qed.
(** In every history the device performs what one worker took in the order it was taken: when an operation is performed, so are all that the same worker took before. *)
Lemma suffix_run m0 a0 l w : exists pre, filter (fun e => ew e =? w) (log (run (init m0 a0) l)) = pre ++ strm (run (init m0 a0) l) w.
Proof.
  assert (G : forall l s, shape s -> (exists pre, filter (fun e => ew e =? w) (log s) = pre ++ strm s w) -> exists pre, filter (fun e => ew e =? w) (log (run s l)) = pre ++ strm (run s l) w).
  { induction l0 as [|x l0 IH]; intros s V H; simpl; auto. apply IH; [now apply shape_step|]. destruct H as [pre H].
    destruct x as [v t|w0 v|w0|w0|v w0]; simpl; eauto.
    - destruct (wk s w0); eauto. destruct (vq s v) as [|[k t] q]; eauto. destruct (on s v =? w0); eauto.
      assert (E : exists pre, filter (fun e => ew e =? w) (log s ++ [mke k v w0 t]) = pre ++ fupd (strm s) w0 (strm s w0 ++ [mke k v w0 t]) w).
      { rewrite filter_app. cbn [filter ew]. unfold fupd. destruct (Nat.eqb_spec w0 w) as [->|N].
        - rewrite Nat.eqb_refl. exists pre. rewrite H, app_assoc. reflexivity.
        - destruct (Nat.eqb_spec w w0); [congruence|]. rewrite app_nil_r. eauto. }
      destruct (waits t); exact E.
    - destruct (strm s w0) as [|e q] eqn:E; eauto. cbn [log strm]. unfold fupd. destruct (Nat.eqb_spec w w0) as [->|N]; eauto.
      exists (pre ++ [e]). rewrite H, E, <- app_assoc. reflexivity.
    - destruct (wk s w0); eauto. destruct (strm s w0); eauto. }
  apply G; [apply shape_init|]. exists []. reflexivity.
Qed.
Theorem C72_stream_order m0 a0 l a c d e f : let s := run (init m0 a0) l in log s = a ++ f :: c ++ e :: d -> ew f = ew e -> ~ In e (strm s (ew e)) -> ~ In f (strm s (ew e)).
Proof.
  simpl. set (s := run (init m0 a0) l). assert (V : shape s) by apply (shape_run l _ (shape_init m0 a0)). intros L E N X.
  destruct (suffix_run m0 a0 l (ew e)) as [pre H]. fold s in H.
  assert (ND : NoDup (filter (fun g => ew g =? ew e) (log s))).
  { apply NoDup_filter. apply (NoDup_map_inv eid). apply V. }
  rewrite L in H, ND. rewrite !filter_app in H, ND. cbn [filter] in H, ND. rewrite E, !Nat.eqb_refl in H, ND. rewrite filter_app in H, ND. cbn [filter] in H, ND.
  rewrite !Nat.eqb_refl in H, ND. set (A := filter _ a) in *. set (C := filter _ c) in *. set (D := filter _ d) in *.
  change (f :: C ++ e :: D) with ((f :: C) ++ e :: D) in H. symmetry in H.
  destruct (in_split _ _ X) as (x & y & Sx). rewrite Sx in H.
  assert (Q : pre ++ x = A /\ y = C ++ e :: D).
  { clearbody A C D. clear -H ND. change (f :: y) with ([f] ++ y) in H. rewrite app_assoc in H.
    revert H. generalize (pre ++ x). clear pre. intros p H. simpl in H.
    revert A ND H. induction p as [|z p IH]; intros [|g A] ND H; simpl in *.
    - injection H as H. auto.
    - injection H as -> H. inversion ND as [|? ? N ND' Q]; subst. exfalso. apply N. apply in_or_app. simpl. auto.
    - injection H as -> H. exfalso. inversion ND as [|? ? N ND' Q]; subst. apply N. rewrite <- H. apply in_or_app. simpl. auto.
    - injection H as -> H. inversion ND; subst. destruct (IH A) as [-> ->]; auto. }
  destruct Q as [_ ->]. apply N. rewrite Sx. apply in_or_app. simpl. right. right. apply in_or_app. simpl. auto.
Qed.
(** A worker that waits is released once the device has performed what is in its stream; its task is then marked or freed. *)
Theorem C72_wait_ends s w e : wk s w = Some e ->
  let s' := run s (repeat (Dev w) (length (strm s w)) ++ [Sync w]) in
  wk s' w = None /\ strm s' w = [] /\ (marks (et e) = true -> In (eid e) (done s')) /\ (frees (et e) = true -> In (eid e) (freed s')).
Proof.
  assert (G : forall n s, length (strm s w) = n -> wk s w = Some e -> let s' := run s (repeat (Dev w) n) in wk s' w = Some e /\ strm s' w = []).
  { induction n as [|n IH]; intros s0 L K; simpl.
    - destruct (strm s0 w); [auto|discriminate].
    - apply IH; destruct (strm s0 w) as [|x q] eqn:E; simpl in L; try discriminate; cbn [strm wk]; auto. rewrite fupd_eq. congruence. }
  intros K. destruct (G _ s eq_refl K) as [A C]. cbv zeta. rewrite run_app. set (s1 := run s _) in *. simpl. rewrite A, C.
  cbn [wk strm done freed fin fst snd]. rewrite fupd_eq, C. repeat split; auto; intros ->; simpl; auto.
Qed.
(** The main statement: for buffers that belong together, in every history in which no worker takes a task that conflicts with an operation still in the
    stream of another worker, every read brings back what the tasks taken before it, performed one after the other, leave in the buffer, however late the device works. *)
Theorem C72_reads m0 a0 B l : closed B l -> safe B (init m0 a0) l -> let s := run (init m0 a0) l in
  (forall e b x, In e (log s) -> et e = TGet b -> B b = true -> out s (eid e) = Some x ->
     exists l1 l2, log s = l1 ++ e :: l2 /\ x = replay (map et l1) m0 b) /\
  ((forall w, strm s w = []) -> forall b, B b = true -> mem s b = replay (map et (log s)) m0 b).
Proof.
  intros C Sf. simpl. destruct (inv_run B m0 l _ [] (shape_init m0 a0) (inv_init B m0 a0) Sf C) as [P I].
  set (s := run (init m0 a0) l) in *. assert (V : shape s) by apply (shape_run l _ (shape_init m0 a0)).
  assert (Wi : forall e, In e (log s) -> within B (et e)).
  { intros e X. apply (v_iss _ _ _ _ I (eid e, ev e, et e)). now apply log_issued. }
  split.
  - intros e b x L E Eb O. destruct (v_out _ _ _ _ I e b x L E Eb O) as (a & c & A & ->). exists a, c. split; auto.
    apply (rlog_all B); auto; [|intros ? ?; reflexivity]. intros f X. apply Wi. rewrite A. apply in_or_app. auto.
  - intros Em b Eb. assert (P = []) as ->.
    { destruct P as [|e P]; auto. exfalso. pose proof (in_pending _ _ _ _ e I (or_introl eq_refl)) as X. now rewrite Em in X. }
    pose proof (v_mem _ _ _ _ I b Eb) as M. simpl in M. rewrite M. apply (rlog_all B); auto. intros ? ?; reflexivity.
Qed.

(** ** Who may rely on it *)
(** Everything that concerns [B] goes through virtual accelerators that are assigned to worker [w] and stay there. *)
Definition pinned (B : nat -> bool) (a0 : nat -> nat) (w : nat) (l : list event) : Prop :=
  forall v t, In (Issue v t) l -> concerns B t = true -> a0 v = w /\ forall w', In (Move v w') l -> w' = w.
(** Everything that concerns [B] goes through the virtual accelerator [v]; *)
Definition through (B : nat -> bool) (v : nat) (l : list event) : Prop := forall v' t, In (Issue v' t) l -> concerns B t = true -> v' = v.
(** and [v] is moved only when the stream of the worker it leaves has nothing left that concerns [B]. *)
Fixpoint quiet (B : nat -> bool) (v : nat) (s : st) (l : list event) : Prop :=
  match l with
  | [] => True
  | x :: l' => (forall w, x = Move v w -> w <> on s v -> forall e, In e (strm s (on s v)) -> concerns B (et e) = false) /\ quiet B v (step s x) l'
  end.

Lemma pinned_safe B a0 w m0 l : pinned B a0 w l -> safe B (init m0 a0) l.
Proof.
  intros Pi.
  set (V := fun v => exists t, In (Issue v t) l /\ concerns B t = true).
  set (J := fun s => (forall v, V v -> on s v = w) /\ (forall v k t, In (k, t) (vq s v) -> concerns B t = true -> V v) /\
                     (forall w' e, In e (strm s w') -> concerns B (et e) = true -> w' = w)).
  assert (St : forall s x, In x l -> J s -> safe_take B s x /\ J (step s x)).
  { intros s x X (J1 & J2 & J3). split.
    - destruct x as [v t|w0 v|w0|w0|v w0]; simpl; auto. destruct (vq s v) as [|[k t] q] eqn:Q; auto. intros O _ R w' e N Y Z. exfalso. apply N.
      rewrite (J3 w' e Y Z), <- O. symmetry. apply J1. apply (J2 v k t); auto. rewrite Q. simpl. auto.
    - destruct x as [v t|w0 v|w0|w0|v w0].
      + split; [|split]; cbn [step strm vq on]; auto. intros v' k u Y Z. unfold fupd in Y. destruct (Nat.eqb_spec v' v) as [->|N]; [|eauto].
        apply in_app_or in Y as [Y|[Y|[]]]; [eauto|]. injection Y as <- <-. exists t. auto.
      + unfold step. destruct (wk s w0); [now split|]. destruct (vq s v) as [|[k t] q] eqn:Q; [now split|].
        destruct (Nat.eqb_spec (on s v) w0) as [O|O]; [|now split].
        assert (G : forall s', on s' = on s -> vq s' = fupd (vq s) v q -> strm s' = fupd (strm s) w0 (strm s w0 ++ [mke k v w0 t]) -> J s').
        { intros s' E1 E2 E3. split; [|split]; rewrite ?E1, ?E2, ?E3; auto.
          - intros v' k' u Y Z. unfold fupd in Y. destruct (Nat.eqb_spec v' v) as [->|N]; [|eauto]. apply (J2 v k' u); auto. rewrite Q. simpl. auto.
          - intros w' e Y Z. unfold fupd in Y. destruct (Nat.eqb_spec w' w0) as [->|N]; [|eauto]. apply in_app_or in Y as [Y|[<-|[]]]; [eauto|].
            rewrite <- O. apply J1. apply (J2 v k t); auto. rewrite Q. simpl. auto. }
        destruct (waits t); apply G; reflexivity.
      + unfold step. destruct (strm s w0) as [|e q] eqn:E; [now split|]. split; [|split]; cbn [strm vq on]; auto.
        intros w' f Y Z. unfold fupd in Y. destruct (Nat.eqb_spec w' w0) as [->|N]; [|eauto]. apply (J3 w0 f); auto. rewrite E. simpl. auto.
      + unfold step. destruct (wk s w0); [|now split]. destruct (strm s w0); now split.
      + split; [|split]; cbn [step strm vq on]; auto. intros v' Vv. unfold fupd. destruct (Nat.eqb_spec v' v) as [->|N]; [|auto].
        destruct Vv as (t & A & C). now apply (Pi v t A C). }
  assert (G : forall l' s, (forall x, In x l' -> In x l) -> J s -> safe B s l').
  { induction l' as [|x l' IH]; intros s H Js; [exact I|]. destruct (St s x) as [A C]; [apply H; simpl; auto|auto|]. split; auto.
    apply IH; auto. intros y Y. apply H. simpl. auto. }
  apply G; auto. split; [|split]; simpl; try tauto. intros v (t & A & C). destruct (Pi v t A C); auto.
Qed.
Lemma quiet_safe B v m0 a0 l : through B v l -> quiet B v (init m0 a0) l -> safe B (init m0 a0) l.
Proof.
  intros Th Qu.
  set (J := fun s => (forall v' k t, In (k, t) (vq s v') -> concerns B t = true -> v' = v) /\
                     (forall w e, In e (strm s w) -> concerns B (et e) = true -> w = on s v)).
  assert (St : forall s x, In x l -> (forall w, x = Move v w -> w <> on s v -> forall e, In e (strm s (on s v)) -> concerns B (et e) = false) ->
                 J s -> safe_take B s x /\ J (step s x)).
  { intros s x X Mv (J1 & J2). split.
    - destruct x as [v' t|w0 v'|w0|w0|v' w0]; simpl; auto. destruct (vq s v') as [|[k t] q] eqn:Q; auto. intros O _ R w' e N Y Z. exfalso. apply N.
      rewrite (J2 w' e Y Z), <- O. f_equal. symmetry. apply (J1 v' k t); auto. rewrite Q. simpl. auto.
    - destruct x as [v' t|w0 v'|w0|w0|v' w0].
      + split; cbn [step strm vq on]; auto. intros v1 k u Y Z. unfold fupd in Y. destruct (Nat.eqb_spec v1 v') as [->|N]; [|eauto].
        apply in_app_or in Y as [Y|[Y|[]]]; [eauto|]. injection Y as <- <-. now apply (Th v' t).
      + unfold step. destruct (wk s w0); [now split|]. destruct (vq s v') as [|[k t] q] eqn:Q; [now split|].
        destruct (Nat.eqb_spec (on s v') w0) as [O|O]; [|now split].
        assert (G : forall s', on s' = on s -> vq s' = fupd (vq s) v' q -> strm s' = fupd (strm s) w0 (strm s w0 ++ [mke k v' w0 t]) -> J s').
        { intros s' E1 E2 E3. split; rewrite ?E1, ?E2, ?E3; auto.
          - intros v1 k' u Y Z. unfold fupd in Y. destruct (Nat.eqb_spec v1 v') as [->|N]; [|eauto]. apply (J1 v' k' u); auto. rewrite Q. simpl. auto.
          - intros w' e Y Z. unfold fupd in Y. destruct (Nat.eqb_spec w' w0) as [->|N]; [|eauto]. apply in_app_or in Y as [Y|[<-|[]]]; [eauto|].
            rewrite <- O. f_equal. apply (J1 v' k t); auto. rewrite Q. simpl. auto. }
        destruct (waits t); apply G; reflexivity.
      + unfold step. destruct (strm s w0) as [|e q] eqn:E; [now split|]. split; cbn [strm vq on]; auto.
        intros w' f Y Z. unfold fupd in Y. destruct (Nat.eqb_spec w' w0) as [->|N]; [|eauto]. apply (J2 w0 f); auto. rewrite E. simpl. auto.
      + unfold step. destruct (wk s w0); [|now split]. destruct (strm s w0); now split.
      + split; cbn [step strm vq on]; auto. intros w e Y Z. unfold fupd. destruct (Nat.eqb_spec v v') as [->|N]; [|eauto].
        pose proof (J2 w e Y Z) as E. destruct (Nat.eq_dec w0 (on s v')) as [E'|N]; [congruence|]. exfalso.
        rewrite E in Y. rewrite (Mv w0 eq_refl N e Y) in Z. discriminate. }
  assert (G : forall l' s, (forall x, In x l' -> In x l) -> quiet B v s l' -> J s -> safe B s l').
  { induction l' as [|x l' IH]; intros s H Q Js; [exact I|]. destruct Q as [Q1 Q2]. destruct (St s x) as [A C]; [apply H; simpl; auto|auto|auto|]. split; auto.
    apply IH; auto. intros y Y. apply H. simpl. auto. }
  apply G; auto. split; simpl; tauto.
Qed.

(** Buffers used only through virtual accelerators that stay with one worker: every read is right, whatever other clients and workers do. *)
Theorem C72_one_worker m0 a0 B w l : closed B l -> pinned B a0 w l -> let s := run (init m0 a0) l in
  forall e b x, In e (log s) -> et e = TGet b -> B b = true -> out s (eid e) = Some x ->
     exists l1 l2, log s = l1 ++ e :: l2 /\ x = replay (map et l1) m0 b.
Proof. intros C P. simpl. now apply (C72_reads m0 a0 B l C), (pinned_safe B a0 w). Qed.

(** A client's own buffers, used through one virtual accelerator: a read that the client waited for has brought bytes back, and what a read brings back is
    what the client's own tasks issued before it, performed one after the other, leave in the buffer; the scheduler may move the accelerator when the stream it
    leaves has none of the client's operations left. *)
Theorem C72_client m0 a0 B v l : closed B l -> through B v l -> quiet B v (init m0 a0) l -> let s := run (init m0 a0) l in
  forall k b, In (k, TGet b) (issued_to v s) -> B b = true ->
    (In k (done s) -> exists x, out s k = Some x) /\
    (forall x, out s k = Some x -> exists l1 l2, issued_to v s = l1 ++ (k, TGet b) :: l2 /\ x = replay (map snd l1) m0 b).
Proof.
  intros C Th Qu. cbv zeta. pose proof (quiet_safe B v m0 a0 l Th Qu) as Sf. destruct (C72_reads m0 a0 B l C Sf) as [Rd _]. cbv zeta in Rd.
  destruct (inv_run B m0 l _ [] (shape_init m0 a0) (inv_init B m0 a0) Sf C) as [P I].
  set (s := run (init m0 a0) l) in *. assert (V : shape s) by apply (shape_run l _ (shape_init m0 a0)).
  intros k b Is Eb.
  assert (Ent : forall e, In e (log s) -> eid e = k -> et e = TGet b /\ ev e = v).
  { intros e X E. pose proof (log_issued s e V X) as A. apply in_issued in Is. pose proof (iss_inj s _ _ V A Is E) as Y. now injection Y as _ -> ->. }
  split.
  - intros D. destruct (s_done _ V k (or_introl D)) as (e & A & E & F). destruct (Ent e A E) as [Et Ev]. subst k.
    destruct (out s (eid e)) eqn:O; [eauto|]. exfalso. destruct (s_perf _ V e b A Et) as [X|X]; [|congruence].
    apply (F ltac:(now rewrite Et) _ X).
  - intros x O. assert (X : In k (map eid (log s))) by (apply (s_out _ V); congruence). apply in_map_iff in X as (e & E & A). destruct (Ent e A E) as [Et Ev]. subst k.
    destruct (v_out _ _ _ _ I e b x A Et Eb O) as (l1 & l2 & L & ->).
    assert (Wi : forall f, In f (log s) -> within B (et f)).
    { intros f X. apply (v_iss _ _ _ _ I (eid f, ev f, et f)). now apply log_issued. }
    assert (Rv : forall f, In f (log s) -> rel B f = true -> ev f = v).
    { assert (Q : forall l' s', (forall p, In p (iss s') -> concerns B (snd p) = true -> snd (fst p) = v) -> through B v l' ->
                   forall p, In p (iss (run s' l')) -> concerns B (snd p) = true -> snd (fst p) = v).
      { induction l' as [|x' l' IH]; intros s' H T; simpl; auto. apply IH; [|intros v1 t1 Y; apply (T v1 t1); simpl; auto].
        assert (T' : forall v1 t1, x' = Issue v1 t1 -> concerns B t1 = true -> v1 = v) by (intros v1 t1 ->; apply T; simpl; auto).
        destruct x' as [v1 t1|w1 v1|w1|w1|v1 w1]; simpl; auto.
        - intros p Y Z. apply in_app_or in Y as [Y|[<-|[]]]; auto. simpl in *. eauto.
        - destruct (wk s' w1); auto. destruct (vq s' v1) as [|[k1 t1] q1]; auto. destruct (on s' v1 =? w1); auto. destruct (waits t1); auto.
        - destruct (strm s' w1); auto.
        - destruct (wk s' w1); auto. destruct (strm s' w1); auto. }
      intros f X Y. apply (Q l (init m0 a0) ltac:(simpl; tauto) Th (eid f, ev f, et f)); auto. now apply log_issued. }
    exists (map eit (filter (fun f => ev f =? v) l1)), (map eit (filter (fun f => ev f =? v) l2) ++ vq s v). split.
    + rewrite (s_fifo _ V), L, filter_app, map_app, <- app_assoc. simpl. rewrite Ev, Nat.eqb_refl. simpl. do 2 f_equal. unfold eit. now rewrite Et.
    + rewrite map_map. simpl. transitivity (replay (rlog B (filter (fun f => ev f =? v) l1)) m0 b).
      * assert (H : forall f, In f l1 -> rel B f = true -> ev f = v).
        { intros f X. apply Rv. rewrite L. apply in_or_app. auto. }
        assert (E' : filter (rel B) l1 = filter (rel B) (filter (fun f => ev f =? v) l1)).
        { clear -H. induction l1 as [|f l1 IH]; cbn [filter]; auto. assert (IH' := IH ltac:(intros; apply H; simpl; auto)).
          destruct (rel B f) eqn:R.
          - rewrite (H f) by (simpl; auto). rewrite Nat.eqb_refl. cbn [filter]. now rewrite R, <- IH'.
          - destruct (ev f =? v); cbn [filter]; rewrite ?R; auto. }
        unfold rlog. now rewrite <- E'.
      * apply (rlog_all B); auto; [|intros ? ?; reflexivity]. intros f X. apply filter_In in X as [X _]. apply Wi. rewrite L. apply in_or_app. auto.
Qed.

(** ** Cases *)
(** Two workers on one device, two clients.  Client 0 (accelerator 0, worker 0): write [1;2], double it, read; client 1 (accelerator 1, worker 1) works on another
    buffer meanwhile.  The device starts late. *)
Definition double (l : list bytes) : list bytes := map (map (fun x => 2 * x)) l.
Definition two : list event :=
  [Issue 0 (TSet 0 [1; 2]); Issue 1 (TFill 5 0 2 9); Take 0 0; Take 1 1; Issue 0 (TRun [0] [0] double false); Issue 0 (TGet 0); Dev 0; Sync 0; Take 0 0; Take 0 0].
Definition mine (b : nat) : bool := b =? 0.
Example C72_case :
  let s := run (init (fun _ => [0; 0]) (fun v => v)) two in
  (done s = [2; 1] /\ mem s 0 = [1; 2] /\ out s 3 = None) /\
  (let s' := run s [Dev 1; Dev 0; Dev 0; Sync 0] in out s' 3 = Some [2; 4] /\ done s' = [3; 2; 1] /\ freed s' = [0] /\ mem s' 5 = [9; 9]).
Proof. vm_compute. repeat split. Qed.
Example C72_case_hypotheses : closed mine (two ++ [Dev 1; Dev 0; Dev 0; Sync 0]) /\ through mine 0 (two ++ [Dev 1; Dev 0; Dev 0; Sync 0]) /\
  quiet mine 0 (init (fun _ => [0; 0]) (fun v => v)) (two ++ [Dev 1; Dev 0; Dev 0; Sync 0]) /\ pinned mine (fun v => v) 0 (two ++ [Dev 1; Dev 0; Dev 0; Sync 0]).
Proof.
  assert (A : forall v t, In (Issue v t) (two ++ [Dev 1; Dev 0; Dev 0; Sync 0]) -> concerns mine t = true -> v = 0 /\ forall b, In b (touches t) -> b = 0).
  { intros v t H. simpl in H. repeat (destruct H as [H|H]; [try discriminate H; injection H as <- <-; vm_compute; intuition (try discriminate; auto)|]). contradiction. }
  assert (N : forall v w, ~ In (Move v w) (two ++ [Dev 1; Dev 0; Dev 0; Sync 0])).
  { intros v w H. simpl in H. repeat (destruct H as [H|H]; [discriminate H|]). contradiction. }
  split; [|split; [|split]].
  - intros v t H C b X. destruct (A v t H C) as [_ Y]. rewrite (Y b X). reflexivity.
  - intros v t H C. now destruct (A v t H C).
  - assert (G : forall l s, (forall v w, ~ In (Move v w) l) -> quiet mine 0 s l).
    { induction l as [|x l IH]; intros s H; simpl; auto. split; [|apply IH; intros v w X; apply (H v w); simpl; auto].
      intros w ->. exfalso. apply (H 0 w). simpl. auto. }
    apply G. exact N.
  - intros v t H C. destruct (A v t H C) as [-> _]. split; auto. intros w X. exfalso. now apply (N 0 w).
Qed.
(** The same client, whose accelerator is moved to the other worker once its first worker's stream is empty, reads again. *)
Definition later : list event := two ++ [Dev 0; Dev 0; Sync 0; Move 0 1; Issue 0 (TFill 0 1 1 7); Issue 0 (TGet 0); Take 1 0; Take 1 0; Dev 1; Dev 1; Dev 1; Sync 1].
Example C72_quiet_move_case :
  quiet mine 0 (init (fun _ => [0; 0]) (fun v => v)) later /\ In (Move 0 1) later /\ out (run (init (fun _ => [0; 0]) (fun v => v)) later) 5 = Some [2; 7].
Proof.
  split; [|split; [simpl; tauto|vm_compute; reflexivity]].
  cbv [later two app quiet].
  repeat (split; [intros w E; try discriminate E; intros _ e X; vm_compute in X; contradiction|]). exact I.
Qed.
(** Refuted: a task that is marked done is not always performed.  A fill, a copy that the client waits for, a kernel whose handler does not wait: the client is
    told that they are done while they are still in the stream. *)
Theorem C72_done_not_performed_refuted :
  let s := run (init (fun _ => [0; 0]) (fun v => v)) [Issue 0 (TFill 0 0 2 9); Issue 0 (TCopy 0 0 1 0 2 true); Issue 0 (TRun [1] [2] double false);
                                                      Take 0 0; Take 0 0; Take 0 0] in
  done s = [2; 1; 0] /\ mem s 0 = [0; 0] /\ mem s 1 = [0; 0] /\ mem s 2 = [0; 0] /\ length (strm s 0) = 3.
Proof. vm_compute. repeat split. Qed.
(** Refuted: reads are right although the scheduler moves accelerators at any time.  The client writes, runs a kernel and waits for it; the accelerator is moved to another
    worker of the same device; the client reads, waits for the read, and gets the bytes from before the kernel. *)
Theorem C72_move_refuted :
  let s := run (init (fun _ => [0; 0]) (fun v => v))
    [Issue 0 (TSet 0 [1; 2]); Take 0 0; Dev 0; Sync 0; Issue 0 (TRun [0] [0] double false); Take 0 0; Move 0 1; Issue 0 (TGet 0); Take 1 0; Dev 1; Sync 1] in
  In 1 (done s) /\ In 2 (done s) /\ out s 2 = Some [1; 2] /\ replay (map snd (firstn 2 (issued_to 0 s))) (fun _ => [0; 0]) 0 = [2; 4].
Proof. vm_compute. auto 10. Qed.
(** Refuted: the copy that nobody waits for is never marked done (a client that waits all the same waits for ever), though its worker waited for the device. *)
Theorem C72_copy_never_marked_refuted m0 a0 l k : let s := run (init m0 a0) l in
  (exists v a b c d n, In (k, v, TCopy a b c d n false) (iss s)) -> ~ In k (done s).
Proof.
  cbv zeta. intros (v & a & b & c & d & n & H).
  assert (G : forall l s, shape s -> (forall e, In (eid e) (done s) -> In e (log s) -> marks (et e) = true) ->
              shape (run s l) /\ forall e, In (eid e) (done (run s l)) -> In e (log (run s l)) -> marks (et e) = true).
  { induction l0 as [|x l0 IH]; intros s V D; simpl; auto. apply IH; [now apply shape_step|].
    destruct x as [v0 t|w v0|w|w|v0 w]; simpl; auto.
    - destruct (wk s w); auto. destruct (vq s v0) as [|[k0 t] q] eqn:Q; auto. destruct (on s v0 =? w); auto.
      pose proof (fresh s v0 k0 t q V Q) as Fr.
      assert (Nd : ~ In k0 (done s)). { intros X. destruct (s_done _ V k0 (or_introl X)) as (f & A & E & _). now apply (Fr f A). }
      destruct (waits t); cbn [fin fst snd done log et eid]; intros e X Y.
      + apply in_app_or in Y as [Y|[<-|[]]]; [auto|]. simpl in X. contradiction.
      + apply in_app_or in Y as [Y|[<-|[]]].
        * apply D; auto. destruct (marks t); auto. destruct X as [X|X]; auto. exfalso. now apply (Fr e Y).
        * simpl in *. destruct (marks t); auto.
    - destruct (strm s w); auto.
    - destruct (wk s w) as [f|] eqn:K; auto. destruct (strm s w); auto. cbn [fin fst snd done log]. intros e X Y.
      destruct (s_wk _ V w f K) as (_ & L & _). destruct (marks (et f)) eqn:M; auto. destruct X as [X|X]; auto.
      now rewrite <- (nodup_eid (log s) f e (s_log _ V) L Y X). }
  destruct (G l (init m0 a0) (shape_init m0 a0)) as [V D]; [simpl; tauto|]. intros X.
  destruct (s_done _ V k (or_introl X)) as (e & A & E & _). pose proof (log_issued _ e V A) as Z.
  pose proof (iss_inj _ _ _ V Z H E) as Y. injection Y as _ _ Y. subst k. specialize (D e X A). rewrite Y in D. discriminate.
Qed.
