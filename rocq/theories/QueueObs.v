(** What the callers of a shared queue see (C08): the list of completed calls of each thread, kept by an observer
    that looks only at when a call starts, when it ends and what it returns.  The commit log of [QueueConc] is
    exactly these calls, so that the theorems about the log are theorems about the callers.

    Code modelled: as in [QueueConc.v], src/utils/queue.c:66-124. *)
From Verif Require Import Base QueueModel QueueProps QueueConc.
Local Open Scope N_scope.
Arguments N.add : simpl never.
Arguments N.sub : simpl never.
Arguments N.modulo : simpl never.
Arguments N.land : simpl never.

Inductive qcall := Push (d : N) | Pop.
(** The call in progress of each thread and the finished calls with what they returned (NULL is 0), oldest first. *)
Record mon := mkmon { busy : nat -> option qcall; done_ : nat -> list (qcall * N) }.
Definition mon0 : mon := mkmon (fun _ => None) (fun _ => []).
Definition call_of (x : qact) : option qcall := match x with CPush d => Some (Push d) | CPop => Some Pop | Go => None end.
(** Thread [fst a] took a step: it was ([p]) and now is ([p']) in a call or back from it. *)
Definition watch (a : nat * qact) (p p' : qpc) (m : mon) : mon :=
  match p, p' with
  | Idle _, Idle _ => m
  | Idle _, _ => mkmon (fupd (busy m) (fst a) (call_of (snd a))) (done_ m)
  | _, Idle r => match busy m (fst a) with
                 | Some c => mkmon (fupd (busy m) (fst a) None) (fupd (done_ m) (fst a) (done_ m (fst a) ++ [(c, r)]))
                 | None => m
                 end
  | _, _ => m
  end.
Fixpoint watched (cap : N) (c : qc) (m : mon) (l : list (nat * qact)) : outcome (qc * mon) :=
  match l with
  | [] => Ok (c, m)
  | a :: r => do c' <- cstep cap c a; watched cap c' (watch a (c_pc c (fst a)) (c_pc c' (fst a)) m) r
  end.

(** What a commit means to its caller.  [EFull] does not say which value was refused. *)
Inductive answer := Pushed (v : N) | Refused | Popped (v : N) | Nothing.
Definition answer_of (x : qcall * N) : answer :=
  match x with
  | (Push d, r) => if r =? 0 then Refused else Pushed r
  | (Pop, r) => if r =? 0 then Nothing else Popped r
  end.
Definition says (e : qev) : answer :=
  match e with
  | EPush _ v => if v =? 0 then Refused else Pushed v
  | EFull _ => Refused
  | EPop _ v => if v =? 0 then Nothing else Popped v
  | EEmpty _ | ELost _ => Nothing
  end.
Definition by_thread (i : nat) (e : qev) : bool :=
  match e with EPush j _ | EFull j | EPop j _ | EEmpty j | ELost j => Nat.eqb j i end.
Definition log_of (i : nat) (c : qc) : list answer := map says (filter (by_thread i) (c_ev c)).
(** A push that committed and has not returned yet. *)
Definition returning (p : qpc) : list answer := match p with Psh6 r => [if r =? 0 then Refused else Pushed r] | _ => [] end.

(** ** Proof *)
Definition agrees (p : qpc) (b : option qcall) : Prop :=
  match p with
  | Idle _ => b = None
  | Pop0 | Pop1 _ _ | Pop2 _ _ | Pop3 _ _ _ => b = Some Pop
  | Psh0 d | Psh1 d | Psh2 d | Psh3 d _ | Psh4 d _ | Psh5 d _ => b = Some (Push d)
  | Psh6 r => exists d, b = Some (Push d) /\ (r = 0 \/ r = d)
  end.
Definition own (x : qcall * N) : Prop := match x with (Push d, r) => r = 0 \/ r = d | _ => True end.
Record oinv (c : qc) (m : mon) : Prop := {
  o_agr : forall i, agrees (c_pc c i) (busy m i);
  o_log : forall i, log_of i c = map answer_of (done_ m i) ++ returning (c_pc c i);
  o_own : forall i x, In x (done_ m i) -> own x }.

Lemma log_app i evs e : map says (filter (by_thread i) (evs ++ [e])) =
  map says (filter (by_thread i) evs) ++ (if by_thread i e then [says e] else []).
Proof. rewrite filter_app, map_app. cbn [filter]. destruct (by_thread i e); reflexivity. Qed.

(** A step of thread [k] that changes its place to [p'], appends [evs] and changes the observer by [watch]. *)
Lemma obs_step cap c m a c' : oinv c m -> cstep cap c a = Ok c' ->
  oinv c' (watch a (c_pc c (fst a)) (c_pc c' (fst a)) m).
Proof.
  intros [A L O] H. destruct a as [k act]. cbn [fst].
  assert (FRAME : forall p' b' dn' evs,
    c_pc c' = fupd (c_pc c) k p' -> c_ev c' = c_ev c ++ evs ->
    (forall e, In e evs -> by_thread k e = true /\ forall i, i <> k -> by_thread i e = false) ->
    agrees p' b' -> (forall x, In x dn' -> own x) ->
    map answer_of (done_ m k) ++ returning (c_pc c k) ++ map says evs = map answer_of dn' ++ returning p' ->
    oinv c' (mkmon (fupd (busy m) k b') (fupd (done_ m) k dn'))).
  { intros p' b' dn' evs EP EE EV AG OW EQ. constructor.
    - intros i. rewrite EP. cbn [busy]. destruct (Nat.eq_dec i k) as [->|N]; [now rewrite !fupd_eq|rewrite !fupd_ne by assumption; apply A].
    - intros i. unfold log_of. rewrite EE, EP, filter_app, map_app. cbn [done_]. specialize (L i). unfold log_of in L. rewrite L.
      destruct (Nat.eq_dec i k) as [->|N].
      + rewrite !fupd_eq, <- app_assoc, <- EQ. f_equal. f_equal. f_equal.
        clear - EV. induction evs as [|e evs IH]; [reflexivity|]. cbn. destruct (EV e (or_introl eq_refl)) as [-> _].
        now rewrite IH by (intros x I; apply EV; now right).
      + rewrite !fupd_ne by assumption.
        assert (Z : filter (by_thread i) evs = []).
        { clear - EV N. induction evs as [|e evs IH]; [reflexivity|]. cbn. destruct (EV e (or_introl eq_refl)) as [_ X].
          rewrite (X i N). apply IH. intros x I. apply EV. now right. }
        rewrite Z. apply app_nil_r.
    - intros i x. cbn [done_]. destruct (Nat.eq_dec i k) as [->|N]; [rewrite fupd_eq; apply OW|rewrite fupd_ne by assumption; apply O]. }
  assert (EXT : forall b d m', (forall i, busy m' i = fupd (busy m) k b i) -> (forall i, done_ m' i = fupd (done_ m) k d i) ->
     oinv c' (mkmon (fupd (busy m) k b) (fupd (done_ m) k d)) -> oinv c' m').
  { intros b d m' B D [A' L' O']. constructor; intros i.
    - rewrite B. apply A'.
    - rewrite D. apply L'.
    - intros x. rewrite D. apply O'. }
  assert (SAMEB : forall i, busy m i = fupd (busy m) k (busy m k) i)
    by (intros i; unfold fupd; destruct (Nat.eqb_spec i k) as [->|]; reflexivity).
  assert (SAMED : forall i, done_ m i = fupd (done_ m) k (done_ m k) i)
    by (intros i; unfold fupd; destruct (Nat.eqb_spec i k) as [->|]; reflexivity).
  assert (IDLE : c' = c -> oinv c' m) by (intros ->; constructor; assumption).
  pose proof (A k) as Ak. pose proof (L k) as Lk. pose proof (O k) as Ok_.
  unfold cstep in H.
  destruct act as [d| |]; destruct (c_pc c k) eqn:P; cbn [agrees returning] in *;
  repeat match type of H with
  | context[if ?b then _ else _] => destruct b eqn:?
  | bind ?x _ = Ok _ => let v := fresh "v" in destruct (bind_ok _ _ _ H) as (v & ? & ?); clear H; rename H1 into H
  end;
  try discriminate H; (injection H as <- || idtac);
  cbn [goto goto_ev c_pc c_ev] in *; rewrite ?fupd_eq, ?P; cbn [watch fst snd call_of];
  try (apply IDLE; reflexivity);
  try rewrite Ak;
  try (match type of Ak with ex _ => destruct Ak as (dd & Ak & Hd); rewrite Ak end).
  all: match goal with
       | |- oinv _ (mkmon (fupd _ _ ?b) (fupd _ _ ?d)) => apply (EXT b d)
       | |- oinv _ (mkmon (fupd _ _ ?b) _) => apply (EXT b (done_ m k))
       | |- oinv _ _ => apply (EXT (busy m k) (done_ m k))
       end; auto; rewrite ?Ak.
  all: try (eapply (FRAME _ _ _ []); [reflexivity|symmetry; apply app_nil_r|intros e []|cbn [agrees]; auto|auto|reflexivity]; fail).
  all: try (eapply (FRAME _ _ _ [_]); [reflexivity|reflexivity
         |intros e [<-|[]]; cbn [by_thread]; split; [apply Nat.eqb_refl|intros i N; apply Nat.eqb_neq; congruence]
         |cbn [agrees]; eauto|auto|reflexivity]; fail).
  all: try (eapply (FRAME _ _ _ [_]); [reflexivity|reflexivity
         |intros e [<-|[]]; cbn [by_thread]; split; [apply Nat.eqb_refl|intros i N; apply Nat.eqb_neq; congruence]
         |reflexivity|intros x I; apply in_app_or in I; destruct I as [I|[<-|[]]]; [now apply Ok_|exact I]
         |rewrite map_app; cbn [map app says answer_of returning]; rewrite ?app_nil_r; reflexivity]; fail).
  (* the return of a push *)
  eapply (FRAME _ _ _ []); [reflexivity|symmetry; apply app_nil_r|intros e []|reflexivity
    |intros x I; apply in_app_or in I; destruct I as [I|[<-|[]]]; [now apply Ok_|exact Hd]|].
  rewrite map_app. cbn [map answer_of returning]. now rewrite !app_nil_r.
Qed.

Lemma obs_run cap : forall l c m, oinv c m -> forall c' m', watched cap c m l = Ok (c', m') -> oinv c' m' /\ crun cap c l = Ok c'.
Proof.
  induction l as [|a l IH]; intros c m I c' m' H; cbn [watched crun] in *; [injection H as <- <-; auto|].
  apply bind_ok in H. destruct H as (c1 & H1 & H). rewrite H1. cbn [bind].
  eapply IH; [|exact H]. eapply obs_step; eauto.
Qed.

Lemma watched_run cap : forall l c m c', crun cap c l = Ok c' -> exists m', watched cap c m l = Ok (c', m').
Proof.
  induction l as [|a l IH]; intros c m c' H; cbn [watched crun] in *; [injection H as <-; eauto|].
  apply bind_ok in H. destruct H as (c1 & H1 & H). rewrite H1. cbn [bind]. eapply IH. exact H.
Qed.

(** C08: in every execution (timely or not), at every moment, the commit log restricted to a thread is the list of
    the answers its finished calls got, in order, plus the answer of a push that is about to return; and a push
    never returns anything but its own value or NULL.  Together with [C08_concurrent_fifo_partial] (the log is a
    FIFO history) this is linearisability: every call takes effect at one moment between its start and its end. *)
Theorem C08_log_is_observed : forall cap sched c, crun cap (qc_init cap) sched = Ok c ->
  exists m, watched cap (qc_init cap) mon0 sched = Ok (c, m) /\
  forall i, log_of i c = map answer_of (done_ m i) ++ returning (c_pc c i) /\
            forall d r, In (Push d, r) (done_ m i) -> r = 0 \/ r = d.
Proof.
  intros cap sched c H. destruct (watched_run cap sched (qc_init cap) mon0 c H) as (m & W). exists m. split; [assumption|].
  assert (I0 : oinv (qc_init cap) mon0) by (constructor; [intros i; reflexivity|intros i; reflexivity|intros i x []]).
  destruct (obs_run cap sched _ _ I0 _ _ W) as [[A L O] _]. intros i. split; [apply L|]. intros d r X. exact (O i _ X).
Qed.

(** The log only grows: what has taken effect stays, so a call that starts after another one returned comes later. *)
Theorem C08_log_grows : forall cap c a c', cstep cap c a = Ok c' -> exists evs, c_ev c' = c_ev c ++ evs /\ (length evs <= 1)%nat.
Proof.
  intros cap c [k act] c' H. unfold cstep in H.
  destruct act as [d| |]; destruct (c_pc c k) eqn:P;
  repeat match type of H with
  | context[if ?b then _ else _] => destruct b eqn:?
  | bind ?x _ = Ok _ => let v := fresh "v" in destruct (bind_ok _ _ _ H) as (v & ? & ?); clear H; rename H1 into H
  end;
  try discriminate H; injection H as <-; cbn [goto goto_ev c_ev];
  first [exists []; rewrite app_nil_r; split; [reflexivity|cbn; lia] | eexists [_]; split; [reflexivity|cbn; lia]].
Qed.

(** Two threads: a push of 5 and a pop that gets it, a pop that finds nothing. *)
Example C08_observed_example :
  match watched 4 (qc_init 4) mon0 ([(0%nat, CPush 5); (1%nat, CPop)] ++ repeat (0%nat, Go) 7 ++ repeat (1%nat, Go) 4 ++ [(1%nat, CPop)] ++ repeat (1%nat, Go) 2) with
  | Ok (c, m) => done_ m 0%nat = [(Push 5, 5)] /\ done_ m 1%nat = [(Pop, 5); (Pop, 0)]
  | _ => False
  end.
Proof. vm_compute. auto. Qed.
