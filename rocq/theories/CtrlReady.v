(** Waiting for the controller: property C38.

    Code modelled
    - [src/arch/shm/impl.c:115-121]  _arax_init, label GOOD: the client side
    - [src/arch/shm/impl.c:143-147]  arax_controller_init_done: the controller side
    - [src/async/mutex/async.c:69-87] async_condition_lock/wait/notify/unlock (pthread back-end)
    - [src/async/spin/async.c:39-84]  the same for the spin back-end

    [n] clients run the client side, one controller runs the controller side,
    interleaved in any way; one step is one access to shared memory or one
    blocking call returning.  Memory is sequentially consistent.  Spurious
    wake-ups of pthread_cond_wait are not modelled: POSIX allows them but a
    user cannot rely on them. *)
From Coq Require Import List Arith Lia Bool.
Import ListNotations.

Arguments Nat.eqb : simpl never.
Arguments Nat.ltb : simpl never.

(** src/async/mutex/async.c:69-87 and src/async/spin/async.c:39-84. *)
Inductive backend := Pthread | Spin.

(** The controller: impl.c:145 sets cntrl_ready, impl.c:146 notifies. *)
Inductive kpc := KSet | KNotify | KDone.

(** A client, impl.c:117-120. *)
Inductive cpc :=
| CStart     (* not yet called, or spinning in async_condition_lock *)
| CTest      (* owns the lock; about to read cntrl_ready *)
| CWait      (* owns the lock; read 0; about to call async_condition_wait *)
| CBlocked   (* inside async_condition_wait, lock released *)
| CRelock    (* woken; must take the lock again *)
| CUnlock    (* owns the lock; read 1 *)
| CRet.      (* arax_init returned *)

(** include/arax_pipe.h:24-47 (cntrl_ready, cntrl_ready_cond) and the threads. *)
Record st := mkst { ready : bool; lock : bool; tok : nat; kp : kpc; cl : nat -> cpc }.

(** src/core/arax_pipe.c:5-56. *)
Definition init : st := mkst false false 0 KSet (fun _ => CStart).

(** Update of a map, no code of its own. *)
Definition upd (f : nat -> cpc) (i : nat) (v : cpc) : nat -> cpc := fun j => if j =? i then v else f j.

(** Who moves, no code of its own. *)
Inductive actor := AK | AC (i : nat).

(** pthread_cond_broadcast wakes every thread blocked on the condition. *)
(** src/async/mutex/async.c:79-82. *)
Definition wake (c : cpc) : cpc := match c with CBlocked => CRelock | c => c end.

(** src/arch/shm/impl.c:115-121 and 143-147, line by line below. *)
Definition step (be : backend) (n : nat) (a : actor) (s : st) : option st :=
  match a with
  | AK => match kp s with
          | KSet => Some (mkst true (lock s) (tok s) KNotify (cl s))
          | KNotify => match be with
                       | Pthread => Some (mkst (ready s) (lock s) (tok s) KDone (fun i => wake (cl s i)))
                       | Spin => Some (mkst (ready s) (lock s) (S (tok s)) KDone (cl s))
                       end
          | KDone => None
          end
  | AC i =>
      if i <? n then
      match cl s i with
      | CStart | CRelock => if lock s then None else Some (mkst (ready s) true (tok s) (kp s) (upd (cl s) i CTest))
      | CTest => Some (mkst (ready s) (lock s) (tok s) (kp s) (upd (cl s) i (if ready s then CUnlock else CWait)))
      | CWait => Some (mkst (ready s) false (tok s) (kp s) (upd (cl s) i CBlocked))
      | CBlocked => match be, tok s with
                    | Spin, S t => Some (mkst (ready s) (lock s) t (kp s) (upd (cl s) i CRelock))
                    | _, _ => None
                    end
      | CUnlock => Some (mkst (ready s) false (tok s) (kp s) (upd (cl s) i CRet))
      | CRet => None
      end
      else None
  end.

(** Any interleaving, no code of its own. *)
Fixpoint run (be : backend) (n : nat) (l : list actor) (s : st) : option st :=
  match l with
  | [] => Some s
  | a :: l' => match step be n a s with Some s' => run be n l' s' | None => None end
  end.

(** [s] is reached from [init] by some schedule. *)
Definition reach (be : backend) (n : nat) (s : st) : Prop := exists l, run be n l init = Some s.

(** Nobody can move any more: what has not happened by now never will. *)
Definition halted (be : backend) (n : nat) (s : st) : Prop := forall a, step be n a s = None.

Lemma run_app : forall be n l1 l2 s, run be n (l1 ++ l2) s =
  match run be n l1 s with Some s' => run be n l2 s' | None => None end.
Proof.
  induction l1 as [|a l1 IH]; intros l2 s; cbn [run app]; [reflexivity|].
  destruct (step be n a s); [apply IH|reflexivity].
Qed.

Lemma reach_ind2 : forall be n (P : st -> Prop), P init ->
  (forall s a s', reach be n s -> P s -> step be n a s = Some s' -> P s') -> forall s, reach be n s -> P s.
Proof.
  intros be n P P0 PS s (l & H).
  assert (G : forall l s s', reach be n s -> P s -> run be n l s = Some s' -> P s').
  { clear l s H. induction l as [|a l IH]; cbn [run]; intros s s' R Ps H.
    - congruence.
    - destruct (step be n a s) as [s1|] eqn:E; [|discriminate].
      apply (IH s1 s'); [|eauto|exact H].
      destruct R as (l0 & R). exists (l0 ++ [a]). rewrite run_app, R. cbn. now rewrite E. }
  apply (G l init s); auto. exists []. reflexivity.
Qed.

Lemma reach_step : forall be n s a s', reach be n s -> step be n a s = Some s' -> reach be n s'.
Proof.
  intros be n s a s' (l & R) E. exists (l ++ [a]). rewrite run_app, R. cbn. now rewrite E.
Qed.

Lemma upd_same : forall f i v, upd f i v i = v.
Proof. intros. unfold upd. now rewrite Nat.eqb_refl. Qed.
Lemma upd_other : forall f i j v, j <> i -> upd f i v j = f j.
Proof. intros. unfold upd. apply Nat.eqb_neq in H. now rewrite H. Qed.

(** Holds the lock. *)
Definition owns (c : cpc) : bool := match c with CTest | CWait | CUnlock => true | _ => false end.

Record inv (be : backend) (n : nat) (s : st) : Prop := mkinv {
  i_lock : lock s = true -> exists i, i < n /\ owns (cl s i) = true;
  i_own : forall i, owns (cl s i) = true -> lock s = true /\ forall j, owns (cl s j) = true -> j = i;
  i_out : forall i, n <= i -> cl s i = CStart;
  i_relock : forall i, cl s i = CRelock -> ready s = true;
  i_tok : tok s <> 0 -> ready s = true /\ be = Spin;
  i_ready : ready s = true <-> kp s <> KSet;
  i_unlock : forall i, cl s i = CUnlock \/ cl s i = CRet -> ready s = true }.

Lemma reach_inv : forall be n s, reach be n s -> inv be n s.
Proof.
  intros be n. apply reach_ind2.
  { constructor; cbn; try discriminate; try lia; auto.
    - split; [discriminate|]. intros H. now elim H.
    - intros i [H|H]; discriminate. }
  intros s a s' R I ST. pose proof I as J. destruct J as [I1 I2 I3 I4 I5 I6 I7].
  destruct a as [|i]; cbn [step] in ST.
  - destruct (kp s) eqn:K; [| |discriminate].
    + injection ST as <-. constructor; cbn; auto.
      * intros H. apply I5 in H. tauto.
      * split; congruence.
    + assert (RD : ready s = true) by (apply I6; congruence).
      destruct be; injection ST as <-; constructor; cbn; auto.
      * intros L. destruct (I1 L) as (i & Li & O). exists i. split; [assumption|]. destruct (cl s i); cbn in *; congruence.
      * intros i O. assert (O' : owns (cl s i) = true) by (destruct (cl s i); cbn in *; congruence).
        destruct (I2 i O') as (L & U). split; [assumption|]. intros j Oj. apply U.
        destruct (cl s j); cbn in *; congruence.
      * intros i L. rewrite (I3 i L). reflexivity.
      * split; congruence.
      * split; congruence.
  - destruct (Nat.ltb_spec i n) as [Li|]; [|discriminate].
    assert (K : forall c l t, (lock s = true -> owns (cl s i) = true \/ l = true) -> 
       (owns c = true -> l = true) -> 
       (l = true -> owns c = true \/ (owns (cl s i) = false /\ lock s = true)) ->
       (owns c = true -> owns (cl s i) = true \/ lock s = false) ->
       (c = CRelock -> ready s = true) -> (t <> 0 -> tok s <> 0) ->
       (c = CUnlock \/ c = CRet -> ready s = true) ->
       inv be n (mkst (ready s) l t (kp s) (upd (cl s) i c))).
    { intros c l t Q1 Q2 Q3 Q4 Q5 Q6 Q7. constructor; cbn [lock cl tok ready kp].
      - intros L. destruct (Q3 L) as [O|[O L0]].
        + exists i. split; [assumption|]. now rewrite upd_same.
        + destruct (I1 L0) as (j & Lj & Oj). exists j. split; [assumption|].
          rewrite upd_other; [assumption|]. intros ->. congruence.
      - intros j. unfold upd at 1. destruct (Nat.eqb_spec j i) as [->|N].
        + intros O. split; [auto|]. intros k. unfold upd. destruct (Nat.eqb_spec k i) as [->|N]; [reflexivity|].
          intros Ok. destruct (I2 k Ok) as (Lk & Uk). destruct (Q4 O) as [H|H]; [symmetry; now apply Uk|congruence].
        + intros O. destruct (I2 j O) as (Lj & Uj). split.
          * destruct (Q1 Lj) as [H|H]; [|assumption]. exfalso. apply N. symmetry. now apply Uj.
          * intros k. unfold upd. destruct (Nat.eqb_spec k i) as [->|N']; [|apply Uj].
            intros Oc. destruct (Q4 Oc) as [H|H]; [now apply Uj|congruence].
      - intros j Lj. rewrite upd_other by lia. now apply I3.
      - intros j. unfold upd. destruct (j =? i); [exact Q5|apply I4].
      - intros T. apply I5. auto.
      - assumption.
      - intros j. unfold upd. destruct (j =? i); [exact Q7|apply I7]. }
    destruct (cl s i) eqn:C; cbn [owns] in *.
    + destruct (lock s) eqn:L; [discriminate|]. injection ST as <-. apply K; auto; try congruence; intros [H|H]; discriminate.
    + injection ST as <-. destruct (I2 i) as (L & _); [now rewrite C|].
      apply K; auto; destruct (ready s) eqn:RD; cbn; try congruence; auto; intros [H|H]; discriminate.
    + injection ST as <-. apply K; auto; cbn; try congruence; intros [H|H]; discriminate.
    + destruct be; [discriminate|]. destruct (tok s) as [|t] eqn:T; [discriminate|]. injection ST as <-.
      destruct I5 as (RD & _); [discriminate|].
      apply K; auto; cbn; congruence.
    + destruct (lock s) eqn:L; [discriminate|]. injection ST as <-. apply K; auto; try congruence; intros [H|H]; discriminate.
    + injection ST as <-. assert (RD : ready s = true) by (apply (I7 i); rewrite C; auto).
      apply K; auto; cbn; congruence.
    + discriminate.
Qed.

(* ------------------------------------------------------------------ *)
(** ** Every schedule ends *)

Definition weight (r : bool) (c : cpc) : nat :=
  match c with
  | CStart => if r then 3 else 7
  | CTest => if r then 2 else 6
  | CWait => 5 | CBlocked => 4 | CRelock => 3 | CUnlock => 1 | CRet => 0
  end.
Fixpoint sum (f : nat -> nat) (n : nat) : nat := match n with O => 0 | S m => sum f m + f m end.
Definition kweight (k : kpc) : nat := match k with KSet => 2 | KNotify => 1 | KDone => 0 end.
Definition measure (n : nat) (s : st) : nat := kweight (kp s) + sum (fun i => weight (ready s) (cl s i)) n.

Lemma sum_le : forall f g n, (forall i, i < n -> f i <= g i) -> sum f n <= sum g n.
Proof. induction n; cbn; intros H; [lia|]. pose proof (H n ltac:(lia)). assert (sum f n <= sum g n) by (apply IHn; intros; apply H; lia). lia. Qed.
Lemma sum_lt : forall f g n i, i < n -> (forall i, i < n -> f i <= g i) -> f i < g i -> sum f n < sum g n.
Proof.
  induction n; cbn; intros i L H S; [lia|].
  pose proof (H n ltac:(lia)) as Hn. assert (LE : sum f n <= sum g n) by (apply sum_le; intros; apply H; lia).
  destruct (Nat.eq_dec i n) as [->|N]; [lia|].
  assert (sum f n < sum g n) by (apply (IHn i); [lia|intros; apply H; lia|assumption]). lia.
Qed.

Lemma step_decreases : forall be n s a s', reach be n s -> step be n a s = Some s' -> measure n s' < measure n s.
Proof.
  intros be n s a s' R ST. destruct (reach_inv be n s R) as [I1 I2 I3 I4 I5 I6 I7]. unfold measure.
  destruct a as [|i]; cbn [step] in ST.
  - destruct (kp s) eqn:K; [| |discriminate].
    + injection ST as <-. cbn [ready cl kp kweight].
      assert (sum (fun i => weight true (cl s i)) n <= sum (fun i => weight (ready s) (cl s i)) n).
      { apply sum_le. intros i _. destruct (cl s i); destruct (ready s); cbn; lia. }
      lia.
    + destruct be; injection ST as <-; cbn [ready cl kp kweight].
      * assert (sum (fun i => weight (ready s) (wake (cl s i))) n <= sum (fun i => weight (ready s) (cl s i)) n).
        { apply sum_le. intros i _. destruct (cl s i); destruct (ready s); cbn; lia. }
        lia.
      * lia.
  - destruct (Nat.ltb_spec i n) as [Li|]; [|discriminate].
    assert (K : forall c, weight (ready s) c < weight (ready s) (cl s i) ->
       sum (fun j => weight (ready s) (upd (cl s) i c j)) n < sum (fun j => weight (ready s) (cl s j)) n).
    { intros c H. apply (sum_lt _ _ n i Li).
      - intros j _. unfold upd. destruct (Nat.eqb_spec j i) as [->|]; lia.
      - now rewrite upd_same. }
    destruct (cl s i) eqn:C.
    + destruct (lock s); [discriminate|]. injection ST as <-. cbn [ready cl kp].
      specialize (K CTest). destruct (ready s); cbn in K; lia.
    + injection ST as <-. cbn [ready cl kp].
      specialize (K (if ready s then CUnlock else CWait)). destruct (ready s); cbn in K; lia.
    + injection ST as <-. cbn [ready cl kp]. specialize (K CBlocked). cbn in K. lia.
    + destruct be; [discriminate|]. destruct (tok s); [discriminate|]. injection ST as <-. cbn [ready cl kp].
      specialize (K CRelock). cbn in K. lia.
    + destruct (lock s); [discriminate|]. injection ST as <-. cbn [ready cl kp].
      specialize (K CTest). rewrite (I4 i C) in *. cbn in K. lia.
    + injection ST as <-. cbn [ready cl kp]. specialize (K CRet). cbn in K. lia.
    + discriminate.
Qed.

(** Whatever the schedule, it has at most 7 steps per client plus 2: so every
    execution comes to a halt, and the outcome of C38 can be read off the halted
    states. *)
Theorem C38_every_schedule_halts : forall be n l s, run be n l init = Some s -> length l <= 7 * n + 2.
Proof.
  intros be n l s H.
  assert (G : forall l s s', reach be n s -> run be n l s = Some s' -> length l + measure n s' <= measure n s).
  { clear. induction l as [|a l IH]; cbn [run length]; intros s s' R H.
    - injection H as <-. lia.
    - destruct (step be n a s) as [s1|] eqn:E; [|discriminate].
      pose proof (step_decreases be n s a s1 R E). pose proof (IH s1 s' (reach_step _ _ _ _ _ R E) H). lia. }
  pose proof (G l init s (ex_intro _ [] eq_refl) H) as L.
  assert (M : measure n init <= 7 * n + 2).
  { unfold measure. cbn [kp init kweight]. assert (sum (fun i => weight (ready init) (cl init i)) n <= 7 * n).
    { assert (Q : forall k, sum (fun i => weight (ready init) (cl init i)) k = 7 * k).
      { induction k as [|k IH]; [reflexivity|]. cbn [sum]. rewrite IH. cbn. lia. }
      rewrite Q. lia. }
    lia. }
  lia.
Qed.

(** In a halted state the controller has announced and every client has either
    returned or is blocked in its wait for ever. *)
Lemma halted_shape : forall be n s, reach be n s -> halted be n s ->
  kp s = KDone /\ ready s = true /\ forall i, i < n -> cl s i = CRet \/ cl s i = CBlocked.
Proof.
  intros be n s R H. destruct (reach_inv be n s R) as [I1 I2 I3 I4 I5 I6 I7].
  assert (K : kp s = KDone).
  { specialize (H AK). cbn in H. destruct (kp s); [discriminate| |reflexivity]. destruct be; discriminate. }
  assert (NO : forall i, i < n -> owns (cl s i) = false).
  { intros i L. specialize (H (AC i)). cbn [step] in H. apply Nat.ltb_lt in L. rewrite L in H.
    destruct (cl s i); try discriminate; reflexivity. }
  assert (LF : lock s = false).
  { destruct (lock s) eqn:L; [|reflexivity]. destruct (I1 eq_refl) as (i & Li & O). rewrite NO in O by assumption. discriminate. }
  split; [assumption|]. split; [apply I6; congruence|].
  intros i L. specialize (H (AC i)). specialize (NO i L). cbn [step] in H. apply Nat.ltb_lt in L. rewrite L in H.
  rewrite LF in H. destruct (cl s i); cbn in NO; try discriminate; auto.
Qed.

(* ------------------------------------------------------------------ *)
(** ** What holds *)

(** A client that calls arax_init after the controller announced (both
    back-ends, whatever else happens) never blocks, and has returned when
    everything has come to a halt. *)
Theorem C38_late_clients_partial : forall be n s, reach be n s -> ready s = true -> forall i, i < n -> cl s i = CStart ->
  forall l s', run be n l s = Some s' ->
  cl s' i <> CBlocked /\ (halted be n s' -> cl s' i = CRet).
Proof.
  intros be n s R RD i Li C l s' H.
  assert (G : forall l s s', reach be n s -> ready s = true ->
     (cl s i = CStart \/ cl s i = CTest \/ cl s i = CUnlock \/ cl s i = CRet) -> run be n l s = Some s' ->
     reach be n s' /\ (cl s' i = CStart \/ cl s' i = CTest \/ cl s' i = CUnlock \/ cl s' i = CRet)).
  { clear - Li. induction l as [|a l IH]; cbn [run]; intros s s' R RD C H.
    - injection H as <-. auto.
    - destruct (step be n a s) as [s1|] eqn:E; [|discriminate].
      apply (IH s1 s'); [eapply reach_step; eauto| | |exact H].
      + destruct a as [|j]; cbn [step] in E.
        * destruct (kp s); [| |discriminate]; [|destruct be]; injection E as <-; auto.
        * destruct (j <? n); [|discriminate].
          destruct (cl s j); try (destruct (lock s)); try (destruct be); try (destruct (tok s)); try discriminate;
          injection E as <-; exact RD.
      + destruct a as [|j]; cbn [step] in E.
        * destruct (kp s); [| |discriminate]; [|destruct be]; injection E as <-; cbn [cl]; auto.
          destruct C as [C|[C|[C|C]]]; rewrite C; cbn; tauto.
        * destruct (j <? n); [|discriminate].
          destruct (Nat.eq_dec i j) as [<-|N].
          -- destruct C as [C|[C|[C|C]]]; rewrite C in E.
             ++ destruct (lock s); [discriminate|]. injection E as <-. cbn [cl]. rewrite upd_same. tauto.
             ++ rewrite RD in E. injection E as <-. cbn [cl]. rewrite upd_same. tauto.
             ++ injection E as <-. cbn [cl]. rewrite upd_same. tauto.
             ++ discriminate.
          -- destruct (cl s j); try (destruct (lock s)); try (destruct be); try (destruct (tok s)); try discriminate;
             injection E as <-; cbn [cl]; rewrite upd_other by assumption; exact C. }
  destruct (G l s s' R RD (or_introl C) H) as (R' & C'). split.
  - destruct C' as [C'|[C'|[C'|C']]]; congruence.
  - intros HT. destruct (halted_shape be n s' R' HT) as (_ & _ & K). destruct (K i Li) as [K'|K']; [assumption|].
    destruct C' as [C'|[C'|[C'|C']]]; congruence.
Qed.

(** Pthread back-end: if no client is between reading cntrl_ready and blocking at
    the moment of the notification, every client has returned when everything has
    come to a halt. *)
Theorem C38_pthread_partial : forall n s s1, reach Pthread n s -> kp s = KNotify ->
  (forall i, cl s i <> CWait) -> step Pthread n AK s = Some s1 ->
  forall l s', run Pthread n l s1 = Some s' -> halted Pthread n s' -> forall i, i < n -> cl s' i = CRet.
Proof.
  intros n s s1 R K NW E l s' H HT i Li.
  assert (R1 : reach Pthread n s1) by (eapply reach_step; eauto).
  assert (RD : ready s = true) by (apply (i_ready _ _ _ (reach_inv _ _ _ R)); congruence).
  cbn [step] in E. rewrite K in E. injection E as <-.
  assert (G : forall l s s', reach Pthread n s -> ready s = true ->
     (forall i, cl s i <> CWait /\ cl s i <> CBlocked) -> run Pthread n l s = Some s' ->
     reach Pthread n s' /\ (forall i, cl s' i <> CWait /\ cl s' i <> CBlocked)).
  { clear. induction l as [|a l IH]; cbn [run]; intros s s' R RD C H.
    - injection H as <-. auto.
    - destruct (step Pthread n a s) as [s1|] eqn:E; [|discriminate].
      apply (IH s1 s'); [eapply reach_step; eauto| | |exact H].
      + destruct a as [|j]; cbn [step] in E.
        * destruct (kp s); [| |discriminate]; injection E as <-; auto.
        * destruct (j <? n); [|discriminate].
          destruct (cl s j); try (destruct (lock s)); try discriminate; injection E as <-; exact RD.
      + intros i. destruct a as [|j]; cbn [step] in E.
        * destruct (kp s); [| |discriminate]; injection E as <-; cbn [cl]; auto.
          destruct (C i) as (C1 & C2). destruct (cl s i); cbn; split; congruence.
        * destruct (j <? n); [|discriminate]. rewrite RD in E. destruct (C j) as (C1 & C2).
          destruct (cl s j); try (destruct (lock s)); try discriminate; try congruence;
          injection E as <-; cbn [cl]; unfold upd; (destruct (i =? j); [split; discriminate|apply C]). }
  destruct (G l _ s' R1) as (R' & C'); [exact RD| |exact H|].
  - intros j. cbn [cl]. specialize (NW j). destruct (cl s j); cbn; split; congruence.
  - destruct (halted_shape _ n s' R' HT) as (_ & _ & Q). destruct (Q i Li) as [Q'|Q']; [assumption|].
    destruct (C' i) as (_ & X). congruence.
Qed.

(** Spin back-end: at least one client returns, so a single client always does. *)
Lemma spin_token : forall n s, reach Spin n s -> kp s = KDone -> tok s <> 0 \/
  exists i, i < n /\ cl s i <> CStart /\ cl s i <> CBlocked /\ cl s i <> CWait /\ (cl s i = CTest -> ready s = true).
Proof.
  intros n. apply (reach_ind2 Spin n (fun s => kp s = KDone -> tok s <> 0 \/
    exists i, i < n /\ cl s i <> CStart /\ cl s i <> CBlocked /\ cl s i <> CWait /\ (cl s i = CTest -> ready s = true))).
  - discriminate.
  - intros s a s' R IH ST K.
    destruct a as [|i]; cbn [step] in ST.
    + destruct (kp s); [| |discriminate]; injection ST as <-; cbn in *; [discriminate|]. left. lia.
    + destruct (Nat.ltb_spec i n) as [Li|]; [|discriminate].
      assert (KD : kp s = KDone).
      { destruct (cl s i); try (destruct (lock s)); try (destruct (tok s)); try discriminate; injection ST as <-; exact K. }
      assert (RD : ready s = true) by (apply (i_ready _ _ _ (reach_inv _ _ _ R)); congruence).
      specialize (IH KD).
      destruct (cl s i) eqn:C.
      * destruct (lock s); [discriminate|]. injection ST as <-. cbn [tok cl ready] in *.
        right. exists i. rewrite upd_same. repeat split; try congruence; assumption.
      * injection ST as <-. cbn [tok cl ready] in *. right. exists i. rewrite upd_same, RD. repeat split; try congruence; assumption.
      * injection ST as <-. cbn [tok cl ready] in *. destruct IH as [IH|(j & Lj & A & B & D & T)]; [now left|].
        right. exists j. destruct (Nat.eq_dec j i) as [->|N]; [congruence|]. rewrite upd_other by assumption.
        repeat split; auto.
      * destruct (tok s); [discriminate|]. injection ST as <-. cbn [tok cl ready] in *.
        right. exists i. rewrite upd_same. repeat split; try congruence; assumption.
      * destruct (lock s); [discriminate|]. injection ST as <-. cbn [tok cl ready] in *.
        right. exists i. rewrite upd_same. repeat split; try congruence; assumption.
      * injection ST as <-. cbn [tok cl ready] in *. right. exists i. rewrite upd_same. repeat split; try congruence; assumption.
      * discriminate.
Qed.

Theorem C38_spin_one_released_partial : forall n s, 0 < n -> reach Spin n s -> halted Spin n s ->
  exists i, i < n /\ cl s i = CRet.
Proof.
  intros n s N R H. destruct (halted_shape _ n s R H) as (K & RD & Q).
  destruct (spin_token n s R K) as [T|(i & Li & A & B & D & _)].
  - destruct (Q 0 N) as [X|X]; [exists 0; auto|].
    specialize (H (AC 0)). cbn [step] in H. apply Nat.ltb_lt in N. rewrite N, X in H. destruct (tok s); congruence.
  - exists i. split; [assumption|]. destruct (Q i Li); congruence.
Qed.

Theorem C38_spin_single_client_partial : forall s, reach Spin 1 s -> halted Spin 1 s -> cl s 0 = CRet.
Proof.
  intros s R H. destruct (C38_spin_one_released_partial 1 s ltac:(lia) R H) as (i & L & C).
  replace i with 0 in C by lia. exact C.
Qed.

(** No client returns before the controller announced (both back-ends). *)
Theorem C38_not_before_ready : forall be n s i, reach be n s -> cl s i = CRet -> ready s = true /\ kp s <> KSet.
Proof.
  intros be n s i R C. destruct (reach_inv be n s R) as [I1 I2 I3 I4 I5 I6 I7].
  assert (RD : ready s = true) by (apply (I7 i); auto). split; [assumption|now apply I6].
Qed.

(* ------------------------------------------------------------------ *)
(** ** Refutations *)

Definition final be n l := match run be n l init with Some s => s | None => init end.

(** C38 refuted, pthread back-end: the client reads 0, the controller sets and
    notifies (it does not take the lock), the client blocks: it stays blocked
    although the controller is ready. *)
Theorem C38_refuted_pthread : exists s, reach Pthread 1 s /\ halted Pthread 1 s /\
  ready s = true /\ kp s = KDone /\ cl s 0 = CBlocked.
Proof.
  exists (final Pthread 1 [AC 0; AC 0; AK; AK; AC 0]). split; [|split].
  - exists [AC 0; AC 0; AK; AK; AC 0]. reflexivity.
  - intros [|[|i]]; reflexivity.
  - repeat split; reflexivity.
Qed.

(** C38 refuted, spin back-end: two clients wait, one notification is one token,
    only one of them is released. *)
Theorem C38_refuted_spin : exists s, reach Spin 2 s /\ halted Spin 2 s /\
  ready s = true /\ kp s = KDone /\ cl s 0 = CRet /\ cl s 1 = CBlocked.
Proof.
  pose (l := [AC 0; AC 0; AC 0; AC 1; AC 1; AC 1; AK; AK; AC 0; AC 0; AC 0; AC 0]).
  exists (final Spin 2 l). split; [|split].
  - exists l. reflexivity.
  - intros [|[|[|i]]]; reflexivity.
  - repeat split; reflexivity.
Qed.

(** Concrete successful cases for the positive theorems. *)
Example C38_pthread_ok : exists s s1, reach Pthread 3 s /\ kp s = KNotify /\ (forall i, cl s i <> CWait) /\
  cl s 0 = CBlocked /\ cl s 1 = CBlocked /\ step Pthread 3 AK s = Some s1.
Proof.
  exists (final Pthread 3 [AC 0; AC 0; AC 0; AC 1; AC 1; AC 1; AK]). eexists.
  split; [exists [AC 0; AC 0; AC 0; AC 1; AC 1; AC 1; AK]; reflexivity|].
  split; [reflexivity|]. split; [intros [|[|i]]; discriminate|]. repeat split; reflexivity.
Qed.

Example C38_spin_ok : reach Spin 1 (final Spin 1 [AC 0; AC 0; AC 0; AK; AK; AC 0; AC 0; AC 0; AC 0]) /\
  halted Spin 1 (final Spin 1 [AC 0; AC 0; AC 0; AK; AK; AC 0; AC 0; AC 0; AC 0]).
Proof.
  split; [exists [AC 0; AC 0; AC 0; AK; AK; AC 0; AC 0; AC 0; AC 0]; reflexivity|]. intros [|[|i]]; reflexivity.
Qed.
