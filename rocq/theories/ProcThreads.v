(** Attaching and detaching inside one process: property C52.

    Code modelled
    - [src/arch/shm/impl.c:15-27]    arax_state (threads, initialized, vpipe)
    - [src/arch/shm/impl.c:33-130]   _arax_init: the thread count, waiting for the first thread, mapping, attaching
    - [src/arch/shm/impl.c:156-191]  arax_exit
    - [src/core/arax_ptr.c:4-18]     arax_ptr_valid (calls arax_init)
    - [src/core/arax_pipe.c:116-163] as far as this process is concerned: its share of the process count, its entry in
      the process table

    One process with any number of threads; the controller is ready, the configuration is valid, the first mapping
    is placed where the segment wants to be unless that range is in use by this process already.  What happens between
    processes is in [PipeInit] and [ProcMap]; the file descriptor and the leak check are left out.  One step is one
    access to arax_state or to the segment, except that mapping and registering in the process table are one step. *)
From Verif Require Import Base Sums.
Local Open Scope nat_scope.
Arguments Nat.eqb : simpl never.
Arguments N.add : simpl never.
Arguments N.modulo : simpl never.
Arguments N.pow : simpl never.
Arguments N.sub : simpl never.

(** Where a thread is; the [bool] of the init states: called by arax_ptr_valid.
    impl.c:33-119: [I0] line 44, [I1] 45, [I2] 49-97, [I3] 99, [I4] 104-112, [IG] 114-119;
    impl.c:156-180: [E0] line 161, [E1] 162, [E2] 173, [E3] 174. *)
Inductive tpc := Out | I0 (v : bool) | I1 (v : bool) | I2 | I3 | I4 | IG (v : bool) | E0 | E1 | E2 | E3.

(** A thread: where it is and how many of its arax_init calls returned without a matching arax_exit (not in the code). *)
Record thr := mkthr { at_ : tpc; depth : nat }.

(** impl.c:15-27: [threads] (a uint64_t), [inited]; [mapped]: the segment is mapped at arax_state.vpipe; [intab]: the pid
    is in the process table; [att]: what this process added to the process count; [lost]: arax_init calls made by
    arax_ptr_valid (not in the code, for the statements only). *)
Record st := mkst { threads : N; inited : bool; mapped : bool; intab : bool; att : Z; lost : nat; th : list thr }.

(** A process that just started, impl.c:27. *)
Definition start (n : nat) : st := mkst 0 false false false 0 0 (repeat (mkthr Out 0) n).

Inductive act :=
| Init | Exit     (* arax_init, arax_exit *)
| Valid           (* a call that uses arax_ptr_valid: arax_data_ref, arax_data_ref_offset, the controller's work loop *)
| Use             (* any other call: touches the segment *)
| Go.             (* continue the call in progress *)

(** A private step, no code of its own. *)
Definition goto (s : st) (i : nat) (t : thr) : st :=
  mkst (threads s) (inited s) (mapped s) (intab s) (att s) (lost s) (upd (th s) i t).
(** Dereferencing arax_state.vpipe. *)
Definition touch (s : st) (r : outcome st) : outcome st := if mapped s then r else UB.
Definition w64 : N := 2 ^ 64.

(** impl.c:33-191, arax_ptr.c:4-18. *)
Definition step (s : st) (a : nat * act) : outcome st :=
  let '(i, x) := a in
  match nth_error (th s) i with
  | None => Ok s
  | Some (mkthr p d) =>
    match x, p with
    | Init, Out => Ok (goto s i (mkthr (I0 false) d))
    | Exit, Out => Ok (goto s i (mkthr E0 (d - 1)))                          (* 160: vpipe is never NULL *)
    | Valid, Out => if d =? 0 then Ok s else Ok (goto s i (mkthr (I0 true) d))
    | Use, Out => if d =? 0 then Ok s else touch s (Ok s)
    (* 44: __sync_fetch_and_add(&threads, 1) *)
    | Go, I0 v => Ok (mkst ((threads s + 1) mod w64) (inited s) (mapped s) (intab s) (att s) (lost s + if v then 1 else 0)
                           (upd (th s) i (mkthr (if (threads s =? 0)%N then I2 else I1 v) d)))
    (* 45: while (!initialized); *)
    | Go, I1 v => if inited s then Ok (goto s i (mkthr (IG v) d)) else Ok s
    (* 49-97 *)
    | Go, I2 => if mapped s && negb (intab s) then Abort
                else Ok (mkst (threads s) (inited s) true true (att s) (lost s) (upd (th s) i (mkthr I3 d)))
    (* 99: arax_pipe_init *)
    | Go, I3 => touch s (Ok (mkst (threads s) (inited s) (mapped s) (intab s) (att s + 1) (lost s) (upd (th s) i (mkthr I4 d))))
    (* 104-112 *)
    | Go, I4 => touch s (Ok (mkst (threads s) true (mapped s) (intab s) (att s) (lost s) (upd (th s) i (mkthr (IG false) d))))
    (* 114-119; arax_ptr.c:9-17 reads pipe->shm_size *)
    | Go, IG v => touch s (Ok (goto s i (mkthr Out (if v then d else S d))))
    (* 161: __sync_fetch_and_add(&threads, -1) == 1 *)
    | Go, E0 => Ok (mkst ((threads s + (w64 - 1)) mod w64) (inited s) (mapped s) (intab s) (att s) (lost s)
                         (upd (th s) i (mkthr (if (threads s =? 1)%N then E1 else Out) d)))
    (* 162: arax_pipe_exit *)
    | Go, E1 => touch s (Ok (mkst (threads s) (inited s) (mapped s) (intab s) (att s - 1) (lost s) (upd (th s) i (mkthr E2 d))))
    (* 173: arax_pipe_mark_unmap *)
    | Go, E2 => touch s (if intab s then Ok (mkst (threads s) (inited s) (mapped s) false (att s) (lost s) (upd (th s) i (mkthr E3 d)))
                         else Abort)
    (* 174: munmap(vpipe, vpipe->shm_size) *)
    | Go, E3 => touch s (Ok (mkst (threads s) (inited s) false (intab s) (att s) (lost s) (upd (th s) i (mkthr Out d))))
    | _, _ => Ok s
    end
  end.

(** Any interleaving, no code of its own. *)
Fixpoint run (s : st) (l : list (nat * act)) : outcome st :=
  match l with [] => Ok s | a :: r => do s' <- step s a; run s' r end.

(** ** Specification *)
Definition opens (s : st) : nat := sumf depth (th s).
Definition idle (s : st) : Prop := forall i t, nth_error (th s) i = Some t -> at_ t = Out.
Definition attaching (t : thr) : Prop := match at_ t with I2 | I3 | I4 => True | _ => False end.
Definition detaching (t : thr) : Prop := match at_ t with E1 | E2 | E3 => True | _ => False end.

(** Calls are paired, no thread attaches while another detaches, and when the process attaches again (not for the
    first time) other threads wait until that is done before calling arax_init. *)
Definition proper1 (s : st) (a : nat * act) : Prop :=
  match nth_error (th s) (fst a) with
  | None => True
  | Some t => match snd a, at_ t with
              | Exit, Out => depth t <> 0
              | Go, I0 _ => forall j u, nth_error (th s) j = Some u -> ~ detaching u /\ (attaching u -> inited s = false)
              | _, _ => True
              end
  end.
Fixpoint proper (s : st) (l : list (nat * act)) : Prop :=
  match l with
  | [] => True
  | a :: r => proper1 s a /\ match step s a with Ok s' => proper s' r | _ => True end
  end.

(** ** Invariant *)
(** A thread's share of the counter. *)
Definition share (t : thr) : nat :=
  depth t + match at_ t with I1 v | IG v => if v then 0 else 1 | I2 | I3 | I4 | E0 => 1 | _ => 0 end.
Definition wk (t : thr) : nat := match at_ t with I2 | I3 | I4 | E1 | E2 | E3 => 1 | _ => 0 end.
Definition ph (t : thr) : nat := match at_ t with I2 => 1 | I3 => 2 | I4 => 3 | E1 => 4 | E2 => 5 | E3 => 6 | _ => 0 end.
Definition total (s : st) : nat := sumf share (th s) + lost s.
Definition phase (p tot : nat) (s : st) : Prop :=
  match p with
  | 0 => if tot =? 0 then att s = 0%Z /\ mapped s = false /\ intab s = false
         else att s = 1%Z /\ mapped s = true /\ intab s = true /\ inited s = true
  | 1 => tot <> 0 /\ att s = 0%Z /\ mapped s = false /\ intab s = false /\ (inited s = true -> tot = 1)
  | 2 => tot <> 0 /\ att s = 0%Z /\ mapped s = true /\ intab s = true /\ (inited s = true -> tot = 1)
  | 3 => tot <> 0 /\ att s = 1%Z /\ mapped s = true /\ intab s = true /\ (inited s = true -> tot = 1)
  | 4 => tot = 0 /\ att s = 1%Z /\ mapped s = true /\ intab s = true
  | 5 => tot = 0 /\ att s = 0%Z /\ mapped s = true /\ intab s = true
  | 6 => tot = 0 /\ att s = 0%Z /\ mapped s = true /\ intab s = false
  | _ => False
  end.
Definition busy (p : nat) : bool := match p with 1 | 2 | 3 => true | _ => false end.
(** While a thread attaches, nobody is in. *)
Definition quiet (t : thr) : Prop := depth t = 0 /\ match at_ t with IG _ | E0 => False | _ => True end.
Definition nested (t : thr) : Prop := match at_ t with I0 true | I1 true | IG true => depth t <> 0 | _ => True end.

Record inv (s : st) : Prop := {
  v_th : threads s = N.of_nat (total s);
  v_w : sumf wk (th s) <= 1;
  v_ph : phase (sumf ph (th s)) (total s) s;
  v_q : busy (sumf ph (th s)) = true -> lost s = 0 /\ forall i t, nth_error (th s) i = Some t -> quiet t;
  v_n : forall i t, nth_error (th s) i = Some t -> nested t }.

Lemma start_inv n : inv (start n).
Proof.
  assert (Q : forall f, f (mkthr Out 0) = 0 -> sumf f (repeat (mkthr Out 0) n) = 0) by (intros; now apply sumf_repeat).
  assert (R : forall i t, nth_error (repeat (mkthr Out 0) n) i = Some t -> t = mkthr Out 0).
  { intros i t H. apply nth_error_In in H. now apply repeat_spec in H. }
  constructor; unfold total; cbn [start threads th lost]; rewrite ?Q by reflexivity; auto.
  - repeat split.
  - discriminate.
  - intros i t H. rewrite (R i t H). exact Logic.I.
Qed.

(** When nobody works on the attachment the phase is 0. *)
Lemma ph0 l : sumf wk l = 0 -> sumf ph l = 0.
Proof. induction l as [|t l IH]; cbn; [reflexivity|]. intros H. rewrite IH by lia. destruct t as [[] ?]; cbn in *; lia. Qed.
Lemma ph1 l i t : nth_error l i = Some t -> wk t = 1 -> sumf wk l <= 1 -> sumf ph l = ph t.
Proof.
  revert i. induction l as [|x l IH]; intros [|i] E W L; cbn in *; try discriminate.
  - injection E as ->. rewrite ph0 by lia. lia.
  - pose proof (sumf_in wk l i t E). assert (X : wk x = 0) by lia. rewrite (IH i E W) by lia. destruct x as [[] ?]; cbn in *; lia.
Qed.

(** One thread moves. *)
Lemma move s i t t' th' in' mp' ib' at' lo' :
  inv s -> nth_error (th s) i = Some t ->
  let s' := mkst th' in' mp' ib' at' lo' (upd (th s) i t') in
  (forall P T S0, P = sumf ph (th s) -> T = total s -> S0 = sumf share (th s) -> share t <= S0 -> T = S0 + lost s ->
     (wk t = 1 -> P = ph t) -> (wk t = 0 -> sumf wk (th s) <= 1) ->
     let T' := S0 - share t + share t' + lo' in
     th' = N.of_nat T' /\ (wk t = 0 -> wk t' = 1 -> sumf wk (th s) = 0) /\
     phase (P - ph t + ph t') T' s' /\
     (busy (P - ph t + ph t') = true -> lo' = 0 /\ quiet t' /\ (busy P = true \/ (forall j u, nth_error (th s) j = Some u -> quiet u))) /\
     nested t') ->
  inv s'.
Proof.
  intros I E s' H.
  pose proof (sumf_upd share (th s) i t' t E) as Q1. pose proof (sumf_in share (th s) i t E) as L1.
  pose proof (sumf_upd wk (th s) i t' t E) as Q2. pose proof (sumf_in wk (th s) i t E) as L2.
  pose proof (sumf_upd ph (th s) i t' t E) as Q3. pose proof (sumf_in ph (th s) i t E) as L3.
  destruct I as [H1 H2 H3 H4 H5].
  destruct (H _ _ _ eq_refl eq_refl eq_refl L1 eq_refl (fun W => ph1 _ _ _ E W H2) (fun _ => H2)) as (A1 & A2 & A3 & A4 & A5). clear H.
  assert (TT : total s' = sumf share (th s) - share t + share t' + lo') by (unfold total, s'; cbn [th lost]; lia).
  assert (PP : sumf ph (upd (th s) i t') = sumf ph (th s) - ph t + ph t') by lia.
  constructor; rewrite ?TT; subst s'; cbn [threads th lost]; rewrite ?PP; auto.
  - assert (W : wk t <= 1) by (destruct t as [[] ?]; cbn; lia). assert (W' : wk t' <= 1) by (destruct t' as [[] ?]; cbn; lia).
    destruct (Nat.eq_dec (wk t) 0) as [Z|NZ]; [|lia]. destruct (Nat.eq_dec (wk t') 0); [lia|]. rewrite (A2 Z) in Q2 by lia. lia.
  - intros B. destruct (A4 B) as (X & Y & Z). split; [assumption|]. intros j u N. apply nth_upd_cases in N.
    destruct N as [(-> & -> & _)|(N & EJ)]; [assumption|]. destruct Z as [Z|Z]; [now apply (proj2 (H4 Z) j)|now apply (Z j)].
  - intros j u N. apply nth_upd_cases in N. destruct N as [(-> & -> & _)|(N & EJ)]; [assumption|now apply (H5 j)].
Qed.

Lemma phase_le p tot s : phase p tot s -> p = 0 \/ p = 1 \/ p = 2 \/ p = 3 \/ p = 4 \/ p = 5 \/ p = 6.
Proof. do 7 (destruct p as [|p]; [tauto|]). contradiction. Qed.

Lemma dec_mod n : (0 < n)%N -> (n < w64)%N -> ((n + (w64 - 1)) mod w64 = n - 1)%N.
Proof.
  intros P L. replace (n + (w64 - 1))%N with ((n - 1) + 1 * w64)%N by lia.
  rewrite N.mod_add by (unfold w64; lia). apply N.mod_small. lia.
Qed.

Ltac ph_cases HP := let D := fresh "D" in pose proof (phase_le _ _ _ HP) as D;
  destruct D as [D|[D|[D|[D|[D|[D|D]]]]]]; rewrite D in *; cbn [phase busy orb Nat.add Nat.sub] in *.

Ltac ev := repeat match goal with
  | |- context[share (mkthr ?p ?d)] => let v := eval cbv [share at_ depth] in (share (mkthr p d)) in change (share (mkthr p d)) with v in *
  | |- context[wk (mkthr ?p ?d)] => let v := eval cbv [wk at_] in (wk (mkthr p d)) in change (wk (mkthr p d)) with v in *
  | |- context[ph (mkthr ?p ?d)] => let v := eval cbv [ph at_] in (ph (mkthr p d)) in change (ph (mkthr p d)) with v in *
  | |- context[quiet (mkthr ?p ?d)] => let v := eval cbv [quiet at_ depth] in (quiet (mkthr p d)) in change (quiet (mkthr p d)) with v in *
  | |- context[nested (mkthr ?p ?d)] => let v := eval cbv [nested at_ depth] in (nested (mkthr p d)) in change (nested (mkthr p d)) with v in *
  end.
(** The thread moves to [t']; [P], [T]: phase and total before. *)
Ltac mv I E t' := eexists; split; [reflexivity|]; split;
  [eapply (move _ _ _ t' _ _ _ _ _ _ I E); cbv zeta; ev; let P := fresh "P" in let T := fresh "T" in let S0 := fresh "S0" in
   intros P T S0 EP ET ES SL TS WP WL|].

Lemma wk_ph l : sumf wk l <> 0 -> exists i t, nth_error l i = Some t /\ wk t = 1.
Proof.
  induction l as [|x l IH]; cbn; [lia|]. intros H. destruct (Nat.eq_dec (wk x) 0) as [Z|N].
  - destruct IH as (i & t & E & W); [lia|]. exists (S i), t. auto.
  - exists 0, x. split; [reflexivity|]. destruct x as [[] ?]; cbn in *; lia.
Qed.
Lemma busy_at l : sumf wk l <= 1 -> busy (sumf ph l) = true -> exists i t, nth_error l i = Some t /\ attaching t /\ 1 <= share t.
Proof.
  intros L B. destruct (wk_ph l) as (i & t & E & W); [intros Z; rewrite (ph0 l Z) in B; discriminate|].
  exists i, t. rewrite (ph1 l i t E W L) in B. split; [assumption|]. destruct t as [[] ?]; cbn in *; try discriminate; split; auto; unfold share; cbn; lia.
Qed.

Ltac eqs := repeat match goal with
  | |- context[Nat.eqb ?a ?b] => destruct (Nat.eqb_spec a b)
  | H : context[Nat.eqb ?a ?b] |- _ => destruct (Nat.eqb_spec a b)
  end.
Ltac fields := cbn [threads inited mapped intab att lost th goto] in *.
Ltac fin H3 := subst; ph_cases H3; fields; try (exfalso; intuition (lia || discriminate)); eqs; try (exfalso; intuition (lia || discriminate));
  intuition (try lia; try discriminate; try congruence).

Lemma step_inv s a : proper1 s a -> (threads s + 1 < w64)%N -> inv s -> exists s', step s a = Ok s' /\ inv s' /\ (threads s' <= threads s + 1)%N.
Proof.
  intros PR LT I. destruct a as [i x]. unfold step. unfold proper1 in PR. cbn [fst snd] in PR.
  destruct (nth_error (th s) i) as [t|] eqn:E; [|exists s; split; [reflexivity|split; [assumption|lia]]]. destruct t as [p d].
  pose proof I as J. destruct J as [H1 H2 H3 H4 H5].
  pose proof (H5 i _ E) as NE. unfold nested in NE. cbn [at_ depth] in NE, PR.
  pose proof (sumf_in share (th s) i _ E) as SH. unfold share at 1 in SH. cbn [at_ depth] in SH.
  assert (QI : busy (sumf ph (th s)) = true -> quiet (mkthr p d)) by (intros B; now apply (proj2 (H4 B) i)).
  unfold quiet in QI. cbn [at_ depth] in QI.
  assert (SAME : exists s', Ok s = Ok s' /\ inv s' /\ (threads s' <= threads s + 1)%N) by (exists s; split; [reflexivity|split; [assumption|lia]]).
  (* using the segment: somebody counts and nobody attaches *)
  assert (IN : total s <> 0 -> busy (sumf ph (th s)) = false -> sumf ph (th s) = 0 /\ att s = 1%Z /\ mapped s = true /\ intab s = true /\ inited s = true).
  { intros T0 B. clear - H3 T0 B. ph_cases H3; try discriminate B; try (exfalso; lia).
    apply Nat.eqb_neq in T0. rewrite T0 in H3. tauto. }
  assert (NB : (d <> 0 \/ match p with IG _ | E0 => True | _ => False end) -> busy (sumf ph (th s)) = false).
  { intros D. destruct (busy (sumf ph (th s))) eqn:B; [|reflexivity]. destruct (QI eq_refl) as [Q1 Q2]. destruct D as [D|D]; [lia|].
    destruct p; contradiction. }
  assert (TO : total s = sumf share (th s) + lost s) by reflexivity.
  destruct x; destruct p; try exact SAME.
  - (* Init *) mv I E (mkthr (I0 false) d); [|cbn; lia]. fin H3.
  - (* Exit *) assert (D0 : d <> 0) by exact PR. mv I E (mkthr E0 (d - 1)); [|cbn; lia]. fin H3.
  - (* Valid *) destruct (Nat.eqb_spec d 0); [exact SAME|]. mv I E (mkthr (I0 true) d); [|cbn; lia]. fin H3.
  - (* Use *) destruct (Nat.eqb_spec d 0); [exact SAME|]. destruct IN as (_ & _ & M & _); [lia|auto|].
    unfold touch. rewrite M. exact SAME.
  - (* I0 *)
    assert (TL : ((threads s + 1) mod w64 = threads s + 1)%N) by (apply N.mod_small; assumption).
    destruct (N.eqb_spec (threads s) 0) as [TZ|TN].
    + assert (T0 : total s = 0) by lia. destruct v; [exfalso; lia|].
      assert (ALL : forall j u, nth_error (th s) j = Some u -> share u = 0).
      { intros j u J. pose proof (sumf_in share (th s) j u J). lia. }
      assert (QA : forall j u, nth_error (th s) j = Some u -> quiet u).
      { intros j u J. pose proof (ALL j u J) as SU. pose proof (H5 j u J) as NU. destruct u as [[] e]; unfold quiet; cbn in *; split; try lia; auto; unfold share in SU; cbn in SU; try lia; destruct v; cbn in SU; lia. }
      assert (W0 : sumf wk (th s) = 0).
      { apply sumf_zero. intros j u J. pose proof (ALL j u J) as SU. destruct (PR j u J) as [ND _].
        destruct u as [[] e]; cbn in *; try reflexivity; try tauto; unfold share in SU; cbn in SU; lia. }
      pose proof (ph0 _ W0) as P0. eexists. split; [reflexivity|]. split; [|cbn; rewrite TL; lia].
      eapply (move _ _ _ (mkthr I2 d) _ _ _ _ _ _ I E); cbv zeta; ev. intros P T S0 EP ET ES SL TS WP WL. subst P T. rewrite P0 in *.
      cbn [phase busy Nat.add Nat.sub] in *. rewrite T0 in H3. replace (0 =? 0) with true in H3 by reflexivity. destruct H3 as (X1 & X2 & X3).
      fields. replace (S0 - (d + 0) + (d + 1) + (lost s + 0)) with 1 by lia.
      destruct (QA i _ E) as [QD _]. cbn in QD. rewrite TL, TZ. repeat split; auto; try lia.
    + assert (QB : busy (sumf ph (th s)) = true -> inited s = false /\ v = false /\ d = 0).
      { intros B. destruct (busy_at _ H2 B) as (j & u & J & AU & _). destruct (QI B) as [Q1 _]. destruct (PR j u J) as [_ AI].
        split; [auto|]. split; [destruct v; [contradiction|reflexivity]|assumption]. }
      eexists. split; [reflexivity|]. split; [|cbn; rewrite TL; lia].
      eapply (move _ _ _ (mkthr (I1 v) d) _ _ _ _ _ _ I E); cbv zeta; ev. intros P T S0 EP ET ES SL TS WP WL. subst P T.
      replace (S0 - (d + 0) + (d + (if v then 0 else 1)) + (lost s + (if v then 1 else 0))) with (total s + 1) by (destruct v; lia).
      rewrite TL. rewrite Nat.sub_0_r, Nat.add_0_r. split; [lia|]. split; [discriminate|].
      assert (TNZ : total s <> 0) by lia.
      split; [|split].
      * ph_cases H3; fields; eqs; try (exfalso; lia); try tauto; destruct QB as (QB & _ & _); try reflexivity; rewrite QB; intuition (try lia; try discriminate).
      * intros B. destruct (QB B) as (_ & -> & QD). destruct (H4 B) as [L0 _]. split; [lia|]. split; [auto|now left].
      * exact NE.
  - (* I1 *) destruct (inited s) eqn:IT; [|exact SAME].
    assert (S1 : 1 <= share (mkthr (I1 v) d)) by (unfold share; cbn; destruct v; lia).
    assert (NBY : busy (sumf ph (th s)) = false).
    { destruct (busy (sumf ph (th s))) eqn:B; [|reflexivity]. exfalso. destruct (busy_at _ H2 B) as (j & u & J & AU & SU).
      assert (NJ : i <> j) by (intros ->; rewrite E in J; injection J as <-; contradiction).
      pose proof (sumf_two share (th s) i j _ _ NJ E J) as ST. ph_cases H3; try discriminate B; destruct H3 as (_ & _ & _ & _ & H3); specialize (H3 IT); lia. }
    destruct IN as (P0 & X1 & X2 & X3 & X4); [unfold share in S1; cbn in S1; lia|assumption|].
    mv I E (mkthr (IG v) d); [|cbn; lia]. subst P. rewrite P0 in *. cbn [phase busy Nat.add Nat.sub] in *. fields.
    replace (S0 - (d + (if v then 0 else 1)) + (d + (if v then 0 else 1)) + lost s) with (total s) by lia.
    split; [assumption|]. split; [discriminate|]. split; [|split; [discriminate|exact NE]]. unfold share in S1; cbn in S1. eqs; try (exfalso; lia); auto.
  - (* I2 *) pose proof (ph1 _ _ _ E eq_refl H2) as P0. cbn in P0. rewrite P0 in *. cbn [phase busy] in *. destruct H3 as (X1 & X2 & X3 & X4 & X5).
    rewrite X3. cbn [andb]. mv I E (mkthr I3 d); [|cbn; lia]. subst P. rewrite P0 in *. cbn [phase busy Nat.add Nat.sub] in *. fields.
    replace (S0 - (d + 1) + (d + 1) + lost s) with (total s) by lia. destruct (H4 eq_refl). repeat split; auto; intuition.
  - (* I3 *) pose proof (ph1 _ _ _ E eq_refl H2) as P0. cbn in P0. rewrite P0 in *. cbn [phase busy] in *. destruct H3 as (X1 & X2 & X3 & X4 & X5).
    unfold touch. rewrite X3. mv I E (mkthr I4 d); [|cbn; lia]. subst P. rewrite P0 in *. cbn [phase busy Nat.add Nat.sub] in *. fields.
    replace (S0 - (d + 1) + (d + 1) + lost s) with (total s) by lia. destruct (H4 eq_refl). repeat split; auto; intuition; lia.
  - (* I4 *) pose proof (ph1 _ _ _ E eq_refl H2) as P0. cbn in P0. rewrite P0 in *. cbn [phase busy] in *. destruct H3 as (X1 & X2 & X3 & X4 & X5).
    unfold touch. rewrite X3. mv I E (mkthr (IG false) d); [|cbn; lia]. subst P. rewrite P0 in *. cbn [phase busy Nat.add Nat.sub] in *. fields.
    replace (S0 - (d + 1) + (d + 1) + lost s) with (total s) by lia.
    split; [assumption|]. split; [discriminate|]. split; [|split; [discriminate|exact Logic.I]]. eqs; try (exfalso; lia); auto.
  - (* IG *) assert (S1 : 1 <= share (mkthr (IG v) d)) by (unfold share; cbn; destruct v; lia).
    destruct IN as (P0 & X1 & X2 & X3 & X4); [unfold share in S1; cbn in S1; lia|apply NB; now right|].
    unfold touch. rewrite X2. mv I E (mkthr Out (if v then d else S d)); [|cbn; lia]. subst P. rewrite P0 in *. cbn [phase busy Nat.add Nat.sub] in *. fields.
    replace (S0 - (d + (if v then 0 else 1)) + ((if v then d else S d) + 0) + lost s) with (total s) by (destruct v; lia).
    split; [assumption|]. split; [discriminate|]. split; [|split; [discriminate|exact Logic.I]]. unfold share in S1; cbn in S1. eqs; try (exfalso; lia); auto.
  - (* E0 *) destruct IN as (P0 & X1 & X2 & X3 & X4); [lia|apply NB; now right|].
    assert (TD : ((threads s + (w64 - 1)) mod w64 = threads s - 1)%N) by (apply dec_mod; lia).
    destruct (N.eqb_spec (threads s) 1) as [T1|TN].
    + eexists. split; [reflexivity|]. split; [|cbn; rewrite TD; lia].
      eapply (move _ _ _ (mkthr E1 d) _ _ _ _ _ _ I E); cbv zeta; ev. intros P T S0 EP ET ES SL TS WP WL. subst P. rewrite P0 in *.
      cbn [phase busy Nat.add Nat.sub] in *. fields. rewrite TD. replace (S0 - (d + 1) + (d + 0) + lost s) with 0 by lia.
      split; [lia|]. split; [|split; [auto|split; [discriminate|exact Logic.I]]].
      intros _ _. destruct (Nat.eq_dec (sumf wk (th s)) 0); [assumption|]. exfalso.
      destruct (wk_ph (th s)) as (j & u & J & W); [assumption|]. rewrite (ph1 _ _ _ J W H2) in P0. destruct u as [[] ?]; cbn in *; lia.
    + eexists. split; [reflexivity|]. split; [|cbn; rewrite TD; lia].
      eapply (move _ _ _ (mkthr Out d) _ _ _ _ _ _ I E); cbv zeta; ev. intros P T S0 EP ET ES SL TS WP WL. subst P. rewrite P0 in *.
      cbn [phase busy Nat.add Nat.sub] in *. fields. rewrite TD. replace (S0 - (d + 1) + (d + 0) + lost s) with (total s - 1) by lia.
      split; [lia|]. split; [discriminate|]. split; [|split; [discriminate|exact Logic.I]]. eqs; try (exfalso; lia); auto.
  - (* E1 *) pose proof (ph1 _ _ _ E eq_refl H2) as P0. cbn in P0. rewrite P0 in *. cbn [phase busy] in *. destruct H3 as (X1 & X2 & X3 & X4).
    unfold touch. rewrite X3. mv I E (mkthr E2 d); [|cbn; lia]. subst P. rewrite P0 in *. cbn [phase busy Nat.add Nat.sub] in *. fields.
    replace (S0 - (d + 0) + (d + 0) + lost s) with (total s) by lia. repeat split; auto; try discriminate; lia.
  - (* E2 *) pose proof (ph1 _ _ _ E eq_refl H2) as P0. cbn in P0. rewrite P0 in *. cbn [phase busy] in *. destruct H3 as (X1 & X2 & X3 & X4).
    unfold touch. rewrite X3, X4. mv I E (mkthr E3 d); [|cbn; lia]. subst P. rewrite P0 in *. cbn [phase busy Nat.add Nat.sub] in *. fields.
    replace (S0 - (d + 0) + (d + 0) + lost s) with (total s) by lia. repeat split; auto; try discriminate; lia.
  - (* E3 *) pose proof (ph1 _ _ _ E eq_refl H2) as P0. cbn in P0. rewrite P0 in *. cbn [phase busy] in *. destruct H3 as (X1 & X2 & X3 & X4).
    unfold touch. rewrite X3. mv I E (mkthr Out d); [|cbn; lia]. subst P. rewrite P0 in *. cbn [phase busy Nat.add Nat.sub] in *. fields.
    replace (S0 - (d + 0) + (d + 0) + lost s) with (total s) by lia. rewrite X1.
    repeat split; auto; try discriminate; lia.
Qed.

Lemma run_inv l : forall s, proper s l -> (threads s + N.of_nat (length l) < w64)%N -> inv s -> exists s', run s l = Ok s' /\ inv s'.
Proof.
  induction l as [|a l IH]; intros s PR LT I; cbn [run]; [eauto|]. destruct PR as [P1 P2]. cbn [length] in LT.
  destruct (step_inv s a P1) as (s1 & E1 & I1 & T1); [lia|assumption|]. rewrite E1 in *. cbn [bind]. apply IH; [assumption|lia|assumption].
Qed.

Lemma idle_sums s : idle s -> sumf share (th s) = opens s /\ sumf ph (th s) = 0.
Proof.
  unfold idle, opens. induction (th s) as [|t l IH]; intros H; cbn; [auto|]. pose proof (H 0 t eq_refl) as A.
  destruct IH as [X Y]; [intros i; apply (H (S i))|]. rewrite X, Y. unfold share, ph. rewrite A. lia.
Qed.

(** ** C52 *)

(** For every number of threads and every interleaving in which the calls are paired and no arax_init overlaps a
    detaching arax_exit or a re-attachment: no call touches an unmapped segment and no assertion fails; between calls
    the process is attached -- mapped, in the process table, counted once -- exactly while some thread has an arax_init
    that it did not undo, or arax_ptr_valid was called. *)
Theorem C52_attached_partial : forall n l,
  (N.of_nat (length l) < 2 ^ 64)%N -> proper (start n) l ->
  exists s, run (start n) l = Ok s /\
    (idle s -> let attached := negb (opens s + lost s =? 0) in
               att s = (if attached then 1%Z else 0%Z) /\ mapped s = attached /\ intab s = attached) /\
    (forall i t, nth_error (th s) i = Some t -> depth t <> 0 -> att s = 1%Z /\ mapped s = true /\ intab s = true).
Proof.
  intros n l LE PR. destruct (run_inv l (start n) PR) as (s & E & I); [cbn [start threads]; exact LE|apply start_inv|].
  exists s. split; [assumption|]. destruct I as [H1 H2 H3 H4 H5]. split.
  - intros ID. destruct (idle_sums s ID) as [A B]. cbv zeta. rewrite B in H3. unfold total in H3. rewrite A in H3. cbn [phase] in H3.
    destruct (opens s + lost s =? 0); cbn [negb]; tauto.
  - intros i t N D. pose proof (sumf_in share (th s) i t N) as SH. assert (S1 : share t <> 0) by (unfold share; lia).
    assert (T0 : total s <> 0) by (unfold total; lia).
    assert (NB : busy (sumf ph (th s)) = false).
    { destruct (busy (sumf ph (th s))) eqn:B; [|reflexivity]. destruct (proj2 (H4 eq_refl) i t N) as [Q _]. contradiction. }
    ph_cases H3; try discriminate NB; try (exfalso; lia). destruct (Nat.eqb_spec (total s) 0); [contradiction|tauto].
Qed.

Ltac proper_tac := repeat match goal with
  | |- _ /\ _ => split
  | |- True => exact Logic.I
  | |- forall (j : nat) (u : thr), _ =>
      let j := fresh in let u := fresh in let H := fresh in intros j u H; destruct j as [|[|[|j]]]; try discriminate H; injection H as <-
  | |- False -> _ => intros []
  | |- _ -> _ => intros; discriminate
  | |- _ -> _ => intro
  end; try reflexivity.

(** Non-vacuity: two threads attach at the same time, the first waits for ... the second; both leave; the process
    attaches again. *)
Definition ex_trace : list (nat * act) :=
  [(0, Init); (1, Init); (1, Go); (0, Go); (0, Go); (1, Go); (1, Go); (0, Go); (1, Go); (0, Go); (1, Go); (0, Go);
   (0, Use); (1, Exit); (1, Go); (0, Use); (0, Exit); (0, Go); (0, Go); (0, Go); (0, Go);
   (1, Init); (1, Go); (1, Go); (1, Go); (1, Go); (1, Go); (1, Use)].
Example C52_example : proper (start 2) ex_trace /\
  exists s, run (start 2) ex_trace = Ok s /\ idle s /\ opens s = 1 /\ att s = 1%Z.
Proof.
  split; [vm_compute; proper_tac|].
  eexists. split; [vm_compute; reflexivity|]. split; [|split; reflexivity].
  intros [|[|[|j]]] u H; cbn in H; try discriminate; now injection H as <-.
Qed.

(** ** Where it fails *)

(** arax_ptr_valid counts a thread that never leaves: after a paired init and exit with one arax_data_ref in between
    (which calls it), the process stays attached whatever its threads do later. *)
Theorem C52_ptr_valid_refuted : exists l, proper (start 1) l /\
  (exists s, run (start 1) l = Ok s /\ idle s /\ opens s = 0) /\
  forall l', (N.of_nat (length (l ++ l')) < 2 ^ 64)%N -> proper (start 1) (l ++ l') ->
    exists s', run (start 1) (l ++ l') = Ok s' /\ (idle s' -> att s' = 1%Z /\ mapped s' = true).
Proof.
  exists [(0, Init); (0, Go); (0, Go); (0, Go); (0, Go); (0, Go); (0, Valid); (0, Go); (0, Go); (0, Go); (0, Exit); (0, Go)].
  split; [vm_compute; proper_tac|].
  split.
  - eexists. split; [vm_compute; reflexivity|]. split; [|reflexivity]. intros [|[|j]] u H; cbn in H; try discriminate; now injection H as <-.
  - intros l' LE PR. destruct (C52_attached_partial 1 _ LE PR) as (s & E & A & _). exists s. split; [assumption|].
    assert (LM : forall l s0 s1, run s0 l = Ok s1 -> lost s0 <= lost s1).
    { clear. induction l as [|a l IH]; intros s0 s1 R; cbn [run] in R; [injection R as <-; lia|].
      destruct (step s0 a) as [s2| |] eqn:ST; cbn [bind] in R; try discriminate. specialize (IH _ _ R). etransitivity; [|exact IH]. clear - ST.
      unfold step in ST. destruct a as [i x]. destruct (nth_error (th s0) i) as [[p d]|]; [|injection ST as <-; lia].
      destruct x, p; unfold touch, goto in ST; repeat match type of ST with context[if ?b then _ else _] => destruct b end;
        try discriminate; injection ST as <-; cbn [lost]; lia. }
    intros ID. specialize (A ID). cbv zeta in A.
    assert (L1 : 1 <= lost s).
    { match type of E with run ?s0 (?p ++ _) = _ =>
        assert (AP : exists sm, run s0 p = Ok sm /\ lost sm = 1 /\ run sm l' = Ok s) end.
      { eexists. split; [vm_compute; reflexivity|]. split; [reflexivity|]. rewrite <- E. vm_compute. reflexivity. }
      destruct AP as (sm & _ & LS & R). specialize (LM _ _ _ R). lia. }
    replace (opens s + lost s =? 0) with false in A by (symmetry; apply Nat.eqb_neq; lia). cbn [negb] in A. tauto.
Qed.

(** An unmatched arax_exit is not noticed (vpipe is never NULL): the counter wraps, and the next arax_init of a process
    with one thread waits for ever for an initialisation nobody does. *)
Theorem C52_unmatched_exit_refuted : forall l s,
  run (start 1) ([(0, Exit); (0, Go); (0, Init); (0, Go)] ++ l) = Ok s ->
  exists t, nth_error (th s) 0 = Some t /\ at_ t = I1 false /\ depth t = 0.
Proof.
  intros l s R.
  assert (W : w64 = 18446744073709551616%N) by reflexivity.
  set (s1 := mkst 0 false false false 0 0 [mkthr (I1 false) 0]).
  assert (R1 : run (start 1) ([(0, Exit); (0, Go); (0, Init); (0, Go)] ++ l) = run s1 l) by (vm_compute; reflexivity).
  rewrite R1 in R. clear R1.
  assert (ST : forall a, step s1 a = Ok s1).
  { intros [[|[|i]] x]; destruct x; reflexivity. }
  induction l as [|a l IH]; cbn [run] in R; [injection R as <-; exists (mkthr (I1 false) 0); auto|].
  rewrite ST in R. cbn [bind] in R. now apply IH.
Qed.

(** Attaching again while another thread attaches: 'initialized' is still set from the first time, so the second thread
    does not wait and uses the segment before it is mapped. *)
Theorem C52_reattach_refuted : exists l, run (start 2) l = UB.
Proof.
  exists [(0, Init); (0, Go); (0, Go); (0, Go); (0, Go); (0, Go); (0, Exit); (0, Go); (0, Go); (0, Go); (0, Go);
          (0, Init); (0, Go); (1, Init); (1, Go); (1, Go); (1, Go)]. vm_compute. reflexivity.
Qed.

(** Attaching while the last thread detaches: the segment is unmapped under a thread whose arax_init has returned. *)
Theorem C52_overlap_refuted : exists l s t, run (start 2) l = Ok s /\ nth_error (th s) 1 = Some t /\
  at_ t = Out /\ depth t = 1 /\ mapped s = false /\ step s (1, Use) = UB.
Proof.
  exists [(0, Init); (0, Go); (0, Go); (0, Go); (0, Go); (0, Go); (0, Exit); (0, Go);
          (1, Init); (1, Go); (1, Go); (1, Go); (1, Go); (1, Go); (0, Go); (0, Go); (0, Go)].
  eexists. eexists. split; [vm_compute; reflexivity|]. repeat split.
Qed.
