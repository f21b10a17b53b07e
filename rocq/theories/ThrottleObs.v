(** What the callers of the throttle see (C12, C14): totals of the calls that returned, kept by an observer that
    looks only at when a thread's call starts and ends, not at the model's own counters.

    Code modelled: as in [Throttle.v], src/core/arax_throttle.c:49-104. *)
From Verif Require Import Base Sums Throttle.
Local Open Scope N_scope.
Arguments N.add : simpl never.
Arguments N.sub : simpl never.
Arguments N.modulo : simpl never.
Arguments N.pow : simpl never.

(** The observer: per thread the size of its last call; bytes reserved and given back by calls that returned. *)
Inductive call := Giving (sz : N) | Reserving (sz : N).
Definition size_of (c : call) : N := match c with Giving sz | Reserving sz => sz end.
Record mon := mkmon { cur : list call; taken : N; given : N }.
Definition mon0 (n : nat) : mon := mkmon (repeat (Giving 0) n) 0 0.
Definition returned (m : mon) (c : call) : mon :=
  match c with
  | Giving sz => mkmon (cur m) (taken m) (given m + sz)
  | Reserving sz => mkmon (cur m) (taken m + sz) (given m)
  end.
Definition outside (p : tpc) : bool := match p with TOut => true | _ => false end.
Definition call_of (x : tact) : option call :=
  match x with CInc sz => Some (Giving sz) | CDec sz => Some (Reserving sz) | _ => None end.
(** Thread [fst a] took a step from [s] to [s']. *)
Definition watch (s s' : ts) (a : nat * tact) (m : mon) : mon :=
  match nth_error (th s) (fst a), nth_error (th s') (fst a) with
  | Some p, Some p' =>
      if outside p then
        match call_of (snd a) with
        | Some c => if outside p' then returned m c else mkmon (upd (cur m) (fst a) c) (taken m) (given m)
        | None => m
        end
      else if outside p' then match nth_error (cur m) (fst a) with Some c => returned m c | None => m end
      else m
  | _, _ => m
  end.
Fixpoint watched (enf : bool) (be : backend) (s : ts) (m : mon) (l : list (nat * tact)) : outcome (ts * mon) :=
  match l with [] => Ok (s, m) | a :: r => do s' <- tstep enf be s a; watched enf be s' (watch s s' a m) r end.
Definition all_idle (s : ts) : Prop := forall i p, nth_error (th s) i = Some p -> p = TOut.
(** Bytes of the release calls that have not returned. *)
Definition releasing (s : ts) (m : mon) : N :=
  sumN (fun x => match fst x, snd x with TOut, _ => 0 | _, Giving sz => sz | _, _ => 0 end) (combine (th s) (cur m)).

(** ** Proof *)
Definition pend_dec (x : tpc * call) : N := match fst x with D3 | D4 => size_of (snd x) | _ => 0 end.
Definition pend_inc (x : tpc * call) : N := match fst x with I2 | I3 | I4 => size_of (snd x) | _ => 0 end.
Definition agrees (p : tpc) (c : call) : Prop :=
  match p with
  | TOut => True
  | I0 sz | I1 sz => c = Giving sz
  | I2 | I3 | I4 => exists sz, c = Giving sz
  | D0 sz | D1 sz | W1 sz | W2 sz | W3 sz _ | W4 sz | D2 sz => c = Reserving sz
  | D3 | D4 => exists sz, c = Reserving sz
  end.
Record oinv (s : ts) (m : mon) : Prop := {
  o_len : length (cur m) = length (th s);
  o_dec : rT s = taken m + sumN pend_dec (combine (th s) (cur m));
  o_inc : lT s = given m + sumN pend_inc (combine (th s) (cur m));
  o_agr : forall i p c, nth_error (th s) i = Some p -> nth_error (cur m) i = Some c -> agrees p c
}.

Lemma upd_same {A} (l : list A) i x : nth_error l i = Some x -> upd l i x = l.
Proof. revert i. induction l as [|y l IH]; intros [|i] E; cbn in *; try discriminate; [congruence|]. now rewrite IH. Qed.
Lemma combine_upd {A B} (l : list A) (k : list B) i x y : combine (upd l i x) (upd k i y) = upd (combine l k) i (x, y).
Proof. revert i k. induction l as [|a l IH]; intros [|i] [|b k]; cbn; auto. now rewrite IH. Qed.
Lemma combine_nth {A B} (l : list A) (k : list B) i x y : nth_error l i = Some x -> nth_error k i = Some y ->
  nth_error (combine l k) i = Some (x, y).
Proof. revert i k. induction l as [|a l IH]; intros [|i] [|b k]; cbn; try discriminate; auto. congruence. Qed.
Lemma wake_combine (f : tpc * call -> N) l k : (forall p c, f (wake p, c) = f (p, c)) ->
  sumN f (combine (map wake l) k) = sumN f (combine l k).
Proof. intros H. revert k. induction l as [|p l IH]; intros [|c k]; cbn; auto. now rewrite H, IH. Qed.

(** Thread [i] goes from [p] with call [c] to [p'] with call [c']; nobody else is concerned. *)
Lemma move s s' m m' i p c p' c' : oinv s m -> nth_error (th s) i = Some p -> nth_error (cur m) i = Some c ->
  th s' = upd (th s) i p' \/ th s' = upd (map wake (th s)) i p' /\ (forall sz, p <> W2 sz) ->
  cur m' = upd (cur m) i c' -> agrees p' c' ->
  rT s' + pend_dec (p, c) + taken m = rT s + pend_dec (p', c') + taken m' ->
  lT s' + pend_inc (p, c) + given m = lT s + pend_inc (p', c') + given m' ->
  oinv s' m'.
Proof.
  intros [L D I A] Ei Ec Et Em Ha Hd Hi.
  assert (S : forall f, (forall p c, f (wake p, c) = f (p, c)) ->
    sumN f (combine (th s') (cur m')) + f (p, c) = sumN f (combine (th s) (cur m)) + f (p', c')).
  { intros f Hf. rewrite Em. destruct Et as [->|[-> Hw]].
    - rewrite combine_upd. apply sumN_upd. now apply combine_nth.
    - rewrite combine_upd.
      assert (W : nth_error (combine (map wake (th s)) (cur m)) i = Some (wake p, c)).
      { apply combine_nth; auto. rewrite nth_error_map, Ei. reflexivity. }
      pose proof (sumN_upd f _ i (p', c') _ W) as H. rewrite wake_combine in H by exact Hf. rewrite Hf in H. exact H. }
  constructor.
  - rewrite Em, upd_length, L. destruct Et as [->|[-> _]]; rewrite upd_length; rewrite ?map_length; reflexivity.
  - assert (H := S pend_dec ltac:(now intros [])). lia.
  - assert (H := S pend_inc ltac:(now intros [])). lia.
  - intros j q d Ej Ed. rewrite Em in Ed. apply nth_upd_cases in Ed.
    destruct Ed as [(-> & -> & _)|(N & Ed)].
    + assert (q = p'); [|now subst]. pose proof (nth_error_lt _ _ _ Ei) as Li.
      destruct Et as [Et|[Et _]]; rewrite Et, nth_error_upd_eq in Ej; try congruence; now rewrite ?map_length.
    + destruct Et as [Et|[Et _]]; rewrite Et, nth_error_upd_ne in Ej by congruence; [eauto|].
      rewrite nth_error_map in Ej. destruct (nth_error (th s) j) as [q0|] eqn:Eq; [|discriminate]. cbn in Ej. inversion Ej; subst.
      specialize (A j q0 d Eq Ed). destruct q0; exact A.
Qed.

Lemma watch_inv enf be s m a s' : oinv s m -> tstep enf be s a = Ok s' -> oinv s' (watch s s' a m).
Proof.
  intros HI E. destruct a as [i x]. unfold watch. cbn [fst snd].
  assert (NO : nth_error (th s) i = None -> s' = s).
  { intros N. unfold tstep in E. rewrite N in E. destruct x; congruence. }
  destruct (nth_error (th s) i) as [p|] eqn:Ei; [|now rewrite (NO eq_refl)].
  pose proof (nth_error_lt _ _ _ Ei) as Li.
  destruct (nth_error (cur m) i) as [c|] eqn:Ec.
  2:{ exfalso. apply nth_error_None in Ec. rewrite (o_len _ _ HI) in Ec. lia. }
  assert (Uc : cur m = upd (cur m) i c) by (symmetry; now apply upd_same).
  pose proof (o_agr _ _ HI i p c Ei Ec) as Hag.
  assert (K : forall p', th s' = upd (th s) i p' \/ th s' = upd (map wake (th s)) i p' /\ (forall sz, p <> W2 sz) ->
     nth_error (th s') i = Some p').
  { intros p' [->|[-> _]]; apply nth_error_upd_eq; now rewrite ?map_length. }
  assert (SAME : s' = s -> oinv s' m) by (now intros ->).
  assert (HS : s' = s -> nth_error (th s') i = Some p) by (intros ->; exact Ei).
  unfold tstep, go, acquire, release in E. rewrite Ei in E.
  destruct x as [sz|sz| |], p;
  repeat match type of E with
         | context [match be with _ => _ end] => destruct be
         | context [if ?b then _ else _] => let Q := fresh "Q" in destruct b eqn:Q end;
  try discriminate; inversion E; subst s'; clear E;
  try (rewrite Ei; cbn [outside call_of]; exact HI);
  try (match type of K with context [th ?t = _] => match t with context [upd _ i ?p'] =>
         rewrite (K p') by (first [left; reflexivity | right; split; [reflexivity|discriminate]]) end end;
       cbn [outside call_of];
       eapply (move s _ m _ i); [exact HI|exact Ei|exact Ec|first [left; reflexivity | right; split; [reflexivity|discriminate]]|..];
       [first [exact Uc | cbn [cur]; reflexivity | destruct c; exact Uc]| cbn [agrees]; cbn [agrees] in Hag; eauto
       | cbn [agrees] in Hag; try (destruct Hag as (? & Hag)); try rewrite Hag;
         cbn [returned rT lT pend_dec pend_inc fst snd taken given size_of]; lia
       | cbn [agrees] in Hag; try (destruct Hag as (? & Hag)); try rewrite Hag;
         cbn [returned rT lT pend_dec pend_inc fst snd taken given size_of]; lia]; fail).
  all: rewrite Ei; cbn [outside call_of]; apply N.eqb_eq in Q; subst sz; destruct HI as [L D I A];
    constructor; cbn [returned cur taken given]; auto; lia.
Qed.

Lemma watched_inv enf be l : forall s m s' m', oinv s m -> watched enf be s m l = Ok (s', m') ->
  oinv s' m' /\ trun enf be s l = Ok s'.
Proof.
  induction l as [|a l IH]; intros s m s' m' HI E; cbn [watched trun] in *; [inversion E; subst; auto|].
  apply bind_ok in E. destruct E as (s1 & E1 & E). rewrite E1. cbn [bind]. eapply IH; [|exact E]. eapply watch_inv; eauto.
Qed.
Lemma watched_total enf be l : forall s m s', trun enf be s l = Ok s' -> exists m', watched enf be s m l = Ok (s', m').
Proof.
  induction l as [|a l IH]; intros s m s' E; cbn [watched trun] in *; [inversion E; subst; eauto|].
  apply bind_ok in E. destruct E as (s1 & E1 & E). rewrite E1. cbn [bind]. eauto.
Qed.
Lemma mon0_inv n a t s0 : thr_init n a t = Ok s0 -> oinv s0 (mon0 n).
Proof.
  unfold thr_init, assert_. destruct (0 <? a); [|discriminate]. destruct (0 <? t); [|discriminate]. destruct (a <=? t); [|discriminate].
  cbn [bind]. intros E. inversion E; subst. unfold mon0. constructor; cbn [cur taken given th rT lT].
  - now rewrite !repeat_length.
  - clear E. induction n; cbn; auto.
  - clear E. induction n; cbn; auto.
  - intros i p c E1 _. apply nth_error_In, repeat_spec in E1. now subst.
Qed.
Lemma idle_sum (f : tpc * call -> N) s m : all_idle s -> (forall c, f (TOut, c) = 0) -> sumN f (combine (th s) (cur m)) = 0.
Proof.
  intros HI Hf. apply sumN_zero. intros i [p c] E. assert (Ep : nth_error (th s) i = Some p).
  { revert E. generalize (cur m) i. generalize (th s). induction l as [|q l IH]; intros [|d k] [|j] E; cbn in *; try discriminate; try congruence. eauto. }
  now rewrite (HI i p Ep).
Qed.
Lemma releasing_bound s m : oinv s m -> sumN pend_inc (combine (th s) (cur m)) <= releasing s m.
Proof.
  intros [L _ _ A]. unfold releasing. revert L A. generalize (cur m). generalize (th s).
  induction l as [|p l IH]; intros [|c k] L A; cbn [combine sumN]; try lia.
  assert (IH' : sumN pend_inc (combine l k) <= sumN (fun x => match fst x, snd x with TOut, _ => 0 | _, Giving sz => sz | _, _ => 0 end) (combine l k)).
  { apply IH; [cbn in L; lia|]. intros i q d. apply (A (S i)). }
  pose proof (A 0%nat p c eq_refl eq_refl) as Hp. cbn [fst snd pend_inc].
  assert (pend_inc (p, c) <= match p with TOut => 0 | _ => match c with Giving sz => sz | Reserving _ => 0 end end).
  { unfold pend_inc; cbn [fst snd]. destruct p; cbn [agrees] in Hp; try lia; destruct Hp as (sz & ->); cbn [size_of]; lia. }
  destruct p; lia.
Qed.

(** C12, as the callers see it, for every number of threads, back-end and schedule whose clients give back only
    what was reserved: at every moment the bytes reserved by calls that returned, less those given back (counting
    releases still under way), do not exceed what was initially available; and when no call is under way the
    throttle's figure is exactly the initial one, less what was reserved, plus what was given back. *)
Theorem C12_callers_balance : forall n a t be s0 sched, a < M64 -> thr_init n a t = Ok s0 -> legal true be s0 sched ->
  exists s m, watched true be s0 (mon0 n) sched = Ok (s, m) /\
    taken m <= a + given m + releasing s m /\
    (all_idle s -> av s + taken m = a + given m).
Proof.
  intros n a t be s0 sched Ha E0 HL.
  destruct (throttle_never_overcommits n a t be s0 sched Ha E0 HL) as (s & E & H1 & H2 & _).
  destruct (watched_total true be sched s0 (mon0 n) s E) as (m & Em).
  destruct (watched_inv _ _ _ _ _ _ _ (mon0_inv n a t s0 E0) Em) as (HI & _).
  exists s, m. split; [exact Em|]. pose proof HI as [L D I A]. pose proof (releasing_bound s m HI) as B. split; [lia|].
  intros Q. rewrite (idle_sum pend_dec) in D by auto. rewrite (idle_sum pend_inc) in I by auto. lia.
Qed.

(** C14, as the callers see it, with enforcement off and no condition on the clients: when no call is under way
    the figure is the initial one, less what was reserved, plus what was given back, modulo 2^64. *)
Theorem C14_callers_balance : forall n a t be s0 sched, a < M64 -> thr_init n a t = Ok s0 ->
  exists s m, watched false be s0 (mon0 n) sched = Ok (s, m) /\
    (all_idle s -> (av s + taken m) mod M64 = (a + given m) mod M64 /\ av s < M64).
Proof.
  intros n a t be s0 sched Ha E0.
  destruct (throttle_unenforced_exact_mod n a t be s0 sched Ha E0) as (s & E & H1 & H2 & _).
  destruct (watched_total false be sched s0 (mon0 n) s E) as (m & Em).
  destruct (watched_inv _ _ _ _ _ _ _ (mon0_inv n a t s0 E0) Em) as (HI & _).
  exists s, m. split; [exact Em|]. intros Q. pose proof HI as [L D I A]. rewrite (idle_sum pend_dec) in D by auto. rewrite (idle_sum pend_inc) in I by auto.
  rewrite N.add_0_r in D, I. rewrite D, I in H1. auto.
Qed.

(** A reservation of 8, one of 5 that has to wait, a release of 8: all three returned. *)
Example C12_callers_balance_example : exists s0 s m,
  thr_init 2 10 16 = Ok s0 /\
  let l := ([ (0, CDec 8); (0, Go); (0, Go); (0, Go); (0, Go); (0, Go)
           ; (1, CDec 5); (1, Go); (1, Go); (1, Go)
           ; (0, CInc 8); (0, Go); (0, Go); (0, Go); (0, Go); (0, Go)
           ; (1, Go); (1, Go); (1, Go); (1, Go); (1, Go); (1, Go); (1, Go) ]%nat) in
  legal true Spin s0 l /\ watched true Spin s0 (mon0 2) l = Ok (s, m) /\ taken m = 13 /\ given m = 8 /\ all_idle s /\ av s = 5.
Proof.
  eexists. eexists. eexists. split; [reflexivity|]. cbv zeta. split.
  { vm_compute. repeat split; discriminate. }
  split; [vm_compute; reflexivity|]. repeat split. intros [|[|[|]]] p E; cbn in E; congruence.
Qed.
Print Assumptions C12_callers_balance.
Print Assumptions C14_callers_balance.
