(** Shared-memory throttle, src/core/arax_throttle.c, on both back-ends of the async condition
    (src/async/spin/async.c, src/async/mutex/async.c), for any number of threads.
    Properties C12, C13, C14. *)
From Verif Require Import Base Sums.
Local Open Scope N_scope.
Arguments N.add : simpl never.
Arguments N.sub : simpl never.
Arguments N.modulo : simpl never.
Arguments N.pow : simpl never.

(** size_t of src/core/arax_throttle.h:12-21. *)
Definition M64 : N := 2 ^ 64.

(** src/async/spin/async.c:39-84 and src/async/mutex/async.c:60-87. *)
Inductive backend := Spin | Mutex.

(** What a thread is doing. *)
Inductive tpc :=
| TOut
| I0 (sz : N)     (* size_inc: acquiring the condition's mutex, arax_throttle.c:56 *)
| I1 (sz : N)     (* about to execute available += sz, 61 *)
| I2              (* about to check capacity >= available (enforce), 65 *)
| I3              (* about to notify, 69 *)
| I4              (* about to unlock, 72 *)
| D0 (sz : N)     (* size_dec: acquiring the mutex, 84 *)
| D1 (sz : N)     (* about to test available < sz (enforce), 88 *)
| W1 (sz : N)     (* in async_condition_wait: about to release the mutex (spin 76; mutex: pthread_cond_wait, 78) *)
| W2 (sz : N)     (* spin: reading the semaphore (async.c:47-48); mutex: asleep in pthread_cond_wait *)
| W3 (sz v : N)   (* spin: about to compare-and-swap the semaphore v -> v-1 (async.c:49) *)
| W4 (sz : N)     (* re-acquiring the mutex (spin 78) *)
| D2 (sz : N)     (* about to execute available -= sz, 95 *)
| D3              (* about to check capacity >= available (enforce), 99 *)
| D4.             (* about to unlock, 103 *)

(** Shared state: [av]/[cap] the throttle, [free] the condition's mutex, [sem] the spin semaphore,
    [th] the threads; ghost totals [rT]/[lT] of the bytes reserved / given back so far.
    Simplification: [available += sz] under the mutex is one step; all accesses are SC. *)
(** src/core/arax_throttle.h:12-21, src/async/spin/async.h:24-28, mutex/async.h:27-32. *)
Record ts := mkts { av : N; cap : N; free : bool; sem : N; th : list tpc; rT : N; lT : N }.

(** arax_throttle_init, arax_throttle.c:28-47 *)
Definition thr_init (n : nat) (a t : N) : outcome ts :=
  do _ <- assert_ (0 <? a); do _ <- assert_ (0 <? t); do _ <- assert_ (a <=? t);
  Ok (mkts a t true 0 (repeat TOut n) 0 0).

(** Calls of src/core/arax_throttle.c:49-105 and steps inside them. *)
Inductive tact := CInc (sz : N) | CDec (sz : N) | Go | Spurious.

(** A private step, no code of its own. *)
Definition go (s : ts) (i : nat) (p : tpc) : ts := mkts (av s) (cap s) (free s) (sem s) (upd (th s) i p) (rT s) (lT s).
(** src/async/spin/async.c:64-67, src/async/mutex/async.c:69-72. *)
Definition acquire (s : ts) (i : nat) (p : tpc) : ts :=
  if free s then mkts (av s) (cap s) false (sem s) (upd (th s) i p) (rT s) (lT s) else s.
(** src/async/spin/async.c:81-84, src/async/mutex/async.c:84-87. *)
Definition release (s : ts) (i : nat) (p : tpc) : ts :=
  mkts (av s) (cap s) true (sem s) (upd (th s) i p) (rT s) (lT s).
(** pthread_cond_broadcast *)
(** src/async/mutex/async.c:79-82. *)
Definition wake (p : tpc) : tpc := match p with W2 sz => W4 sz | _ => p end.

(** One scheduler choice.  [enf] is ARAX_THROTTLE_ENFORCE. *)
Definition tstep (enf : bool) (be : backend) (s : ts) (a : nat * tact) : outcome ts :=
  let '(i, act) := a in
  match act, nth_error (th s) i with
  | CInc sz, Some TOut => if sz =? 0 then Ok s else Ok (go s i (I0 sz))          (* 52-53 *)
  | CDec sz, Some TOut => if sz =? 0 then Ok s else Ok (go s i (D0 sz))          (* 80-81 *)
  | Go, Some (I0 sz) => Ok (acquire s i (I1 sz))
  | Go, Some (I1 sz) => Ok (mkts ((av s + sz) mod M64) (cap s) (free s) (sem s) (upd (th s) i I2) (rT s) (lT s + sz))
  | Go, Some I2 => if enf && (cap s <? av s) then Abort else Ok (go s i I3)
  | Go, Some I3 =>
    match be with
    | Spin => Ok (mkts (av s) (cap s) (free s) (sem s + 1) (upd (th s) i I4) (rT s) (lT s))
    | Mutex => Ok (mkts (av s) (cap s) (free s) (sem s) (upd (map wake (th s)) i I4) (rT s) (lT s))
    end
  | Go, Some I4 => Ok (release s i TOut)
  | Go, Some (D0 sz) => Ok (acquire s i (D1 sz))
  | Go, Some (D1 sz) => if enf && (av s <? sz) then Ok (go s i (W1 sz)) else Ok (go s i (D2 sz))
  | Go, Some (W1 sz) => Ok (release s i (W2 sz))
  | Go, Some (W2 sz) =>
    match be with
    | Spin => if 1 <=? sem s then Ok (go s i (W3 sz (sem s))) else Ok s
    | Mutex => Ok s
    end
  | Spurious, Some (W2 sz) => match be with Mutex => Ok (go s i (W4 sz)) | Spin => Ok s end
  | Go, Some (W3 sz v) =>
    match be with
    | Spin => if sem s =? v then Ok (mkts (av s) (cap s) (free s) (sem s - 1) (upd (th s) i (W4 sz)) (rT s) (lT s))
              else Ok (go s i (W2 sz))
    | Mutex => Ok s   (* never reached: W3 is entered only on the spin back-end *)
    end
  | Go, Some (W4 sz) => Ok (acquire s i (D1 sz))
  | Go, Some (D2 sz) => Ok (mkts ((av s + M64 - sz mod M64) mod M64) (cap s) (free s) (sem s) (upd (th s) i D3) (rT s + sz) (lT s))
  | Go, Some D3 => if enf && (cap s <? av s) then Abort else Ok (go s i D4)
  | Go, Some D4 => Ok (release s i TOut)
  | _, _ => Ok s
  end.

(** Any interleaving, no code of its own. *)
Fixpoint trun (enf : bool) (be : backend) (s : ts) (l : list (nat * tact)) : outcome ts :=
  match l with [] => Ok s | a :: r => do s' <- tstep enf be s a; trun enf be s' r end.

(** ** Specification vocabulary *)
(** bytes being given back by calls that have not been accounted yet *)
Definition giving (p : tpc) : N := match p with I0 sz | I1 sz => sz | _ => 0 end.
Definition in_flight (s : ts) : N := sumN giving (th s).
(** Clients give back only what was reserved. *)
Definition client_ok (s : ts) (a : nat * tact) : Prop :=
  match snd a with CInc sz => lT s + in_flight s + sz <= rT s | _ => True end.
Fixpoint legal (enf : bool) (be : backend) (s : ts) (l : list (nat * tact)) : Prop :=
  match l with
  | [] => True
  | a :: r => client_ok s a /\ match tstep enf be s a with Ok s' => legal enf be s' r | _ => True end
  end.

(** ** Invariants *)
Definition holder (p : tpc) : nat :=
  match p with I1 _ | I2 | I3 | I4 | D1 _ | W1 _ | D2 _ | D3 | D4 => 1 | _ => 0 end.
(** between the addition and the notification *)
Definition notifying (p : tpc) : bool := match p with I2 | I3 => true | _ => false end.

Record tinv (a : N) (t : N) (be : backend) (s : ts) : Prop := {
  v_cap  : cap s = t;
  v_at   : a <= t /\ a < M64;
  v_lock : sumf holder (th s) = (if free s then 0 else 1)%nat;
  v_acc  : av s + rT s = a + lT s;
  v_own  : lT s + in_flight s <= rT s;
  v_d2   : forall i sz, nth_error (th s) i = Some (D2 sz) -> sz <= av s;
  v_w1   : forall i sz, nth_error (th s) i = Some (W1 sz) -> av s < sz;
  v_w2   : be = Mutex -> forall i sz, nth_error (th s) i = Some (W2 sz) ->
             av s < sz \/ exists j p, nth_error (th s) j = Some p /\ notifying p = true
}.

Lemma two_holders s i j p q a t be : tinv a t be s -> nth_error (th s) i = Some p -> nth_error (th s) j = Some q ->
  holder p = 1%nat -> holder q = 1%nat -> i = j.
Proof.
  intros H Ei Ej Hp Hq. destruct (Nat.eq_dec i j) as [|N]; auto. exfalso.
  pose proof (sumf_two holder (th s) i j p q N Ei Ej) as S. rewrite (v_lock _ _ _ _ H), Hp, Hq in S.
  destruct (free s); lia.
Qed.

(** thread [i] changes its pc, nothing else *)
Lemma go_inv a t be s i p q : tinv a t be s -> nth_error (th s) i = Some p ->
  holder q = holder p -> giving q = giving p ->
  (forall sz, q = D2 sz -> sz <= av s) -> (forall sz, q = W1 sz -> av s < sz) ->
  (be = Mutex -> forall sz, q = W2 sz -> av s < sz) ->
  (notifying p = true -> notifying q = true \/ be = Spin) ->
  tinv a t be (go s i q).
Proof.
  intros [H1 H2 H3 H4 H5 H6 H7 H8] Ei Hh Hg Hd Hw Hw2 Hn.
  pose proof (sumf_upd holder (th s) i q p Ei) as S1.
  pose proof (sumN_upd giving (th s) i q p Ei) as S2.
  constructor; cbn [go av cap free sem th rT lT]; auto.
  - rewrite <- H3 in *; lia.
  - unfold in_flight in *. cbn [go acquire release th] in *. lia.
  - intros j sz E. apply nth_upd_cases in E. destruct E as [(-> & E & _)|(N & E)]; eauto.
  - intros j sz E. apply nth_upd_cases in E. destruct E as [(-> & E & _)|(N & E)]; eauto.
  - intros B j sz E. apply nth_upd_cases in E. destruct E as [(-> & E & _)|(N & E)]; eauto.
    destruct (H8 B j sz E) as [|(k & r & Ek & Hk)]; auto. destruct (Nat.eq_dec k i) as [->|Nk].
    + rewrite Ei in Ek. inversion Ek; subst r. destruct (Hn Hk) as [Q|Q]; [|congruence].
      right. exists i, q. split; auto. rewrite nth_error_upd_eq; auto. eapply nth_error_lt; eauto.
    + right. exists k, r. split; auto. rewrite nth_error_upd_ne; auto.
Qed.

Lemma acquire_inv a t be s i p q : tinv a t be s -> nth_error (th s) i = Some p ->
  holder p = 0%nat -> holder q = 1%nat -> giving q = giving p ->
  (forall sz, q <> D2 sz) -> (forall sz, q <> W1 sz) -> notifying p = false ->
  tinv a t be (acquire s i q).
Proof.
  intros HI Ei Hp Hq Hg Hd Hw Hn. unfold acquire. destruct (free s) eqn:F; auto.
  destruct HI as [H1 H2 H3 H4 H5 H6 H7 H8]. rewrite F in H3.
  pose proof (sumf_upd holder (th s) i q p Ei) as S1.
  pose proof (sumN_upd giving (th s) i q p Ei) as S2.
  assert (Hq2 : forall sz, q <> W2 sz) by (intros sz ->; discriminate).
  constructor; cbn [av cap free sem th rT lT]; auto.
  - lia.
  - unfold in_flight in *. cbn [go acquire release th] in *. lia.
  - intros j sz E. apply nth_upd_cases in E. destruct E as [(-> & E & _)|(N & E)]; eauto. exfalso. eapply Hd; eauto.
  - intros j sz E. apply nth_upd_cases in E. destruct E as [(-> & E & _)|(N & E)]; eauto. exfalso. eapply Hw; eauto.
  - intros B j sz E. apply nth_upd_cases in E. destruct E as [(-> & E & _)|(N & E)].
    { exfalso. eapply Hq2; eauto. }
    destruct (H8 B j sz E) as [|(k & r & Ek & Hk)]; auto. destruct (Nat.eq_dec k i) as [->|Nk].
    + rewrite Ei in Ek. inversion Ek; subst r. congruence.
    + right. exists k, r. split; auto. rewrite nth_error_upd_ne; auto.
Qed.

Lemma release_inv a t be s i p q : tinv a t be s -> nth_error (th s) i = Some p ->
  holder p = 1%nat -> holder q = 0%nat -> giving q = giving p -> notifying p = false ->
  (forall sz, q = W2 sz -> av s < sz) ->
  tinv a t be (release s i q).
Proof.
  intros HI Ei Hp Hq Hg Hn Hw2.
  pose proof HI as [H1 H2 H3 H4 H5 H6 H7 H8].
  pose proof (sumf_upd holder (th s) i q p Ei) as S1.
  pose proof (sumN_upd giving (th s) i q p Ei) as S2.
  pose proof (sumf_in holder (th s) i p Ei) as S3.
  assert (Hd : forall sz, q <> D2 sz) by (intros sz ->; discriminate).
  assert (Hw : forall sz, q <> W1 sz) by (intros sz ->; discriminate).
  constructor; cbn [release av cap free sem th rT lT]; auto.
  - destruct (free s); lia.
  - unfold in_flight in *. cbn [go acquire release th] in *. lia.
  - intros j sz E. apply nth_upd_cases in E. destruct E as [(-> & E & _)|(N & E)]; eauto. exfalso. eapply Hd; eauto.
  - intros j sz E. apply nth_upd_cases in E. destruct E as [(-> & E & _)|(N & E)]; eauto. exfalso. eapply Hw; eauto.
  - intros B j sz E. apply nth_upd_cases in E. destruct E as [(-> & E & _)|(N & E)]; eauto.
    destruct (H8 B j sz E) as [|(k & r & Ek & Hk)]; auto. destruct (Nat.eq_dec k i) as [->|Nk].
    + rewrite Ei in Ek. inversion Ek; subst r. congruence.
    + right. exists k, r. split; auto. rewrite nth_error_upd_ne; auto.
Qed.

Lemma tstep_inv a t be s x : tinv a t be s -> client_ok s x ->
  exists s', tstep true be s x = Ok s' /\ tinv a t be s'.
Proof.
  intros HI HC. destruct x as [i act]. unfold client_ok in HC. cbn [snd] in HC. unfold tstep.
  pose proof HI as [H1 H2 H3 H4 H5 H6 H7 H8].
  destruct (nth_error (th s) i) as [p|] eqn:Ei; [|exists s; destruct act; auto].
  pose proof (nth_error_lt _ _ _ Ei) as Li.
  destruct act as [sz|sz| |].
  - destruct p; try (exists s; auto; fail). destruct (N.eqb_spec sz 0) as [Z|Z]; [exists s; auto|].
    eexists; split; [reflexivity|].
    (* ghost: the call starts giving back sz *)
    pose proof (sumf_upd holder (th s) i (I0 sz) TOut Ei) as S1. cbn [holder] in S1.
    pose proof (sumN_upd giving (th s) i (I0 sz) TOut Ei) as S2. cbn [giving] in S2.
    constructor; cbn [go av cap free sem th rT lT]; auto.
    + rewrite <- H3 in *; lia.
    + unfold in_flight in *. cbn [go acquire release th] in *. lia.
    + intros j sz' E. apply nth_upd_cases in E. destruct E as [(-> & E & _)|(N & E)]; [discriminate|eauto].
    + intros j sz' E. apply nth_upd_cases in E. destruct E as [(-> & E & _)|(N & E)]; [discriminate|eauto].
    + intros B j sz' E. apply nth_upd_cases in E. destruct E as [(-> & E & _)|(N & E)]; [discriminate|].
      destruct (H8 B j sz' E) as [|(k & r & Ek & Hk)]; auto. right. exists k, r. split; auto.
      rewrite nth_error_upd_ne; auto. intros ->. rewrite Ei in Ek. inversion Ek; subst. discriminate.
  - destruct p; try (exists s; auto; fail). destruct (N.eqb_spec sz 0) as [Z|Z]; [exists s; auto|].
    eexists; split; [reflexivity|]. apply (go_inv a t be s i TOut); auto; discriminate.
  - destruct p.
    + exists s; auto.
    + (* I0 *) eexists; split; [reflexivity|]. apply (acquire_inv a t be s i (I0 sz)); auto; discriminate.
    + (* I1: add *) eexists; split; [reflexivity|].
      pose proof (sumf_upd holder (th s) i I2 (I1 sz) Ei) as S1. cbn [holder] in S1.
      pose proof (sumN_upd giving (th s) i I2 (I1 sz) Ei) as S2. cbn [giving] in S2.
      pose proof (sumN_in giving (th s) i _ Ei) as S3. cbn [giving] in S3.
      unfold in_flight in *.
      assert (NW : (av s + sz) mod M64 = av s + sz) by (apply N.mod_small; lia).
      constructor; cbn [av cap free sem th rT lT]; unfold in_flight; cbn [th]; rewrite ?NW; auto.
      * rewrite <- H3 in *; lia.
      * lia.
      * lia.
      * intros j sz' E. apply nth_upd_cases in E. destruct E as [(-> & E & _)|(N & E)]; [discriminate|].
        exfalso. apply N. apply (two_holders s j i (D2 sz') (I1 sz) a t be); auto.
      * intros j sz' E. apply nth_upd_cases in E. destruct E as [(-> & E & _)|(N & E)]; [discriminate|].
        exfalso. apply N. apply (two_holders s j i (W1 sz') (I1 sz) a t be); auto.
      * intros B j sz' E. right. exists i, I2. split; auto. apply nth_error_upd_eq. exact Li.
    + (* I2 *) replace (cap s <? av s) with false. 2:{ symmetry. apply N.ltb_ge. lia. }
      cbn [andb]. eexists; split; [reflexivity|]. apply (go_inv a t be s i I2); auto; discriminate.
    + (* I3 *) destruct be; (eexists; split; [reflexivity|]).
      * pose proof (go_inv a t Spin s i I3 I4 HI Ei) as G.
        destruct G as [G1 G2 G3 G4 G5 G6 G7 G8]; auto; try discriminate.
        constructor; auto; try discriminate.
      * assert (Em : nth_error (map wake (th s)) i = Some I3) by (rewrite nth_error_map, Ei; reflexivity).
        pose proof (sumf_upd holder (map wake (th s)) i I4 I3 Em) as S1. cbn [holder] in S1.
        rewrite sumf_map in S1 by (intros []; reflexivity).
        pose proof (sumN_upd giving (map wake (th s)) i I4 I3 Em) as S2. cbn [giving] in S2.
        rewrite sumN_map in S2 by (intros []; reflexivity).
        assert (MW : forall j q, nth_error (map wake (th s)) j = Some q -> exists q0, nth_error (th s) j = Some q0 /\ q = wake q0).
        { intros j q E. rewrite nth_error_map in E. destruct (nth_error (th s) j); [|discriminate]. inversion E. eauto. }
        constructor; cbn [av cap free sem th rT lT]; auto.
        -- rewrite <- H3 in *; lia.
        -- unfold in_flight in *. cbn [go acquire release th] in *. lia.
        -- intros j sz' E. apply nth_upd_cases in E. destruct E as [(-> & E & _)|(N & E)]; [discriminate|].
           destruct (MW _ _ E) as (q0 & E0 & Q). destruct q0; try discriminate. inversion Q; subst. eauto.
        -- intros j sz' E. apply nth_upd_cases in E. destruct E as [(-> & E & _)|(N & E)]; [discriminate|].
           destruct (MW _ _ E) as (q0 & E0 & Q). destruct q0; try discriminate. inversion Q; subst. eauto.
        -- intros _ j sz' E. apply nth_upd_cases in E. destruct E as [(-> & E & _)|(N & E)]; [discriminate|].
           destruct (MW _ _ E) as (q0 & E0 & Q). destruct q0; discriminate.
    + (* I4 *) eexists; split; [reflexivity|]. apply (release_inv a t be s i I4); auto; discriminate.
    + (* D0 *) eexists; split; [reflexivity|]. apply (acquire_inv a t be s i (D0 sz)); auto; discriminate.
    + (* D1 *) cbn [andb]. destruct (N.ltb_spec (av s) sz); (eexists; split; [reflexivity|]);
        apply (go_inv a t be s i (D1 sz)); auto; try discriminate; intros sz' Q; inversion Q; subst; auto.
    + (* W1 *) eexists; split; [reflexivity|]. apply (release_inv a t be s i (W1 sz)); auto.
      intros sz' Q. inversion Q; subst. eauto.
    + (* W2 *) destruct be.
      * destruct (1 <=? sem s); [|exists s; auto]. eexists; split; [reflexivity|].
        apply (go_inv a t Spin s i (W2 sz)); auto; discriminate.
      * exists s; auto.
    + (* W3 *) destruct be; [|exists s; auto]. destruct (N.eqb_spec (sem s) v).
      * eexists; split; [reflexivity|].
        pose proof (go_inv a t Spin s i (W3 sz v) (W4 sz) HI Ei) as G.
        destruct G as [G1 G2 G3 G4 G5 G6 G7 G8]; auto; try discriminate.
        constructor; auto; try discriminate.
      * eexists; split; [reflexivity|].
        apply (go_inv a t Spin s i (W3 sz v)); auto; discriminate.
    + (* W4 *) eexists; split; [reflexivity|]. apply (acquire_inv a t be s i (W4 sz)); auto; discriminate.
    + (* D2: subtract *) eexists; split; [reflexivity|].
      pose proof (H6 i sz Ei) as Hle.
      pose proof (sumf_upd holder (th s) i D3 (D2 sz) Ei) as S1. cbn [holder] in S1.
      pose proof (sumN_upd giving (th s) i D3 (D2 sz) Ei) as S2. cbn [giving] in S2.
      assert (AM : av s < M64) by (unfold in_flight in *; lia).
      assert (NW : (av s + M64 - sz mod M64) mod M64 = av s - sz).
      { rewrite (N.mod_small sz) by lia. replace (av s + M64 - sz) with ((av s - sz) + 1 * M64) by lia.
        rewrite N.mod_add by discriminate. apply N.mod_small. lia. }
      unfold in_flight in *.
      constructor; cbn [av cap free sem th rT lT]; unfold in_flight; cbn [th]; rewrite ?NW; auto.
      * rewrite <- H3 in *; lia.
      * lia.
      * lia.
      * intros j sz' E. apply nth_upd_cases in E. destruct E as [(-> & E & _)|(N & E)]; [discriminate|].
        exfalso. apply N. apply (two_holders s j i (D2 sz') (D2 sz) a t be); auto.
      * intros j sz' E. apply nth_upd_cases in E. destruct E as [(-> & E & _)|(N & E)]; [discriminate|].
        specialize (H7 _ _ E). lia.
      * intros B j sz' E. apply nth_upd_cases in E. destruct E as [(-> & E & _)|(N & E)]; [discriminate|].
        destruct (H8 B j sz' E) as [|(k & r & Ek & Hk)]; [left; lia|]. right. exists k, r. split; auto.
        rewrite nth_error_upd_ne; auto. intros ->. rewrite Ei in Ek. inversion Ek; subst. discriminate.
    + (* D3 *) replace (cap s <? av s) with false. 2:{ symmetry. apply N.ltb_ge. lia. }
      cbn [andb]. eexists; split; [reflexivity|]. apply (go_inv a t be s i D3); auto; discriminate.
    + (* D4 *) eexists; split; [reflexivity|]. apply (release_inv a t be s i D4); auto; discriminate.
  - destruct p; try (exists s; auto; fail). destruct be; [exists s; auto|].
    eexists; split; [reflexivity|]. apply (go_inv a t Mutex s i (W2 sz)); auto; discriminate.
Qed.

Lemma trun_inv a t be l : forall s, tinv a t be s -> legal true be s l -> exists s', trun true be s l = Ok s' /\ tinv a t be s'.
Proof.
  induction l as [|x l IH]; intros s HI HL.
  - exists s. auto.
  - cbn [legal] in HL. destruct HL as [HC HL]. destruct (tstep_inv a t be s x HI HC) as (s1 & E1 & I1').
    cbn [trun]. rewrite E1 in *. cbn [bind]. apply IH; auto.
Qed.

Lemma init_inv n a t s0 be : a < M64 -> thr_init n a t = Ok s0 -> tinv a t be s0.
Proof.
  intros Ha. unfold thr_init, assert_. destruct (0 <? a); [|discriminate]. destruct (0 <? t); [|discriminate]. cbn [bind].
  destruct (N.leb_spec a t); [|discriminate]. cbn [bind]. intros E. inversion E; subst. clear E.
  assert (R : forall i p, nth_error (repeat TOut n) i = Some p -> p = TOut).
  { intros i p E. apply nth_error_In in E. now apply repeat_spec in E. }
  constructor; cbn [av cap free sem th rT lT]; auto.
  - apply sumf_repeat. reflexivity.
  - unfold in_flight. cbn [th]. rewrite sumN_repeat; [lia|reflexivity].
  - intros i sz E. apply R in E. discriminate.
  - intros i sz E. apply R in E. discriminate.
  - intros _ i sz E. apply R in E. discriminate.
Qed.

(** ** C12: enforced throttling never over-commits.
    For every number of threads, initial figures, back-end and schedule whose clients give back only what
    was reserved: no assertion fires, the available figure plus the bytes reserved and not given back is
    the initial figure, it never exceeds the capacity, the mutex protects the figure, and a reservation
    subtracts only when the space is there. *)
Theorem throttle_never_overcommits : forall n a t be s0 sched,
  a < M64 -> thr_init n a t = Ok s0 -> legal true be s0 sched ->
  exists s, trun true be s0 sched = Ok s /\
    lT s <= rT s /\ av s + (rT s - lT s) = a /\ av s <= cap s /\ cap s = t /\
    (forall i sz, nth_error (th s) i = Some (D2 sz) -> sz <= av s) /\
    (forall i j p q, nth_error (th s) i = Some p -> nth_error (th s) j = Some q ->
       holder p = 1%nat -> holder q = 1%nat -> i = j).
Proof.
  intros n a t be s0 sched Ha E0 HL. pose proof (init_inv n a t s0 be Ha E0) as HI.
  destruct (trun_inv a t be sched s0 HI HL) as (s & E & HI'). exists s. pose proof HI' as [H1 H2 H3 H4 H5 H6 H7 H8].
  split; [exact E|]. split; [lia|]. split; [lia|]. split; [lia|]. split; [exact H1|]. split; [exact H6|].
  intros i j p q Ei Ej Hp Hq. apply (two_holders s i j p q a t be); auto.
Qed.

(** A reservation that was admitted left the figure at exactly [available - sz], without wrapping. *)
Theorem throttle_admits_only_what_fits : forall n a t be s0 sched s i sz s',
  a < M64 -> thr_init n a t = Ok s0 -> legal true be s0 sched -> trun true be s0 sched = Ok s ->
  nth_error (th s) i = Some (D2 sz) -> tstep true be s (i, Go) = Ok s' ->
  sz <= av s /\ av s' = av s - sz /\ rT s' = rT s + sz.
Proof.
  intros n a t be s0 sched s i sz s' Ha E0 HL E Ei Es. pose proof (init_inv n a t s0 be Ha E0) as HI.
  destruct (trun_inv a t be sched s0 HI HL) as (s1 & E1 & HI'). rewrite E in E1. inversion E1; subst s1.
  pose proof HI' as [H1 H2 H3 H4 H5 H6 H7 H8]. pose proof (H6 i sz Ei) as Hle.
  unfold tstep in Es. rewrite Ei in Es. inversion Es; subst s'. cbn [av rT].
  split; [exact Hle|]. split; [|reflexivity].
  assert (AM : av s < M64) by lia.
  rewrite (N.mod_small sz) by lia. replace (av s + M64 - sz) with ((av s - sz) + 1 * M64) by lia.
  rewrite N.mod_add by discriminate. apply N.mod_small. lia.
Qed.

(** ** C13: progress *)
(** Nobody is running: every thread is outside or asleep; on the spin back-end asleep means spinning on an
    empty semaphore. *)
Definition quiescent (be : backend) (s : ts) : Prop :=
  (forall i p, nth_error (th s) i = Some p -> p = TOut \/ exists sz, p = W2 sz) /\
  (be = Spin -> sem s = 0).

(** Pthread back-end: no sleeper's request fits. *)
Theorem mutex_no_lost_wakeup : forall n a t s0 sched s,
  a < M64 -> thr_init n a t = Ok s0 -> legal true Mutex s0 sched -> trun true Mutex s0 sched = Ok s ->
  quiescent Mutex s -> forall i sz, nth_error (th s) i = Some (W2 sz) -> av s < sz.
Proof.
  intros n a t s0 sched s Ha E0 HL E [Q _] i sz Ei. pose proof (init_inv n a t s0 Mutex Ha E0) as HI.
  destruct (trun_inv a t Mutex sched s0 HI HL) as (s1 & E1 & HI'). rewrite E in E1. inversion E1; subst s1.
  destruct (v_w2 _ _ _ _ HI' eq_refl i sz Ei) as [|(j & p & Ej & Hp)]; auto. exfalso.
  destruct (Q j p Ej) as [->|(sz' & ->)]; discriminate.
Qed.

(** Spin back-end: one notification token per release; a waiter whose request does not fit can consume the
    token that another, fitting, waiter needed. *)
Definition lost_sched : list (nat * tact) :=
  [ (0, CDec 10); (0, Go); (0, Go); (0, Go); (0, Go); (0, Go)      (* thread 0 takes all 10 *)
  ; (1, CDec 10); (1, Go); (1, Go); (1, Go)                        (* thread 1 wants 10: sleeps *)
  ; (2, CDec 5); (2, Go); (2, Go); (2, Go)                         (* thread 2 wants 5: sleeps *)
  ; (0, CInc 5); (0, Go); (0, Go); (0, Go); (0, Go); (0, Go)       (* thread 0 gives back 5 *)
  ; (1, Go); (1, Go); (1, Go); (1, Go); (1, Go)                    (* thread 1 takes the token, sleeps again *)
  ]%nat.
Theorem spin_lost_wakeup_refuted :
  exists s0 s, thr_init 3 10 10 = Ok s0 /\ legal true Spin s0 lost_sched /\ trun true Spin s0 lost_sched = Ok s /\
    quiescent Spin s /\ nth_error (th s) 2 = Some (W2 5) /\ av s = 5.
Proof.
  eexists. eexists. split; [reflexivity|]. split.
  { vm_compute. repeat split; discriminate. }
  split; [vm_compute; reflexivity|]. split; [|split; reflexivity].
  split; [|reflexivity]. intros [|[|[|[|]]]] p E; cbn in E; inversion E; eauto.
Qed.

(** Spin back-end, at most one thread ever reserves: no lost wake-up. *)
Definition is_dec (p : tpc) : Prop :=
  match p with D0 _ | D1 _ | W1 _ | W2 _ | W3 _ _ | W4 _ | D2 _ | D3 | D4 => True | _ => False end.
Definition only_reserver (r : nat) (l : list (nat * tact)) : Prop := forall i sz, In (i, CDec sz) l -> i = r.
Definition sinv (r : nat) (s : ts) : Prop :=
  (forall i p, nth_error (th s) i = Some p -> is_dec p -> i = r) /\
  (forall sz, nth_error (th s) r = Some (W2 sz) -> av s < sz \/ 1 <= sem s \/ exists j p, nth_error (th s) j = Some p /\ notifying p = true) /\
  (forall sz v, nth_error (th s) r = Some (W3 sz v) -> 1 <= v <= sem s).

(** the two facts are untouched when a thread other than the reserver moves between quiet pcs *)
Lemma sinv_other r s s' i p q : sinv r s -> nth_error (th s) i = Some p -> th s' = upd (th s) i q ->
  (is_dec q -> i = r) -> ~ is_dec p ->
  av s' = av s -> sem s <= sem s' -> (is_dec q -> exists sz, q = D0 sz) -> (notifying p = true -> notifying q = true \/ 1 <= sem s') ->
  sinv r s'.
Proof.
  intros (A & B & C) Ei Et Hq Hp Ea Es Hq0 Hn. pose proof (nth_error_lt _ _ _ Ei) as Li. unfold sinv. rewrite Et, Ea. split; [|split].
  - intros j x E D. apply nth_upd_cases in E. destruct E as [(-> & -> & _)|(N & E)]; eauto.
  - intros sz E. apply nth_upd_cases in E. destruct E as [(-> & E & _)|(N & E)].
    { destruct (Hq0 ltac:(subst q; exact I)). subst q. discriminate. }
    destruct (B sz E) as [|[|(k & x & Ek & Hk)]]; [auto|right; left; lia|]. destruct (Nat.eq_dec k i) as [->|Nk].
    + rewrite Ei in Ek. inversion Ek; subst x. destruct (Hn Hk) as [Q|Q]; [|auto]. right; right. exists i, q. split; auto.
      apply nth_error_upd_eq; auto.
    + right; right. exists k, x. split; auto. rewrite nth_error_upd_ne; auto.
  - intros sz v E. apply nth_upd_cases in E. destruct E as [(-> & E & _)|(N & E)].
    { destruct (Hq0 ltac:(subst q; exact I)). subst q. discriminate. }
    specialize (C sz v E). lia.
Qed.

(** the reserver itself moves *)
Lemma sinv_self r s s' p q : sinv r s -> nth_error (th s) r = Some p -> th s' = upd (th s) r q ->
  (forall sz, q = W2 sz -> av s' < sz \/ 1 <= sem s') -> (forall sz v, q = W3 sz v -> 1 <= v <= sem s') ->
  sinv r s'.
Proof.
  intros (A & B & C) Ei Et H2 H3. pose proof (nth_error_lt _ _ _ Ei) as Li. unfold sinv. rewrite Et. split; [|split].
  - intros j x E D. apply nth_upd_cases in E. destruct E as [(-> & -> & _)|(N & E)]; eauto.
  - intros sz E. rewrite nth_error_upd_eq in E by auto. inversion E. destruct (H2 sz); auto.
  - intros sz v E. rewrite nth_error_upd_eq in E by auto. inversion E. eauto.
Qed.

Lemma sinv_step a t r s x s' : tinv a t Spin s -> sinv r s -> (forall sz, snd x = CDec sz -> fst x = r) ->
  tstep true Spin s x = Ok s' -> sinv r s'.
Proof.
  intros HI HS HX E. destruct x as [i act]. cbn [fst snd] in HX. unfold tstep in E.
  pose proof HI as [H1 H2 H3 H4 H5 H6 H7 H8]. pose proof HS as (A & B & C).
  destruct (nth_error (th s) i) as [p|] eqn:Ei; [|destruct act; inversion E; subst; auto].
  destruct act as [sz|sz| |].
  - destruct p; try (inversion E; subst; exact HS). destruct (sz =? 0); inversion E; subst; auto.
    eapply sinv_other; [exact HS|exact Ei|reflexivity|..]; cbn; try tauto; try lia; discriminate.
  - destruct p; try (inversion E; subst; exact HS). destruct (sz =? 0); inversion E; subst; auto.
    eapply sinv_other; [exact HS|exact Ei|reflexivity|..]; cbn; try lia; try discriminate; eauto.
  - destruct p; try (inversion E; subst; exact HS).
    + unfold acquire in E. destruct (free s); inversion E; subst; auto.
      eapply sinv_other; [exact HS|exact Ei|reflexivity|..]; cbn; try tauto; try lia; discriminate.
    + (* I1 *) inversion E; subst. pose proof (nth_error_lt _ _ _ Ei) as Li.
      split; [|split]; cbn [av sem th].
      * intros j y Ej D. apply nth_upd_cases in Ej. destruct Ej as [(-> & -> & _)|(N & Ej)]; [destruct D|eauto].
      * intros sz' Ej. right; right. exists i, I2. split; auto. apply nth_error_upd_eq; auto.
      * intros sz' v Ej. apply nth_upd_cases in Ej. destruct Ej as [(-> & Q & _)|(N & Ej)]; [discriminate|eauto].
    + destruct (true && (cap s <? av s)); inversion E; subst.
      eapply sinv_other; [exact HS|exact Ei|reflexivity|..]; cbn; try tauto; try lia; auto.
    + inversion E; subst. eapply sinv_other; [exact HS|exact Ei|reflexivity|..]; cbn; try tauto; try lia.
    + inversion E; subst. eapply sinv_other; [exact HS|exact Ei|reflexivity|..]; cbn; try tauto; try lia; discriminate.
    + assert (i = r) by (eapply A; eauto; exact I). subst i. unfold acquire in E. destruct (free s); inversion E; subst; auto.
      eapply sinv_self; [exact HS|exact Ei|reflexivity|..]; discriminate.
    + assert (i = r) by (eapply A; eauto; exact I). subst i.
      destruct (true && (av s <? sz)); inversion E; subst; (eapply sinv_self; [exact HS|exact Ei|reflexivity|..]); discriminate.
    + assert (i = r) by (eapply A; eauto; exact I). subst i. inversion E; subst.
      eapply sinv_self; [exact HS|exact Ei|reflexivity| |discriminate]. intros sz' Q. inversion Q; subst. cbn [release av]. left. eauto.
    + assert (i = r) by (eapply A; eauto; exact I). subst i. destruct (N.leb_spec 1 (sem s)); inversion E; subst; auto.
      eapply sinv_self; [exact HS|exact Ei|reflexivity|discriminate|]. intros sz' v Q. inversion Q; subst. cbn [go sem]. lia.
    + assert (i = r) by (eapply A; eauto; exact I). subst i. destruct (N.eqb_spec (sem s) v); inversion E; subst.
      * eapply sinv_self; [exact HS|exact Ei|reflexivity|..]; discriminate.
      * eapply sinv_self; [exact HS|exact Ei|reflexivity| |discriminate]. intros sz' Q. inversion Q; subst. specialize (C _ _ Ei). cbn [go sem]. right. lia.
    + assert (i = r) by (eapply A; eauto; exact I). subst i. unfold acquire in E. destruct (free s); inversion E; subst; auto.
      eapply sinv_self; [exact HS|exact Ei|reflexivity|..]; discriminate.
    + assert (i = r) by (eapply A; eauto; exact I). subst i. inversion E; subst. eapply sinv_self; [exact HS|exact Ei|reflexivity|..]; discriminate.
    + assert (i = r) by (eapply A; eauto; exact I). subst i.
      destruct (true && (cap s <? av s)); inversion E; subst; (eapply sinv_self; [exact HS|exact Ei|reflexivity|..]); discriminate.
    + assert (i = r) by (eapply A; eauto; exact I). subst i. inversion E; subst. eapply sinv_self; [exact HS|exact Ei|reflexivity|..]; discriminate.
  - destruct p; inversion E; subst; exact HS.
Qed.

Lemma srun_inv a t r l : forall s s', tinv a t Spin s -> sinv r s -> only_reserver r l -> legal true Spin s l ->
  trun true Spin s l = Ok s' -> sinv r s'.
Proof.
  induction l as [|x l IH]; intros s s' HI HS HO HL E.
  - inversion E; subst; auto.
  - cbn [legal trun] in *. destruct HL as [HC HL]. destruct (tstep_inv a t Spin s x HI HC) as (s1 & E1 & HI1).
    rewrite E1 in *. cbn [bind] in E. eapply (IH s1); eauto.
    + apply (sinv_step a t r s x s1 HI HS); auto. intros sz Q. apply (HO _ sz). left. destruct x; cbn in *; subst; auto.
    + intros i sz Q. apply (HO i sz). now right.
Qed.

Theorem spin_single_reserver_no_lost_wakeup_partial : forall n a t s0 sched s r,
  a < M64 -> thr_init n a t = Ok s0 -> legal true Spin s0 sched -> only_reserver r sched ->
  trun true Spin s0 sched = Ok s -> quiescent Spin s ->
  forall i sz, nth_error (th s) i = Some (W2 sz) -> av s < sz.
Proof.
  intros n a t s0 sched s r Ha E0 HL HO E [Q Q0] i sz Ei. pose proof (init_inv n a t s0 Spin Ha E0) as HI.
  assert (HS : sinv r s0).
  { unfold thr_init, assert_ in E0. destruct (0 <? a); [|discriminate]. destruct (0 <? t); [|discriminate].
    destruct (a <=? t); inversion E0; subst. 
    assert (R : forall i p, nth_error (repeat TOut n) i = Some p -> p = TOut).
    { intros k p Ek. apply nth_error_In in Ek. now apply repeat_spec in Ek. }
    split; [|split]; cbn [th]; intros; match goal with H : nth_error _ _ = _ |- _ => apply R in H end; subst; try discriminate. contradiction. }
  destruct (srun_inv a t r sched s0 s HI HS HO HL E) as (A & B & C).
  assert (i = r) by (eapply A; eauto; exact I). subst i.
  destruct (B sz Ei) as [|[L|(j & p & Ej & Hp)]]; auto.
  - rewrite (Q0 eq_refl) in L. lia.
  - exfalso. destruct (Q j p Ej) as [->|(sz' & ->)]; discriminate.
Qed.

(** ** C14: accounting without enforcement (the default build) *)
Definition asleep (p : tpc) : bool := match p with W1 _ | W2 _ | W3 _ _ | W4 _ => true | _ => false end.
Definition ninv (a : N) (s : ts) : Prop :=
  av s < M64 /\ (exists k, av s + rT s = a + lT s + k * M64 \/ av s + rT s + k * M64 = a + lT s) /\
  forall i p, nth_error (th s) i = Some p -> asleep p = false.

Lemma ninv_th a s s' i q : ninv a s -> th s' = upd (th s) i q -> asleep q = false ->
  av s' = av s -> rT s' = rT s -> lT s' = lT s -> ninv a s'.
Proof.
  intros (A & B & C) Et Hq E1 E2 E3. unfold ninv. rewrite E1, E2, E3, Et. split; [auto|split; auto].
  intros j p Ej. apply nth_upd_cases in Ej. destruct Ej as [(-> & -> & _)|(N & Ej)]; eauto.
Qed.

Lemma nstep_inv a be s x : ninv a s -> exists s', tstep false be s x = Ok s' /\ ninv a s'.
Proof.
  intros HI. destruct x as [i act]. unfold tstep. pose proof HI as (A & (k & B) & C).
  destruct (nth_error (th s) i) as [p|] eqn:Ei; [|exists s; destruct act; auto].
  pose proof (C i p Ei) as Hp.
  assert (HM : M64 <> 0) by discriminate.
  destruct act as [sz|sz| |].
  - destruct p; try (exists s; auto; fail). destruct (sz =? 0); [exists s; auto|].
    eexists; split; [reflexivity|]. (eapply ninv_th; [exact HI|reflexivity|..]; reflexivity).
  - destruct p; try (exists s; auto; fail). destruct (sz =? 0); [exists s; auto|].
    eexists; split; [reflexivity|]. (eapply ninv_th; [exact HI|reflexivity|..]; reflexivity).
  - destruct p; try discriminate; try (exists s; auto; fail); cbn [andb]; try (eexists; split; [reflexivity|]).
    + unfold acquire. destruct (free s); auto. (eapply ninv_th; [exact HI|reflexivity|..]; reflexivity).
    + split; [|split]; cbn [av rT lT th].
      * apply N.mod_lt; auto.
      * pose proof (N.div_mod (av s + sz) M64 HM) as D. set (d := (av s + sz) / M64) in *.
        destruct B as [B|B].
        { destruct (N.le_gt_cases d k); [exists (k - d); left|exists (d - k); right]; nia. }
        { exists (d + k). right. nia. }
      * intros j p Ej. apply nth_upd_cases in Ej. destruct Ej as [(-> & -> & _)|(N & Ej)]; eauto.
    + (eapply ninv_th; [exact HI|reflexivity|..]; reflexivity).
    + destruct be; eexists; (split; [reflexivity|]).
      * (eapply ninv_th; [exact HI|reflexivity|..]; reflexivity).
      * split; [|split]; cbn [av rT lT th]; eauto.
        intros j p Ej. apply nth_upd_cases in Ej. destruct Ej as [(-> & -> & _)|(N & Ej)]; auto.
        rewrite nth_error_map in Ej. destruct (nth_error (th s) j) as [p0|] eqn:E0; inversion Ej; subst.
        specialize (C _ _ E0). destruct p0; auto; discriminate.
    + (eapply ninv_th; [exact HI|reflexivity|..]; reflexivity).
    + unfold acquire. destruct (free s); auto. (eapply ninv_th; [exact HI|reflexivity|..]; reflexivity).
    + (eapply ninv_th; [exact HI|reflexivity|..]; reflexivity).
    + split; [|split]; cbn [av rT lT th].
      * apply N.mod_lt; auto.
      * pose proof (N.div_mod (av s + M64 - sz mod M64) M64 HM) as D. set (d := (av s + M64 - sz mod M64) / M64) in *.
        set (r := (av s + M64 - sz mod M64) mod M64) in *.
        pose proof (N.div_mod sz M64 HM) as D2'. pose proof (N.mod_lt sz M64 HM) as L2. set (e := sz / M64) in *. set (f := sz mod M64) in *.
        destruct B as [B|B].
        { (* r + d M = av + M - f,  sz = e M + f *)
          destruct (N.le_gt_cases d (k + 1 + e)); [exists (k + 1 + e - d); left|exists (d - (k + 1 + e)); right]; nia. }
        { destruct (N.le_gt_cases (d + k) (1 + e)); [exists (1 + e - (d + k)); left|exists (d + k - (1 + e)); right]; nia. }
      * intros j p Ej. apply nth_upd_cases in Ej. destruct Ej as [(-> & -> & _)|(N & Ej)]; eauto.
    + (eapply ninv_th; [exact HI|reflexivity|..]; reflexivity).
    + (eapply ninv_th; [exact HI|reflexivity|..]; reflexivity).
  - destruct p; try discriminate; exists s; auto.
Qed.

Theorem throttle_unenforced_exact_mod : forall n a t be s0 sched,
  a < M64 -> thr_init n a t = Ok s0 ->
  exists s, trun false be s0 sched = Ok s /\
    (av s + rT s) mod M64 = (a + lT s) mod M64 /\ av s < M64 /\
    (forall i p, nth_error (th s) i = Some p -> asleep p = false) /\
    (lT s <= rT s -> rT s - lT s <= a -> av s + (rT s - lT s) = a).
Proof.
  intros n a t be s0 sched Ha E0.
  assert (HI : ninv a s0).
  { unfold thr_init, assert_ in E0. destruct (0 <? a); [|discriminate]. destruct (0 <? t); [|discriminate].
    destruct (a <=? t); inversion E0; subst. split; [auto|]. split; [exists 0; left; cbn; lia|].
    intros i p E. cbn [th] in E. apply nth_error_In in E. apply repeat_spec in E. now subst. }
  clear E0. revert s0 HI. induction sched as [|x l IH]; intros s0 HI.
  - exists s0. split; [reflexivity|]. destruct HI as (A & (k & B) & C). assert (HM : M64 <> 0) by discriminate.
    split; [|split; [exact A|split; [exact C|]]].
    + destruct B as [B|B]; [rewrite B|rewrite <- B]; now rewrite N.mod_add.
    + intros L1 L2. destruct B as [B|B]; destruct (N.eq_dec k 0) as [->|NK]; try lia; exfalso; nia.
  - destruct (nstep_inv a be s0 x HI) as (s1 & E1 & HI1). destruct (IH s1 HI1) as (s & E & R).
    exists s. split; auto. cbn [trun]. rewrite E1. exact E.
Qed.

(** Non-vacuity: two threads, a reservation that has to wait and is admitted after a release. *)
Example throttle_wait_and_admit : exists s0 s,
  thr_init 2 10 16 = Ok s0 /\
  let l := ([ (0, CDec 8); (0, Go); (0, Go); (0, Go); (0, Go); (0, Go)
           ; (1, CDec 5); (1, Go); (1, Go); (1, Go)
           ; (0, CInc 8); (0, Go); (0, Go); (0, Go); (0, Go); (0, Go)
           ; (1, Go); (1, Go); (1, Go); (1, Go); (1, Go); (1, Go); (1, Go) ]%nat) in
  legal true Spin s0 l /\ trun true Spin s0 l = Ok s /\ av s = 5 /\ rT s = 13 /\ lT s = 8 /\ nth_error (th s) 1 = Some TOut.
Proof.
  eexists. eexists. split; [reflexivity|]. cbv zeta. split.
  { vm_compute. repeat split; discriminate. }
  split; [vm_compute; reflexivity|]. repeat split.
Qed.
Print Assumptions throttle_never_overcommits.
Print Assumptions throttle_unenforced_exact_mod.
Print Assumptions mutex_no_lost_wakeup.
