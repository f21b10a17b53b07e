(** Reference counts under concurrency: property C49.

    Code modelled
    - [src/core/arax_object.c:145-159]  arax_object_ref_inc
    - [src/core/arax_object.c:161-209]  arax_object_ref_dec
    - [src/core/arax_object.c:211-235]  arax_object_ref_dec_pre_locked
    - [src/core/arax_object.c:248-258]  arax_object_list_lock, arax_object_list_unlock
    - [src/arch/shm/impl.c:221-303]     arax_accel_list, arax_accel_list_free (their effect on one object)
    - [src/arch/shm/impl.c:400-411], [src/core/arax_pipe.c:219-236]  arax_proc_get / arax_pipe_find_proc

    One object, any number of threads (of any processes).  One step is one access to shared memory: the assertions'
    reads, the atomic add, taking the list lock, the decrement, the second look at the counter with the removal from
    the list, the unlock (which reads obj->type again), the destructor, the release of the memory, the accounting.
    The lock is taken in one step (C09 is about the lock itself).  Touching the object after its memory was
    released is [UB].  The effects of the destructor on other objects are in [CoreModel]. *)
From Verif Require Import Base Sums.
Local Open Scope nat_scope.

(** Where a thread is in src/core/arax_object.c:145-235, impl.c:221-303, arax_pipe.c:219-236. *)
Inductive opc :=
| Out
| Inc0 | Inc1                     (* ref_inc: assertions, atomic add *)
| Dec0 | Dec1 | Dec2              (* ref_dec: assertions, lock, atomic decrement *)
| Dec3 (r : nat) | Dec4 (r : nat) (* second look and list_del (only if r = 0); unlock *)
| Dec5 | Dec6 | Dec7              (* destructor, free, accounting; only after r = 0 *)
| Lst0 | Lst1 | Lst2              (* arax_accel_list: lock; walk; unlock *)
| Drp0 | Drp1 | Drp2 | Drp3 | Drp4 (* ref_dec_pre_locked: decrement; list_del, destructor, free, accounting *)
| Get0 | Get1 | Get2 (found : bool) (* arax_pipe_find_proc: lock; walk; unlock *)
| GInc0 | GInc1.                  (* arax_proc_get: the ref_inc after the lookup *)

(** A thread: where it is, and how many references it holds. *)
(** A client thread; no code of its own. *)
Record thr := mkthr { at_ : opc; held : nat }.

(** [cnt]: obj->ref_count; [lk]: the list lock; [listed]; [dtors]: destructor calls; [freed]: memory released;
    [back]: how often the object's size was given back. *)
(** src/core/arax_object.h:27-48 for one object, and the threads. *)
Record st := mkst { cnt : Z; lk : bool; listed : bool; dtors : nat; freed : bool; back : nat; th : list thr }.

(** Calls of src/core/arax_object.c:145-235, impl.c:221-303, 400-411. *)
Inductive act :=
| CInc            (* take another reference to an object one holds *)
| CDec            (* release a reference *)
| CList           (* list the objects, taking references *)
| CDrop           (* while listing: release a reference of an earlier list *)
| CGet            (* look the object up by name and take a reference *)
| Give (j : nat)  (* hand a reference to another thread, e.g. inside a task *)
| Go.             (* continue the call in progress *)

(** A private step, no code of its own. *)
Definition goto (s : st) (i : nat) (t : thr) : st :=
  mkst (cnt s) (lk s) (listed s) (dtors s) (freed s) (back s) (upd (th s) i t).
(** Dereferencing obj (src/core/arax_object.h:40-48). *)
Definition touch (s : st) (r : outcome st) : outcome st := if freed s then UB else r.

Definition step (s : st) (a : nat * act) : outcome st :=
  let '(i, x) := a in
  match nth_error (th s) i with
  | None => Ok s
  | Some (mkthr p h) =>
    let go q := goto s i (mkthr q h) in
    match x, p with
    | CInc, Out => if h =? 0 then Ok s else Ok (go Inc0)
    | CDec, Out => match h with O => Ok s | S h' => Ok (goto s i (mkthr Dec0 h')) end
    | CList, Out => Ok (go Lst0)
    | CGet, Out => Ok (go Get0)
    | Give j, Out => match h, nth_error (th s) j with
                     | S h', Some (mkthr q g) =>
                         if i =? j then Ok s else Ok (goto (goto s i (mkthr Out h')) j (mkthr q (S g)))
                     | _, _ => Ok s
                     end
    (* arax_object.c:147-148, 156 *)
    | Go, Inc0 | Go, GInc0 => touch s (if (cnt s <? 0)%Z then Abort else Ok (go (match p with GInc0 => GInc1 | _ => Inc1 end)))
    (* 157 *)
    | Go, Inc1 | Go, GInc1 => touch s (Ok (mkst (cnt s + 1) (lk s) (listed s) (dtors s) (freed s) (back s) (upd (th s) i (mkthr Out (S h)))))
    (* 165-174 *)
    | Go, Dec0 => touch s (if (cnt s <=? 0)%Z then Abort else Ok (go Dec1))
    (* 177 *)
    | Go, Dec1 => touch s (if lk s then Ok s else
                  Ok (mkst (cnt s) true (listed s) (dtors s) (freed s) (back s) (upd (th s) i (mkthr Dec2 h))))
    (* 182 *)
    | Go, Dec2 => touch s (Ok (mkst (cnt s - 1) (lk s) (listed s) (dtors s) (freed s) (back s)
                               (upd (th s) i (mkthr (Dec3 (Z.to_nat (cnt s - 1))) h))))
    (* 184-192 *)
    | Go, Dec3 r => if r =? 0
                    then touch s (Ok (mkst (cnt s) (lk s) (if (cnt s =? 0)%Z then false else listed s) (dtors s) (freed s) (back s)
                                           (upd (th s) i (mkthr (Dec4 r) h))))
                    else Ok (go (Dec4 r))
    (* 193, 205: reads obj->type *)
    | Go, Dec4 r => touch s (Ok (mkst (cnt s) false (listed s) (dtors s) (freed s) (back s)
                                      (upd (th s) i (mkthr (if r =? 0 then Dec5 else Out) h))))
    (* 195 *)
    | Go, Dec5 => touch s (Ok (mkst (cnt s) (lk s) (listed s) (S (dtors s)) (freed s) (back s) (upd (th s) i (mkthr Dec6 h))))
    (* 197-201 *)
    | Go, Dec6 => touch s (Ok (mkst (cnt s) (lk s) (listed s) (dtors s) true (back s) (upd (th s) i (mkthr Dec7 h))))
    (* 203 *)
    | Go, Dec7 => Ok (mkst (cnt s) (lk s) (listed s) (dtors s) (freed s) (S (back s)) (upd (th s) i (mkthr Out h)))
    (* impl.c:239 *)
    | Go, Lst0 => if lk s then Ok s else Ok (mkst (cnt s) true (listed s) (dtors s) (freed s) (back s) (upd (th s) i (mkthr Lst1 h)))
    (* impl.c:242, 246-275 *)
    | CDrop, Lst1 => match h with O => Ok s | S h' => Ok (goto s i (mkthr Drp0 h')) end
    | Go, Lst1 => if listed s
                  then touch s (if (cnt s <? 0)%Z then Abort else
                                Ok (mkst (cnt s + 1) (lk s) (listed s) (dtors s) (freed s) (back s) (upd (th s) i (mkthr Lst2 (S h)))))
                  else Ok (go Lst2)
    (* impl.c:278 *)
    | Go, Lst2 => Ok (mkst (cnt s) false (listed s) (dtors s) (freed s) (back s) (upd (th s) i (mkthr Out h)))
    (* arax_object.c:213-230 *)
    | Go, Drp0 => touch s (if (cnt s - 1 <? 0)%Z then Abort else
                  Ok (mkst (cnt s - 1) (lk s) (listed s) (dtors s) (freed s) (back s)
                           (upd (th s) i (mkthr (if (cnt s - 1 =? 0)%Z then Drp1 else Lst1) h))))
    | Go, Drp1 => touch s (Ok (mkst (cnt s) (lk s) false (dtors s) (freed s) (back s) (upd (th s) i (mkthr Drp2 h))))
    | Go, Drp2 => touch s (Ok (mkst (cnt s) (lk s) (listed s) (S (dtors s)) (freed s) (back s) (upd (th s) i (mkthr Drp3 h))))
    | Go, Drp3 => touch s (Ok (mkst (cnt s) (lk s) (listed s) (dtors s) true (back s) (upd (th s) i (mkthr Drp4 h))))
    | Go, Drp4 => Ok (mkst (cnt s) (lk s) (listed s) (dtors s) (freed s) (S (back s)) (upd (th s) i (mkthr Lst1 h)))
    (* arax_pipe.c:219-236 *)
    | Go, Get0 => if lk s then Ok s else Ok (mkst (cnt s) true (listed s) (dtors s) (freed s) (back s) (upd (th s) i (mkthr Get1 h)))
    | Go, Get1 => if listed s then touch s (Ok (go (Get2 true))) else Ok (go (Get2 false))
    | Go, Get2 f => Ok (mkst (cnt s) false (listed s) (dtors s) (freed s) (back s) (upd (th s) i (mkthr (if f then GInc0 else Out) h)))
    | _, _ => Ok s
    end
  end.

(** Any interleaving, no code of its own. *)
Fixpoint run (s : st) (l : list (nat * act)) : outcome st :=
  match l with [] => Ok s | a :: r => do s' <- step s a; run s' r end.

(** A registered object: thread [i] holds [nth i hs 0] references, at least one in all. *)
(** After arax_object_register, src/core/arax_object.c:98-126. *)
Definition start (hs : list nat) : st :=
  mkst (Z.of_nat (sumf (fun h => h) hs)) false true 0 false 0 (map (mkthr Out) hs).

(** ** Specification *)
(** References not yet given up: held, or inside a release call that has not decremented yet. *)
Definition pending (t : thr) : nat := match at_ t with Dec0 | Dec1 | Dec2 | Drp0 => 1 | _ => 0 end.
Definition refs (s : st) : nat := sumf (fun t => held t + pending t) (th s).
Definition idle (s : st) : Prop := forall i t, nth_error (th s) i = Some t -> at_ t = Out.
Definition by_name (l : list (nat * act)) : Prop := exists i, In (i, CGet) l.

(** ** Invariant *)
Definition locks (t : thr) : nat :=
  match at_ t with Dec2 | Dec3 _ | Dec4 _ | Lst1 | Lst2 | Drp0 | Drp1 | Drp2 | Drp3 | Drp4 | Get1 | Get2 _ => 1 | _ => 0 end.
Definition k_unlist (t : thr) : nat := match at_ t with Dec3 0 | Drp1 => 1 | _ => 0 end.
Definition k_dtor (t : thr) : nat := match at_ t with Dec4 0 | Dec5 | Drp2 => 1 | _ => 0 end.
Definition k_free (t : thr) : nat := match at_ t with Dec6 | Drp3 => 1 | _ => 0 end.
Definition k_back (t : thr) : nat := match at_ t with Dec7 | Drp4 => 1 | _ => 0 end.
Definition inuse (p : opc) : Prop := match p with Dec3 (S _) | Dec4 (S _) => True | _ => False end.
Definition anon (p : opc) : Prop := match p with Get0 | Get1 | Get2 _ | GInc0 | GInc1 => False | _ => True end.
Definition b2n (b : bool) : nat := if b then 1 else 0.

(** [K]: lookups by name are allowed (only while some reference exists for good). *)
Record inv (K : bool) (s : st) : Prop := {
  v_cnt : cnt s = Z.of_nat (refs s);
  v_lk : b2n (lk s) = sumf locks (th s);
  v_one : (if Nat.eqb (refs s) 0 then 1 else 0) =
          sumf k_unlist (th s) + sumf k_dtor (th s) + sumf k_free (th s) + sumf k_back (th s) + back s;
  v_list : b2n (listed s) = (if Nat.eqb (refs s) 0 then 0 else 1) + sumf k_unlist (th s);
  v_dtor : dtors s = sumf k_free (th s) + sumf k_back (th s) + back s;
  v_free : b2n (freed s) = sumf k_back (th s) + back s;
  v_use : forall i t, nth_error (th s) i = Some t -> inuse (at_ t) -> refs s <> 0;
  v_inc : forall i t, nth_error (th s) i = Some t -> at_ t = Inc0 \/ at_ t = Inc1 -> held t <> 0;
  v_anon : K = false -> forall i t, nth_error (th s) i = Some t -> anon (at_ t) }.

Lemma sumf_le_at {A} (f g : A -> nat) l i t : (forall x, f x <= g x) -> nth_error l i = Some t -> sumf f l + g t <= sumf g l + f t.
Proof.
  intros LE. revert i. induction l as [|x l IH]; intros [|i] E; cbn in *; try discriminate.
  - injection E as ->. assert (forall l, sumf f l <= sumf g l) as K by (clear - LE; induction l; cbn; [lia|specialize (LE a); lia]).
    specialize (K l). lia.
  - specialize (IH _ E). specialize (LE x). lia.
Qed.

Lemma unlist_locks t : k_unlist t <= locks t.
Proof. destruct t as [[] h]; cbn; try lia; destruct r; lia. Qed.

Lemma start_inv K hs : sumf (fun h => h) hs <> 0 -> inv K (start hs).
Proof.
  intros NZ.
  assert (N : forall i t, nth_error (map (mkthr Out) hs) i = Some t -> at_ t = Out).
  { intros i t H. rewrite nth_error_map in H. destruct (nth_error hs i); [|discriminate]. now injection H as <-. }
  assert (Z0 : forall f, (forall h, f (mkthr Out h) = 0) -> sumf f (map (mkthr Out) hs) = 0).
  { intros f F. clear - F. induction hs; cbn; [reflexivity|]. now rewrite F. }
  assert (R : refs (start hs) = sumf (fun h => h) hs).
  { unfold refs, start. cbn [th]. clear. induction hs; cbn; [reflexivity|]. rewrite IHhs. lia. }
  constructor; rewrite ?R; cbn [start cnt lk listed dtors freed back th]; rewrite ?Z0 by reflexivity; auto.
  - apply Nat.eqb_neq in NZ. now rewrite NZ.
  - apply Nat.eqb_neq in NZ. now rewrite NZ.
  - intros i t H. rewrite (N i t H). intros [X|X]; discriminate.
  - intros _ i t H. rewrite (N i t H). exact I.
Qed.

(** One thread moves. *)
Lemma move_inv K s i p h p' h' c' l' ls' d' f' b' :
  inv K s -> nth_error (th s) i = Some (mkthr p h) ->
  (K = false -> anon p') -> (p' = Inc0 \/ p' = Inc1 -> h' <> 0) ->
  let t := mkthr p h in let t' := mkthr p' h' in
  let s' := mkst c' l' ls' d' f' b' (upd (th s) i t') in
  let R := refs s in let R' := refs s' in
  (R' + (h + pending t) = R + (h' + pending t') ->
   forall U D F B L, 
     U = sumf k_unlist (th s) -> D = sumf k_dtor (th s) -> F = sumf k_free (th s) -> B = sumf k_back (th s) -> L = sumf locks (th s) ->
     k_unlist t <= U -> k_dtor t <= D -> k_free t <= F -> k_back t <= B -> locks t <= L -> U + locks t <= L + k_unlist t ->
     h + pending t <= R ->
     c' = Z.of_nat R' /\ b2n l' + locks t = L + locks t' /\
     (if Nat.eqb R' 0 then 1 else 0) + (k_unlist t + k_dtor t + k_free t + k_back t) = U + D + F + B + (k_unlist t' + k_dtor t' + k_free t' + k_back t') + b' /\
     b2n ls' + k_unlist t = (if Nat.eqb R' 0 then 0 else 1) + U + k_unlist t' /\
     d' + k_free t + k_back t = F + B + k_free t' + k_back t' + b' /\
     b2n f' + k_back t = B + k_back t' + b' /\
     (inuse p' -> R' <> 0) /\ (R <> 0 -> R' = 0 -> locks t = 1)) ->
  inv K s'.
Proof.
  intros I E AN HI t t' s' R R' H.
  pose proof (sumf_upd (fun t => held t + pending t) (th s) i t' t E) as Q0.
  pose proof (sumf_upd k_unlist (th s) i t' t E) as Q1.
  pose proof (sumf_upd k_dtor (th s) i t' t E) as Q2.
  pose proof (sumf_upd k_free (th s) i t' t E) as Q3.
  pose proof (sumf_upd k_back (th s) i t' t E) as Q4.
  pose proof (sumf_upd locks (th s) i t' t E) as Q5.
  pose proof (sumf_in k_unlist (th s) i t E) as P1.
  pose proof (sumf_in k_dtor (th s) i t E) as P2.
  pose proof (sumf_in k_free (th s) i t E) as P3.
  pose proof (sumf_in k_back (th s) i t E) as P4.
  pose proof (sumf_in locks (th s) i t E) as P5.
  pose proof (sumf_le_at k_unlist locks (th s) i t unlist_locks E) as P6.
  pose proof (sumf_in (fun t => held t + pending t) (th s) i t E) as P7.
  cbn beta in Q0, P7. change (held t) with h in Q0, P7. change (held t') with h' in Q0.
  destruct (H ltac:(subst R R' s'; unfold refs; cbn [th]; lia) _ _ _ _ _ eq_refl eq_refl eq_refl eq_refl eq_refl P1 P2 P3 P4 P5 P6 P7)
    as (H1 & H2 & H3 & H4 & H5 & H6 & H7 & H8). clear H.
  destruct I as [I1 I2 I3 I4 I5 I6 I7 I8 I9].
  constructor; fold R'; subst s'; cbn [cnt lk listed dtors freed back th].
  - assumption.
  - lia.
  - lia.
  - lia.
  - lia.
  - lia.
  - intros j x N U. apply nth_upd_cases in N. destruct N as [(-> & -> & _)|(N & EJ)]; [apply H7; exact U|].
    pose proof (I7 j x EJ U) as NZ. fold R in NZ. intros Z. pose proof (H8 NZ Z) as LT.
    pose proof (sumf_two locks (th s) i j t x ltac:(congruence) E EJ) as T2.
    assert (locks x = 1). { destruct x as [[] ?]; cbn in U |- *; try contradiction; reflexivity. }
    destruct (lk s); cbn in I2; lia.
  - intros j x N U. apply nth_upd_cases in N. destruct N as [(-> & -> & _)|(N & EJ)]; [apply HI; exact U|now apply (I8 j x)].
  - intros KF j x N. apply nth_upd_cases in N. destruct N as [(-> & -> & _)|(N & EJ)]; [exact (AN KF)|now apply (I9 KF j x)].
Qed.

Ltac fin := intros; subst; cbn [k_unlist k_dtor k_free k_back locks pending held at_ inuse] in *;
  repeat match goal with
  | |- context[Nat.eqb ?a ?b] => destruct (Nat.eqb_spec a b)
  | H : context[Nat.eqb ?a ?b] |- _ => destruct (Nat.eqb_spec a b)
  end;
  repeat match goal with
  | H : context[b2n true] |- _ => change (b2n true) with 1 in H
  | H : context[b2n false] |- _ => change (b2n false) with 0 in H
  | |- context[b2n true] => change (b2n true) with 1
  | |- context[b2n false] => change (b2n false) with 0
  | H : context[b2n ?b] |- _ => destruct b
  | |- context[b2n ?b] => destruct b
  end;
  (repeat split); intros; try lia; try contradiction; try discriminate.

Ltac mv I E := eapply (move_inv _ _ _ _ _ _ _ _ _ _ _ _ _ I E); [first [intros _; exact Logic.I|intros; discriminate]|first [intros [X|X]; discriminate X|now auto]|fin].

Lemma step_inv K s i x : (K = false -> x <> CGet) -> (K = true -> refs s <> 0) -> inv K s -> exists s', step s (i, x) = Ok s' /\ inv K s'.
Proof.
  intros NG KR I. unfold step. destruct (nth_error (th s) i) as [[p h]|] eqn:E; [|eauto].
  pose proof (fun KF => v_anon K s I KF i _ E) as AN. cbn in AN.
  pose proof (v_inc K s I i _ E) as INC. cbn in INC.
  pose proof (v_use K s I i _ E) as USE. cbn [at_] in USE.
  assert (FR : (refs s <> 0 \/ k_unlist (mkthr p h) + k_dtor (mkthr p h) + k_free (mkthr p h) <> 0) -> freed s = false).
  { intros H. destruct I as [I1 I2 I3 I4 I5 I6 I7 I8 I9].
    pose proof (sumf_in k_unlist (th s) i _ E). pose proof (sumf_in k_dtor (th s) i _ E). pose proof (sumf_in k_free (th s) i _ E).
    destruct (Nat.eqb_spec (refs s) 0); destruct (freed s); cbn in *; try reflexivity; lia. }
  assert (RF : h + pending (mkthr p h) <= refs s).
  { exact (sumf_in (fun t => held t + pending t) (th s) i _ E). }
  pose proof (v_cnt K s I) as CN.
  pose proof I as J. destruct J as [I1 I2 I3 I4 I5 I6 I7 I8 I9].
  assert (TCH : forall r, (refs s <> 0 \/ k_unlist (mkthr p h) + k_dtor (mkthr p h) + k_free (mkthr p h) <> 0) -> touch s r = r).
  { intros r H. unfold touch. now rewrite (FR H). }
  destruct x; destruct p; try (eexists; split; [reflexivity|exact I]).
  - (* CInc *) destruct (Nat.eqb_spec h 0); [eauto|]. eexists. split; [reflexivity|]. mv I E.
  - (* CDec *) destruct h as [|h']; [eauto|]. eexists. split; [reflexivity|]. mv I E.
  - (* CList *) eexists. split; [reflexivity|]. mv I E.
  - (* CDrop *) destruct h as [|h']; [eauto|]. eexists. split; [reflexivity|]. mv I E.
  - (* CGet *) destruct K; [specialize (KR eq_refl)|now elim (NG eq_refl)]. eexists. split; [reflexivity|]. mv I E.
  - (* Give *) destruct h as [|h']; [eauto|]. destruct (nth_error (th s) j) as [[q g]|] eqn:EJ; [|eauto].
    destruct (Nat.eqb_spec i j) as [|NIJ]; [eauto|]. eexists. split; [reflexivity|]. unfold goto. cbn [th cnt lk listed dtors freed back].
    assert (EJ' : nth_error (upd (th s) i (mkthr Out h')) j = Some (mkthr q g)) by (rewrite nth_error_upd_ne; auto).
    assert (SM : forall f, (forall a b c, f (mkthr a b) = f (mkthr a c)) -> sumf f (upd (upd (th s) i (mkthr Out h')) j (mkthr q (S g))) = sumf f (th s)).
    { intros f F. pose proof (sumf_upd f _ j (mkthr q (S g)) _ EJ') as A1. pose proof (sumf_upd f _ i (mkthr Out h') _ E) as A2.
      rewrite (F q (S g) g) in A1. rewrite (F Out h' (S h')) in A2. lia. }
    assert (RS : refs (mkst (cnt s) (lk s) (listed s) (dtors s) (freed s) (back s) (upd (upd (th s) i (mkthr Out h')) j (mkthr q (S g)))) = refs s).
    { unfold refs. cbn [th].
      pose proof (sumf_upd (fun t => held t + pending t) _ j (mkthr q (S g)) _ EJ') as A1.
      pose proof (sumf_upd (fun t => held t + pending t) _ i (mkthr Out h') _ E) as A2. cbn [held] in A1, A2.
      unfold pending in A1, A2. cbn [at_] in A1, A2. unfold pending. lia. }
    assert (TH : forall k t, nth_error (upd (upd (th s) i (mkthr Out h')) j (mkthr q (S g))) k = Some t ->
       exists t0, nth_error (th s) k = Some t0 /\ at_ t0 = at_ t /\ (at_ t = Out \/ held t0 <= held t)).
    { intros k t KK. apply nth_upd_cases in KK. destruct KK as [(-> & -> & _)|(N & KK)].
      - exists (mkthr q g). cbn. auto.
      - apply nth_upd_cases in KK. destruct KK as [(-> & -> & _)|(N' & KK)]; [exists (mkthr Out (S h')); cbn; auto|exists t; auto]. }
    constructor; cbn [cnt lk listed dtors freed back th]; rewrite ?RS, ?SM by reflexivity; auto.
    + intros k t KK U. destruct (TH k t KK) as (t0 & K0 & A0 & _). rewrite <- A0 in U. eauto.
    + intros k t KK U. destruct (TH k t KK) as (t0 & K0 & A0 & [B0|B0]).
      * rewrite B0 in U. destruct U; discriminate.
      * rewrite <- A0 in U. pose proof (I8 k t0 K0 U). lia.
    + intros KF k t KK. destruct (TH k t KK) as (t0 & K0 & A0 & _). rewrite <- A0. eauto.
  - (* Inc0 *) rewrite TCH by (left; cbn in RF; specialize (INC (or_introl eq_refl)); lia).
    replace (cnt s <? 0)%Z with false by (symmetry; apply Z.ltb_ge; lia).
    eexists. split; [reflexivity|]. mv I E.
  - (* Inc1 *) rewrite TCH by (left; cbn in RF; specialize (INC (or_intror eq_refl)); lia).
    eexists. split; [reflexivity|]. specialize (INC (or_intror eq_refl)). cbn in RF. mv I E.
  - (* Dec0 *) cbn in RF. rewrite TCH by (left; lia).
    replace (cnt s <=? 0)%Z with false by (symmetry; apply Z.leb_gt; lia).
    eexists. split; [reflexivity|]. mv I E.
  - (* Dec1 *) cbn in RF. rewrite TCH by (left; lia). destruct (lk s) eqn:LK; [eauto|].
    eexists. split; [reflexivity|]. mv I E.
  - (* Dec2 *) cbn in RF. rewrite TCH by (left; lia).
    eexists. split; [reflexivity|]. replace (Z.to_nat (cnt s - 1)) with (refs s - 1) by lia.
    destruct (refs s - 1) as [|r] eqn:RR.
    + mv I E.
    + mv I E.
  - (* Dec3 *) destruct r as [|r]; cbn [Nat.eqb].
    + rewrite TCH by (right; cbn; lia).
      assert (RZ : refs s = 0).
      { pose proof (sumf_in k_unlist (th s) i _ E) as KU. cbn in KU. destruct (Nat.eqb_spec (refs s) 0); [assumption|lia]. }
      rewrite CN, RZ. cbn [Z.of_nat Z.eqb]. eexists. split; [reflexivity|]. rewrite RZ in CN. mv I E.
    + eexists. split; [reflexivity|]. specialize (USE Logic.I). mv I E.
  - (* Dec4 *) destruct r as [|r]; cbn [Nat.eqb].
    + rewrite TCH by (right; cbn; lia). eexists. split; [reflexivity|]. mv I E.
    + specialize (USE Logic.I). rewrite TCH by (left; assumption). eexists. split; [reflexivity|]. mv I E.
  - (* Dec5 *) rewrite TCH by (right; cbn; lia). eexists. split; [reflexivity|]. mv I E.
  - (* Dec6 *) rewrite TCH by (right; cbn; lia). eexists. split; [reflexivity|]. mv I E.
  - (* Dec7 *) eexists. split; [reflexivity|]. mv I E.
  - (* Lst0 *) destruct (lk s) eqn:LK; [eauto|]. eexists. split; [reflexivity|]. mv I E.
  - (* Lst1 *) pose proof (sumf_le_at k_unlist locks (th s) i _ unlist_locks E) as KU. cbn in KU.
    destruct (listed s) eqn:LS.
    + assert (RZ : refs s <> 0). { destruct (Nat.eqb_spec (refs s) 0); [|assumption]. destruct (lk s); cbn in *; lia. }
      rewrite TCH by (left; assumption). replace (cnt s <? 0)%Z with false by (symmetry; apply Z.ltb_ge; lia).
      eexists. split; [reflexivity|]. mv I E.
    + eexists. split; [reflexivity|]. mv I E.
  - (* Lst2 *) eexists. split; [reflexivity|]. mv I E.
  - (* Drp0 *) cbn in RF. rewrite TCH by (left; lia). replace (cnt s - 1 <? 0)%Z with false by (symmetry; apply Z.ltb_ge; lia).
    eexists. split; [reflexivity|]. destruct (Z.eqb_spec (cnt s - 1) 0).
    + mv I E.
    + mv I E.
  - (* Drp1 *) rewrite TCH by (right; cbn; lia). eexists. split; [reflexivity|]. mv I E.
  - (* Drp2 *) rewrite TCH by (right; cbn; lia). eexists. split; [reflexivity|]. mv I E.
  - (* Drp3 *) rewrite TCH by (right; cbn; lia). eexists. split; [reflexivity|]. mv I E.
  - (* Drp4 *) eexists. split; [reflexivity|]. mv I E.
  - (* Get0 *) destruct K; [specialize (KR eq_refl)|now elim (AN eq_refl)].
    destruct (lk s) eqn:LK; [eauto|]. eexists. split; [reflexivity|]. mv I E.
  - (* Get1 *) destruct K; [specialize (KR eq_refl)|now elim (AN eq_refl)].
    destruct (listed s) eqn:LS; [rewrite TCH by (left; assumption)|]; eexists; (split; [reflexivity|]); mv I E.
  - (* Get2 *) destruct K; [specialize (KR eq_refl)|now elim (AN eq_refl)].
    destruct found; eexists; (split; [reflexivity|]); mv I E.
  - (* GInc0 *) destruct K; [specialize (KR eq_refl)|now elim (AN eq_refl)].
    rewrite TCH by (left; assumption). replace (cnt s <? 0)%Z with false by (symmetry; apply Z.ltb_ge; lia).
    eexists. split; [reflexivity|]. mv I E.
  - (* GInc1 *) destruct K; [specialize (KR eq_refl)|now elim (AN eq_refl)].
    rewrite TCH by (left; assumption). eexists. split; [reflexivity|]. mv I E.
Qed.

Lemma run_inv l : forall s, (forall i, ~ In (i, CGet) l) -> inv false s -> exists s', run s l = Ok s' /\ inv false s'.
Proof.
  induction l as [|[i x] l IH]; intros s NG I; cbn [run]; [eauto|].
  destruct (step_inv false s i x) as (s1 & E1 & I1); [intros _ ->; apply (NG i); now left|discriminate|assumption|].
  rewrite E1. cbn [bind]. apply IH; [|assumption]. intros j H. apply (NG j). now right.
Qed.

(** Thread [k] never gives its reference up. *)
Definition keeps (k : nat) (l : list (nat * act)) : Prop :=
  ~ In (k, CDec) l /\ ~ In (k, CDrop) l /\ forall j, ~ In (k, Give j) l.

Definition has (s : st) (k : nat) : Prop := exists t, nth_error (th s) k = Some t /\ held t <> 0.

Lemma has_refs s k : has s k -> refs s <> 0.
Proof. intros (t & E & H). pose proof (sumf_in (fun t => held t + pending t) (th s) k t E) as Q. unfold refs. cbn in Q. lia. Qed.

Lemma step_has s i x k s' : (i = k -> x <> CDec /\ x <> CDrop /\ forall j, x <> Give j) -> step s (i, x) = Ok s' -> has s k -> has s' k.
Proof.
  intros NK R (t & E & H). unfold step in R. destruct (nth_error (th s) i) as [[p h]|] eqn:EI; [|injection R as <-; exists t; auto].
  assert (G : forall c l ls d f b p' h', (i = k -> h <= h') -> has (mkst c l ls d f b (upd (th s) i (mkthr p' h'))) k).
  { intros. unfold has. cbn [th]. destruct (Nat.eq_dec i k) as [->|N].
    - rewrite nth_error_upd_eq by (eapply nth_error_lt; eassumption). eexists. split; [reflexivity|]. cbn.
      rewrite EI in E. injection E as <-. cbn in H. specialize (H0 eq_refl). lia.
    - rewrite nth_error_upd_ne by congruence. eauto. }
  assert (G0 : has s k) by (exists t; auto).
  unfold touch, goto in R.
  destruct x, p; 
    try (repeat match type of R with
    | context[if ?b then _ else _] => destruct b
    | context[match h with O => _ | S _ => _ end] => destruct h as [|h']
    end; try discriminate; injection R as <-;
    first [exact G0|apply G; intros; first [lia|subst; exfalso; destruct (NK eq_refl) as (A & B & C); congruence]]).
  destruct h as [|h']; [injection R as <-; exact G0|].
  destruct (nth_error (th s) j) as [[q g]|] eqn:EJ; [|injection R as <-; exact G0].
  destruct (Nat.eqb_spec i j); [injection R as <-; exact G0|]. injection R as <-. unfold has. cbn [th].
  destruct (Nat.eq_dec i k) as [->|N]; [destruct (NK eq_refl) as (_ & _ & C); now elim (C j)|].
  assert (J : j < length (upd (th s) i (mkthr Out h'))) by (rewrite upd_length; eapply nth_error_lt; eassumption).
  destruct (Nat.eq_dec j k) as [->|N'].
  - rewrite nth_error_upd_eq by exact J. eexists. split; [reflexivity|]. cbn. lia.
  - rewrite nth_error_upd_ne by congruence. rewrite nth_error_upd_ne by congruence. eauto.
Qed.

Lemma keeps_cons k a l : keeps k (a :: l) -> keeps k l.
Proof. intros (A & B & C). repeat split; intros; intro; [apply A|apply B|apply (C j)]; now right. Qed.

Lemma run_inv_kept k l : forall s, keeps k l -> has s k -> inv true s -> exists s', run s l = Ok s' /\ inv true s' /\ has s' k.
Proof.
  induction l as [|[i x] l IH]; intros s KP HS I; cbn [run]; [eauto|].
  destruct (step_inv true s i x) as (s1 & E1 & I1); [discriminate|intros _; eapply has_refs; eassumption|assumption|].
  rewrite E1. cbn [bind]. apply IH; [eapply keeps_cons; eassumption| |assumption].
  refine (step_has s i x k s1 _ E1 HS). intros ->. destruct KP as (A & B & C).
  repeat split; intros; intros ->; [apply A|apply B|apply (C j)]; now left.
Qed.

(** ** C49 *)

(** Any number of threads that take references only to what they hold or to what they see on the locked list, and
    release only what they hold, in any interleaving: no call touches released memory or fails an assertion (the
    run is [Ok]); the counter is the number of references; while there is one the object is listed, not
    destroyed and not released; there is never a second destructor call, release or accounting. *)
Theorem C49_safe_partial : forall hs l, sumf (fun h => h) hs <> 0 -> ~ by_name l ->
  exists s, run (start hs) l = Ok s /\ cnt s = Z.of_nat (refs s) /\
    (refs s <> 0 -> listed s = true /\ dtors s = 0 /\ freed s = false /\ back s = 0) /\
    dtors s <= 1 /\ back s <= 1 /\ (freed s = true -> dtors s = 1 /\ listed s = false).
Proof.
  intros hs l NZ NB. destruct (run_inv l (start hs)) as (s & E & I); [intros i H; apply NB; exists i; exact H|now apply start_inv|].
  exists s. split; [assumption|]. destruct I as [I1 I2 I3 I4 I5 I6 _ _ _]. split; [assumption|].
  destruct (Nat.eqb_spec (refs s) 0).
  - split; [contradiction|]. destruct (listed s), (freed s); cbn in *; repeat split; intros; try discriminate; lia.
  - destruct (listed s), (freed s); cbn in *; repeat split; intros; try discriminate; lia.
Qed.

(** When every call has returned and no reference is held, the object has been destroyed, exactly once: it is off
    the list, its destructor ran once, its memory was released and its size given back once. *)
Theorem C49_destroyed_partial : forall hs l s, sumf (fun h => h) hs <> 0 -> ~ by_name l -> run (start hs) l = Ok s ->
  idle s -> refs s = 0 -> listed s = false /\ dtors s = 1 /\ freed s = true /\ back s = 1.
Proof.
  intros hs l s NZ NB R ID RZ. destruct (run_inv l (start hs)) as (s' & E & I); [intros i H; apply NB; exists i; exact H|now apply start_inv|].
  rewrite R in E. injection E as <-. destruct I as [I1 I2 I3 I4 I5 I6 _ _ _]. rewrite RZ in *. cbn in I3, I4.
  assert (Z0 : forall f, (forall h, f (mkthr Out h) = 0) -> sumf f (th s) = 0).
  { intros f F. apply sumf_zero. intros i [p h] H. specialize (ID i _ H). cbn in ID. now subst. }
  rewrite !Z0 in * by reflexivity. destruct (listed s), (freed s); cbn in *; repeat split; try reflexivity; lia.
Qed.

(** An object seen on the list by a thread that holds the list lock is alive: its memory has not been released. *)
Theorem C49_listed_alive_partial : forall hs l s, sumf (fun h => h) hs <> 0 -> ~ by_name l -> run (start hs) l = Ok s ->
  listed s = true -> freed s = false /\ dtors s = 0.
Proof.
  intros hs l s NZ NB R LS. destruct (C49_safe_partial hs l NZ NB) as (s' & E & _). rewrite R in E. injection E as <-.
  destruct (run_inv l (start hs)) as (s' & E & I); [intros i H; apply NB; exists i; exact H|now apply start_inv|].
  rewrite R in E. injection E as <-. destruct I as [I1 I2 I3 I4 I5 I6 _ _ _]. rewrite LS in I4. cbn in I4.
  destruct (Nat.eqb_spec (refs s) 0); destruct (freed s); cbn in *; split; try reflexivity; lia.
Qed.

(** Looking objects up by name is safe as long as some thread keeps a reference for good: whatever the others do. *)
Theorem C49_kept_safe_partial : forall hs l k, nth k hs 0 <> 0 -> keeps k l ->
  exists s, run (start hs) l = Ok s /\ cnt s = Z.of_nat (refs s) /\ refs s <> 0 /\
            listed s = true /\ dtors s = 0 /\ freed s = false /\ back s = 0.
Proof.
  intros hs l k NK KP.
  assert (EK : nth_error hs k = Some (nth k hs 0)).
  { destruct (nth_error hs k) eqn:E; [now rewrite (nth_error_nth _ _ 0 E)|].
    apply nth_error_None in E. rewrite nth_overflow in NK by assumption. contradiction. }
  assert (NZ : sumf (fun h => h) hs <> 0).
  { pose proof (sumf_in (fun h => h) hs k _ EK). cbn in H. lia. }
  destruct (run_inv_kept k l (start hs)) as (s & E & I & HS); [assumption| |now apply start_inv|].
  - exists (mkthr Out (nth k hs 0)). split; [|assumption]. unfold start. cbn [th]. rewrite nth_error_map, EK. reflexivity.
  - exists s. split; [assumption|]. pose proof (has_refs s k HS) as RZ. destruct I as [I1 I2 I3 I4 I5 I6 _ _ _].
    destruct (Nat.eqb_spec (refs s) 0); [contradiction|]. 
    destruct (listed s), (freed s); cbn in *; repeat split; try assumption; try reflexivity; lia.
Qed.

(** A case: two threads, each with a reference; a third lists the objects while both release theirs; the object
    lives until the list is released. *)
Example C49_example :
  let g i n := repeat (i, Go) n in
  exists s, run (start [1; 1; 0]) ((0, CDec) :: g 0 5 ++ (2, CList) :: (1, CDec) :: g 2 2 ++ g 1 2 ++ g 2 1 ++ g 1 5) = Ok s /\
    map held (th s) = [0; 0; 1] /\ listed s = true /\ dtors s = 0 /\ freed s = false /\
  exists s', run s ((2, CDec) :: g 2 8) = Ok s' /\ listed s' = false /\ dtors s' = 1 /\ freed s' = true /\ back s' = 1.
Proof. vm_compute. eexists. repeat split. eexists. repeat split. Qed.

(** ** Where it fails: arax_proc_get looks the name up, unlocks, and only then takes the reference *)

(** The last reference is released between the lookup and the increment: the increment writes to released memory. *)
Theorem C49_refuted_get_after_free :
  let g i n := repeat (i, Go) n in
  let l := (1, CGet) :: g 1 3 ++ (0, CDec) :: g 0 7 in
  (exists s, run (start [1; 0]) l = Ok s /\ freed s = true /\ at_ (nth 1 (th s) (mkthr Out 0)) = GInc0) /\
  run (start [1; 0]) (l ++ [(1, Go)]) = UB.
Proof. vm_compute. split; [eexists; repeat split|reflexivity]. Qed.

(** ... or the increment comes between the releasing thread's decrement and its second look at the counter: the
    caller of arax_proc_get gets its reference, yet the object is destroyed and released under it, and the released
    object stays on the list: the next one to walk the list reads released memory too. *)
Theorem C49_refuted_get_resurrects :
  let g i n := repeat (i, Go) n in
  let l := (1, CGet) :: g 1 4 ++ (0, CDec) :: g 0 3 ++ g 1 1 ++ g 0 5 in
  (exists s, run (start [1; 0]) l = Ok s /\ idle s /\ map held (th s) = [0; 1] /\ cnt s = 1%Z /\
             freed s = true /\ listed s = true) /\
  run (start [1; 0]) (l ++ (1, CInc) :: g 1 1) = UB /\
  run (start [1; 0]) (l ++ (0, CList) :: g 0 2) = UB.
Proof.
  vm_compute. split; [|split; reflexivity]. eexists. split; [reflexivity|]. split; [|repeat split].
  intros [|[|[|i]]] t H; cbn in H; try discriminate; now injection H as <-.
Qed.
