(** Expanding "~" in a configuration path: property C47.

    Code modelled
    - [src/utils/config.c:94-126]  utils_config_alloc_path

    Strings are lists of character codes without the terminator (no code 0).
    The local array [temp] is modelled cell by cell; a write outside it is an
    outcome of its own. *)
From Coq Require Import List Arith Lia Bool NArith.
Import ListNotations.

Arguments Nat.sub : simpl never.
Arguments Nat.leb : simpl never.

(** sizeof(temp) [src/utils/config.c:96]; the development is for any size. *)
Definition TEMP_SIZE : nat := 4096.

(** How src/utils/config.c:94-126 ends. *)
Inductive result :=
| Path (s : list N)          (* a fresh string *)
| Null                       (* returned 0 *)
| Abort                      (* arax_assert failed *)
| OutOfBounds.               (* wrote outside temp *)

(** Cell [i] of an array. *)
(** temp[i], src/utils/config.c:94-126. *)
Definition cell (a : list N) (i : nat) : option N := nth_error a i.

(** Write cell [i]; [None]: outside. *)
(** temp[i] = c, src/utils/config.c:94-126. *)
Fixpoint put (a : list N) (i : nat) (c : N) : option (list N) :=
  match a, i with
  | [], _ => None
  | _ :: a', O => Some (c :: a')
  | x :: a', S i' => option_map (cons x) (put a' i' c)
  end.

(** Write a string starting at cell [i]. *)
(** Part of strncat, src/utils/config.c:94-126. *)
Fixpoint puts (a : list N) (i : nat) (s : list N) : option (list N) :=
  match s with
  | [] => Some a
  | c :: s' => match put a i c with Some a' => puts a' (S i) s' | None => None end
  end.

(** The first 0 at or after [i]: where strncat appends. *)
(** C library, part of strncat at src/utils/config.c:94-126. *)
Fixpoint end_from (fuel : nat) (a : list N) (i : nat) : option nat :=
  match fuel with
  | O => None
  | S f => match cell a i with Some c => if N.eqb c 0 then Some i else end_from f a (S i) | None => None end
  end.

(** strncat(a + i, s, n). *)
(** C library, used at src/utils/config.c:94-126. *)
Definition strncat (a : list N) (i : nat) (s : list N) (n : nat) : option (list N) :=
  match end_from (length a) a i with
  | None => None
  | Some e => puts a e (firstn n s ++ [0%N])
  end.

(** strlen + copy of [temp]; reading past the end would be out of bounds. *)
(** C library, strlen and copy at src/utils/config.c:118-126. *)
Fixpoint cstr (a : list N) : option (list N) :=
  match a with
  | [] => None
  | c :: a' => if N.eqb c 0 then Some [] else option_map (cons c) (cstr a')
  end.

(** The loop [src/utils/config.c:104-121]; [path] includes the terminator. *)
Fixpoint loop (home : list N) (path : list N) (temp : list N) (tp size : nat) : result :=
  match path with
  | [] => match cstr temp with Some s => Path s | None => OutOfBounds end
  | c :: path' =>
      if size =? 0 then Null
      else if N.eqb c 126 then
        (* size - home_len <= sizeof(temp), in size_t: fails exactly when it wraps *)
        if length home <=? size then
          match strncat temp tp home size with
          | None => OutOfBounds
          | Some temp' => loop home path' temp' (tp + length home) (size - length home)
          end
        else Abort
      else match put temp tp c with
           | None => OutOfBounds
           | Some temp' => loop home path' temp' (S tp) (size - 1)
           end
  end.

(** src/utils/config.c:94-126, for an array of any size. *)
Definition alloc_path_of (CAP : nat) (home : list N) (path : option (list N)) : result :=
  match path with
  | None => Null
  | Some p => loop home (p ++ [0%N]) (repeat 0%N CAP) 0 CAP
  end.

(** src/utils/config.c:94-126. *)
Definition alloc_path : list N -> option (list N) -> result := alloc_path_of TEMP_SIZE.

(* ------------------------------------------------------------------ *)
(** ** Specification *)

Definition expand (home p : list N) : list N := flat_map (fun c => if N.eqb c 126 then home else [c]) p.

Section Cap.
Variable CAP : nat.
Hypothesis CAP_pos : 0 < CAP.

(** Some "~" is expanded exactly up to the end of the array. *)
Definition exact_fill (home p : list N) : Prop :=
  exists p1 p2, p = p1 ++ 126%N :: p2 /\ length (expand home (p1 ++ [126%N])) = CAP /\ length (expand home p1) < CAP.

(** Some "~" does not fit in what is left. *)
Definition overflow (home p : list N) : Prop :=
  exists p1 p2, p = p1 ++ 126%N :: p2 /\ CAP < length (expand home (p1 ++ [126%N])) /\ length (expand home p1) < CAP.

(* ------------------------------------------------------------------ *)

Definition filled (out : list N) : list N := out ++ repeat 0%N (CAP - length out).

Lemma put_app : forall out c d r, put (out ++ d :: r) (length out) c = Some (out ++ c :: r).
Proof using CAP CAP_pos. induction out as [|x out IH]; intros; cbn; [reflexivity|]. now rewrite IH. Qed.

Lemma repeat_S : forall n, 0 < n -> repeat 0%N n = 0%N :: repeat 0%N (n - 1).
Proof using CAP CAP_pos. intros [|n] H; [lia|]. cbn. f_equal. f_equal. lia. Qed.

Lemma filled_length : forall out, length out <= CAP -> length (filled out) = CAP.
Proof using CAP CAP_pos. intros. unfold filled. rewrite app_length, repeat_length. lia. Qed.

Lemma put_filled : forall out c, length out < CAP -> put (filled out) (length out) c = Some (filled (out ++ [c])).
Proof using CAP CAP_pos.
  intros out c L. unfold filled. rewrite repeat_S by lia. rewrite put_app. f_equal.
  rewrite <- app_assoc. cbn [app]. do 2 f_equal. f_equal. rewrite app_length. cbn. lia.
Qed.

Lemma put_outside : forall a i c, length a <= i -> put a i c = None.
Proof using CAP CAP_pos. induction a as [|x a IH]; intros [|i] c L; cbn in *; try reflexivity; try lia. now rewrite IH by lia. Qed.

Lemma puts_filled : forall s out, length out + length s <= CAP ->
  puts (filled out) (length out) s = Some (filled (out ++ s)).
Proof using CAP CAP_pos.
  induction s as [|c s IH]; intros out L; cbn [puts].
  - now rewrite app_nil_r.
  - cbn in L. rewrite put_filled by lia. replace (S (length out)) with (length (out ++ [c])) by (rewrite app_length; cbn; lia).
    rewrite IH by (rewrite app_length; cbn; lia). now rewrite <- app_assoc.
Qed.

Lemma puts_over : forall s out, length out <= CAP -> CAP < length out + length s -> puts (filled out) (length out) s = None.
Proof using CAP CAP_pos.
  induction s as [|c s IH]; intros out L O; cbn [puts]; [cbn in O; lia|].
  destruct (Nat.eq_dec (length out) CAP) as [E|NE].
  - rewrite put_outside; [reflexivity|]. rewrite filled_length by assumption. lia.
  - rewrite put_filled by lia. replace (S (length out)) with (length (out ++ [c])) by (rewrite app_length; cbn; lia).
    apply IH; rewrite app_length; cbn in *; lia.
Qed.

Lemma end_filled : forall out, length out < CAP -> end_from (length (filled out)) (filled out) (length out) = Some (length out).
Proof using CAP CAP_pos.
  intros out L. rewrite filled_length by lia.
  assert (C : cell (filled out) (length out) = Some 0%N).
  { unfold cell, filled. rewrite nth_error_app2 by lia. rewrite Nat.sub_diag, repeat_S by lia. reflexivity. }
  assert (E : exists f, CAP = S f) by (exists (CAP - 1); lia). destruct E as [f E]. rewrite E at 1.
  cbn [end_from]. rewrite C. reflexivity.
Qed.

(** Writing a final 0 changes nothing: the array is zeroed. *)
Lemma filled_zero : forall out, length out < CAP -> filled (out ++ [0%N]) = filled out.
Proof using CAP CAP_pos.
  intros out L. unfold filled. rewrite (repeat_S (CAP - length out)) by lia. rewrite <- app_assoc, app_length.
  cbn [app length]. do 2 f_equal. f_equal. lia.
Qed.

Lemma strncat_filled : forall out s n, length out < CAP -> n = CAP - length out -> length s <= n ->
  strncat (filled out) (length out) s n = if length s =? n then None else Some (filled (out ++ s)).
Proof using CAP CAP_pos.
  intros out s n L EN LS. unfold strncat. rewrite end_filled by assumption. rewrite firstn_all2 by assumption.
  destruct (Nat.eqb_spec (length s) n) as [E|NE].
  - apply puts_over; [lia|]. rewrite app_length. cbn. lia.
  - rewrite puts_filled by (rewrite app_length; cbn; lia). f_equal. rewrite app_assoc. apply filled_zero.
    rewrite app_length. lia.
Qed.

Lemma cstr_filled : forall out, length out < CAP -> Forall (fun c => c <> 0%N) out -> cstr (filled out) = Some out.
Proof using CAP CAP_pos.
  intros out L F. unfold filled. rewrite repeat_S by lia. clear L. induction F as [|c out NC F IH]; [reflexivity|].
  cbn. apply N.eqb_neq in NC. rewrite NC. cbn [length app] in IH |- *.
  match type of IH with cstr (_ ++ _ :: ?r) = _ => generalize dependent r end. intros r IH.
  assert (G : forall out r, Forall (fun c => c <> 0%N) out -> cstr (out ++ 0%N :: r) = Some out).
  { clear. induction out as [|c out IH]; intros r F; [reflexivity|]. inversion F; subst. cbn.
    apply N.eqb_neq in H1. rewrite H1, IH; auto. }
  now rewrite G.
Qed.

Lemma expand_app : forall home a b, expand home (a ++ b) = expand home a ++ expand home b.
Proof using CAP CAP_pos. intros. apply flat_map_app. Qed.

Lemma expand_nz : forall home p, Forall (fun c => c <> 0%N) home -> Forall (fun c => c <> 0%N) p ->
  Forall (fun c => c <> 0%N) (expand home p).
Proof using CAP CAP_pos.
  intros home p H F. induction F as [|c p NC F IH]; cbn; [constructor|]. apply Forall_app. split; [|assumption].
  destruct (N.eqb c 126); [assumption|]. constructor; [assumption|constructor].
Qed.

(** The loop, having done [p1] with [p2] to go. *)
Lemma loop_spec : forall home p2 p1, Forall (fun c => c <> 0%N) home -> Forall (fun c => c <> 0%N) (p1 ++ p2) ->
  length (expand home p1) <= CAP ->
  (forall q1 q2, p1 = q1 ++ 126%N :: q2 -> length (expand home (q1 ++ [126%N])) < CAP) ->
  let r := loop home (p2 ++ [0%N]) (filled (expand home p1)) (length (expand home p1)) (CAP - length (expand home p1)) in
  (length (expand home (p1 ++ p2)) < CAP /\ r = Path (expand home (p1 ++ p2))) \/
  (r = Null /\ CAP <= length (expand home (p1 ++ p2))) \/
  (r = Abort /\ overflow home (p1 ++ p2)) \/
  (r = OutOfBounds /\ exact_fill home (p1 ++ p2)).
Proof using CAP CAP_pos.
  intros home. induction p2 as [|c p2 IH]; intros p1 NH NP L PF; cbn [app loop].
  - rewrite app_nil_r in *. destruct (Nat.eqb_spec (CAP - length (expand home p1)) 0) as [E|NE].
    + right. left. split; [reflexivity|lia].
    + left. split; [lia|]. change (N.eqb 0 126) with false. cbv iota. rewrite put_filled by lia.
      cbn [loop]. rewrite filled_zero by lia. rewrite cstr_filled; [reflexivity|lia|]. apply expand_nz; assumption.
  - destruct (Nat.eqb_spec (CAP - length (expand home p1)) 0) as [E|NE].
    { right. left. split; [reflexivity|]. rewrite expand_app, app_length. lia. }
    assert (SH : p1 ++ c :: p2 = (p1 ++ [c]) ++ p2) by (rewrite <- app_assoc; reflexivity).
    destruct (N.eqb_spec c 126) as [->|N126].
    + assert (EX : expand home (p1 ++ [126%N]) = expand home p1 ++ home).
      { rewrite expand_app. cbn. now rewrite app_nil_r. }
      destruct (Nat.leb_spec (length home) (CAP - length (expand home p1))) as [LH|GH].
      * rewrite strncat_filled by (auto; lia). destruct (Nat.eqb_spec (length home) (CAP - length (expand home p1))) as [EQ|NQ].
        -- right. right. right. split; [reflexivity|]. exists p1, p2. split; [reflexivity|]. rewrite EX, app_length. lia.
        -- rewrite <- EX. replace (length (expand home p1) + length home) with (length (expand home (p1 ++ [126%N])))
             by (rewrite EX, app_length; reflexivity).
           replace (CAP - length (expand home p1) - length home) with (CAP - length (expand home (p1 ++ [126%N])))
             by (rewrite EX, app_length; lia).
           rewrite SH. apply IH; auto; [now rewrite <- SH|rewrite EX, app_length; lia|].
           intros q1 q2 E. destruct q2 as [|z q2 _] using rev_ind.
           ++ apply app_inj_tail in E. destruct E as [<- _]. rewrite EX, app_length. lia.
           ++ rewrite app_comm_cons, app_assoc in E. apply app_inj_tail in E. destruct E as [E _]. eauto.
      * right. right. left. split; [reflexivity|]. exists p1, p2. split; [reflexivity|]. rewrite EX, app_length. lia.
    + assert (EX : expand home (p1 ++ [c]) = expand home p1 ++ [c]).
      { rewrite expand_app. cbn. apply N.eqb_neq in N126. now rewrite N126. }
      rewrite put_filled by lia. rewrite <- EX.
      replace (S (length (expand home p1))) with (length (expand home (p1 ++ [c]))) by (rewrite EX, app_length; cbn; lia).
      replace (CAP - length (expand home p1) - 1) with (CAP - length (expand home (p1 ++ [c]))) by (rewrite EX, app_length; cbn; lia).
      rewrite SH. apply IH; auto; [now rewrite <- SH|rewrite EX, app_length; cbn; lia|].
      intros q1 q2 E. destruct q2 as [|z q2 _] using rev_ind.
      * apply app_inj_tail in E. destruct E as [_ E]. congruence.
      * rewrite app_comm_cons, app_assoc in E. apply app_inj_tail in E. destruct E as [E _]. eauto.
Qed.

Lemma prefix_shorter : forall home p1 p2, length (expand home p1) <= length (expand home (p1 ++ p2)).
Proof using CAP CAP_pos. intros. rewrite expand_app, app_length. lia. Qed.

Lemma alloc_path_gen : forall home p, Forall (fun c => c <> 0%N) home -> Forall (fun c => c <> 0%N) p ->
  (length (expand home p) < CAP -> alloc_path_of CAP home (Some p) = Path (expand home p)) /\
  (CAP <= length (expand home p) -> ~ exact_fill home p -> alloc_path_of CAP home (Some p) = Null \/ alloc_path_of CAP home (Some p) = Abort).
Proof using CAP CAP_pos.
  intros home p NH NP. pose proof (loop_spec home p [] NH NP ltac:(cbn; lia)) as S.
  change (expand home []) with (@nil N) in S. cbn [app length] in S. specialize (S ltac:(intros [|? ?] ?; discriminate)).
  assert (F0 : filled [] = repeat 0%N CAP) by (unfold filled; cbn [app length]; now rewrite Nat.sub_0_r).
  rewrite F0, Nat.sub_0_r in S. unfold alloc_path_of.
  split.
  - intros L. destruct S as [(_ & ->)|[(_ & G)|[(_ & p1 & p2 & E & G & _)|(_ & p1 & p2 & E & G & _)]]]; [reflexivity|lia| |].
    + exfalso. subst p. change (126%N :: p2) with ([126%N] ++ p2) in L. rewrite app_assoc in L.
      pose proof (prefix_shorter home (p1 ++ [126%N]) p2). lia.
    + exfalso. subst p. change (126%N :: p2) with ([126%N] ++ p2) in L. rewrite app_assoc in L.
      pose proof (prefix_shorter home (p1 ++ [126%N]) p2). lia.
  - intros G NX. destruct S as [(L & _)|[(-> & _)|[(-> & _)|(_ & X)]]]; [lia|auto|auto|contradiction].
Qed.

Lemma exact_fill_gen : forall home p1 p2, Forall (fun c => c <> 0%N) home -> Forall (fun c => c <> 0%N) (p1 ++ 126%N :: p2) ->
  length (expand home (p1 ++ [126%N])) = CAP -> length (expand home p1) < CAP ->
  alloc_path_of CAP home (Some (p1 ++ 126%N :: p2)) = OutOfBounds.
Proof using CAP CAP_pos.
  intros home p1 p2 NH NP E L.
  assert (G : forall q1 q2, p1 ++ 126%N :: p2 = q1 ++ q2 -> length (expand home q1) < CAP ->
     (exists k, p1 = q1 ++ k) ->
     loop home (q2 ++ [0%N]) (filled (expand home q1)) (length (expand home q1)) (CAP - length (expand home q1)) = OutOfBounds).
  { intros q1 q2. revert q1. induction q2 as [|c q2 IH]; intros q1 EQ LQ [k K].
    - exfalso. rewrite app_nil_r in EQ. subst p1.
      apply (f_equal (@length N)) in EQ. rewrite app_length in EQ. cbn in EQ. rewrite app_length in EQ. lia.
    - cbn [app loop]. destruct (Nat.eqb_spec (CAP - length (expand home q1)) 0) as [Z|NZ]; [lia|].
      assert (SH : q1 ++ c :: q2 = (q1 ++ [c]) ++ q2) by (rewrite <- app_assoc; reflexivity).
      destruct k as [|c' k].
      + rewrite app_nil_r in K. subst q1. apply app_inv_head in EQ. injection EQ as <- <-.
        change (N.eqb 126 126) with true. cbv iota.
        assert (LH : length home = CAP - length (expand home p1)).
        { rewrite expand_app, app_length in E. cbn in E. rewrite app_nil_r in E. lia. }
        rewrite LH. rewrite Nat.leb_refl. rewrite strncat_filled by (auto; lia). rewrite LH, Nat.eqb_refl. reflexivity.
      + assert (c' = c /\ exists k', q2 = k ++ k') as [-> [k' K']].
        { subst p1. rewrite <- app_assoc in EQ. apply app_inv_head in EQ. cbn in EQ. injection EQ as <- EQ. split; [reflexivity|eauto]. }
        assert (L2 : length (expand home (q1 ++ [c])) <= length (expand home p1)).
        { subst p1. change (c :: k) with ([c] ++ k). rewrite app_assoc. apply prefix_shorter. }
        destruct (N.eqb_spec c 126) as [->|N126].
        * assert (EX : expand home (q1 ++ [126%N]) = expand home q1 ++ home).
          { rewrite expand_app. cbn. now rewrite app_nil_r. }
          rewrite EX, app_length in L2.
          destruct (Nat.leb_spec (length home) (CAP - length (expand home q1))); [|lia].
          rewrite strncat_filled by (auto; lia).
          destruct (Nat.eqb_spec (length home) (CAP - length (expand home q1))); [lia|].
          rewrite <- EX. replace (length (expand home q1) + length home) with (length (expand home (q1 ++ [126%N])))
            by (rewrite EX, app_length; reflexivity).
          replace (CAP - length (expand home q1) - length home) with (CAP - length (expand home (q1 ++ [126%N])))
            by (rewrite EX, app_length; lia).
          apply IH; [now rewrite <- SH|rewrite EX, app_length; lia|]. exists k. subst p1. rewrite <- app_assoc. reflexivity.
        * assert (EX : expand home (q1 ++ [c]) = expand home q1 ++ [c]).
          { rewrite expand_app. cbn. apply N.eqb_neq in N126. now rewrite N126. }
          rewrite put_filled by lia. rewrite <- EX.
          replace (S (length (expand home q1))) with (length (expand home (q1 ++ [c]))) by (rewrite EX, app_length; cbn; lia).
          replace (CAP - length (expand home q1) - 1) with (CAP - length (expand home (q1 ++ [c]))) by (rewrite EX, app_length; cbn; lia).
          apply IH; [now rewrite <- SH|lia|]. exists k. subst p1. rewrite <- app_assoc. reflexivity. }
  assert (F0 : filled [] = repeat 0%N CAP) by (unfold filled; cbn [app length]; now rewrite Nat.sub_0_r).
  specialize (G [] (p1 ++ 126%N :: p2) eq_refl ltac:(cbn; lia) (ex_intro _ p1 eq_refl)). change (expand home []) with (@nil N) in G. cbn [length] in G.
  rewrite F0, Nat.sub_0_r in G. exact G.
Qed.

End Cap.

(** C47: a path whose expansion fits gives exactly the expansion; otherwise the
    call never returns a wrong path: it returns 0 or aborts, except when a "~"
    ends exactly at the end of the array. *)
Theorem C47_alloc_path_partial : forall home p, Forall (fun c => c <> 0%N) home -> Forall (fun c => c <> 0%N) p ->
  (length (expand home p) < 4096 -> alloc_path home (Some p) = Path (expand home p)) /\
  (4096 <= length (expand home p) -> ~ exact_fill 4096 home p -> alloc_path home (Some p) = Null \/ alloc_path home (Some p) = Abort).
Proof. intros home p NH NP. apply (alloc_path_gen 4096); [apply Nat.lt_0_succ|assumption|assumption]. Qed.

(** C47: no path gives 0. *)
Theorem C47_null : forall home, alloc_path home None = Null.
Proof. reflexivity. Qed.

(** C47 refuted at the boundary: whenever a "~" is expanded exactly up to the end
    of the array, the terminator is written one byte past it. *)
Theorem C47_exact_fill_refuted : forall home p1 p2, Forall (fun c => c <> 0%N) home -> Forall (fun c => c <> 0%N) (p1 ++ 126%N :: p2) ->
  length (expand home (p1 ++ [126%N])) = 4096 -> length (expand home p1) < 4096 ->
  alloc_path home (Some (p1 ++ 126%N :: p2)) = OutOfBounds.
Proof. intros home p1 p2. apply (exact_fill_gen 4096). apply Nat.lt_0_succ. Qed.

(** Concrete cases. *)
Example C47_example : expand [47; 104]%N [126; 47; 46; 97; 126]%N = [47; 104; 47; 46; 97; 47; 104]%N /\
  alloc_path [47; 104]%N (Some [126; 47; 46; 97; 126]%N) = Path [47; 104; 47; 46; 97; 47; 104]%N.
Proof. split; vm_compute; reflexivity. Qed.
Example C47_refuted_example : alloc_path (repeat 97%N 100) (Some (repeat 98%N 3996 ++ [126%N])) = OutOfBounds.
Proof. vm_compute. reflexivity. Qed.
Example C47_null_example : alloc_path [47%N] (Some (repeat 98%N 5000)) = Null.
Proof. vm_compute. reflexivity. Qed.
