(** Common vocabulary of all the models: the outcome of a C call. *)
From Coq Require Export List NArith ZArith Lia Bool Arith.
From Coq Require Export ZifyBool ZifyNat ZifyN.
Export ListNotations.

(** Outcome of a C function:
    - [Ok a]  : returned normally with [a];
    - [Abort] : an [arax_assert] fired (src/utils/arax_assert.h: always active, calls abort());
    - [UB]    : undefined behaviour (out-of-bounds access, shift by >= width, use after free,
                null dereference ...). *)
(** How a call of C code ends; no line of its own (arax_assert: src/utils/arax_assert.c:12-19). *)
Inductive outcome (A : Type) : Type :=
| Ok (a : A)
| Abort
| UB.
Arguments Ok {A} a.
Arguments Abort {A}.
Arguments UB {A}.

(** Sequencing of C statements, no code of its own. *)
Definition bind {A B} (x : outcome A) (f : A -> outcome B) : outcome B :=
  match x with Ok a => f a | Abort => Abort | UB => UB end.

Notation "'do' x <- m ; f" := (bind m (fun x => f))
  (at level 200, x pattern, m at level 100, f at level 200).

(** [arax_assert(c)] : src/utils/arax_assert.h; never compiled out. *)
(** arax_assert, src/utils/arax_assert.h:7-8. *)
Definition assert_ (c : bool) : outcome unit := if c then Ok tt else Abort.

(** Reading an array cell; out of range is undefined behaviour. *)
(** Array read in C, no code of its own. *)
Definition rd {A} (l : list A) (i : nat) : outcome A :=
  match nth_error l i with Some x => Ok x | None => UB end.

(** Replace element [i] of [l] (no effect out of range; callers check first). *)
(** Array cell update, no code of its own. *)
Fixpoint upd {A} (l : list A) (i : nat) (x : A) : list A :=
  match l, i with
  | [], _ => []
  | _ :: t, O => x :: t
  | h :: t, S j => h :: upd t j x
  end.

(** Array write in C, no code of its own. *)
Definition wr {A} (l : list A) (i : nat) (x : A) : outcome (list A) :=
  if (i <? length l)%nat then Ok (upd l i x) else UB.

Lemma upd_length {A} (l : list A) i x : length (upd l i x) = length l.
Proof. revert i; induction l as [|h t IH]; intros [|i]; simpl; auto. Qed.

Lemma nth_upd_eq {A} (l : list A) i x d : (i < length l)%nat -> nth i (upd l i x) d = x.
Proof. revert i; induction l as [|h t IH]; intros [|i] H; simpl in *; try lia; auto. apply IH; lia. Qed.

Lemma nth_upd_ne {A} (l : list A) i j x d : i <> j -> nth j (upd l i x) d = nth j l d.
Proof.
  revert i j; induction l as [|h t IH]; intros [|i] [|j] H; simpl; auto; try congruence.
Qed.

Lemma nth_error_upd_eq {A} (l : list A) i x : (i < length l)%nat -> nth_error (upd l i x) i = Some x.
Proof. revert i; induction l as [|h t IH]; intros [|i] H; simpl in *; try lia; auto. apply IH; lia. Qed.

Lemma nth_error_upd_ne {A} (l : list A) i j x : i <> j -> nth_error (upd l i x) j = nth_error l j.
Proof.
  revert i j; induction l as [|h t IH]; intros [|i] [|j] H; simpl; auto; try congruence.
Qed.

Lemma rd_ok {A} (l : list A) i d : (i < length l)%nat -> rd l i = Ok (nth i l d).
Proof.
  intros H. unfold rd. rewrite (nth_error_nth' l d H). reflexivity.
Qed.

Lemma wr_ok {A} (l : list A) i x : (i < length l)%nat -> wr l i x = Ok (upd l i x).
Proof. intros H. unfold wr. apply Nat.ltb_lt in H. now rewrite H. Qed.

Lemma bind_ok {A B} (x : outcome A) (f : A -> outcome B) b :
  bind x f = Ok b -> exists a, x = Ok a /\ f a = Ok b.
Proof. destruct x; simpl; intros; try discriminate. eauto. Qed.

(** Per-thread maps (an unbounded set of threads numbered by [nat]). *)
(** Update of a map, no code of its own. *)
Definition fupd {A} (f : nat -> A) (i : nat) (x : A) : nat -> A :=
  fun j => if Nat.eqb j i then x else f j.
Lemma fupd_eq {A} (f : nat -> A) i x : fupd f i x i = x.
Proof. unfold fupd. now rewrite Nat.eqb_refl. Qed.
Lemma fupd_ne {A} (f : nat -> A) i j x : j <> i -> fupd f i x j = f j.
Proof. intros H. unfold fupd. apply Nat.eqb_neq in H. now rewrite H. Qed.
