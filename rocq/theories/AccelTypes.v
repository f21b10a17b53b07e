(** C30: accelerator types and their names.  Models src/core/arax_accel_types.c and include/arax_types.h:82-94. *)
From Coq Require Import String Ascii.
From Verif Require Import Base.
Arguments Nat.eqb : simpl never.

(** include/arax_types.h:82-94: the enumeration is unsigned; a value is any number, ARAX_ACCEL_TYPES = 9 is the end
    marker. *)
Definition ANY := 0. Definition GPU := 1. Definition GPU_SOFT := 2. Definition CPU := 3. Definition SDA := 4.
Definition NANO_ARM := 5. Definition NANO_CORE := 6. Definition OPEN_CL := 7. Definition HIP := 8. Definition ARAX_ACCEL_TYPES := 9.

(** types_map, arax_accel_types.c:10-20.  The second field of an entry is never read by the code. *)
Definition types_map : list (string * nat) :=
  [("any", ANY); ("gpu", GPU); ("gpu_soft", GPU_SOFT); ("cpu", CPU); ("sda", SDA); ("nano_arm", NANO_ARM); ("nano_core", NANO_CORE); ("Open_CL", OPEN_CL); ("HIP", HIP)]%string.

(** tolower of one byte in the POSIX locale, as strcasecmp uses it *)
(** C library, used by src/core/arax_accel_types.c:35-49 (strcasecmp). *)
Definition lower (c : ascii) : ascii := let n := nat_of_ascii c in if (65 <=? n) && (n <=? 90) then ascii_of_nat (n + 32) else c.
(** strcasecmp(a, b) == 0.  C strings contain no NUL; a Coq [string] stands for the bytes before the terminator. *)
(** C library, used by src/core/arax_accel_types.c:35-49. *)
Fixpoint strcaseeq (a b : string) : bool :=
  match a, b with
  | EmptyString, EmptyString => true
  | String x a', String y b' => Ascii.eqb (lower x) (lower y) && strcaseeq a' b'
  | _, _ => false
  end.

(** arax_accel_valid_type, arax_accel_types.c:22-25 *)
Definition valid_type (t : nat) : bool := t <? ARAX_ACCEL_TYPES.
(** arax_accel_type_to_str, arax_accel_types.c:27-33 *)
Definition type_to_str (t : nat) : option string := if valid_type t then match nth_error types_map t with Some (s, _) => Some s | None => None end else None.
(** the loop of arax_accel_type_from_str, arax_accel_types.c:42-48: [l] is types_map from index [cnt] on *)
Fixpoint from_loop (s : string) (l : list (string * nat)) (cnt : nat) : nat :=
  match l with
  | [] => cnt
  | (n, _) :: r => if strcaseeq s n then cnt else from_loop s r (S cnt)
  end.
(** arax_accel_type_from_str, arax_accel_types.c:35-49; None is the NULL pointer *)
Definition type_from_str (s : option string) : nat := match s with None => ARAX_ACCEL_TYPES | Some s => from_loop s types_map ANY end.

(** * Specification: two strings are the same up to the case of the letters A-Z *)
Inductive samecase : ascii -> ascii -> Prop :=
| same c : samecase c c
| up n : 97 <= n <= 122 -> samecase (ascii_of_nat n) (ascii_of_nat (n - 32))
| down n : 97 <= n <= 122 -> samecase (ascii_of_nat (n - 32)) (ascii_of_nat n).
Fixpoint ci (a b : string) : Prop :=
  match a, b with
  | EmptyString, EmptyString => True
  | String x a', String y b' => samecase x y /\ ci a' b'
  | _, _ => False
  end.
Lemma nat_ascii n : n < 256 -> nat_of_ascii (ascii_of_nat n) = n.
Proof. apply nat_ascii_embedding. Qed.
Lemma lower_spec x y : lower x = lower y <-> samecase x y.
Proof.
  pose proof (nat_ascii_bounded x) as BX. pose proof (nat_ascii_bounded y) as BY.
  assert (EX := ascii_nat_embedding x). assert (EY := ascii_nat_embedding y). split.
  - unfold lower. cbv zeta. set (n := nat_of_ascii x) in *. set (m := nat_of_ascii y) in *.
    destruct ((65 <=? n) && (n <=? 90)) eqn:Cn; destruct ((65 <=? m) && (m <=? 90)) eqn:Cm; intros HH.
    + assert (Q : n + 32 = m + 32) by (apply (f_equal nat_of_ascii) in HH; now rewrite !nat_ascii in HH by lia).
      assert (E : n = m) by lia. rewrite <- EX, <- EY, E. constructor.
    + rewrite <- EX, <- HH. replace (ascii_of_nat n) with (ascii_of_nat (n + 32 - 32)) by (f_equal; lia). apply down. lia.
    + rewrite <- EY, HH. replace (ascii_of_nat m) with (ascii_of_nat (m + 32 - 32)) by (f_equal; lia). apply up. lia.
    + rewrite HH. constructor.
  - intros [c|n R|n R]; [reflexivity| |]; unfold lower; cbv zeta; rewrite !nat_ascii by lia.
    + assert (Q1 : ((65 <=? n) && (n <=? 90)) = false) by lia. assert (Q2 : ((65 <=? n - 32) && (n - 32 <=? 90)) = true) by lia. rewrite Q1, Q2. f_equal. lia.
    + assert (Q1 : ((65 <=? n) && (n <=? 90)) = false) by lia. assert (Q2 : ((65 <=? n - 32) && (n - 32 <=? 90)) = true) by lia. rewrite Q1, Q2. f_equal. lia.
Qed.
Lemma strcaseeq_spec a : forall b, strcaseeq a b = true <-> ci a b.
Proof.
  induction a as [|x a IH]; intros [|y b]; cbn; try tauto; try (split; [discriminate|tauto]).
  rewrite andb_true_iff, IH, Ascii.eqb_eq, lower_spec. tauto.
Qed.
Lemma ci_refl a : ci a a. Proof. induction a; cbn; auto. split; auto. constructor. Qed.
Lemma ci_lower a b : ci a b <-> (forall s, strcaseeq s a = strcaseeq s b) .
Proof.
  split.
  - intros H s. revert a b H. induction s as [|x s IH]; intros [|y a] [|z b] H; cbn in *; try tauto. destruct H as [H1 H2]. apply lower_spec in H1. rewrite H1. f_equal. apply IH. exact H2.
  - intros H. apply strcaseeq_spec. rewrite <- H. apply strcaseeq_spec, ci_refl.
Qed.

(** * Properties *)
(** Every valid type has a name, and the invalid ones have none. *)
Theorem C30_names_total t : (t < ARAX_ACCEL_TYPES <-> exists s, type_to_str t = Some s) /\ (ARAX_ACCEL_TYPES <= t <-> type_to_str t = None).
Proof.
  unfold type_to_str, valid_type, ARAX_ACCEL_TYPES. destruct (Nat.ltb_spec t 9) as [H|H].
  - do 9 (destruct t as [|t]; [cbn; split; split; intros; eauto; try lia; discriminate|]). lia.
  - split; split; intros; auto; try lia. destruct H0. discriminate.
Qed.
Lemma from_loop_le s l : forall n, n <= from_loop s l n <= n + length l.
Proof. induction l as [|[a k] l IH]; intros n; cbn; [lia|]. destruct (strcaseeq s a); [lia|]. specialize (IH (S n)). lia. Qed.
Lemma from_loop_hit s l : forall n t x, from_loop s l n = n + t -> nth_error l t = Some x -> strcaseeq s (fst x) = true.
Proof.
  induction l as [|[a k] l IH]; intros n t x H N; [destruct t; discriminate|]. cbn in H. destruct (strcaseeq s a) eqn:Q.
  - assert (t = 0) by lia. subst. cbn in N. inversion N; subst. exact Q.
  - destruct t as [|t].
    + pose proof (from_loop_le s l (S n)). lia.
    + cbn in N. apply (IH (S n) t); auto. lia.
Qed.
Lemma from_loop_miss s l : forall n, from_loop s l n = n + length l -> forall x, In x l -> strcaseeq s (fst x) = false.
Proof.
  induction l as [|[a k] l IH]; intros n H x [].
  - subst. cbn in *. destruct (strcaseeq s a); auto. lia.
  - cbn in H. destruct (strcaseeq s a); [lia|]. apply (IH (S n)); auto. pose proof (from_loop_le s l (S n)). lia.
Qed.
(** The conversion from a string gives type [t] exactly when the string is [t]'s name up to letter case; anything
    else (and NULL) gives the end marker. *)
Theorem C30_from_string s : 
  (forall t n, type_to_str t = Some n -> (type_from_str (Some s) = t <-> ci s n)) /\
  (type_from_str (Some s) = ARAX_ACCEL_TYPES <-> forall t n, type_to_str t = Some n -> ~ ci s n) /\
  type_from_str (Some s) <= ARAX_ACCEL_TYPES /\ type_from_str None = ARAX_ACCEL_TYPES.
Proof.
  assert (A : forall t n, type_to_str t = Some n -> exists k, nth_error types_map t = Some (n, k) /\ t < 9).
  { intros t n H. unfold type_to_str, valid_type, ARAX_ACCEL_TYPES in H. destruct (Nat.ltb_spec t 9); [|discriminate]. destruct (nth_error types_map t) as [[m k]|]; [|discriminate]. inversion H; subst. eauto. }
  assert (B : forall t n, type_to_str t = Some n -> type_from_str (Some s) = t -> ci s n).
  { intros t n H Q. destruct (A t n H) as (k & N & _). apply strcaseeq_spec. exact (from_loop_hit s types_map 0 t (n, k) Q N). }
  assert (D : forall t n, type_to_str t = Some n -> ci s n -> type_from_str (Some s) = t).
  { intros t n H Q. destruct (A t n H) as (k & N & T9). cbn [type_from_str]. pose proof (fun l n => from_loop_le s l n) as LE.
    assert (G : forall u m, type_to_str u = Some m -> strcaseeq s m = strcaseeq n m).
    { intros u m _. clear - Q. revert n m Q. induction s as [|x s' IH]; intros [|y n] [|z m] Q; cbn in *; try tauto. destruct Q as [Q1 Q2]. apply lower_spec in Q1. rewrite Q1. f_equal. auto. }
    assert (F : from_loop s types_map ANY = from_loop n types_map ANY).
    { unfold types_map. cbn [from_loop]. rewrite (G 0 "any"%string eq_refl), (G 1 "gpu"%string eq_refl), (G 2 "gpu_soft"%string eq_refl), (G 3 "cpu"%string eq_refl), (G 4 "sda"%string eq_refl),
        (G 5 "nano_arm"%string eq_refl), (G 6 "nano_core"%string eq_refl), (G 7 "Open_CL"%string eq_refl), (G 8 "HIP"%string eq_refl). reflexivity. }
    rewrite F. clear - N. do 9 (destruct t as [|t]; [cbn in N; inversion N; subst; reflexivity|]). destruct t; discriminate. }
  split; [|split; [|split]].
  - intros t n H. split; eauto.
  - split.
    + intros E t n H Q. pose proof (D t n H Q) as E2. destruct (A t n H) as (k & _ & L). rewrite E in E2. unfold ARAX_ACCEL_TYPES in E2. lia.
    + intros H. pose proof (from_loop_le s types_map 0) as LE. cbn [type_from_str]. change (length types_map) with 9 in LE. unfold ANY, ARAX_ACCEL_TYPES.
      destruct (Nat.eq_dec (from_loop s types_map 0) 9) as [E|E]; auto. exfalso.
      destruct (proj1 (C30_names_total (from_loop s types_map 0))) as [X _]. destruct X as [n X]; [unfold ARAX_ACCEL_TYPES; lia|]. apply (H _ _ X). apply (B _ _ X). reflexivity.
  - pose proof (from_loop_le s types_map 0) as LE. exact (proj2 LE).
  - reflexivity.
Qed.
(** hence names round-trip and distinct types have distinct names, even up to letter case *)
Theorem C30_round_trip t n : type_to_str t = Some n -> type_from_str (Some n) = t.
Proof. intros H. apply (proj1 (C30_from_string n) t n H). apply ci_refl. Qed.
Theorem C30_distinct t u n m : type_to_str t = Some n -> type_to_str u = Some m -> ci n m -> t = u.
Proof. intros H K Q. rewrite <- (C30_round_trip t n H). exact (proj2 (proj1 (C30_from_string n) u m K) Q). Qed.
Example C30_nonvacuous : type_from_str (Some "OPEN_cl"%string) = OPEN_CL /\ type_from_str (Some "gpu_sof"%string) = ARAX_ACCEL_TYPES /\ type_from_str (Some "hip"%string) = HIP /\ type_to_str 2 = Some "gpu_soft"%string.
Proof. repeat split; reflexivity. Qed.
