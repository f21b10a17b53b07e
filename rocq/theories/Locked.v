(** Calls on a table that a utils_spinlock guards, from any number of threads and processes (property C69).

    Code modelled
    - [src/utils/spinlock.h:32-54]  utils_spinlock_lock, utils_spinlock_unlock, as in [Spinlock]
    - the way utils_kv_set, utils_kv_get ([src/utils/Kv.c:11-48]), utils_bitmap_alloc_bits and utils_bitmap_free_bits
      ([src/utils/bitmap.c:217-296]) use it: lock, accesses to the table, unlock

    The table is an [obj]: what its calls do one at a time.  A [body] says how a call runs between lock and unlock: any number of
    steps.  [KvConc] and [BitmapConc] are the tables of the code.  Memory is sequentially consistent.  A process that dies
    stops taking steps. *)
From Verif Require Import Base.
From Coq Require Import Lia Permutation.
Notation put := Base.upd.

(** ** Specification *)
(** A table: its states, calls and answers; [seq o s s' r]: the call [o], alone, leads from [s] to [s'] and answers [r].  Some calls
    hand something over ([gives], as ranges of pages) that a later call takes back ([needs]). *)
Record obj := mkobj { St : Type; Op : Type; Ret : Type; Tok : Type; needs : Op -> list Tok; gives : Op -> Ret -> list Tok;
                      seq : Op -> St -> St -> Ret -> Prop; init : St }.
(** Calls one after the other: the state, what is handed over and not taken back, and the calls with their answers. *)
Inductive serial (X : obj) : St X -> list (Tok X) -> list (Op X * Ret X) -> Prop :=
| q_init : serial X (init X) [] []
| q_call s T R o s' r l : serial X s T l -> Permutation T (needs X o ++ R) -> seq X o s s' r -> serial X s' (gives X o r ++ R) (l ++ [(o, r)]).
(** What happens in a run: thread [i] calls; its call takes effect; it has its answer. *)
Inductive mark (X : obj) := Call (i : nat) (o : Op X) | Takes (i : nat) (o : Op X) (r : Ret X) | Answer (i : nat) (r : Ret X).
Arguments Call {X}. Arguments Takes {X}. Arguments Answer {X}.
Definition who {X} (m : mark X) : nat := match m with Call i _ => i | Takes i _ _ => i | Answer i _ => i end.
(** what can be seen of it from outside *)
Definition seen {X} (m : mark X) : bool := match m with Takes _ _ _ => false | _ => true end.
(** the calls in the order in which they take effect *)
Definition taken {X} (g : list (mark X)) : list (Op X * Ret X) := flat_map (fun m => match m with Takes _ o r => [(o, r)] | _ => [] end) g.
(** Each thread's calls take effect once, between the call and the answer, with that answer. *)
Inductive stage (X : obj) := Out | Called (o : Op X) | Took (o : Op X) (r : Ret X).
Arguments Out {X}. Arguments Called {X}. Arguments Took {X}.
Inductive follows {X : obj} (i : nat) : list (mark X) -> stage X -> Prop :=
| f_nil : follows i [] Out
| f_other g st m : follows i g st -> who m <> i -> follows i (g ++ [m]) st
| f_call g o : follows i g Out -> follows i (g ++ [Call i o]) (Called o)
| f_takes g o r : follows i g (Called o) -> follows i (g ++ [Takes i o r]) (Took o r)
| f_answer g o r : follows i g (Took o r) -> follows i (g ++ [Answer i r]) Out.
(** [h], what was seen of a run, is what is seen of a run in which every call takes effect at one moment between call and answer,
    and the calls in the order of these moments are calls one after the other (linearizability). *)
Definition linearizable (X : obj) (h : list (mark X)) : Prop :=
  exists g s T, filter seen g = h /\ (forall i, exists st, follows i g st) /\ serial X s T (taken g).

(** ** Threads *)
(** How a call runs between lock and unlock. *)
Record body (X : obj) := mkbody { loc : Type; start : Op X -> loc; micro : loc -> St X -> loc -> St X -> Prop; fin : loc -> option (Ret X) }.
Arguments loc {X}. Arguments start {X}. Arguments micro {X}. Arguments fin {X}.
(** Some steps of a call, nothing else running. *)
Inductive runs {X} (B : body X) : loc B -> St X -> loc B -> St X -> Prop :=
| runs_nil l s : runs B l s l s
| runs_snoc l s l1 s1 l2 s2 : runs B l s l1 s1 -> fin B l1 = None -> micro B l1 s1 l2 s2 -> runs B l s l2 s2.
(** Run alone, the steps of a call are the call. *)
Definition sound (X : obj) (B : body X) : Prop :=
  forall s T R l0 o l s' r, serial X s T l0 -> Permutation T (needs X o ++ R) -> runs B (start B o) s l s' -> fin B l = Some r -> seq X o s s' r.
(** Where a thread is: outside; about to read the lock (spinlock.h:36); about to swap (38); inside; with its answer, after the store
    of unlock (53). *)
Inductive pc (X : obj) (B : body X) := Idle | Spin (o : Op X) | Cas (o : Op X) | Inside (o : Op X) (l : loc B) | Back (o : Op X) (r : Ret X).
Arguments Idle {X B}. Arguments Spin {X B}. Arguments Cas {X B}. Arguments Inside {X B}. Arguments Back {X B}.
(** [mine]: what was handed over and not given to a call; [trace]: what was seen *)
Record conf (X : obj) (B : body X) := mkc { state : St X; lock : bool; mine : list (Tok X); ths : list (pc X B); trace : list (mark X) }.
Arguments mkc {X B}. Arguments state {X B}. Arguments lock {X B}. Arguments mine {X B}. Arguments ths {X B}. Arguments trace {X B}.
Inductive step {X} (B : body X) : conf X B -> conf X B -> Prop :=
| s_call s k H H' T h i o : nth_error T i = Some Idle -> Permutation H (needs X o ++ H') -> step B (mkc s k H T h) (mkc s k H' (put T i (Spin o)) (h ++ [Call i o]))
| s_spin s k H T h i o : nth_error T i = Some (Spin o) -> step B (mkc s k H T h) (mkc s k H (put T i (if k then Spin o else Cas o)) h)
| s_lock s H T h i o : nth_error T i = Some (Cas o) -> step B (mkc s false H T h) (mkc s true H (put T i (Inside o (start B o))) h)
| s_fail s H T h i o : nth_error T i = Some (Cas o) -> step B (mkc s true H T h) (mkc s true H (put T i (Spin o)) h)
| s_micro s k H T h i o l s' l' : nth_error T i = Some (Inside o l) -> fin B l = None -> micro B l s l' s' -> step B (mkc s k H T h) (mkc s' k H (put T i (Inside o l')) h)
| s_unlock s k H T h i o l r : nth_error T i = Some (Inside o l) -> fin B l = Some r -> step B (mkc s k H T h) (mkc s false H (put T i (Back o r)) h)
| s_return s k H T h i o r : nth_error T i = Some (Back o r) -> step B (mkc s k H T h) (mkc s k (gives X o r ++ H) (put T i Idle) (h ++ [Answer i r])).
Inductive reach {X} (B : body X) : conf X B -> Prop :=
| r_start n : reach B (mkc (init X) false [] (repeat Idle n) [])
| r_step c c' : reach B c -> step B c c' -> reach B c'.
(** what a thread's call has taken and not handed over *)
Definition pend {X B} (p : pc X B) : list (Tok X) := match p with Idle => [] | Spin o | Cas o | Inside o _ => needs X o | Back o r => gives X o r end.
Definition all {X B} (c : conf X B) : list (Tok X) := mine c ++ flat_map pend (ths c).
Definition inside {X B} (p : pc X B) : Prop := match p with Inside _ _ => True | _ => False end.
Definition at_stage {X B} (p : pc X B) : stage X := match p with Idle => Out | Spin o | Cas o | Inside o _ => Called o | Back o r => Took o r end.

(** ** Lists of threads *)
Lemma put_at {A} (T : list A) i p j q : nth_error (put T i p) j = Some q -> (j = i /\ q = p) \/ (j <> i /\ nth_error T j = Some q).
Proof.
  intros E. destruct (Nat.eq_dec j i) as [-> | NE].
  - left. split; [reflexivity|]. rewrite nth_error_upd_eq in E; [congruence|]. rewrite <- (upd_length T i p). apply nth_error_Some. congruence.
  - right. split; [exact NE|]. rewrite nth_error_upd_ne in E by auto. exact E.
Qed.
Lemma put_same {A} (T : list A) i p q : nth_error T i = Some p -> nth_error (put T i q) i = Some q.
Proof. intros E. apply nth_error_upd_eq, nth_error_Some. congruence. Qed.
Lemma flat_put {A C} (f : A -> list C) T i p q : nth_error T i = Some p -> exists R, Permutation (flat_map f T) (f p ++ R) /\ Permutation (flat_map f (put T i q)) (f q ++ R).
Proof.
  revert i. induction T as [|h T IH]; intros [|i] E; try discriminate; cbn [nth_error put flat_map] in *.
  - injection E as ->. exists (flat_map f T). split; apply Permutation_refl.
  - destruct (IH i E) as (R & P1 & P2). exists (f h ++ R). split.
    + rewrite P1, !app_assoc. apply Permutation_app_tail, Permutation_app_comm.
    + rewrite P2, !app_assoc. apply Permutation_app_tail, Permutation_app_comm.
Qed.
Lemma filter_snoc {A} (f : A -> bool) l x : filter f (l ++ [x]) = filter f l ++ (if f x then [x] else []).
Proof. rewrite filter_app. cbn. destruct (f x); reflexivity. Qed.

(** ** The invariant *)
Section Inv.
Variables (X : obj) (B : body X).
Hypothesis SB : sound X B.
(** [g]: the marks so far; [s0], [T0]: state and tokens after the calls that took effect *)
Record K (c : conf X B) (g : list (mark X)) (s0 : St X) (T0 : list (Tok X)) : Prop := {
  k_seen : filter seen g = trace c;
  k_thr : forall i p, nth_error (ths c) i = Some p -> follows i g (at_stage p);
  k_out : forall i, nth_error (ths c) i = None -> follows i g Out;
  k_ser : serial X s0 T0 (taken g);
  k_tok : Permutation T0 (all c);
  k_lock : if lock c then exists i o l, nth_error (ths c) i = Some (Inside o l) /\ (forall j p, nth_error (ths c) j = Some p -> inside p -> j = i) /\ runs B (start B o) s0 l (state c)
           else (forall j p, nth_error (ths c) j = Some p -> ~ inside p) /\ state c = s0
}.
Lemma thr_move T g i p q (m : list (mark X)) : nth_error T i = Some p -> (forall j p, nth_error T j = Some p -> follows j g (at_stage p)) ->
  (forall x, In x m -> who x = i) -> follows i (g ++ m) (at_stage q) -> (length m <= 1)%nat ->
  forall j (p' : pc X B), nth_error (put T i q) j = Some p' -> follows j (g ++ m) (at_stage p').
Proof.
  intros E F W FI LM j p' EJ. apply put_at in EJ. destruct EJ as [(-> & ->) | (NE & EJ)]; [exact FI|]. specialize (F j p' EJ). destruct m as [|x [|]]; cbn in LM; [rewrite app_nil_r; exact F | | lia].
  apply f_other; [exact F|]. rewrite (W x); [congruence | now left].
Qed.
Lemma out_move T g i p (q : pc X B) (m : list (mark X)) : nth_error T i = Some p -> (forall j, nth_error T j = None -> follows j g Out) ->
  (forall x, In x m -> who x = i) -> (length m <= 1)%nat -> forall j, nth_error (put T i q) j = None -> follows j (g ++ m) Out.
Proof.
  intros E F W LM j EJ. assert (NE : j <> i). { intros ->. rewrite (put_same _ _ _ _ E) in EJ. discriminate. }
  rewrite nth_error_upd_ne in EJ by auto. specialize (F j EJ). destruct m as [|x [|]]; cbn in LM; [rewrite app_nil_r; exact F | | lia]. apply f_other; [exact F|]. rewrite (W x); [congruence | now left].
Qed.
Lemma K_inside s k H T h g s0 T0 i o l : K (mkc s k H T h) g s0 T0 -> nth_error T i = Some (Inside o l) ->
  k = true /\ (forall j p, nth_error T j = Some p -> inside p -> j = i) /\ runs B (start B o) s0 l s.
Proof.
  intros Q E. destruct Q as [_ _ _ _ _ KL]. cbn [lock ths state] in KL. destruct k; [|exfalso; apply (proj1 KL _ _ E); exact Logic.I].
  destruct KL as (j & o1 & l1 & E1 & U & R). pose proof (U _ _ E Logic.I) as ->. rewrite E in E1. injection E1 as <- <-. auto.
Qed.
(** a step that neither enters nor leaves, with at most one mark *)
Lemma K_plain s k H H' T h i p q m g s0 T0 : K (mkc s k H T h) g s0 T0 -> nth_error T i = Some p -> ~ inside p -> ~ inside q ->
  (forall x, In x m -> who x = i) -> (length m <= 1)%nat -> taken m = [] -> follows i (g ++ m) (at_stage q) ->
  (exists R, Permutation (H ++ pend p) R /\ Permutation (H' ++ pend q) R) -> K (mkc s k H' (put T i q) (h ++ filter seen m)) (g ++ m) s0 T0.
Proof.
  intros [K1 K2 K3 K4 K5 K6] E NP NQ W LM TM FI (R & P1 & P2). cbn [trace ths lock state] in *. constructor; cbn [trace ths lock state].
  - rewrite filter_app, K1. reflexivity.
  - apply (thr_move _ _ _ _ _ _ E K2 W FI LM).
  - apply (out_move _ _ _ _ _ _ E K3 W LM).
  - unfold taken in *. rewrite flat_map_app. rewrite TM, app_nil_r. exact K4.
  - rewrite K5. unfold all. cbn [mine ths]. destruct (flat_put pend T i p q E) as (Z & Z1 & Z2). rewrite Z1, Z2, !app_assoc. apply Permutation_app_tail. rewrite P1. symmetry. exact P2.
  - destruct k.
    + destruct K6 as (j & o & l & EJ & U & RR). exists j, o, l. assert (NE : j <> i) by (intros ->; rewrite E in EJ; injection EJ as ->; apply NP; exact Logic.I).
      split; [rewrite nth_error_upd_ne by auto; exact EJ|]. split; [|exact RR]. intros j' p' EJ' IN. apply put_at in EJ'. destruct EJ' as [(-> & ->) | (_ & EJ')]; [contradiction | apply (U _ _ EJ' IN)].
    + destruct K6 as (U & ->). split; [|reflexivity]. intros j' p' EJ'. apply put_at in EJ'. destruct EJ' as [(-> & ->) | (_ & EJ')]; [exact NQ | apply (U _ _ EJ')].
Qed.
Lemma K_step c c' g s0 T0 : K c g s0 T0 -> step B c c' -> exists g' s1 T1, K c' g' s1 T1.
Proof.
  intros Q ST. destruct ST as [s k H H' T h i o E P | s k H T h i o E | s H T h i o E | s H T h i o E | s k H T h i o l s' l' E EF M | s k H T h i o l r E EF | s k H T h i o r E].
  - exists (g ++ [Call i o]), s0, T0. change (h ++ [Call i o]) with (h ++ filter seen [Call i o]). apply (K_plain _ _ _ _ _ _ _ _ _ _ _ _ _ Q E); cbn; auto.
    + intros x [<- | []]. reflexivity.
    + apply f_call. apply (k_thr _ _ _ _ Q _ _ E).
    + eexists. split; [apply Permutation_refl|]. rewrite app_nil_r, P. apply Permutation_app_comm.
  - exists (g ++ []), s0, T0. replace h with (h ++ filter seen (@nil (mark X))) by apply app_nil_r. apply (K_plain _ _ _ _ _ _ _ _ _ _ _ _ _ Q E); cbn; auto; try (destruct k; cbn; auto; fail); try tauto.
    + rewrite app_nil_r. pose proof (k_thr _ _ _ _ Q _ _ E). destruct k; exact H0.
    + eexists. split; [apply Permutation_refl|]. destruct k; apply Permutation_refl.
  - exists g, s0, T0. destruct Q as [K1 K2 K3 K4 K5 K6]. cbn [trace ths lock state] in *. destruct K6 as (U & ->). constructor; cbn [trace ths lock state]; auto.
    + intros j p' EJ. apply put_at in EJ. destruct EJ as [(-> & ->) | (NE & EJ)]; [apply (K2 _ _ E) | apply (K2 _ _ EJ)].
    + intros j EJ. apply K3. apply nth_error_None in EJ. rewrite upd_length in EJ. apply nth_error_None, EJ.
    + rewrite K5. unfold all. cbn [mine ths]. destruct (flat_put pend T i _ (Inside o (start B o)) E) as (Z & Z1 & Z2). rewrite Z1, Z2. apply Permutation_refl.
    + exists i, o, (start B o). split; [apply (put_same _ _ _ _ E)|]. split; [|apply runs_nil]. intros j p' EJ IN. apply put_at in EJ. destruct EJ as [(-> & _) | (_ & EJ)]; [reflexivity | destruct (U _ _ EJ IN)].
  - exists (g ++ []), s0, T0. replace h with (h ++ filter seen (@nil (mark X))) by apply app_nil_r. apply (K_plain _ _ _ _ _ _ _ _ _ _ _ _ _ Q E); cbn; auto; try tauto.
    + rewrite app_nil_r. apply (k_thr _ _ _ _ Q _ _ E).
    + eexists. split; apply Permutation_refl.
  - destruct (K_inside _ _ _ _ _ _ _ _ _ _ _ Q E) as (-> & U & RR). exists g, s0, T0. destruct Q as [K1 K2 K3 K4 K5 K6]. cbn [trace ths lock state] in *. constructor; cbn [trace ths lock state]; auto.
    + intros j p' EJ. apply put_at in EJ. destruct EJ as [(-> & ->) | (NE & EJ)]; [apply (K2 _ _ E) | apply (K2 _ _ EJ)].
    + intros j EJ. apply K3. apply nth_error_None in EJ. rewrite upd_length in EJ. apply nth_error_None, EJ.
    + rewrite K5. unfold all. cbn [mine ths]. destruct (flat_put pend T i _ (Inside o l') E) as (Z & Z1 & Z2). rewrite Z1, Z2. apply Permutation_refl.
    + exists i, o, l'. split; [apply (put_same _ _ _ _ E)|]. split; [|apply (runs_snoc _ _ _ _ _ _ _ RR EF M)]. intros j p' EJ IN. apply put_at in EJ. destruct EJ as [(-> & _) | (_ & EJ)]; [reflexivity | apply (U _ _ EJ IN)].
  - destruct (K_inside _ _ _ _ _ _ _ _ _ _ _ Q E) as (-> & U & RR). destruct Q as [K1 K2 K3 K4 K5 K6]. cbn [trace ths lock state] in *.
    destruct (flat_put pend T i _ (Back o r) E) as (Z & Z1 & Z2). cbn [pend] in Z1, Z2.
    assert (PT : Permutation T0 (needs X o ++ H ++ Z)). { rewrite K5. unfold all. cbn [mine ths]. rewrite Z1, !app_assoc. apply Permutation_app_tail, Permutation_app_comm. }
    exists (g ++ [Takes i o r]), s, (gives X o r ++ H ++ Z). constructor; cbn [trace ths lock state].
    + rewrite filter_snoc. cbn [seen]. rewrite app_nil_r. exact K1.
    + apply (thr_move _ _ _ _ (Back o r) _ E K2); [intros x [<- | []]; reflexivity | apply f_takes, (K2 _ _ E) | cbn; lia].
    + apply (out_move _ _ _ _ (Back o r) _ E K3); [intros x [<- | []]; reflexivity | cbn; lia].
    + unfold taken in *. rewrite flat_map_app. cbn [flat_map app]. apply (q_call X s0 T0 (H ++ Z) o s r _ K4 PT). apply (SB _ _ _ _ _ _ _ _ K4 PT RR EF).
    + unfold all. cbn [mine ths]. rewrite Z2, !app_assoc. apply Permutation_app_tail, Permutation_app_comm.
    + split; [|reflexivity]. intros j p' EJ IN. apply put_at in EJ. destruct EJ as [(_ & ->) | (NE & EJ)]; [destruct IN | apply NE, (U _ _ EJ IN)].
  - exists (g ++ [Answer i r]), s0, T0. change (h ++ [Answer i r]) with (h ++ filter seen [Answer i r]). apply (K_plain _ _ _ _ _ _ _ _ _ _ _ _ _ Q E); cbn; auto.
    + intros x [<- | []]. reflexivity.
    + apply f_answer with (o := o). apply (k_thr _ _ _ _ Q _ _ E).
    + eexists. split; [apply Permutation_refl|]. rewrite app_nil_r. apply Permutation_app_comm.
Qed.
Lemma reach_K c : reach B c -> exists g s0 T0, K c g s0 T0.
Proof.
  induction 1 as [n | c c' _ (g & s0 & T0 & IH) ST]; [|apply (K_step _ _ _ _ _ IH ST)]. exists [], (init X), []. constructor; cbn [trace ths lock state].
  - reflexivity.
  - intros i p E. apply nth_error_In, repeat_spec in E. subst p. apply f_nil.
  - intros i _. apply f_nil.
  - apply q_init.
  - unfold all. cbn [mine ths app]. clear. induction n as [|n IH]; [constructor | exact IH].
  - split; [|reflexivity]. intros j p E. apply nth_error_In, repeat_spec in E. subst p. intros [].
Qed.

(** ** Theorems *)
(** What is seen of every run is what one sees of calls that take effect at one moment each. *)
Theorem C69_locked_linearizable c : reach B c -> linearizable X (trace c).
Proof.
  intros R. apply reach_K in R. destruct R as (g & s0 & T0 & [K1 K2 K3 K4 K5 K6]). exists g, s0, T0. split; [exact K1|]. split; [|exact K4].
  intros i. destruct (nth_error (ths c) i) as [p|] eqn:E; eauto.
Qed.
(** One thread is inside at a time. *)
Theorem C69_locked_one c i j o l o' l' : reach B c -> nth_error (ths c) i = Some (Inside o l) -> nth_error (ths c) j = Some (Inside o' l') -> i = j /\ lock c = true.
Proof.
  intros R E E'. apply reach_K in R. destruct R as (g & s0 & T0 & Q). destruct c as [s k H T h]. cbn [ths lock] in *. destruct (K_inside _ _ _ _ _ _ _ _ _ _ _ Q E) as (-> & U & _).
  split; [symmetry; apply (U _ _ E' Logic.I) | reflexivity].
Qed.
(** The state is that of calls one after the other, and some steps of the call that is inside. *)
Theorem C69_locked_state c : reach B c -> exists s0 T0 l0, serial X s0 T0 l0 /\ Permutation T0 (all c) /\
  if lock c then exists i o l, nth_error (ths c) i = Some (Inside o l) /\ runs B (start B o) s0 l (state c) else state c = s0.
Proof.
  intros R. apply reach_K in R. destruct R as (g & s0 & T0 & [K1 K2 K3 K4 K5 K6]). exists s0, T0, (taken g). split; [exact K4|]. split; [exact K5|].
  destruct (lock c); [destruct K6 as (i & o & l & E & _ & RR); eauto | apply K6].
Qed.
End Inv.

(** ** Schedules, for concrete cases *)
Section Sched.
Variables (X : obj) (B : body X) (nxt : loc B -> St X -> option (loc B * St X)) (give : Op X -> list (Tok X) -> option (list (Tok X))).
Hypothesis NX : forall l s l' s', nxt l s = Some (l', s') -> micro B l s l' s'.
Hypothesis GV : forall o H H', give o H = Some H' -> Permutation H (needs X o ++ H').
(** thread [i] takes its next step; if it is idle, it calls *)
Definition sched (c : conf X B) (x : nat * option (Op X)) : option (conf X B) :=
  let '(mkc s k H T h) := c in
  let i := fst x in
  match nth_error T i with
  | Some Idle => match snd x with Some o => match give o H with Some H' => Some (mkc s k H' (put T i (Spin o)) (h ++ [Call i o])) | None => None end | None => None end
  | Some (Spin o) => Some (mkc s k H (put T i (if k then Spin o else Cas o)) h)
  | Some (Cas o) => if k then Some (mkc s true H (put T i (Spin o)) h) else Some (mkc s true H (put T i (Inside o (start B o))) h)
  | Some (Inside o l) => match fin B l with
                         | Some r => Some (mkc s false H (put T i (Back o r)) h)
                         | None => match nxt l s with Some (l', s') => Some (mkc s' k H (put T i (Inside o l')) h) | None => None end
                         end
  | Some (Back o r) => Some (mkc s k (gives X o r ++ H) (put T i Idle) (h ++ [Answer i r]))
  | None => None
  end.
Fixpoint scheds (c : conf X B) (l : list (nat * option (Op X))) : option (conf X B) :=
  match l with [] => Some c | x :: r => match sched c x with Some c' => scheds c' r | None => None end end.
Lemma sched_step c x c' : sched c x = Some c' -> step B c c'.
Proof.
  destruct c as [s k H T h], x as [i w]. cbn [sched fst snd]. destruct (nth_error T i) as [p|] eqn:E; [|discriminate]. destruct p as [| o | o | o l | o r].
  - destruct w as [o|]; [|discriminate]. destruct (give o H) as [H'|] eqn:EG; [|discriminate]. intros Q. injection Q as <-. apply s_call; [exact E | apply GV, EG].
  - intros Q. injection Q as <-. apply s_spin, E.
  - destruct k; intros Q; injection Q as <-; [apply s_fail, E | apply s_lock, E].
  - destruct (fin B l) as [r|] eqn:EF; [intros Q; injection Q as <-; apply (s_unlock _ _ _ _ _ _ _ _ _ _ E EF)|]. destruct (nxt l s) as [[l' s']|] eqn:EN; [|discriminate]. intros Q. injection Q as <-.
    apply (s_micro _ _ _ _ _ _ _ _ _ _ _ E EF), NX, EN.
  - intros Q. injection Q as <-. apply s_return, E.
Qed.
Lemma scheds_reach n l c : scheds (mkc (init X) false [] (repeat Idle n) []) l = Some c -> reach B c.
Proof.
  assert (G : forall l c c', reach B c -> scheds c l = Some c' -> reach B c').
  { clear l c. induction l as [|x l IH]; intros c c' R; cbn [scheds]; [intros Q; injection Q as <-; exact R|]. destruct (sched c x) as [c1|] eqn:E; [|discriminate].
    apply IH. apply (r_step B c c1 R (sched_step _ _ _ E)). }
  apply G, r_start.
Qed.
End Sched.
