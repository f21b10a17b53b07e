(** The heap of [DlModel] with many callers at once (property C68): threads of any number of processes call arch_alloc_allocate and
    _arch_alloc_free while the program stores in the blocks it holds.

    Code modelled
    - [src/alloc/dlmalloc/alloc.c:62-100]      arch_alloc_allocate, _arch_alloc_free (ALLOC_STATS off)
    - [src/alloc/dlmalloc/malloc.c:1853-1855]  CAS_LOCK, CLEAR_LOCK
    - [src/alloc/dlmalloc/malloc.c:1909-1924]  spin_acquire_lock, ACQUIRE_LOCK, RELEASE_LOCK
    - [src/alloc/dlmalloc/malloc.c:2801-2802]  PREACTION, POSTACTION
    - [src/alloc/dlmalloc/malloc.c:5639-5745]  mspace_malloc: what is inside PREACTION .. POSTACTION is [malloc] of [DlModel]
    - [src/alloc/dlmalloc/malloc.c:5747-5842]  mspace_free: likewise [mspace_free]

    A call takes as many steps inside the lock as it likes: the theorems are for every way to cut a call into steps ([body]) that is
    [sound], that is, whose steps run alone make up a call of [DlModel] and leave the words of the program's blocks alone.  [whole],
    where a call is one step, is sound: that is [C68_malloc_blind] and [C68_free_blind] of [DlSim].  Memory is sequentially
    consistent.  A process that dies stops taking steps. *)
From Verif Require Import Base DlModel DlInv DlAlloc DlSys DlPre DlMalloc DlFree DlFwd DlHist DlSim DlProps.
From Coq Require Import Lia Permutation.
Local Open Scope N_scope.
Arguments N.add : simpl never. Arguments N.sub : simpl never. Arguments N.mul : simpl never. Arguments N.div : simpl never.
Arguments N.modulo : simpl never. Arguments N.eqb : simpl never. Arguments N.ltb : simpl never. Arguments N.leb : simpl never.
Arguments N.odd : simpl never.

(** ** Calls *)
(** A call of arch_alloc_allocate with a size, or of _arch_alloc_free with a block (its address and the size asked for). *)
Inductive op := Malloc (bytes : N) | Free (b : N * N).
(** What a call does to the heap when nothing else runs, and what it answers: the functions of [DlModel]. *)
Definition effect (mremap : bool) (o : op) (s s' : ms) (r : option N) : Prop :=
  match o with
  | Malloc bytes => exists v mm, tree_answer s (padded bytes) v /\ (forall n b, mm n = Some b -> fresh (pg s) b n) /\ malloc s bytes v mm = Ok (s', r)
  | Free b => r = None /\ exists mr, (mr = true -> mremap = true) /\ mspace_free s (fst b) mr = Ok s'
  end.
(** How a call runs inside the lock: [start], then steps that read and write the heap, until [fin] gives the answer. *)
Record body := mkbody { loc : Type; start : op -> loc; micro : loc -> ms -> loc -> ms -> Prop; fin : loc -> option (option N) }.
(** Some steps of a call, nothing else running. *)
Inductive runs (B : body) : loc B -> ms -> loc B -> ms -> Prop :=
| runs_nil l s : runs B l s l s
| runs_snoc l s l1 s1 l2 s2 : runs B l s l1 s1 -> micro B l1 s1 l2 s2 -> runs B l s l2 s2.
(** Address and size of the blocks of a history. *)
Definition shapes (L : list block) : list (N * N) := map (fun b => (addr b, size b)) L.
(** The words of some blocks. *)
Definition heldw (H : list (N * N)) (x : N) : Prop := exists a n, In (a, n) H /\ a <= x /\ x < a + n.
(** The block a call takes back. *)
Definition own (o : op) : list (N * N) := match o with Malloc _ => [] | Free b => [b] end.
(** No word differs. *)
Definition same (s t : ms) : Prop := sim (fun _ => False) s t.
(** The program stores [w] at [y]. *)
Definition store (s : ms) (y w : N) : ms := set_mem s (wr_ (mem s) y w).
(** The steps make up the call and keep off the blocks the program holds ([R]). *)
Record sound (mremap : bool) (B : body) : Prop := {
  b_new : forall o, fin B (start B o) = None;
  b_done : forall s L o R l s' r, hist mremap s L -> Permutation (shapes L) (own o ++ R) -> runs B (start B o) s l s' -> fin B l = Some r ->
           exists s1, effect mremap o s s1 r /\ same s1 s';
  b_keep : forall s L o R l s' y, hist mremap s L -> Permutation (shapes L) (own o ++ R) -> runs B (start B o) s l s' -> heldw R y -> mem s' y = mem s y;
  b_blind : forall s L o R l s' y w, hist mremap s L -> Permutation (shapes L) (own o ++ R) -> runs B (start B o) s l s' -> heldw R y ->
            exists t, runs B (start B o) (store s y w) l t /\ sim (eq y) s' t;
  b_ext : forall s L o R l s1 t1 l2 t2, hist mremap s L -> Permutation (shapes L) (own o ++ R) -> runs B (start B o) s l s1 -> same s1 t1 -> micro B l t1 l2 t2 ->
          exists s2, micro B l s1 l2 s2 /\ same s2 t2
}.
(** A call as one step. *)
Definition whole (mremap : bool) : body :=
  mkbody (op + option N) inl (fun l s l' s' => match l, l' with inl o, inr r => effect mremap o s s' r | _, _ => False end)
         (fun l => match l with inl _ => None | inr r => Some r end).

(** ** Threads *)
(** Where a thread is: outside; about to try the lock (CAS_LOCK); about to look at it (the loop of spin_acquire_lock); inside; with
    the answer, after RELEASE_LOCK. *)
Inductive pc (B : body) := Idle | Try (o : op) | Spin (o : op) | Inside (o : op) (l : loc B) | Back (o : op) (r : option N).
Arguments Idle {B}. Arguments Try {B}. Arguments Spin {B}. Arguments Inside {B}. Arguments Back {B}.
(** [mine]: the blocks the program holds *)
Record conf (B : body) := mkc { heap : ms; lock : bool; mine : list (N * N); ths : list (pc B) }.
Arguments mkc {B}. Arguments heap {B}. Arguments lock {B}. Arguments mine {B}. Arguments ths {B}.
(** the block an answer brings *)
Definition answer_block (o : op) (r : option N) : list (N * N) := match o, r with Malloc n, Some a => [(a, n)] | _, _ => [] end.
(** One step of one thread, or a store of the program.  A call of free gives its block up at once. *)
Notation put := Base.upd.
Inductive step (B : body) : conf B -> conf B -> Prop :=
| s_malloc s k H T i n : nth_error T i = Some Idle -> step B (mkc s k H T) (mkc s k H (put T i (Try (Malloc n))))
| s_free s k H1 b H2 T i : nth_error T i = Some Idle -> step B (mkc s k (H1 ++ b :: H2) T) (mkc s k (H1 ++ H2) (put T i (Try (Free b))))
| s_lock s H T i o : nth_error T i = Some (Try o) -> step B (mkc s false H T) (mkc s true H (put T i (Inside o (start B o))))
| s_fail s H T i o : nth_error T i = Some (Try o) -> step B (mkc s true H T) (mkc s true H (put T i (Spin o)))
| s_spin s k H T i o : nth_error T i = Some (Spin o) -> step B (mkc s k H T) (mkc s k H (put T i (if k then Spin o else Try o)))
| s_micro s k H T i o l s' l' : nth_error T i = Some (Inside o l) -> fin B l = None -> micro B l s l' s' -> step B (mkc s k H T) (mkc s' k H (put T i (Inside o l')))
| s_unlock s k H T i o l r : nth_error T i = Some (Inside o l) -> fin B l = Some r -> step B (mkc s k H T) (mkc s false H (put T i (Back o r)))
| s_return s k H T i o r : nth_error T i = Some (Back o r) -> step B (mkc s k H T) (mkc s k (answer_block o r ++ H) (put T i Idle))
| s_store s k H T y w : heldw H y -> step B (mkc s k H T) (mkc (store s y w) k H T).
(** Everything that can happen, from a new heap and any number of threads. *)
Inductive reach (B : body) : conf B -> Prop :=
| r_start junk b n : 4096 <= b -> b mod 4096 = 0 -> b + 65536 <= W -> reach B (mkc (create junk b 65536) false [] (repeat Idle n))
| r_step c c' : reach B c -> step B c c' -> reach B c'.

Definition pair_dec (a b : N * N) : {a = b} + {a <> b}.
Proof. decide equality; apply N.eq_dec. Defined.

(** ** Same states *)
Lemma same_refl s : same s s.
Proof. apply sim_refl. Qed.
Lemma sim_sym Y s t : sim Y s t -> sim Y t s.
Proof.
  intros (E & F). split; [rewrite E; destruct s; reflexivity|]. intros x X. symmetry. apply F, X.
Qed.
Lemma sim_trans Y s t u : sim Y s t -> sim Y t u -> sim Y s u.
Proof.
  intros (E & F) (E' & F'). split; [rewrite E', E; destruct s; reflexivity|]. intros x X. rewrite F', F by exact X. reflexivity.
Qed.
Lemma sim_weak (Y Z : N -> Prop) s t : (forall x, Y x -> Z x) -> sim Y s t -> sim Z s t.
Proof. intros H (E & F). split; [exact E|]. intros x X. apply F. intros HY. apply X, H, HY. Qed.
Lemma same_mem s t x : same s t -> mem t x = mem s x.
Proof. intros (_ & F). apply F. tauto. Qed.
Lemma same_store s t y w : same s t -> same (store s y w) (store t y w).
Proof. apply sim_wr. Qed.
Lemma store_same s t y w : sim (eq y) s t -> mem t y = w -> same (store s y w) t.
Proof.
  intros (E & F) M. split; [rewrite E; destruct s; reflexivity|]. intros x _. cbn [store set_mem mem]. unfold wr_. destruct (x =? y) eqn:EX; [apply N.eqb_eq in EX; rewrite EX; exact M|].
  apply N.eqb_neq in EX. apply F. congruence.
Qed.
Lemma store_sim s y w (Y : N -> Prop) : Y y -> sim Y s (store s y w).
Proof. intros HY. split; [reflexivity|]. intros x X. cbn [store set_mem mem]. apply wr_other. intros ->. tauto. Qed.

(** ** Blocks of histories *)
Lemma shapes_split L a n : In (a, n) (shapes L) -> exists L1 d L2, L = L1 ++ mkb a n d :: L2.
Proof. intros H. apply in_map_iff in H. destruct H as ([a' n' d] & E & H). cbn [addr size] in E. injection E as -> ->. apply in_split in H. destruct H as (L1 & L2 & ->). eauto. Qed.
Lemma shapes_mid L1 b L2 : shapes (L1 ++ b :: L2) = shapes L1 ++ (addr b, size b) :: shapes L2.
Proof. unfold shapes. rewrite map_app. reflexivity. Qed.
Lemma hist_store rm s L H y w : hist rm s L -> Permutation (shapes L) H -> heldw H y -> exists L', hist rm (store s y w) L' /\ shapes L' = shapes L.
Proof.
  intros HI P (a & n & I & Y1 & Y2). apply Permutation_sym in P. pose proof (Permutation_in _ P I) as I'. apply shapes_split in I'. destruct I' as (L1 & d & L2 & ->).
  exists (L1 ++ mkb a n (wr_ d y w) :: L2). split; [apply h_store; assumption|]. rewrite !shapes_mid. reflexivity.
Qed.
Lemma heldw_held L R H y : Permutation (shapes L) (R ++ H) -> heldw H y -> held L y.
Proof.
  intros P (a & n & I & Y1 & Y2). apply Permutation_sym in P. assert (I' : In (a, n) (shapes L)) by (apply (Permutation_in _ P), in_or_app; now right).
  apply in_map_iff in I'. destruct I' as (b & E & I'). injection E as <- <-. exists b. auto.
Qed.
Lemma hist_disjoint rm s L a n b k : hist rm s L -> (exists R, Permutation (shapes L) ((a, n) :: (b, k) :: R)) -> off a n b k.
Proof.
  intros HI (R & P). destruct (hist_inv _ _ _ HI) as (G & D & Q). apply Permutation_sym in P.
  assert (ND : NoDup (map fst (shapes L))).
  { unfold shapes. rewrite map_map. cbn [fst]. exact (q_nodup _ _ _ _ _ Q). }
  assert (P' : Permutation (map fst ((a, n) :: (b, k) :: R)) (map fst (shapes L))) by (apply Permutation_map, P).
  assert (NE : a <> b). { apply (Permutation_NoDup (Permutation_sym P')) in ND. cbn [map fst] in ND. inversion ND as [|? ? N1 _]; subst. intros ->. apply N1. now left. }
  assert (IA : In (a, n) (shapes L)) by (apply (Permutation_in _ P); now left). assert (IB : In (b, k) (shapes L)) by (apply (Permutation_in _ P); right; now left).
  apply in_map_iff in IA. destruct IA as (x & EX & IA). apply in_map_iff in IB. destruct IB as (z & EZ & IB). injection EX as EX1 EX2. injection EZ as EZ1 EZ2. subst.
  pose proof (in_map addr _ _ IA) as JA. apply (q_live _ _ _ _ _ Q) in JA. destruct JA as (r & BA). pose proof (in_map addr _ _ IB) as JB. apply (q_live _ _ _ _ _ Q) in JB. destruct JB as (q & BB).
  pose proof (q_size _ _ _ _ _ Q _ _ IA BA). pose proof (q_size _ _ _ _ _ Q _ _ IB BB). pose proof (blk_apart _ _ _ _ _ _ _ _ _ _ _ _ (i_core _ _ _ (q_inv _ _ _ _ _ Q)) BA BB NE) as O. unfold off in *. lia.
Qed.
(** the end of a call *)
Lemma hist_effect rm s L o R s' r : hist rm s L -> Permutation (shapes L) (own o ++ R) -> effect rm o s s' r ->
  exists L', hist rm s' L' /\ Permutation (shapes L') (answer_block o r ++ R).
Proof.
  intros HI P E. destruct o as [n|b]; cbn [effect own app answer_block] in *.
  - destruct E as (v & mm & V & FR & E). destruct r as [a|].
    + exists (mkb a n (mem s') :: L). split; [apply (h_alloc rm s L n v mm s' a); assumption|]. cbn. now apply perm_skip.
    + exists L. split; [apply (h_null rm s L n v mm s'); assumption|]. exact P.
  - destruct E as (-> & mr & MR & E). destruct b as [a n]. cbn [fst] in E.
    assert (I : In (a, n) (shapes L)) by (apply Permutation_sym in P; apply (Permutation_in _ P); now left).
    apply shapes_split in I. destruct I as (L1 & d & L2 & ->). exists (L1 ++ L2). split; [apply (h_free rm s L1 (mkb a n d) L2 mr s'); assumption|].
    rewrite shapes_mid in P. cbn [addr size] in P. unfold shapes. rewrite map_app. apply Permutation_sym, Permutation_cons_app_inv with (a := (a, n)), Permutation_sym. cbn [app] in P. exact P.
Qed.

(** ** The invariant *)
Section Inv.
Variables (rm : bool) (B : body).
Hypothesis SB : sound rm B.
(** the blocks of a thread's call that the program does not hold *)
Definition pend (p : pc B) : list (N * N) := match p with Idle => [] | Try o | Spin o | Inside o _ => own o | Back o r => answer_block o r end.
Definition inside (p : pc B) : Prop := match p with Inside _ _ => True | _ => False end.
Definition all (H : list (N * N)) (T : list (pc B)) : list (N * N) := H ++ flat_map pend T.
Definition K (c : conf B) : Prop :=
  if lock c then exists i o l s0 L s1, nth_error (ths c) i = Some (Inside o l) /\ (forall j p, nth_error (ths c) j = Some p -> inside p -> j = i) /\
                 hist rm s0 L /\ Permutation (shapes L) (all (mine c) (ths c)) /\ runs B (start B o) s0 l s1 /\ same s1 (heap c)
  else (forall j p, nth_error (ths c) j = Some p -> ~ inside p) /\ exists s0 L, hist rm s0 L /\ Permutation (shapes L) (all (mine c) (ths c)) /\ same s0 (heap c).
Notation cnt l x := (count_occ pair_dec l x).
Lemma all_put H T i p q x : nth_error T i = Some p -> (cnt (pend p) x + cnt (all H (put T i q)) x = cnt (pend q) x + cnt (all H T) x)%nat.
Proof.
  intros E. unfold all. rewrite !count_occ_app.
  assert (G : (cnt (pend p) x + cnt (flat_map pend (put T i q)) x = cnt (pend q) x + cnt (flat_map pend T) x)%nat); [|lia].
  revert i E. induction T as [|h T IH]; intros [|i] E; try discriminate; cbn [nth_error put flat_map] in *; rewrite !count_occ_app.
  - injection E as ->. lia.
  - specialize (IH _ E). lia.
Qed.
Lemma perm_put H H' T i p q R : Permutation R (all H T) -> nth_error T i = Some p -> (forall x, cnt (pend p) x + cnt H x = cnt (pend q) x + cnt H' x)%nat ->
  Permutation R (all H' (put T i q)).
Proof.
  intros P E C. rewrite (Permutation_count_occ pair_dec) in *. intros x. specialize (P x). specialize (C x). pose proof (all_put H T i p q x E) as A. unfold all in *. rewrite !count_occ_app in *. lia.
Qed.
(** what is left of all blocks when the call of thread [i] has its own *)
Lemma perm_own H T i o l : nth_error T i = Some (Inside o l) -> exists R, Permutation (all H T) (own o ++ R) /\ forall y, heldw H y -> heldw R y.
Proof.
  intros E. destruct (nth_error_split _ _ E) as (T1 & T2 & -> & _). exists (H ++ flat_map pend T1 ++ flat_map pend T2). split.
  - rewrite (Permutation_count_occ pair_dec). intros x. unfold all. rewrite flat_map_app. cbn [flat_map pend]. rewrite !count_occ_app. lia.
  - intros y (a & n & I & Y). exists a, n. split; [apply in_or_app; now left | exact Y].
Qed.
Lemma put_at T i (p : pc B) j q : nth_error (put T i p) j = Some q -> (j = i /\ q = p) \/ (j <> i /\ nth_error T j = Some q).
Proof.
  intros E. destruct (Nat.eq_dec j i) as [-> | NE].
  - left. split; [reflexivity|]. rewrite nth_error_upd_eq in E; [congruence|]. rewrite <- (upd_length T i p). apply nth_error_Some. congruence.
  - right. split; [exact NE|]. rewrite nth_error_upd_ne in E by auto. exact E.
Qed.
Lemma put_same T i (p q : pc B) : nth_error T i = Some p -> nth_error (put T i q) i = Some q.
Proof. intros E. apply nth_error_upd_eq. apply nth_error_Some. congruence. Qed.
(** a step of a thread outside the lock that does not touch the heap *)
Lemma K_other s k H H' T i p q : K (mkc s k H T) -> nth_error T i = Some p -> ~ inside p -> ~ inside q ->
  (forall x, cnt (pend p) x + cnt H x = cnt (pend q) x + cnt H' x)%nat -> K (mkc s k H' (put T i q)).
Proof.
  intros KC E NP NQ C. unfold K in *. cbn [lock ths mine heap] in *. destruct k.
  - destruct KC as (j & o & l & s0 & L & s1 & E1 & U & HI & P & R & S). exists j, o, l, s0, L, s1.
    assert (NE : i <> j) by (intros ->; rewrite E in E1; injection E1 as ->; apply NP; exact Logic.I).
    split; [rewrite nth_error_upd_ne by auto; exact E1|]. split.
    + intros j' p' E' IN. apply put_at in E'. destruct E' as [(_ & ->) | (_ & E')]; [contradiction | apply (U _ _ E' IN)].
    + split; [exact HI|]. split; [apply (perm_put H H' T i p q); assumption|]. auto.
  - destruct KC as (U & s0 & L & HI & P & S). split.
    + intros j' p' E' IN. apply put_at in E'. destruct E' as [(_ & ->) | (_ & E')]; [contradiction | apply (U _ _ E' IN)].
    + exists s0, L. split; [exact HI|]. split; [apply (perm_put H H' T i p q); assumption | exact S].
Qed.
(** who is inside has the lock *)
Lemma K_inside s k H T i o l : K (mkc s k H T) -> nth_error T i = Some (Inside o l) -> k = true.
Proof. intros KC E. destruct k; [reflexivity|]. destruct KC as (U & _). exfalso. apply (U i _ E). exact Logic.I. Qed.
Lemma K_step c c' : K c -> step B c c' -> K c'.
Proof.
  intros KC ST. destruct ST as [s k H T i n E | s k H1 b H2 T i E | s H T i o E | s H T i o E | s k H T i o E | s k H T i o l s' l' E EF M | s k H T i o l r E EF | s k H T i o r E | s k H T y w HW].
  - apply (K_other _ _ _ _ _ _ _ _ KC E); [exact (fun x => x) | exact (fun x => x)|]. intros x. reflexivity.
  - apply (K_other _ _ _ _ _ _ _ _ KC E); [exact (fun x => x) | exact (fun x => x)|]. intros x. cbn [pend own]. rewrite !count_occ_app. change (b :: H2) with ([b] ++ H2). rewrite count_occ_app. cbn [count_occ]. lia.
  - destruct KC as (U & s0 & L & HI & P & S). cbn [ths mine heap] in *. unfold K. cbn [lock ths mine heap]. exists i, o, (start B o), s0, L, s0.
    split; [apply (put_same _ _ _ _ E)|]. split.
    + intros j p E' IN. apply put_at in E'. destruct E' as [(-> & _) | (_ & E')]; [reflexivity | exfalso; apply (U _ _ E' IN)].
    + split; [exact HI|]. split; [apply (perm_put H H T i _ _ _ P E); intros x; reflexivity|]. split; [constructor | exact S].
  - apply (K_other _ _ _ _ _ _ _ _ KC E); [exact (fun x => x) | exact (fun x => x)|]. intros x. reflexivity.
  - apply (K_other _ _ _ _ _ _ _ _ KC E); destruct k; try exact (fun x => x); intros x; reflexivity.
  - pose proof (K_inside _ _ _ _ _ _ _ KC E) as ->. destruct KC as (j & o1 & l1 & s0 & L & s1 & E1 & U & HI & P & R & S). cbn [ths mine heap] in *.
    pose proof (U _ _ E Logic.I) as ->. rewrite E in E1. injection E1 as <- <-.
    destruct (perm_own H T j o l E) as (R0 & P0 & HR). pose proof (Permutation_trans P P0) as P1. destruct (b_ext _ _ SB _ _ _ _ _ _ _ _ _ HI P1 R S M) as (s2 & M2 & S2).
    unfold K. cbn [lock ths mine heap]. exists j, o, l', s0, L, s2. split; [apply (put_same _ _ _ _ E)|]. split.
    + intros j' p E' IN. apply put_at in E'. destruct E' as [(-> & _) | (_ & E')]; [reflexivity | apply (U _ _ E' IN)].
    + split; [exact HI|]. split; [apply (perm_put H H T j _ _ _ P E); intros x; reflexivity|]. split; [apply (runs_snoc _ _ _ _ _ _ _ R M2) | exact S2].
  - pose proof (K_inside _ _ _ _ _ _ _ KC E) as ->. destruct KC as (j & o1 & l1 & s0 & L & s1 & E1 & U & HI & P & R & S). cbn [ths mine heap] in *.
    pose proof (U _ _ E Logic.I) as ->. rewrite E in E1. injection E1 as <- <-.
    destruct (perm_own H T j o l E) as (R0 & P0 & HR). pose proof (Permutation_trans P P0) as P1. destruct (b_done _ _ SB _ _ _ _ _ _ _ HI P1 R EF) as (sd & EE & SD).
    destruct (hist_effect _ _ _ _ _ _ _ HI P1 EE) as (L' & HI' & P'). unfold K. cbn [lock ths mine heap]. split.
    + intros j' p E' IN. apply put_at in E'. destruct E' as [(_ & ->) | (NE & E')]; [destruct IN | apply NE, (U _ _ E' IN)].
    + exists sd, L'. split; [exact HI'|]. split; [|apply (sim_trans _ _ _ _ SD S)].
      rewrite (Permutation_count_occ pair_dec) in *. intros x. specialize (P' x). specialize (P0 x). pose proof (all_put H T j _ (Back o r) x E) as A. cbn [pend] in A. rewrite !count_occ_app in *. lia.
  - apply (K_other _ _ _ _ _ _ _ _ KC E); [exact (fun x => x) | exact (fun x => x)|]. intros x. cbn [pend]. rewrite count_occ_app. cbn [count_occ]. lia.
  - assert (IA : forall L, Permutation (shapes L) (all H T) -> Permutation (shapes L) ([] ++ (H ++ flat_map pend T))) by auto.
    unfold K in *. cbn [lock ths mine heap] in *. destruct k.
    + destruct KC as (j & o & l & s0 & L & s1 & E1 & U & HI & P & R & S). destruct (perm_own H T j o l E1) as (R0 & P0 & HR). pose proof (Permutation_trans P P0) as P1. pose proof (HR _ HW) as HWR.
      destruct (b_blind _ _ SB _ _ _ _ _ _ _ w HI P1 R HWR) as (t & RT & ST).
      destruct (hist_store _ _ _ (all H T) y w HI P) as (L' & HI' & EL); [destruct HW as (a & n & I & Y); exists a, n; split; [apply in_or_app; now left | exact Y]|].
      exists j, o, l, (store s0 y w), L', t. split; [exact E1|]. split; [exact U|]. split; [exact HI'|]. split; [rewrite EL; exact P|]. split; [exact RT|].
      assert (MT : mem t y = w).
      { rewrite <- EL in P1. rewrite (b_keep _ _ SB _ _ _ _ _ _ _ HI' P1 RT HWR). apply wr_same. }
      apply sim_trans with (t := store s1 y w); [apply sim_sym, store_same; assumption | apply same_store, S].
    + destruct KC as (U & s0 & L & HI & P & S). split; [exact U|].
      destruct (hist_store _ _ _ (all H T) y w HI P) as (L' & HI' & EL); [destruct HW as (a & n & I & Y); exists a, n; split; [apply in_or_app; now left | exact Y]|].
      exists (store s0 y w), L'. split; [exact HI'|]. split; [rewrite EL; exact P | apply same_store, S].
Qed.
Lemma reach_K c : reach B c -> K c.
Proof.
  induction 1 as [junk b n B1 B2 B3 | c c' _ IH ST]; [|apply (K_step _ _ IH ST)]. unfold K. cbn [lock ths mine heap]. split.
  - intros j p E IN. apply nth_error_In, repeat_spec in E. subst p. destruct IN.
  - exists (create junk b 65536), []. split; [apply h_create; assumption|]. split; [|apply same_refl]. unfold all. cbn [shapes map app]. clear. induction n as [|n IH]; [constructor | exact IH].
Qed.

(** ** Theorems *)
(** One caller is inside the lock at a time. *)
Theorem C68_one_inside c i j o l o' l' : reach B c -> nth_error (ths c) i = Some (Inside o l) -> nth_error (ths c) j = Some (Inside o' l') -> i = j /\ lock c = true.
Proof.
  intros R E E'. apply reach_K in R. destruct c as [s k H T]. cbn [ths lock] in *. pose proof (K_inside _ _ _ _ _ _ _ R E) as ->. split; [|reflexivity].
  destruct R as (x & _ & _ & _ & _ & _ & _ & U & _). rewrite (U _ _ E Logic.I). symmetry. apply (U _ _ E' Logic.I).
Qed.
(** When the lock is free the heap is that of some history of calls one after the other, and the blocks of that history are those the
    program holds, those it is giving up and those on their way to it. *)
Theorem C68_serial c : reach B c -> lock c = false ->
  exists s L, hist rm s L /\ same s (heap c) /\ Permutation (shapes L) (mine c ++ flat_map pend (ths c)).
Proof. intros R E. apply reach_K in R. unfold K in R. rewrite E in R. destruct R as (_ & s0 & L & HI & P & S). eauto. Qed.
(** The answer of a call is one that the call gives when it runs alone in the heap that such a history makes. *)
Theorem C68_answer c i o l r : reach B c -> nth_error (ths c) i = Some (Inside o l) -> fin B l = Some r ->
  exists s L s', hist rm s L /\ Permutation (shapes L) (mine c ++ flat_map pend (ths c)) /\ effect rm o s s' r /\ same s' (heap c).
Proof.
  intros R E EF. apply reach_K in R. destruct c as [s k H T]. cbn [ths lock mine heap] in *. pose proof (K_inside _ _ _ _ _ _ _ R E) as ->.
  destruct R as (j & o1 & l1 & s0 & L & s1 & E1 & U & HI & P & R & S). cbn [ths mine heap] in *. pose proof (U _ _ E Logic.I) as ->. rewrite E in E1. injection E1 as <- <-.
  destruct (perm_own H T j o l E) as (R0 & P0 & _). pose proof (Permutation_trans P P0) as P1. destruct (b_done _ _ SB _ _ _ _ _ _ _ HI P1 R EF) as (sd & EE & SD).
  exists s0, L, sd. split; [exact HI|]. split; [exact P|]. split; [exact EE | apply (sim_trans _ _ _ _ SD S)].
Qed.
(** At every moment, inside calls too, two blocks the program holds share no byte. *)
Theorem C68_blocks_disjoint c H1 a n H2 b k H3 : reach B c -> mine c = H1 ++ (a, n) :: H2 ++ (b, k) :: H3 -> off a n b k.
Proof.
  intros R E. apply reach_K in R. assert (X : exists s L, hist rm s L /\ Permutation (shapes L) (all (mine c) (ths c))).
  { unfold K in R. destruct (lock c); [destruct R as (_ & _ & _ & s0 & L & _ & _ & _ & HI & P & _) | destruct R as (_ & s0 & L & HI & P & _)]; eauto. }
  destruct X as (s & L & HI & P). apply (hist_disjoint rm s L a n b k HI). exists (H1 ++ H2 ++ H3 ++ flat_map pend (ths c)).
  rewrite (Permutation_count_occ pair_dec) in *. intros x. rewrite (P x), E. unfold all.
  change ((a, n) :: H2 ++ (b, k) :: H3) with ([(a, n)] ++ H2 ++ [(b, k)] ++ H3). change ((a, n) :: (b, k) :: H1 ++ H2 ++ H3 ++ flat_map pend (ths c)) with ([(a, n)] ++ [(b, k)] ++ H1 ++ H2 ++ H3 ++ flat_map pend (ths c)).
  rewrite !count_occ_app. lia.
Qed.
(** A block the program holds shares no byte with one that another call is giving up or bringing. *)
Theorem C68_pending_disjoint c H1 a n H2 i p b k : reach B c -> mine c = H1 ++ (a, n) :: H2 -> nth_error (ths c) i = Some p -> In (b, k) (pend p) -> off a n b k.
Proof.
  intros R E EI IP. apply reach_K in R. assert (X : exists s L, hist rm s L /\ Permutation (shapes L) (all (mine c) (ths c))).
  { unfold K in R. destruct (lock c); [destruct R as (_ & _ & _ & s0 & L & _ & _ & _ & HI & P & _) | destruct R as (_ & s0 & L & HI & P & _)]; eauto. }
  destruct X as (s & L & HI & P). destruct (nth_error_split _ _ EI) as (T1 & T2 & ET & _). apply in_split in IP. destruct IP as (Q1 & Q2 & EQ).
  apply (hist_disjoint rm s L a n b k HI). exists (H1 ++ H2 ++ flat_map pend T1 ++ Q1 ++ Q2 ++ flat_map pend T2).
  rewrite (Permutation_count_occ pair_dec) in *. intros x. rewrite (P x), E, ET. unfold all. rewrite flat_map_app. cbn [flat_map]. rewrite EQ.
  change ((a, n) :: H2) with ([(a, n)] ++ H2). change ((b, k) :: Q2) with ([(b, k)] ++ Q2).
  match goal with |- cnt _ x = cnt ((a, n) :: (b, k) :: ?z) x => change ((a, n) :: (b, k) :: z) with ([(a, n)] ++ [(b, k)] ++ z) end. rewrite !count_occ_app. lia.
Qed.
(** No step but a store of the program changes a word of a block the program holds: whatever the callers do, it reads what it last
    stored there. *)
Theorem C68_contents c c' y : reach B c -> step B c c' -> heldw (mine c) y ->
  mem (heap c') y = mem (heap c) y \/ exists w, heap c' = store (heap c) y w /\ ths c' = ths c.
Proof.
  intros R ST HW. apply reach_K in R. destruct ST as [s k H T i n E | s k H1 b H2 T i E | s H T i o E | s H T i o E | s k H T i o E | s k H T i o l s' l' E EF M | s k H T i o l r E EF | s k H T i o r E | s k H T z w HZ];
    cbn [mine heap ths] in *; try (now left).
  - left. pose proof (K_inside _ _ _ _ _ _ _ R E) as ->. destruct R as (j & o1 & l1 & s0 & L & s1 & E1 & U & HI & P & R & S). cbn [ths mine heap] in *. pose proof (U _ _ E Logic.I) as ->. rewrite E in E1. injection E1 as <- <-.
    destruct (perm_own H T j o l E) as (R0 & P0 & HR). pose proof (Permutation_trans P P0) as P1. destruct (b_ext _ _ SB _ _ _ _ _ _ _ _ _ HI P1 R S M) as (s2 & M2 & S2).
    pose proof (HR _ HW) as HWR. rewrite (same_mem _ _ _ S2), (same_mem _ _ _ S). rewrite (b_keep _ _ SB _ _ _ _ _ _ _ HI P1 (runs_snoc _ _ _ _ _ _ _ R M2) HWR). symmetry. apply (b_keep _ _ SB _ _ _ _ _ _ _ HI P1 R HWR).
  - destruct (N.eq_dec z y) as [-> | NE]; [right; eauto|]. left. cbn [store set_mem mem]. apply wr_other. auto.
Qed.
End Inv.

(** ** Calls of [DlModel] with other values in the program's blocks *)
Lemma effect_sim rm s L o R (Y : N -> Prop) t s' r : hist rm s L -> Permutation (shapes L) (own o ++ R) -> (forall x, Y x -> held L x) -> sim Y s t ->
  effect rm o s s' r -> exists t', effect rm o t t' r /\ sim Y s' t'.
Proof.
  intros H P HY S E. pose proof (sim_fields _ _ _ S) as (_ & _ & _ & _ & _ & _ & _ & _ & _ & _ & _). assert (PG : pg t = pg s) by (destruct S as (-> & _); reflexivity).
  destruct o as [n|b]; cbn [effect own] in *.
  - destruct E as (v & mm & V & FR & E). destruct (C68_malloc_blind _ _ _ _ _ _ _ _ _ _ H HY S V FR E) as (V' & t' & E' & S'). exists t'. split; [|exact S']. exists v, mm. rewrite PG. auto.
  - destruct E as (-> & mr & MR & E). assert (I : In b (shapes L)) by (apply Permutation_sym in P; apply (Permutation_in _ P); now left).
    apply in_map_iff in I. destruct I as (x & <- & I). cbn [fst] in E |- *. destruct (C68_free_blind _ _ _ _ _ _ _ _ H HY I S E) as (t' & E' & S'). exists t'. split; [|exact S']. eauto.
Qed.
Lemma same_answer s t nb v : same s t -> tree_answer t nb v -> tree_answer s nb v.
Proof.
  intros S. pose proof (same_mem _ _ (match v with Some a => a + 8 | None => 0 end) S) as M. assert (T : tb t = tb s) by (destruct S as (-> & _); reflexivity).
  destruct v as [a|]; cbn [tree_answer]; rewrite T; [|auto]. unfold chunksize, head. rewrite M. auto.
Qed.
Lemma effect_ext rm s L o R t t' r : hist rm s L -> Permutation (shapes L) (own o ++ R) -> same s t -> effect rm o t t' r -> exists s', effect rm o s s' r /\ same s' t'.
Proof.
  intros H P S E. assert (PG : pg t = pg s) by (destruct S as (-> & _); reflexivity). destruct (hist_inv _ _ _ H) as (G & D & Q). pose proof (q_inv _ _ _ _ _ Q) as I.
  assert (HY : forall x : N, False -> exists a r, blk G D a r /\ a <= x /\ x < a + r) by (intros x []).
  destruct o as [n|b]; cbn [effect own] in *.
  - destruct E as (v & mm & V & FR & E). rewrite PG in FR. pose proof (same_answer _ _ _ _ S V) as V'. pose proof (heap_malloc _ s G D I HY t n v mm S V' FR) as K. rewrite E in K.
    destruct (malloc s n v mm) as [[s' r']| |] eqn:E'; cbn [osim] in K; try contradiction. destruct K as (K & ->). exists s'. split; [|exact K]. exists v, mm. auto.
  - destruct E as (-> & mr & MR & E). assert (IB : In b (shapes L)) by (apply Permutation_sym in P; apply (Permutation_in _ P); now left).
    apply in_map_iff in IB. destruct IB as (x & <- & IB). cbn [fst] in E |- *. pose proof (in_map addr _ _ IB) as IA. apply (q_live _ _ _ _ _ Q) in IA. destruct IA as (q & B).
    pose proof (heap_free _ s G D I HY t _ _ mr S B) as K. rewrite E in K. destruct (mspace_free s (addr x) mr) as [s'| |] eqn:E'; cbn [osim1] in K; try contradiction.
    exists s'. split; [|exact K]. eauto.
Qed.
Lemma effect_keep rm s L o R s' r y : hist rm s L -> Permutation (shapes L) (own o ++ R) -> effect rm o s s' r -> heldw R y -> mem s' y = mem s y.
Proof.
  intros H P E (a & n & IR & Y1 & Y2). destruct (hist_inv _ _ _ H) as (G & D & Q). pose proof (q_inv _ _ _ _ _ Q) as I.
  assert (IA : In (a, n) (shapes L)) by (apply Permutation_sym in P; apply (Permutation_in _ P), in_or_app; now right).
  apply in_map_iff in IA. destruct IA as (x & EX & IX). injection EX as <- <-. pose proof (in_map addr _ _ IX) as IA. apply (q_live _ _ _ _ _ Q) in IA. destruct IA as (q & B).
  pose proof (q_size _ _ _ _ _ Q _ _ IX B) as SZ. destruct o as [k|b]; cbn [effect own] in *.
  - destruct E as (v & mm & V & FR & E). destruct (malloc_ok s G D k v mm I V FR) as [(s1 & a1 & E1 & GT) | [(E1 & _) | (E1 & _)]]; rewrite E in E1; try discriminate.
    + injection E1 as <- _. destruct GT as (G' & D' & r' & _ & _ & _ & _ & KP & _). apply (KP (addr x) q); auto. lia.
    + injection E1 as -> _. reflexivity.
  - destruct E as (-> & mr & MR & E). assert (IB : In b (shapes L)) by (apply Permutation_sym in P; apply (Permutation_in _ P); now left).
    assert (NE : addr x <> fst b).
    { pose proof (Permutation_map fst P) as P'. assert (ND : NoDup (map fst (shapes L))) by (unfold shapes; rewrite map_map; exact (q_nodup _ _ _ _ _ Q)).
      apply (Permutation_NoDup P') in ND. cbn [app map] in ND. inversion ND as [|? ? N1 _]; subst. intros EQ. apply N1. rewrite <- EQ. apply (in_map fst _ _ IR). }
    apply in_map_iff in IB. destruct IB as (z & <- & IB). cbn [fst] in *. pose proof (in_map addr _ _ IB) as IA. apply (q_live _ _ _ _ _ Q) in IA. destruct IA as (q' & B').
    destruct (mspace_free_ok mr s G D (addr z) q' I B') as (s1 & G' & D' & E1 & U). rewrite E in E1. injection E1 as <-. destruct U as (_ & _ & KP & _). apply (KP (addr x) q); auto. lia.
Qed.

(** ** A call as one step *)
Lemma whole_run rm o s l s' : runs (whole rm) (inl o) s l s' -> (l = inl o /\ s' = s) \/ exists r, l = inr r /\ effect rm o s s' r.
Proof.
  remember (inl o) as l0 eqn:E0. intros R. induction R as [l s | l s l1 s1 l2 s2 R IH M]; [left; auto|]. specialize (IH E0).
  destruct IH as [(E1 & ->) | (r & -> & _)]; [rewrite E1, E0 in M | destruct M]. right. change (loc (whole rm)) with (op + option N)%type in l2. cbn [whole micro] in M. destruct l2 as [|r]; [exact (False_ind _ M)|]. eauto.
Qed.
Theorem C68_whole_sound rm : sound rm (whole rm).
Proof.
  constructor.
  - reflexivity.
  - intros s L o R l s' r _ _ RR EF. apply whole_run in RR. destruct RR as [(-> & ->) | (r' & -> & E)]; [discriminate|]. cbn [whole fin] in EF. injection EF as <-. exists s'. split; [exact E | apply same_refl].
  - intros s L o R l s' y H P RR HW. apply whole_run in RR. destruct RR as [(-> & ->) | (r' & -> & E)]; [reflexivity|]. apply (effect_keep _ _ _ _ _ _ _ _ H P E HW).
  - intros s L o R l s' y w H P RR HW. pose proof (heldw_held _ _ _ _ P HW) as HL. apply whole_run in RR. destruct RR as [(-> & ->) | (r' & -> & E)].
    + exists (store s y w). split; [apply (runs_nil (whole rm))|]. now apply store_sim.
    + destruct (effect_sim rm s L o R (eq y) (store s y w) s' r' H P) as (t & E' & S'); [intros x <-; exact HL | now apply store_sim | exact E|].
      exists t. split; [|exact S']. eapply runs_snoc; [apply (runs_nil (whole rm))|]. exact E'.
  - intros s L o R l s1 t1 l2 t2 H P RR S M. apply whole_run in RR. destruct RR as [(-> & ->) | (r' & -> & E)]; [|destruct M]. change (loc (whole rm)) with (op + option N)%type in l2. cbn [whole micro] in M |- *. destruct l2 as [|r]; [exact (False_ind _ M)|].
    apply (effect_ext _ _ _ _ _ _ _ _ H P S M).
Qed.

(** ** A call whose words reach memory one by one *)
(** What a heap is apart from its memory. *)
Definition rest (s : ms) : ms := set_mem s (fun _ => 0).
(** [ws] lists the words in which memory changes, with their new values. *)
Definition changes (m m' : N -> N) (ws : list (N * N)) : Prop := forall x v, In (x, v) ws <-> m' x <> m x /\ v = m' x.
(** A call reads what it reads, then writes the words that change in any order, and at some moment its answer to top, dv, the bins,
    the segments and the pages (malloc.c:5639-5842 mixes the reads and the writes). *)
Definition torn : Type := list (N * N) * option ms * option N.
Inductive piece (mremap : bool) : op + torn -> ms -> op + torn -> ms -> Prop :=
| p_plan o s s' ws r : effect mremap o s s' r -> changes (mem s) (mem s') ws -> piece mremap (inl o) s (inr (ws, Some (rest s'), r)) s
| p_write a x v b f r s : piece mremap (inr (a ++ (x, v) :: b, f, r)) s (inr (a ++ b, f, r)) (store s x v)
| p_rest ws f r s : piece mremap (inr (ws, Some f, r)) s (inr (ws, None, r)) (set_mem f (mem s)).
Definition pieces (mremap : bool) : body :=
  mkbody (op + torn) inl (piece mremap) (fun l => match l with inr ([], None, r) => Some r | _ => None end).
(** a heap in the middle of a call *)
Definition midway (rm : bool) (o : op) (s : ms) (l : op + torn) (s' : ms) : Prop :=
  (l = inl o /\ s' = s) \/
  exists ws f r s1, l = inr (ws, f, r) /\ effect rm o s s1 r /\ (forall x v, In (x, v) ws -> mem s1 x <> mem s x /\ v = mem s1 x) /\
    (forall x, mem s' x = mem s1 x \/ (mem s' x = mem s x /\ In (x, mem s1 x) ws)) /\ match f with Some f => f = rest s1 /\ rest s' = rest s | None => rest s' = rest s1 end.
Lemma rest_same s t : rest s = rest t -> (forall x, mem t x = mem s x) -> same s t.
Proof.
  intros E F. split; [|intros x _; apply F]. assert (T : t = set_mem (rest t) (mem t)) by (destruct t; reflexivity). rewrite T, <- E. reflexivity.
Qed.
Lemma sim_rest Y s t : sim Y s t -> rest t = rest s.
Proof. intros (E & _). rewrite E. reflexivity. Qed.
Lemma set_rest Y f s t : sim Y s t -> sim Y (set_mem f (mem s)) (set_mem f (mem t)).
Proof. intros (_ & F). split; [reflexivity | exact F]. Qed.
Lemma pieces_run rm o s l s' : runs (pieces rm) (inl o) s l s' -> midway rm o s l s'.
Proof.
  remember (inl o) as l0 eqn:E0. intros R. induction R as [l s | l s l1 s1 l2 s2 R IH M]; [left; auto|]. specialize (IH E0). right. cbn [pieces micro] in M.
  destruct IH as [(E1 & ->) | (ws & f & r & s0 & -> & EF & W1 & W2 & W3)].
  - rewrite E1 in M. inversion M; subst. exists ws, (Some (rest s')), r, s'. split; [reflexivity|]. split; [assumption|]. split; [intros x v I; now apply H1|].
    split; [|auto]. intros x. destruct (N.eq_dec (mem s' x) (mem s2 x)) as [EQ | NE]; [left; congruence|]. right. split; [reflexivity|]. apply H1. auto.
  - inversion M; subst.
    + exists (a ++ b), f, r, s0. split; [reflexivity|]. split; [exact EF|]. split; [intros z u I; apply W1; apply in_app_or in I; apply in_or_app; destruct I; [now left | right; now right]|]. split.
      * intros z. cbn [store set_mem mem]. unfold wr_. destruct (z =? x) eqn:EZ.
        -- apply N.eqb_eq in EZ. subst z. left. destruct (W1 x v (in_elt _ _ _)) as (_ & ->). reflexivity.
        -- apply N.eqb_neq in EZ. destruct (W2 z) as [W | (W & I)]; [now left|]. right. split; [exact W|]. apply in_app_or in I. apply in_or_app. destruct I as [I | [I | I]]; [now left | congruence | now right].
      * exact W3.
    + exists ws, None, r, s0. split; [reflexivity|]. split; [exact EF|]. split; [exact W1|]. split; [exact W2|]. destruct W3 as (-> & _). reflexivity.
Qed.
Lemma changes_mem m m' k k' ws : (forall x, m' x <> m x /\ k' x <> k x /\ m' x = k' x \/ m' x = m x /\ k' x = k x) -> changes m m' ws -> changes k k' ws.
Proof.
  intros F C x v. rewrite (C x v). destruct (F x) as [(A1 & A2 & A3) | (A1 & A2)]; [rewrite A3 in A1 |- *; tauto | tauto].
Qed.
Theorem C68_pieces_sound rm : sound rm (pieces rm).
Proof.
  constructor.
  - reflexivity.
  - intros s L o R l s' r _ _ RR EF. apply pieces_run in RR. destruct RR as [(-> & ->) | (ws & f & r' & s1 & -> & E & W1 & W2 & W3)]; [discriminate|].
    cbn [pieces fin] in EF. destruct ws; [|discriminate]. destruct f; [discriminate|]. injection EF as <-. exists s1. split; [exact E|].
    apply rest_same; [congruence|]. intros x. destruct (W2 x) as [H | (_ & [])]. exact H.
  - intros s L o R l s' y H P RR HW. apply pieces_run in RR. destruct RR as [(-> & ->) | (ws & f & r' & s1 & -> & E & W1 & W2 & W3)]; [reflexivity|].
    pose proof (effect_keep _ _ _ _ _ _ _ _ H P E HW). destruct (W2 y) as [-> | (-> & _)]; congruence.
  - intros s L o R l s' y w H P RR HW. pose proof (heldw_held _ _ _ _ P HW) as HL.
    assert (HS : exists L', hist rm (store s y w) L' /\ shapes L' = shapes L).
    { apply (hist_store rm s L (own o ++ R) y w H P). destruct HW as (a & n & I & Y). exists a, n. split; [apply in_or_app; now right | exact Y]. }
    destruct HS as (L' & H' & EL). remember (start (pieces rm) o) as l0 eqn:E0. induction RR as [l s | l s l1 s1 l2 s2 RR IH M].
    + exists (store s y w). split; [apply runs_nil|]. now apply store_sim.
    + destruct (IH H E0 H') as (t1 & RT & ST). clear IH. rewrite E0 in RR, RT. pose proof (pieces_run _ _ _ _ _ RR) as MW. pose proof (pieces_run _ _ _ _ _ RT) as MT.
      rewrite <- E0 in RT. cbn [pieces micro] in M. inversion M; subst.
      * destruct MW as [(E1 & ->) | (ws' & f & r' & s9 & E1 & _)]; [|discriminate]. injection E1 as ->. destruct MT as [(_ & ->) | (ws' & f & r' & s9 & E1 & _)]; [|discriminate].
        destruct (effect_sim rm s L o R (eq y) (store s y w) s' r H P) as (t & E' & S'); [intros x <-; exact HL | now apply store_sim | assumption|].
        exists (store s y w). split; [|exact ST]. eapply runs_snoc; [exact RT|]. rewrite <- (sim_rest _ _ _ S'). apply p_plan with (s' := t); [exact E'|].
        refine (changes_mem _ _ _ _ _ _ H1). intros x. destruct (N.eq_dec x y) as [-> | NE].
        -- right. split; [apply (effect_keep _ _ _ _ _ _ _ _ H P H0 HW)|]. rewrite <- EL in P. apply (effect_keep _ _ _ _ _ _ _ _ H' P E' HW).
        -- destruct S' as (_ & F). rewrite (F x) by auto. cbn [store set_mem mem]. rewrite wr_other by exact NE. destruct (N.eq_dec (mem s' x) (mem s x)); auto.
      * exists (store t1 x v). split; [eapply runs_snoc; [exact RT | apply p_write]|]. apply sim_wr, ST.
      * exists (set_mem f (mem t1)). split; [eapply runs_snoc; [exact RT | apply p_rest]|]. apply set_rest, ST.
  - intros s L o R l s1 t1 l2 t2 H P RR S M. apply pieces_run in RR. cbn [pieces micro] in *. inversion M; subst.
    + destruct RR as [(E1 & ->) | (ws' & f & r' & s9 & E1 & _)]; [|discriminate]. injection E1 as ->. destruct (effect_ext _ _ _ _ _ _ _ _ H P S H0) as (s2 & E' & S').
      exists s. split; [|exact S]. rewrite (sim_rest _ _ _ S'). apply p_plan with (s' := s2); [exact E'|]. refine (changes_mem _ _ _ _ _ _ H1). intros x.
      rewrite (same_mem _ _ x S), (same_mem _ _ x S'). destruct (N.eq_dec (mem s2 x) (mem s x)); auto.
    + exists (store s1 x v). split; [apply p_write | apply same_store, S].
    + exists (set_mem f (mem s1)). split; [apply p_rest | apply set_rest, S].
Qed.

(** ** What the theorems say of a call in pieces *)
Theorem C68_contents_pieces rm c c' y : reach (pieces rm) c -> step (pieces rm) c c' -> heldw (mine c) y ->
  mem (heap c') y = mem (heap c) y \/ exists w, heap c' = store (heap c) y w /\ ths c' = ths c.
Proof. apply C68_contents with (rm := rm), C68_pieces_sound. Qed.
Theorem C68_disjoint_pieces rm c H1 a n H2 b k H3 : reach (pieces rm) c -> mine c = H1 ++ (a, n) :: H2 ++ (b, k) :: H3 -> off a n b k.
Proof. apply C68_blocks_disjoint with (rm := rm), C68_pieces_sound. Qed.
Theorem C68_serial_pieces rm c : reach (pieces rm) c -> lock c = false ->
  exists s L, hist rm s L /\ same s (heap c) /\ Permutation (shapes L) (mine c ++ flat_map (pend (pieces rm)) (ths c)).
Proof. apply C68_serial, C68_pieces_sound. Qed.

(** ** A concrete case *)
Lemma changes_two m x1 v1 x2 v2 : x1 <> x2 -> m x1 <> v1 -> m x2 <> v2 -> changes m (wr_ (wr_ m x1 v1) x2 v2) [(x1, v1); (x2, v2)].
Proof.
  intros N1 N2 N3 x v. unfold wr_. split.
  - intros [E | [E | []]]; injection E as <- <-; rewrite ?N.eqb_refl; [|auto]. replace (x1 =? x2) with false by (symmetry; now apply N.eqb_neq). auto.
  - intros (H1 & H2). destruct (x =? x2) eqn:E2; [apply N.eqb_eq in E2; subst; right; now left|]. destruct (x =? x1) eqn:E1; [apply N.eqb_eq in E1; subst; now left | congruence].
Qed.
Definition at_ (rm : bool) (o : op) (l : op + torn) : pc (pieces rm) := @Inside (pieces rm) o l.
Lemma put_put {A} (T : list A) i x y : put (put T i x) i y = put T i y.
Proof. revert i. induction T as [|h T IH]; intros [|i]; cbn; try reflexivity. now rewrite IH. Qed.
(** a call of arch_alloc_allocate up to its plan, and the rest of it, when it writes two words *)
Lemma call_plan rm s H T i n v s' a x1 v1 x2 v2 : reach (pieces rm) (mkc s false H T) -> nth_error T i = Some Idle -> tree_answer s (padded n) v ->
  malloc s n v (fun _ => None) = Ok (s', Some a) -> mem s' = wr_ (wr_ (mem s) x1 v1) x2 v2 -> x1 <> x2 -> mem s x1 <> v1 -> mem s x2 <> v2 ->
  reach (pieces rm) (mkc s true H (put T i (at_ rm (Malloc n) (inr ([(x1, v1); (x2, v2)], Some (rest s'), Some a))))).
Proof.
  intros R E V M EM N1 N2 N3. assert (LT : (i < length T)%nat) by (apply nth_error_Some; congruence).
  rewrite <- (put_put T i (Try (Malloc n))), <- (put_put (put T i (Try (Malloc n))) i (at_ rm (Malloc n) (inl (Malloc n)))).
  eapply r_step; [eapply r_step; [eapply r_step; [exact R | apply (s_malloc (pieces rm) s false H T i n E)]|]|].
  - apply (s_lock (pieces rm)). apply nth_error_upd_eq. exact LT.
  - apply (s_micro (pieces rm)) with (l := inl (Malloc n)); [apply nth_error_upd_eq; rewrite upd_length; exact LT | reflexivity|]. apply p_plan.
    + exists v, (fun _ => None). split; [exact V|]. split; [discriminate | exact M].
    + rewrite EM. now apply changes_two.
Qed.
(** one step of a call *)
Lemma call_piece rm s k H T i o l s' l' : reach (pieces rm) (mkc s k H T) -> nth_error T i = Some (at_ rm o l) -> fin (pieces rm) l = None -> piece rm l s l' s' ->
  reach (pieces rm) (mkc s' k H (put T i (at_ rm o l'))).
Proof. intros R E F M. eapply r_step; [exact R|]. apply (s_micro (pieces rm)) with (l := l); assumption. Qed.
Lemma call_end rm s k H T i o r : reach (pieces rm) (mkc s k H T) -> nth_error T i = Some (at_ rm o (inr ([], None, r))) ->
  reach (pieces rm) (mkc s false (answer_block o r ++ H) (put T i Idle)).
Proof.
  intros R E. assert (LT : (i < length T)%nat) by (apply nth_error_Some; congruence). rewrite <- (put_put T i (Back o r)).
  eapply r_step; [eapply r_step; [exact R|]|].
  - apply (s_unlock (pieces rm)) with (l := inr ([], None, r)); [exact E | reflexivity].
  - apply (s_return (pieces rm)). apply nth_error_upd_eq. exact LT.
Qed.
Lemma rest_mem s m : m = mem s -> set_mem (rest s) m = s.
Proof. intros ->. destruct s. reflexivity. Qed.
Definition ex0 : ms := create (fun _ => 0) 65536 65536.
Definition ex1 : ms := match malloc ex0 100 None (fun _ => None) with Ok (s, _) => s | _ => ex0 end.
Definition ex2 : ms := match malloc ex1 200 None (fun _ => None) with Ok (s, _) => s | _ => ex0 end.
Lemma ex1_call : malloc ex0 100 None (fun _ => None) = Ok (ex1, Some 66496).
Proof. vm_compute. reflexivity. Qed.
Lemma ex2_call : malloc ex1 200 None (fun _ => None) = Ok (ex2, Some 66608).
Proof. vm_compute. reflexivity. Qed.
Lemma ex1_mem : mem ex1 = wr_ (wr_ (mem ex0) 66600 64401) 66488 115.
Proof. vm_compute. reflexivity. Qed.
Lemma ex2_mem : mem ex2 = wr_ (wr_ (mem ex1) 66808 64193) 66600 211.
Proof. vm_compute. reflexivity. Qed.
(** The first thread has a block and is in the middle of a second call: the head of its chunk is written, the new head of top is not,
    and top is where it was.  The second thread spins.  Meanwhile the program has stored 77 in the block it has. *)
Definition ex_mid (c : conf (pieces false)) : Prop :=
  lock c = true /\ mine c = [(66496, 100)] /\ mem (heap c) 66512 = 77 /\ mem (heap c) 66600 = 211 /\ mem (heap c) 66808 = 0 /\ top (heap c) = 66592 /\
  ths c = [at_ false (Malloc 200) (inr ([(66808, 64193)], Some (rest ex2), Some 66608)); Spin (Malloc 50)].
Lemma ex_first : reach (pieces false) (mkc ex1 false [(66496, 100)] [Idle; Idle]).
Proof.
  assert (R0 : reach (pieces false) (mkc ex0 false [] (repeat Idle 2))) by (apply r_start; unfold W; lia).
  pose proof (call_plan false ex0 [] (repeat Idle 2) 0%nat 100 None ex1 66496 66600 64401 66488 115 R0 eq_refl) as R1.
  assert (V : tree_answer ex0 (padded 100) None) by (intros _; vm_compute; reflexivity). specialize (R1 V ex1_call ex1_mem). assert (R2 := R1 ltac:(lia) ltac:(vm_compute; discriminate) ltac:(vm_compute; discriminate)). clear R1.
  pose proof (call_piece false _ _ _ _ 0%nat (Malloc 100) _ _ _ R2 eq_refl eq_refl (p_write false [] 66600 64401 [(66488, 115)] _ _ _)) as R3.
  pose proof (call_piece false _ _ _ _ 0%nat (Malloc 100) _ _ _ R3 eq_refl eq_refl (p_write false [] 66488 115 [] _ _ _)) as R4.
  pose proof (call_piece false _ _ _ _ 0%nat (Malloc 100) _ _ _ R4 eq_refl eq_refl (p_rest false _ _ _ _)) as R5.
  pose proof (call_end false _ _ _ _ 0%nat (Malloc 100) (Some 66496) R5 eq_refl) as R6.
  rewrite rest_mem in R6 by (rewrite ex1_mem; reflexivity). exact R6.
Qed.
Example C68_case : exists c, reach (pieces false) c /\ ex_mid c.
Proof.
  pose proof (call_plan false ex1 [(66496, 100)] [Idle; Idle] 0%nat 200 None ex2 66608 66808 64193 66600 211 ex_first eq_refl) as R1.
  assert (V : tree_answer ex1 (padded 200) None) by (intros _; vm_compute; reflexivity). specialize (R1 V ex2_call ex2_mem). assert (R2 := R1 ltac:(lia) ltac:(vm_compute; discriminate) ltac:(vm_compute; discriminate)). clear R1.
  pose proof (call_piece false _ _ _ _ 0%nat (Malloc 200) _ _ _ R2 eq_refl eq_refl (p_write false [(66808, 64193)] 66600 211 [] _ _ _)) as R.
  cbn [put app] in R. set (T := [at_ _ _ _; _]) in R.
  assert (R3 := r_step _ _ _ R (s_malloc (pieces false) _ _ _ T 1%nat 50 eq_refl)). assert (R4 := r_step _ _ _ R3 (s_fail (pieces false) _ _ (put T 1 (Try (Malloc 50))) 1%nat (Malloc 50) eq_refl)).
  assert (HW : heldw [(66496, 100)] 66512) by (exists 66496, 100; split; [now left | lia]).
  assert (R5 := r_step _ _ _ R4 (s_store (pieces false) _ _ _ _ 66512 77 HW)). eexists. split; [exact R5|].
  split; [reflexivity|]. split; [reflexivity|]. split; [reflexivity|]. split; [vm_compute; reflexivity|]. split; [vm_compute; reflexivity|]. split; [vm_compute; reflexivity|]. reflexivity.
Qed.
