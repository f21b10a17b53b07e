(** Several threads or processes registering the same procedure: property C56.

    Code modelled
    - [src/arch/shm/impl.c:384-398]      arax_proc_register (look up, then create, without a lock around both)
    - [src/core/arax_pipe.c:219-236]     arax_pipe_find_proc (under the list lock: one step)
    - [src/core/arax_proc.c:4-14]        arax_proc_init
    - [src/core/arax_object.c:98-126]    arax_object_register: insert into the registry, then zero the object
    - [src/core/arax_proc.c:16-40]       arax_proc_set_functor, arax_proc_can_run_at (canrun is updated by load and store)

    One name; procedures of other names are not affected by any of this.  Allocation succeeds and nobody releases the
    procedure (that is [ObjConc]).  A kernel is a number, types are numbers. *)
From Verif Require Import Base Sums.
Local Open Scope nat_scope.
Arguments Nat.eqb : simpl never.

(** include/core/arax_proc.h: arax_proc_s: [fn] functors, [can] the bits of canrun *)
Record obj := mkobj { fn : nat -> option nat; can : nat -> bool }.
(** What memset leaves, arax_object.c:119-122. *)
Definition zero : obj := mkobj (fun _ => None) (fun _ => false).

(** Where a thread is: between calls; impl.c:390, 393; arax_object.c:119; arax_proc.c:26, 28 (load, store). *)
Inductive tpc := TOut | TReg | TNew | TZero (o : nat) | TFn (o ty f : nat) | TLoad (o ty : nat) | TStore (o ty : nat) (v : nat -> bool).
(** [got]: what its last arax_proc_register returned. *)
Record thr := mkthr { pc : tpc; got : option nat }.

(** [reg]: the registered procedures of that name, newest first; [objs]: their contents. *)
Record st := mkst { objs : list obj; reg : list nat; th : list thr }.

(** Nothing registered yet. *)
Definition start (n : nat) : st := mkst [] [] (repeat (mkthr TOut None) n).

(** What a thread does next: call arax_proc_register, call arax_proc_set_functor on what that returned, go on. *)
Inductive act := Reg | SetFn (ty f : nat) | Go.

(** One thread moves; no code of its own. *)
Definition mv (s : st) (i : nat) (t : thr) : st := mkst (objs s) (reg s) (upd (th s) i t).
(** and changes procedure [o] *)
Definition mvo (s : st) (o : nat) (x : obj) (i : nat) (t : thr) : st := mkst (upd (objs s) o x) (reg s) (upd (th s) i t).

(** One step of thread [fst a]; memory handed out by the allocator has unknown contents [junk]. *)
Definition step (junk : obj) (s : st) (a : nat * act) : st :=
  let '(i, x) := a in
  match nth_error (th s) i with
  | None => s
  | Some t =>
    match x, pc t with
    | Reg, TOut => mv s i (mkthr TReg (got t))
    (* impl.c:390-394; arax_pipe.c:225-231 returns the first of that name *)
    | Go, TReg => match reg s with o :: _ => mv s i (mkthr TOut (Some o)) | [] => mv s i (mkthr TNew (got t)) end
    (* arax_object.c:103-117 *)
    | Go, TNew => mkst (objs s ++ [junk]) (length (objs s) :: reg s) (upd (th s) i (mkthr (TZero (length (objs s))) (got t)))
    (* arax_object.c:119-124 *)
    | Go, TZero o => mvo s o zero i (mkthr TOut (Some o))
    | SetFn ty f, TOut => match got t with Some o => mv s i (mkthr (TFn o ty f) (got t)) | None => s end
    (* arax_proc.c:26 *)
    | Go, TFn o ty f => match nth_error (objs s) o with
                        | Some p => mvo s o (mkobj (fupd (fn p) ty (Some f)) (can p)) i (mkthr (TLoad o ty) (got t))
                        | None => s
                        end
    (* arax_proc.c:28 *)
    | Go, TLoad o ty => match nth_error (objs s) o with
                        | Some p => mv s i (mkthr (TStore o ty (can p)) (got t))
                        | None => s
                        end
    | Go, TStore o ty v => match nth_error (objs s) o with
                           | Some p => mvo s o (mkobj (fn p) (fupd v ty true)) i (mkthr TOut (got t))
                           | None => s
                           end
    | _, _ => s
    end
  end.
(** Any interleaving, no code of its own. *)
Definition run (junk : obj) (s : st) (l : list (nat * act)) : st := fold_left (step junk) l s.

(** ** Specification *)

(** No registration is creating the procedure. *)
Definition settled (s : st) : Prop := forall i t, nth_error (th s) i = Some t -> match pc t with TNew | TZero _ => False | _ => True end.
(** No thread is inside arax_proc_set_functor. *)
Definition no_set (s : st) : Prop := forall i t, nth_error (th s) i = Some t -> match pc t with TFn _ _ _ | TLoad _ _ | TStore _ _ _ => False | _ => True end.
(** Kernel [f] is set for type [ty] of procedure [o], and arax_proc_can_run_at says so. *)
Definition runs (s : st) (o ty f : nat) : Prop := exists p, nth_error (objs s) o = Some p /\ fn p ty = Some f /\ can p ty = true.
(** No new kernel is set for type [ty]. *)
Definition ty_kept (ty : nat) (l : list (nat * act)) : Prop := forall i f, ~ In (i, SetFn ty f) l.

(** ** Proofs *)

(** Once procedure [o] is registered and settled. *)
Record fixed (o : nat) (s : st) : Prop := mkfixed {
  x1 : exists r, reg s = o :: r;
  x2 : settled s }.

Lemma fixed_step junk o s a : fixed o s -> fixed o (step junk s a) /\ reg (step junk s a) = reg s.
Proof.
  intros [(r & R) ST]. destruct a as [i x]. unfold step. destruct (nth_error (th s) i) as [t|] eqn:E; [|split; [constructor; eauto|reflexivity]].
  assert (KEEP : forall s' t', th s' = upd (th s) i t' -> reg s' = reg s -> match pc t' with TNew | TZero _ => False | _ => True end -> fixed o s' /\ reg s' = reg s).
  { intros s' t' T R' P. split; [|assumption]. constructor; [exists r; congruence|]. intros j u N. rewrite T in N. apply nth_upd_cases in N.
    destruct N as [(-> & -> & _)|(NE & N)]; [assumption|]. now apply (ST j). }
  pose proof (ST i t E) as P.
  destruct x, (pc t) eqn:PC; try (split; [constructor; eauto|reflexivity]; fail); try (exfalso; exact P; fail);
    try (eapply KEEP; cbn; [reflexivity|reflexivity|exact Logic.I]).
  - destruct (got t); [|split; [constructor; eauto|reflexivity]]. eapply KEEP; cbn; [reflexivity|reflexivity|exact Logic.I].
  - rewrite R. destruct (KEEP (mv s i (mkthr TOut (Some o))) (mkthr TOut (Some o)) eq_refl eq_refl Logic.I) as [K1 K2].
    split; [exact K1|]. rewrite K2. exact R.
  - destruct (nth_error (objs s) o0); [|split; [constructor; eauto|reflexivity]]. eapply KEEP; cbn; [reflexivity|reflexivity|exact Logic.I].
  - destruct (nth_error (objs s) o0); [|split; [constructor; eauto|reflexivity]]. eapply KEEP; cbn; [reflexivity|reflexivity|exact Logic.I].
  - destruct (nth_error (objs s) o0); [|split; [constructor; eauto|reflexivity]]. eapply KEEP; cbn; [reflexivity|reflexivity|exact Logic.I].
Qed.

Lemma fixed_run junk o l : forall s, fixed o s -> fixed o (run junk s l).
Proof. induction l as [|a l IH]; intros s F; cbn; [assumption|]. apply IH. now apply fixed_step. Qed.

(** ** C56 *)

(** Once the name is registered, with no registration in the middle of creating it: every registration that completes
    from then on, by any thread in any interleaving, returns that procedure. *)
Theorem C56_same_partial : forall junk s o r l i t,
  reg s = o :: r -> settled s -> nth_error (th (run junk s l)) i = Some t -> pc t = TReg ->
  nth_error (th (step junk (run junk s l) (i, Go))) i = Some (mkthr TOut (Some o)).
Proof.
  intros junk s o r l i t R ST E P. assert (F : fixed o s) by (constructor; eauto).
  destruct (fixed_run junk o l s F) as [(r' & R') _]. unfold step. rewrite E, P, R'. cbn. apply nth_error_upd_eq. now apply nth_error_lt in E.
Qed.

(** The kernel of type [ty] of procedure [o], and every thread that is about to store canrun keeps its bit. *)
Record stays (o ty f : nat) (s : st) : Prop := mkstays {
  y1 : settled s;
  y2 : runs s o ty f;
  y3 : forall i t, nth_error (th s) i = Some t -> match pc t with TFn o' ty' _ => o' = o -> ty' <> ty | TStore o' _ v => o' = o -> v ty = true | _ => True end }.

Lemma stays_step junk o ty f s a : (forall f', snd a <> SetFn ty f') -> stays o ty f s ->
  (match reg s with [] => False | _ => True end) -> stays o ty f (step junk s a).
Proof.
  intros NT [ST (p & EP & PF & PCN) Y] RG. destruct a as [i x]. cbn [snd] in NT. unfold step. destruct (nth_error (th s) i) as [t|] eqn:E; [|constructor; auto; exists p; auto].
  assert (SAME : stays o ty f s) by (constructor; auto; exists p; auto).
  assert (KEEP : forall s' t', th s' = upd (th s) i t' -> match pc t' with TNew | TZero _ => False | _ => True end ->
     match pc t' with TFn o' ty' _ => o' = o -> ty' <> ty | TStore o' _ v => o' = o -> v ty = true | _ => True end ->
     runs s' o ty f -> stays o ty f s').
  { intros s' t' T P1 P2 RN. constructor; [| assumption|].
    - intros j u N. rewrite T in N. apply nth_upd_cases in N. destruct N as [(-> & -> & _)|(NE & N)]; [assumption|]. now apply (ST j).
    - intros j u N. rewrite T in N. apply nth_upd_cases in N. destruct N as [(-> & -> & _)|(NE & N)]; [assumption|]. now apply (Y j). }
  assert (RS : runs s o ty f) by (exists p; auto).
  pose proof (ST i t E) as P. pose proof (Y i t E) as Q.
  destruct x as [|ty' f'|], (pc t) as [| | |o'|o' ty1 f1|o' ty1|o' ty1 v] eqn:PC; try exact SAME; try (exfalso; exact P; fail).
  - eapply KEEP; cbn; [reflexivity|exact Logic.I|exact Logic.I|exact RS].
  - destruct (got t) as [o'|]; [|exact SAME]. eapply KEEP; cbn; [reflexivity|exact Logic.I| |exact RS].
    intros _ ->. now apply (NT f').
  - destruct (reg s) as [|o' r]; [destruct RG|]. eapply KEEP; cbn; [reflexivity|exact Logic.I|exact Logic.I|exact RS].
  - destruct (nth_error (objs s) o') as [p'|] eqn:EO; [|exact SAME]. eapply KEEP; cbn; [reflexivity|exact Logic.I|exact Logic.I|].
    unfold runs. cbn. destruct (Nat.eq_dec o' o) as [->|NE].
    + assert (p' = p) by congruence. subst p'. rewrite nth_error_upd_eq by (now apply nth_error_lt in EO). eexists. split; [reflexivity|]. cbn.
      rewrite fupd_ne by (intros X; now apply (Q eq_refl)). auto.
    + rewrite nth_error_upd_ne by auto. exists p. auto.
  - destruct (nth_error (objs s) o') as [p'|] eqn:EO; [|exact SAME]. eapply KEEP; cbn; [reflexivity|exact Logic.I| |exact RS].
    intros ->. congruence.
  - destruct (nth_error (objs s) o') as [p'|] eqn:EO; [|exact SAME]. eapply KEEP; cbn; [reflexivity|exact Logic.I|exact Logic.I|].
    unfold runs. cbn. destruct (Nat.eq_dec o' o) as [->|NE].
    + assert (p' = p) by congruence. subst p'. rewrite nth_error_upd_eq by (now apply nth_error_lt in EO). eexists. split; [reflexivity|]. cbn.
      split; [assumption|]. destruct (Nat.eq_dec ty ty1) as [->|NT1]; [apply fupd_eq|]. rewrite fupd_ne by auto. now apply Q.
    + rewrite nth_error_upd_ne by auto. exists p. auto.
Qed.

(** A kernel that is set and can be run at a moment when no thread is inside arax_proc_set_functor or creates the
    procedure stays set and runnable, whatever kernels for other types are set concurrently from then on. *)
Theorem C56_kernel_stays_partial : forall junk s o r ty f l,
  reg s = o :: r -> settled s -> no_set s -> runs s o ty f -> ty_kept ty l -> runs (run junk s l) o ty f.
Proof.
  intros junk s o r ty f l R ST NS RN TK. assert (Y : stays o ty f s).
  { constructor; auto. intros i t E. specialize (NS i t E). destruct (pc t); auto; destruct NS. }
  assert (F : fixed o s) by (constructor; eauto). clear R ST NS RN r. revert s Y F. induction l as [|a l IH]; intros s Y F; cbn; [apply Y|].
  apply IH.
  - intros i f' H. apply (TK i f'). now right.
  - apply stays_step; auto; [|destruct F as [(r & ->) _]; exact Logic.I].
    intros f' H. destruct a as [i x]. cbn in H. subst x. apply (TK i f'). now left.
  - now apply fixed_step.
Qed.

(** Three threads: one registers and sets a kernel; then two others register and set kernels of other types at once. *)
Definition one (i : nat) (l : list act) : list (nat * act) := map (pair i) l.
Definition ex1 : list (nat * act) := one 0 [Reg; Go; Go; Go; SetFn 3 7; Go; Go; Go].
Definition ex2 : list (nat * act) := [(1, Reg); (2, Reg); (1, Go); (2, Go); (1, SetFn 1 8); (2, SetFn 2 9); (1, Go); (2, Go); (1, Go); (2, Go); (1, Go); (2, Go)].
Example C56_example : forall junk, let s := run junk (start 3) ex1 in
  reg s = [0] /\ settled s /\ no_set s /\ runs s 0 3 7 /\ ty_kept 3 ex2 /\ map got (th (run junk s ex2)) = [Some 0; Some 0; Some 0].
Proof.
  intros junk. cbv zeta. split; [reflexivity|]. split; [|split; [|split; [|split; [|reflexivity]]]].
  - intros [|[|[|i]]] t H; cbn in H; try (injection H as <-; exact Logic.I). destruct i; discriminate.
  - intros [|[|[|i]]] t H; cbn in H; try (injection H as <-; exact Logic.I). destruct i; discriminate.
  - eexists. split; [reflexivity|]. split; reflexivity.
  - intros i f H. cbn in H. intuition congruence.
Qed.

(** ** What fails *)

(** Two threads that register the same name at once get two procedures: a kernel set through one is not set in the other. *)
Theorem C56_two_procedures_refuted : forall junk, exists l o1 o2,
  map got (th (run junk (start 2) l)) = [Some o1; Some o2] /\ o1 <> o2 /\
  runs (run junk (start 2) l) o1 3 7 /\ (exists p, nth_error (objs (run junk (start 2) l)) o2 = Some p /\ fn p 3 = None) /\
  settled (run junk (start 2) l) /\ no_set (run junk (start 2) l).
Proof.
  intros junk. exists ([(0, Reg); (1, Reg); (0, Go); (1, Go); (0, Go); (1, Go); (0, Go); (1, Go)] ++ one 0 [SetFn 3 7; Go; Go; Go]), 0, 1.
  split; [reflexivity|]. split; [discriminate|]. split; [eexists; repeat split; reflexivity|]. split; [eexists; split; reflexivity|].
  split; intros [|[|i]] t H; vm_compute in H; try (injection H as <-; exact Logic.I); destruct i; discriminate.
Qed.

(** The procedure can be found before it is zeroed: a kernel set by a thread that found it is erased by the thread that
    created it, although both calls returned. *)
Theorem C56_erased_refuted : forall junk, exists l1 l2,
  runs (run junk (start 2) l1) 0 3 7 /\ no_set (run junk (start 2) l1) /\ ty_kept 3 l2 /\
  map got (th (run junk (start 2) (l1 ++ l2))) = [Some 0; Some 0] /\
  nth_error (objs (run junk (start 2) (l1 ++ l2))) 0 = Some zero.
Proof.
  intros junk. exists ([(0, Reg); (0, Go); (0, Go)] ++ one 1 [Reg; Go; SetFn 3 7; Go; Go; Go]), [(0, Go)].
  split; [eexists; repeat split; reflexivity|]. split; [|split; [intros i f H; cbn in H; intuition congruence|split; reflexivity]].
  intros [|[|i]] t H; cbn in H; try (injection H as <-; exact Logic.I); destruct i; discriminate.
Qed.

(** Two threads set kernels for two types of one procedure at once: both calls return, both kernels are there, one is
    reported as not runnable. *)
Theorem C56_not_runnable_refuted : forall junk, exists l p,
  nth_error (objs (run junk (start 2) l)) 0 = Some p /\ fn p 1 = Some 8 /\ fn p 2 = Some 9 /\ can p 1 = false /\ can p 2 = true /\
  settled (run junk (start 2) l) /\ no_set (run junk (start 2) l).
Proof.
  intros junk. eexists (one 0 [Reg; Go; Go; Go] ++ [(1, Reg); (1, Go); (0, SetFn 1 8); (1, SetFn 2 9); (0, Go); (1, Go); (0, Go); (1, Go); (0, Go); (1, Go)]), _.
  split; [reflexivity|]. split; [reflexivity|]. split; [reflexivity|]. split; [reflexivity|]. split; [reflexivity|].
  split; intros [|[|i]] t H; vm_compute in H; try (injection H as <-; exact Logic.I); destruct i; discriminate.
Qed.
