(** What an accelerator tells about itself: property C80.  Type, state, client id, priority, metadata and ordering, read and written by
    any number of threads.

    Code modelled
    - [src/core/arax_object.c:98-126]        arax_object_register: the object is in the list before its fields are cleared
    - [src/core/arax_accel.c:5-24]           arax_accel_init: type and state (after registration)
    - [src/core/arax_accel.c:89-94]          arax_accel_get_stat
    - [src/core/arax_vaccel.c:3-30]          arax_vaccel_init
    - [src/core/arax_vaccel.c:41-93]         arax_vaccel_set_ordering .. arax_vaccel_get_meta
    - [src/core/arax_vaccel.c:107-111]       arax_vaccel_get_stat
    - [src/arch/shm/impl.c:305-333]          arax_accel_type, arax_accel_stat
    - [src/core/arax_accel.c:108-177]        arax_accel_add_vaccel, arax_accel_del_vaccel: only the field phys

    Simplifications: one store or load of a field is one step (arax_vaccel_init: three groups of stores), memory is sequentially consistent; placing and taking away is one step
    (C77 has the steps); objects are not destroyed (C18, C49, C76 have that). *)
From Verif Require Import Base.
From Coq Require Import Lia.
Local Open Scope N_scope.

(** ** The code *)
(** arax_accel_state_e, arax_types.h:41-46 *)
Inductive accel_state := failed | idle | busy.
(** arax_vaccel_s, arax_vaccel.h:29-41, as far as it is read here; a value of type uint64_t or a pointer is a number *)
Record virt := mkv { vtype : N; ordering : N; cid : N; prio : N; meta : N; phys : option nat }.
(** arax_accel_s, arax_accel.h:14-27; [working]: is the device executing a task (not a field, what the device does) *)
Record physical := mkp { ptype : N; pstate : accel_state; working : bool }.
(** Which field a setter stores: arax_vaccel.c:41-47 (Ordering), 57-62 (Cid), 70-75 (Prio), 83-87 (Meta) *)
Inductive field := Ordering | Cid | Prio | Meta.
(** the stores of arax_vaccel.c:46, 60, 73, 86 *)
Definition store (x : virt) (f : field) (v : N) : virt :=
  match f with
  | Ordering => mkv (vtype x) v (cid x) (prio x) (meta x) (phys x)
  | Cid => mkv (vtype x) (ordering x) v (prio x) (meta x) (phys x)
  | Prio => mkv (vtype x) (ordering x) (cid x) v (meta x) (phys x)
  | Meta => mkv (vtype x) (ordering x) (cid x) (prio x) v (phys x)
  end.
(** the loads of arax_vaccel.c:54, 61 and 67, 74 and 80, 92 *)
Definition load (x : virt) (f : field) : N := match f with Ordering => ordering x | Cid => cid x | Prio => prio x | Meta => meta x end.
(** (uint64_t) -1, arax_vaccel.c:13-14 *)
Definition NONE : N := 18446744073709551615.
(** SEQUENTIAL, arax_vaccel.h:16-20 *)
Definition SEQUENTIAL : N := 0.
(** Where a thread is: outside; in arax_vaccel_init with the memory cleared or not and some stores done (arax_object.c:117-123,
    arax_vaccel.c:12-23); in arax_vaccel_set_cid or _set_job_priority before the load it answers (arax_vaccel.c:61, 74); back with an answer *)
Inductive pc := Out | Clear (v : nat) (t : N) | Stores (v : nat) (t : N) | SetType (v : nat) (t : N) | Reload (v : nat) (f : field) | Back (r : N).
(** the objects and the threads; arax_object.c:98-126 *)
Record st := mks { vs : nat -> option virt; ps : nat -> option physical; th : nat -> pc }.
(** What happens.  [New v t junk]: thread calls arax_accel_acquire_type; the block it gets held [junk].  [Set_]: a setter.  [Go]: the next access.
    [Place], [Take]: phys changes.  [Device]: a physical accelerator is created.  [Work]: a device starts or stops working. *)
Inductive act := New (v : nat) (t : N) (junk : virt) | Set_ (v : nat) (f : field) (x : N) | Go | Place (v p : nat) | Take (v : nat) | Device (p : nat) (t : N) | Work (p : nat) (b : bool).
(** a step of a thread, no code of its own; arax_vaccel.c:3-93 *)
Definition goto (s : st) (i : nat) (p : pc) : st := mks (vs s) (ps s) (fupd (th s) i p).
(** the same with a store, arax_vaccel.c:3-93 *)
Definition setv (s : st) (v : nat) (x : virt) (i : nat) (p : pc) : st := mks (fupd (vs s) v (Some x)) (ps s) (fupd (th s) i p).
(** arax_vaccel.c:3-93, arax_accel.c:5-24, 108-177, arax_object.c:98-126 *)
Definition step (s : st) (a : nat * act) : st :=
  let '(i, e) := a in
  match e, th s i with
  | New v t junk, Out => match vs s v with None => setv s v junk i (Clear v t) | Some _ => s end
  | Go, Clear v t => setv s v (mkv 0 0 0 0 0 None) i (Stores v t)
  | Go, Stores v t => match vs s v with Some x => setv s v (mkv (vtype x) (ordering x) NONE NONE (meta x) None) i (SetType v t) | None => s end
  | Go, SetType v t => match vs s v with Some x => setv s v (mkv t SEQUENTIAL (cid x) (prio x) 0 (phys x)) i Out | None => s end
  | Set_ v f x, Out => match vs s v with
                       | Some y => setv s v (store y f x) i (match f with Cid | Prio => Reload v f | _ => Out end)
                       | None => s end
  | Go, Reload v f => match vs s v with Some y => goto s i (Back (load y f)) | None => s end
  | Go, Back _ => goto s i Out
  | Place v p, _ => match vs s v with Some x => mks (fupd (vs s) v (Some (mkv (vtype x) (ordering x) (cid x) (prio x) (meta x) (Some p)))) (ps s) (th s) | None => s end
  | Take v, _ => match vs s v with Some x => mks (fupd (vs s) v (Some (mkv (vtype x) (ordering x) (cid x) (prio x) (meta x) None))) (ps s) (th s) | None => s end
  | Device p t, _ => match ps s p with None => mks (vs s) (fupd (ps s) p (Some (mkp t idle false))) (th s) | Some _ => s end
  | Work p b, _ => match ps s p with Some x => mks (vs s) (fupd (ps s) p (Some (mkp (ptype x) (pstate x) b))) (th s) | None => s end
  | _, _ => s
  end.
(** a history, no code of its own; arax_vaccel.c:3-93 *)
Definition run (s : st) (l : list (nat * act)) : st := fold_left step l s.
(** nothing exists, no code; arax_object.c:60-69 *)
Definition start : st := mks (fun _ => None) (fun _ => None) (fun _ => Out).
(** the getters, arax_vaccel.c:49-55, 64-68, 77-81, 89-93 *)
Definition get (s : st) (v : nat) (f : field) : option N := match vs s v with Some x => Some (load x f) | None => None end.
(** arax_accel_type, impl.c:305-312 (the field type is at the same place in both structures) *)
Definition type_of (s : st) (x : nat + nat) : option N :=
  match x with inl v => option_map vtype (vs s v) | inr p => option_map ptype (ps s p) end.
(** arax_accel_stat, impl.c:314-333, arax_vaccel.c:107-111, arax_accel.c:89-94.  Loading a field of the NULL pointer is [UB]. *)
Definition stat (s : st) (x : nat + nat) : outcome accel_state :=
  match x with
  | inr p => match ps s p with Some y => Ok (pstate y) | None => UB end
  | inl v => match vs s v with
             | Some y => match phys y with Some p => match ps s p with Some z => Ok (pstate z) | None => UB end | None => UB end
             | None => UB end
  end.

(** ** Specification *)
(** The last value set by any thread, if any. *)
Fixpoint last_set (v : nat) (f : field) (l : list (nat * act)) (d : N) : N :=
  match l with
  | [] => d
  | (_, Set_ w g x) :: r => last_set v f r (if Nat.eq_dec v w then match f, g with Ordering, Ordering | Cid, Cid | Prio, Prio | Meta, Meta => x | _, _ => d end else d)
  | _ :: r => last_set v f r d
  end.
(** Is thread [i] busy creating [v]? *)
Definition creating (s : st) (v : nat) : Prop := exists i t, th s i = Clear v t \/ th s i = Stores v t \/ th s i = SetType v t.
(** A setter that is called in the middle of another call of the same thread is not a call. *)
Fixpoint proper (s : st) (l : list (nat * act)) : Prop :=
  match l with
  | [] => True
  | a :: r => match a with (i, Set_ _ _ _) | (i, New _ _ _) => th s i = Out | _ => True end /\ proper (step s a) r
  end.

(** ** Proofs *)
Lemma creating_upd s v vsf psf i p : ~ creating s v -> (forall t, p <> Clear v t /\ p <> Stores v t /\ p <> SetType v t) -> ~ creating (mks vsf psf (fupd (th s) i p)) v.
Proof.
  intros H N (j & t & Q). cbn [th] in Q. unfold fupd in Q. destruct (Nat.eqb j i).
  - destruct (N t) as (A & B & C). intuition congruence.
  - apply H. exists j, t. exact Q.
Qed.
Lemma creating_same s v vsf psf : ~ creating s v -> ~ creating (mks vsf psf (th s)) v.
Proof. intros H (j & t & Q). apply H. exists j, t. exact Q. Qed.
Lemma step_quiet s a v x : vs s v = Some x -> ~ creating s v -> (match a with (i, Set_ _ _ _) | (i, New _ _ _) => th s i = Out | _ => True end) ->
  exists y, vs (step s a) v = Some y /\ ~ creating (step s a) v /\ vtype y = vtype x /\
    forall f, load y f = last_set v f [a] (load x f).
Proof.
  intros X Q P. destruct a as [i e].
  assert (SAME : exists y, vs s v = Some y /\ ~ creating s v /\ vtype y = vtype x /\ forall f, load y f = load x f) by (exists x; auto).
  assert (OTH : forall w, v <> w -> forall z p, (forall t, p <> Clear v t /\ p <> Stores v t /\ p <> SetType v t) ->
    exists y, vs (setv s w z i p) v = Some y /\ ~ creating (setv s w z i p) v /\ vtype y = vtype x /\ forall f, load y f = load x f).
  { intros w NE z p NP. exists x. cbn [setv vs]. rewrite fupd_ne by auto. split; [exact X|]. split; [now apply creating_upd | auto]. }
  destruct e as [w t junk|w f z| |w p|w|p t|p b]; cbn [step last_set].
  - rewrite P. destruct (vs s w) eqn:W; [exact SAME|]. assert (NE : v <> w) by congruence. apply OTH; [exact NE|]. intros t0. repeat split; congruence.
  - rewrite P. destruct (Nat.eq_dec v w) as [<-|NE].
    + rewrite X. exists (store x f z). cbn [setv vs]. rewrite fupd_eq. split; [reflexivity|]. split; [apply creating_upd; [exact Q | intros t0; destruct f; repeat split; congruence]|].
      split; [destruct f; reflexivity|]. intros g. destruct f, g; reflexivity.
    + destruct (vs s w) eqn:W; [|exact SAME]. apply OTH; [exact NE|]. intros t0. destruct f; repeat split; congruence.
  - destruct (th s i) as [|w t|w t|w t|w f|r] eqn:T; try exact SAME.
    + assert (NE : v <> w) by (intros <-; apply Q; exists i, t; auto). apply OTH; [exact NE|]. intros t0. repeat split; congruence.
    + assert (NE : v <> w) by (intros <-; apply Q; exists i, t; auto). destruct (vs s w); [|exact SAME]. apply OTH; [exact NE|]. intros t0. repeat split; congruence.
    + assert (NE : v <> w) by (intros <-; apply Q; exists i, t; auto). destruct (vs s w); [|exact SAME]. apply OTH; [exact NE|]. intros t0. repeat split; congruence.
    + destruct (vs s w); [|exact SAME]. exists x. split; [exact X|]. split; [apply creating_upd; [exact Q | intros t0; repeat split; congruence] | auto].
    + exists x. split; [exact X|]. split; [apply creating_upd; [exact Q | intros t0; repeat split; congruence] | auto].
  - destruct (vs s w) as [y|] eqn:W; [|exact SAME]. cbn [vs]. destruct (Nat.eq_dec v w) as [<-|NE].
    + rewrite fupd_eq. eexists. split; [reflexivity|]. split; [now apply creating_same|]. replace y with x by congruence. split; [reflexivity | intros []; reflexivity].
    + rewrite fupd_ne by auto. exists x. split; [exact X|]. split; [now apply creating_same | auto].
  - destruct (vs s w) as [y|] eqn:W; [|exact SAME]. cbn [vs]. destruct (Nat.eq_dec v w) as [<-|NE].
    + rewrite fupd_eq. eexists. split; [reflexivity|]. split; [now apply creating_same|]. replace y with x by congruence. split; [reflexivity | intros []; reflexivity].
    + rewrite fupd_ne by auto. exists x. split; [exact X|]. split; [now apply creating_same | auto].
  - destruct (ps s p); [exact SAME|]. exists x. split; [exact X|]. split; [now apply creating_same | auto].
  - destruct (ps s p); [|exact SAME]. exists x. split; [exact X|]. split; [now apply creating_same | auto].
Qed.
Lemma last_app v f l : forall a d, last_set v f (a :: l) d = last_set v f l (last_set v f [a] d).
Proof. intros [i []] d; reflexivity. Qed.
(** Whatever any threads do: a virtual accelerator has the type it was created with, and each attribute has the last value set. *)
Theorem C80_attributes : forall l s v x, vs s v = Some x -> ~ creating s v -> proper s l ->
  type_of (run s l) (inl v) = Some (vtype x) /\ forall f, get (run s l) v f = Some (last_set v f l (load x f)).
Proof.
  intros l s v x X Q P. assert (K : exists y, vs (run s l) v = Some y /\ vtype y = vtype x /\ forall f, load y f = last_set v f l (load x f)).
  { revert s x X Q P. induction l as [|a l IH]; intros s x X Q P; [exists x; auto|]. destruct P as (P1 & P2).
    destruct (step_quiet s a v x X Q P1) as (y & Y & Q' & T & L). destruct (IH _ _ Y Q' P2) as (z & Z & T' & L'). exists z.
    split; [exact Z|]. split; [congruence|]. intros f. rewrite last_app, L', L. reflexivity. }
  destruct K as (y & Y & T & L). unfold type_of, get. rewrite Y. cbn [option_map]. rewrite T. split; [reflexivity|]. intros f. rewrite L. reflexivity.
Qed.
(** A new one, created with no other thread in between: no client, no priority, no metadata, sequential. *)
Theorem C80_new : forall s i v t junk, th s i = Out -> vs s v = None -> let s' := run s [(i, New v t junk); (i, Go); (i, Go); (i, Go)] in
  th s' i = Out /\ type_of s' (inl v) = Some t /\ get s' v Cid = Some NONE /\ get s' v Prio = Some NONE /\ get s' v Meta = Some 0 /\ get s' v Ordering = Some SEQUENTIAL.
Proof.
  intros s i v t junk T V s'. unfold s', run. cbn [fold_left step]. rewrite T, V. cbn [setv th vs ps]. rewrite !fupd_eq. cbn [setv th vs ps]. rewrite !fupd_eq. cbn [setv th vs ps].
  rewrite !fupd_eq. cbn [setv th vs ps]. unfold type_of, get. cbn [setv vs th]. rewrite !fupd_eq. cbn [option_map load vtype cid prio meta ordering]. repeat split; reflexivity.
Qed.
(** A physical accelerator: the type it was created with; and it is always idle, working or not. *)
Theorem C80_device : forall l s p y, ps s p = Some y -> pstate y = idle ->
  type_of (run s l) (inr p) = Some (ptype y) /\ stat (run s l) (inr p) = Ok idle.
Proof.
  intros l. assert (K : forall s p y, ps s p = Some y -> pstate y = idle -> exists z, ps (run s l) p = Some z /\ ptype z = ptype y /\ pstate z = idle).
  { induction l as [|[i e] l IH]; intros s p y Y I; [exists y; auto|]. change (run s ((i, e) :: l)) with (run (step s (i, e)) l).
    assert (Q : exists z, ps (step s (i, e)) p = Some z /\ ptype z = ptype y /\ pstate z = idle).
    { destruct e as [w t junk|w f z| |w q|w|q t|q b]; cbn [step].
      - destruct (th s i); try (exists y; auto; fail). destruct (vs s w); exists y; auto.
      - destruct (th s i); try (exists y; auto; fail). destruct (vs s w); exists y; auto.
      - destruct (th s i); try (exists y; auto; fail); destruct (vs s v); exists y; auto.
      - destruct (vs s w); exists y; auto.
      - destruct (vs s w); exists y; auto.
      - destruct (ps s q) eqn:E; [exists y; auto|]. cbn [ps]. rewrite fupd_ne by congruence. exists y; auto.
      - destruct (ps s q) as [u|] eqn:E; [|exists y; auto]. cbn [ps]. destruct (Nat.eq_dec p q) as [<-|NE]; [rewrite fupd_eq; eexists; split; [reflexivity|]; replace u with y by congruence; auto | rewrite fupd_ne by auto; exists y; auto]. }
    destruct Q as (z & Z & T & I'). destruct (IH _ _ _ Z I') as (z' & Z' & T' & I''). exists z'. split; [exact Z'|]. split; [congruence | exact I'']. }
  intros s p y Y I. destruct (K s p y Y I) as (z & Z & T & I'). unfold type_of, stat. rewrite Z. cbn [option_map]. rewrite T, I'. auto.
Qed.
Lemma device_idle l : forall s, (forall p y, ps s p = Some y -> pstate y = idle) -> forall p y, ps (run s l) p = Some y -> pstate y = idle.
Proof.
  induction l as [|[i e] l IH]; intros s H; [exact H|]. change (run s ((i, e) :: l)) with (run (step s (i, e)) l). apply IH. clear IH. intros p y Y.
  destruct e as [w t junk|w f z| |w q|w|q t|q b]; cbn [step] in Y.
  - destruct (th s i); eauto. destruct (vs s w); eauto.
  - destruct (th s i); eauto. destruct (vs s w); eauto.
  - destruct (th s i); eauto; destruct (vs s v); eauto.
  - destruct (vs s w); eauto.
  - destruct (vs s w); eauto.
  - destruct (ps s q) eqn:E; eauto. cbn [ps] in Y. unfold fupd in Y. destruct (Nat.eqb p q); [injection Y as <-; reflexivity | eauto].
  - destruct (ps s q) as [u|] eqn:E; eauto. cbn [ps] in Y. unfold fupd in Y. destruct (Nat.eqb p q); [injection Y as <-; cbn; eauto | eauto].
Qed.
(** No device is ever reported as busy (nor as failed), whatever it does. *)
Theorem C80_busy_refuted : forall l x, stat (run start l) x <> Ok busy /\ stat (run start l) x <> Ok failed.
Proof.
  intros l x. assert (D := device_idle l start). unfold stat. destruct x as [v|p].
  - destruct (vs (run start l) v) as [y|]; [|split; discriminate]. destruct (phys y) as [p|]; [|split; discriminate]. destruct (ps (run start l) p) eqn:E; [|split; discriminate].
    rewrite (D ltac:(intros ? ? H; discriminate H) _ _ E). split; discriminate.
  - destruct (ps (run start l) p) eqn:E; [|split; discriminate]. rewrite (D ltac:(intros ? ? H; discriminate H) _ _ E). split; discriminate.
Qed.
(** One that is assigned answers for its device; one that is not (new, or taken away) makes the caller read through the NULL pointer. *)
Theorem C80_assigned : forall s v p, stat (step s (0%nat, Place v p)) (inl v) = match vs s v with Some _ => stat s (inr p) | None => UB end.
Proof. intros s v p. cbn [step]. destruct (vs s v) eqn:E; unfold stat; cbn [vs ps]; [rewrite fupd_eq; reflexivity | rewrite E; reflexivity]. Qed.
Theorem C80_unassigned_refuted : forall s v, (forall x, vs s v = Some x -> phys x = None) -> stat s (inl v) = UB.
Proof. intros s v H. unfold stat. destruct (vs s v) as [x|]; [|reflexivity]. rewrite (H x eq_refl). reflexivity. Qed.
(** The setters of the client id and of the priority answer what they find afterwards: perhaps what another thread set. *)
Theorem C80_answer_refuted : exists s l, s = run start [(0%nat, New 5 1 (mkv 9 9 9 9 9 None)); (0%nat, Go); (0%nat, Go); (0%nat, Go)] /\ proper s l /\
  l = [(0%nat, Set_ 5 Cid 10); (1%nat, Set_ 5 Cid 20); (0%nat, Go)] /\ th (run s l) 0%nat = Back 20.
Proof. do 2 eexists. split; [reflexivity|]. split; [|split; reflexivity]. cbn. auto. Qed.
(** A virtual accelerator is in the list of objects before it is initialised: who lists at that moment is told whatever type (and
    device) the memory held. *)
Theorem C80_early_refuted : forall junk, type_of (step start (0%nat, New 5 1 junk)) (inl 5%nat) = Some (vtype junk) /\
  get (step start (0%nat, New 5 1 junk)) 5 Cid = Some (cid junk).
Proof. intros junk. split; reflexivity. Qed.
(** A case. *)
Theorem C80_case : let s := run start [(0%nat, New 5 1 (mkv 9 9 9 9 9 None)); (0%nat, Go); (0%nat, Go); (0%nat, Go); (2%nat, Device 3 1); (2%nat, Place 5 3)] in
  let l := [(0%nat, Set_ 5 Cid 10); (1%nat, Set_ 5 Prio 7); (0%nat, Go); (1%nat, Go); (0%nat, Go); (2%nat, Work 3 true); (0%nat, Set_ 5 Cid 30)] in
  (exists x, vs s 5%nat = Some x) /\ ~ creating s 5 /\ proper s l /\ get (run s l) 5 Cid = Some 30 /\ get (run s l) 5 Prio = Some 7 /\ get (run s l) 5 Meta = Some 0 /\
  type_of (run s l) (inl 5%nat) = Some 1 /\ stat (run s l) (inl 5%nat) = Ok idle.
Proof.
  cbn zeta. split; [eexists; reflexivity|]. split.
  { intros (i & t & H). cbn in H. unfold fupd in H. repeat match type of H with context[Nat.eqb i ?k] => destruct (Nat.eqb i k) end; intuition discriminate. }
  split; [cbn; auto 10|]. repeat split; reflexivity.
Qed.
