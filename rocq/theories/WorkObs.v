(** What clients and workers see of the work queues (C21, C24): an observer that only watches when a thread's call
    starts, appends, ends, and which task a worker takes, compared with plain first-in first-out queues.

    Code modelled: as in [WorkModel.v]. *)
From Verif Require Import Base Sums Throttle WorkModel.
Arguments Nat.eqb : simpl never.

(** * Specification: first-in first-out queues, and calls that append exactly once *)
Inductive event :=
| Called (i v t : nat)     (* thread [i] called submit of task [t] to virtual accelerator [v] *)
| Appended (i v t : nat)   (* its task became available *)
| Returned (i : nat)       (* its submit returned *)
| Took (i v t : nat).      (* worker [i] started task [t] of [v] *)
Inductive status := Idle | Calling (v t : nat) | Done.
Record fifo := mkfifo { stat : nat -> status; q : nat -> list nat }.
Definition fifo0 : fifo := mkfifo (fun _ => Idle) (fun _ => []).
Definition replay1 (f : fifo) (e : event) : option fifo :=
  match e with
  | Called i v t => match stat f i with Idle => Some (mkfifo (fupd (stat f) i (Calling v t)) (q f)) | _ => None end
  | Appended i v t =>
      match stat f i with
      | Calling v' t' => if Nat.eqb v v' && Nat.eqb t t' then Some (mkfifo (fupd (stat f) i Done) (fupd (q f) v (q f v ++ [t]))) else None
      | _ => None
      end
  | Returned i => match stat f i with Done => Some (mkfifo (fupd (stat f) i Idle) (q f)) | _ => None end
  | Took i v t => match q f v with t' :: r => if Nat.eqb t t' then Some (mkfifo (stat f) (fupd (q f) v r)) else None | [] => None end
  end.
Fixpoint replay (f : fifo) (l : list event) : option fifo :=
  match l with [] => Some f | e :: r => match replay1 f e with Some f' => replay f' r | None => None end end.

(** * The observer *)
Definition in_submit (p : pc) : bool := match p with P0 _ _ | P1 _ _ | P2 _ _ | P3 _ _ | P4 _ _ | P5 _ _ | P6 _ _ | P7 _ => true | _ => false end.
Definition is_out (p : pc) : bool := match p with Out => true | _ => false end.
(** Thread [fst x] moved from [p] to [p']. *)
Definition observe (s' : st) (x : nat * act) (p p' : pc) : list event :=
  let i := fst x in
  match snd x, p with
  | Submit v t, Out => if is_out p' then [] else [Called i v t]
  | _, P1 v t => match p' with P1 _ _ => [] | _ => [Appended i v t] end
  | Pick v, WS _ => if is_out p' then [Took i v (last (ran s' i) 0)] else []
  | _, _ => if in_submit p && is_out p' then [Returned i] else []
  end.
Fixpoint history (be : backend) (cap nv : nat) (s : st) (l : list (nat * act)) : list event :=
  match l with
  | [] => []
  | x :: r => match step be cap nv s x with
              | Ok s' => match nth_error (th s) (fst x), nth_error (th s') (fst x) with
                         | Some p, Some p' => observe s' x p p'
                         | _, _ => [] end ++ history be cap nv s' r
              | _ => []
              end
  end.
Definition tasks_of (i : nat) (l : list event) : list nat :=
  flat_map (fun e => match e with Took j _ t => if Nat.eqb j i then [t] else [] | _ => [] end) l.

(** * Proof *)
Definition agrees (p : pc) (x : status) : Prop :=
  match p with
  | P0 v t | P1 v t => x = Calling v t
  | P2 _ _ | P3 _ _ | P4 _ _ | P5 _ _ | P6 _ _ | P7 _ => x = Done
  | _ => x = Idle
  end.
Definition oinv (s : st) (f : fifo) : Prop :=
  (forall v, q f v = vq (va s v)) /\
  (forall i p, nth_error (th s) i = Some p -> agrees p (stat f i)) /\ (forall i, nth_error (th s) i = None -> stat f i = Idle).
(** [s'] is [s] with thread [i] at [p'] and the same queues; a pthread worker may have been woken *)
Lemma vq_fupd (va : nat -> vac) v x u : vq x = vq (va v) -> vq (fupd va v x u) = vq (va u).
Proof. intros H. unfold fupd. destruct (Nat.eqb_spec u v) as [->|]; auto. Qed.
Definition others (s s' : st) (i : nat) : Prop :=
  length (th s') = length (th s) /\
  forall j pj, j <> i -> nth_error (th s) j = Some pj -> exists pj', nth_error (th s') j = Some pj' /\ (pj' = pj \/ pj = W3 /\ pj' = W5).
Lemma others_upd (s s' : st) i p' : th s' = upd (th s) i p' -> others s s' i.
Proof.
  intros H. split; [now rewrite H, upd_length|]. intros j pj N E. exists pj. rewrite H, nth_error_upd_ne by congruence. auto.
Qed.
Lemma others_notify be s i b p' : others s (goto (notify be s b) i p') i.
Proof.
  unfold notify. destruct be; [now apply others_upd with (p' := p')|].
  destruct (nth_error (th s) b) as [pb|] eqn:E; [|now apply others_upd with (p' := p')].
  destruct pb; try (now apply others_upd with (p' := p')).
  split; [cbn; now rewrite !upd_length|]. intros j pj N Ej. cbn [goto th]. rewrite nth_error_upd_ne by congruence.
  destruct (Nat.eq_dec j b) as [->|Nb].
  - rewrite nth_error_upd_eq by (eapply nth_error_lt; eauto). exists W5. split; auto. right. split; congruence.
  - rewrite nth_error_upd_ne by congruence. exists pj. auto.
Qed.
Lemma notify_at be s b i p' p : nth_error (th s) i = Some p -> nth_error (th (goto (notify be s b) i p')) i = Some p'.
Proof.
  intros E. cbn [goto th]. apply nth_error_upd_eq. pose proof (nth_error_lt _ _ _ E). unfold notify. destruct be; [exact H|].
  destruct (nth_error (th s) b) as [pb|]; [|exact H]. destruct pb; try exact H. cbn. now rewrite upd_length.
Qed.
Lemma notify_vq be s b u : vq (va (notify be s b) u) = vq (va s u).
Proof. unfold notify. destruct be; [reflexivity|]. destruct (nth_error (th s) b) as [[]|]; reflexivity. Qed.
Lemma notify_ran be s b : ran (notify be s b) = ran s.
Proof. unfold notify. destruct be; [reflexivity|]. destruct (nth_error (th s) b) as [[]|]; reflexivity. Qed.

Lemma keep s s' i p p' f f' : oinv s f -> nth_error (th s) i = Some p -> others s s' i -> nth_error (th s') i = Some p' ->
  agrees p' (stat f' i) -> (forall j, j <> i -> stat f' j = stat f j) -> (forall v, q f' v = vq (va s' v)) -> oinv s' f'.
Proof.
  intros (Q & A & N) Ei (L & O) Ei' HA HS HQ. split; [exact HQ|]. split.
  - intros j pj Ej. destruct (Nat.eq_dec j i) as [->|Nj]; [congruence|]. rewrite HS by auto.
    destruct (nth_error (th s) j) as [p0|] eqn:E0.
    + destruct (O j p0 Nj E0) as (pj' & Ej' & H). assert (pj' = pj) by congruence. subst pj'.
      specialize (A j p0 E0). destruct H as [->|[-> ->]]; exact A.
    + apply nth_error_None in E0. apply nth_error_lt in Ej. rewrite L in Ej. lia.
  - intros j Ej. destruct (Nat.eq_dec j i) as [->|Nj]; [congruence|]. rewrite HS by auto. apply N.
    apply nth_error_None. apply nth_error_None in Ej. lia.
Qed.

Definition good (s s' : st) (x : nat * act) (p p' : pc) (f : fifo) : Prop :=
  exists f', replay f (observe s' x p p') = Some f' /\ oinv s' f' /\
    forall j, ran s' j = ran s j ++ tasks_of j (observe s' x p p').

Lemma step_good be cap nv s x s' f p : oinv s f -> nth_error (th s) (fst x) = Some p -> step be cap nv s x = Ok s' ->
  exists p', nth_error (th s') (fst x) = Some p' /\ good s s' x p p' f.
Proof.
  intros HI Ei H. destruct x as [i a]. cbn [fst] in Ei. cbn [fst]. pose proof HI as (Q & A & N). pose proof (A i p Ei) as HA. pose proof (nth_error_lt _ _ _ Ei) as Li.
  assert (SILENT : forall p', nth_error (th s') i = Some p' -> observe s' (i, a) p p' = [] -> agrees p' (stat f i) ->
    others s s' i -> (forall v, vq (va s' v) = vq (va s v)) -> ran s' = ran s -> exists p', nth_error (th s') i = Some p' /\ good s s' (i, a) p p' f).
  { intros p' Ei' HO HA' O HQ HR. exists p'. split; auto. exists f. rewrite HO. split; [reflexivity|]. split.
    - apply (keep s s' i p p' f f); auto. intros v. now rewrite HQ, Q.
    - intros j. rewrite HR. cbn. now rewrite app_nil_r. }
  assert (SAME : s' = s -> observe s (i, a) p p = [] -> exists p', nth_error (th s') i = Some p' /\ good s s' (i, a) p p' f).
  { intros -> HO. apply (SILENT p); auto. split; [reflexivity|]. intros j pj _ E. exists pj. auto. }
  unfold step in H. rewrite Ei in H. unfold lockv, locka, unlockv, unlocka in H.
  destruct a as [v t|v b|v b| |v| |], p; cbn [agrees] in HA;
  try (inversion H; subst s'; clear H; apply SAME; reflexivity);
  repeat match type of H with
         | context [match be with _ => _ end] => destruct be
         | context [match ?l with [] => _ | _ :: _ => _ end] => is_var l; destruct l
         | context [if ?b then _ else _] => let Y := fresh "Y" in destruct b eqn:Y
         | context [match phys ?b with _ => _ end] => let Y := fresh "Y" in destruct (phys b) eqn:Y end;
  try discriminate; try (inversion H; subst s'; clear H; apply SAME; reflexivity);
  try (inversion H; subst s'; clear H;
       eapply SILENT; [first [apply nth_error_upd_eq; exact Li | eapply notify_at; exact Ei] | reflexivity | exact HA |
         first [eapply others_upd; reflexivity | apply others_notify] |
         intros u; cbn; rewrite ?notify_vq; try reflexivity; unfold fupd; destruct (Nat.eqb_spec u v); subst; reflexivity | cbn; rewrite ?notify_ran; reflexivity]; fail).
  - (* submit is called *)
    inversion H; subst s'; clear H. exists (P0 v t). split; [apply nth_error_upd_eq; exact Li|].
    exists (mkfifo (fupd (stat f) i (Calling v t)) (q f)). cbn [observe fst snd is_out replay replay1]. rewrite HA. split; [reflexivity|]. split.
    + eapply keep with (p' := P0 v t); [exact HI|exact Ei|eapply others_upd; reflexivity|apply nth_error_upd_eq; exact Li| | |exact Q].
      * cbn. now rewrite fupd_eq.
      * intros j Nj. cbn. now rewrite fupd_ne.
    + intros j. cbn. now rewrite app_nil_r.
  - (* a worker takes a task *)
    destruct (vq (va s v)) as [|t r'] eqn:EQ; inversion H; subst s'; clear H.
    + eapply SILENT; [apply nth_error_upd_eq; exact Li|reflexivity|exact HA|eapply others_upd; reflexivity|intros u; reflexivity|reflexivity].
    + exists Out. split; [apply nth_error_upd_eq; exact Li|].
      exists (mkfifo (stat f) (fupd (q f) v r')). cbn [observe fst snd is_out replay replay1 ran setva]. rewrite fupd_eq, last_last, Q, EQ, Nat.eqb_refl. split; [reflexivity|]. split.
      * eapply keep with (p' := Out); [exact HI|exact Ei|eapply others_upd; reflexivity|apply nth_error_upd_eq; exact Li|exact HA|auto|].
        intros u. cbn. unfold fupd. destruct (Nat.eqb u v); [reflexivity|apply Q].
      * intros j. cbn. unfold fupd. rewrite (Nat.eqb_sym i j). destruct (Nat.eqb_spec j i) as [->|Nj]; [reflexivity|]. now rewrite app_nil_r.
  - (* the task is appended *)
    inversion H; subst s'; clear H. eexists. split; [apply nth_error_upd_eq; exact Li|].
    exists (mkfifo (fupd (stat f) i Done) (fupd (q f) v (q f v ++ [t]))). cbn [observe fst snd is_out replay replay1]. rewrite HA, !Nat.eqb_refl. cbn [andb]. split; [reflexivity|]. split.
    + eapply keep; [exact HI|exact Ei|eapply others_upd; reflexivity|apply nth_error_upd_eq; exact Li| | |].
      * cbn. now rewrite fupd_eq.
      * intros j Nj. cbn. now rewrite fupd_ne.
      * intros u. cbn. unfold fupd. destruct (Nat.eqb_spec u v) as [->|]; [cbn; now rewrite Q|apply Q].
    + intros j. cbn. now rewrite app_nil_r.
  - (* submit returns *)
    inversion H; subst s'; clear H. exists Out. split; [apply nth_error_upd_eq; exact Li|].
    exists (mkfifo (fupd (stat f) i Idle) (q f)). cbn [observe fst snd is_out in_submit andb replay replay1]. rewrite HA. split; [reflexivity|]. split.
    + eapply keep with (p' := Out); [exact HI|exact Ei|eapply others_upd; reflexivity|apply nth_error_upd_eq; exact Li| | |].
      * cbn. now rewrite fupd_eq.
      * intros j Nj. cbn. now rewrite fupd_ne.
      * intros u. cbn. rewrite Q. unfold fupd. destruct (Nat.eqb_spec u v) as [->|]; reflexivity.
    + intros j. cbn. now rewrite app_nil_r.
  - (* unassign returns *)
    inversion H; subst s'; clear H. eapply SILENT; [apply nth_error_upd_eq; exact Li|reflexivity|destruct k; exact HA|eapply others_upd; reflexivity| |reflexivity].
    intros u. cbn. unfold fupd. destruct (Nat.eqb_spec u v) as [->|]; reflexivity.
Qed.

Lemma tasks_app i l l' : tasks_of i (l ++ l') = tasks_of i l ++ tasks_of i l'.
Proof. apply flat_map_app. Qed.
Lemma replay_app f l l' : replay f (l ++ l') = match replay f l with Some f' => replay f' l' | None => None end.
Proof. revert f. induction l as [|e l IH]; intros f; cbn; auto. destruct (replay1 f e); auto. Qed.
Lemma run_good be cap nv l : forall s s' f, oinv s f -> run be cap nv s l = Ok s' ->
  exists f', replay f (history be cap nv s l) = Some f' /\ oinv s' f' /\ forall j, ran s' j = ran s j ++ tasks_of j (history be cap nv s l).
Proof.
  induction l as [|x l IH]; intros s s' f HI R; cbn [run history] in *.
  - inversion R; subst. exists f. split; [reflexivity|]. split; auto. intros j. cbn. now rewrite app_nil_r.
  - apply bind_ok in R. destruct R as (s1 & R1 & R). rewrite R1.
    destruct (nth_error (th s) (fst x)) as [p|] eqn:Ei.
    + destruct (step_good be cap nv s x s1 f p HI Ei R1) as (p' & Ei' & f1 & E1 & HI1 & RN). rewrite Ei'.
      destruct (IH s1 s' f1 HI1 R) as (f' & E' & HI' & RN'). exists f'. rewrite replay_app, E1. split; [exact E'|]. split; auto.
      intros j. rewrite RN', RN, tasks_app, app_assoc. reflexivity.
    + assert (s1 = s) by (destruct x as [i a]; cbn [fst] in Ei; unfold step in R1; rewrite Ei in R1; congruence). subst s1.
      cbn [app]. exact (IH s s' f HI R).
Qed.

(** C21/C24, for every number of clients and workers, any assignment, unassignment and schedule, both back-ends:
    what the callers observe is a history of plain queues -- each submit appends its task exactly once, before it
    returns, to the queue it named; each worker takes a task that is first in the queue it looked at; the tasks
    started by a worker are exactly the ones it took; and at the end the waiting tasks are the ones appended and
    not taken. *)
Theorem C24_queues_are_fifo : forall be cap nv n l s, run be cap nv (init n) l = Ok s ->
  exists f, replay fifo0 (history be cap nv (init n) l) = Some f /\
    (forall v, vq (va s v) = q f v) /\
    (forall i, ran s i = tasks_of i (history be cap nv (init n) l)) /\
    (forall i, nth_error (th s) i = Some Out -> stat f i = Idle).
Proof.
  intros be cap nv n l s R. assert (HI : oinv (init n) fifo0).
  { split; [reflexivity|]. split; [|reflexivity]. intros i p E. cbn in E. apply nth_error_In, repeat_spec in E. now subst. }
  destruct (run_good be cap nv l (init n) s fifo0 HI R) as (f & E & (Q & A & N) & RN). exists f. split; [exact E|]. split; [now intros v; rewrite Q|]. split; [exact RN|].
  intros i Ei. exact (A i Out Ei).
Qed.
(** From such a history: appended to [v] = taken from [v] followed by what waits in [v]. *)
Definition appended_to (v : nat) (l : list event) : list nat :=
  flat_map (fun e => match e with Appended _ u t => if Nat.eqb u v then [t] else [] | _ => [] end) l.
Definition taken_from (v : nat) (l : list event) : list nat :=
  flat_map (fun e => match e with Took _ u t => if Nat.eqb u v then [t] else [] | _ => [] end) l.
Lemma replay_law v l : forall f f', replay f l = Some f' -> q f v ++ appended_to v l = taken_from v l ++ q f' v.
Proof.
  induction l as [|e l IH]; intros f f' R; cbn [replay] in R.
  - inversion R; subst. cbn. now rewrite app_nil_r.
  - destruct (replay1 f e) as [f1|] eqn:E1; [|discriminate]. specialize (IH f1 f' R). destruct e as [i u t|i u t|i|i u t]; cbn [replay1] in E1.
    + destruct (stat f i); inversion E1; subst. exact IH.
    + destruct (stat f i) as [|v' t'|]; try discriminate. destruct (Nat.eqb u v' && Nat.eqb t t'); inversion E1; subst. cbn [q] in IH.
      cbn [appended_to taken_from flat_map]. unfold fupd in IH. rewrite (Nat.eqb_sym v u) in IH. destruct (Nat.eqb_spec u v) as [->|]; [|exact IH].
      rewrite <- app_assoc in IH. exact IH.
    + destruct (stat f i); inversion E1; subst. exact IH.
    + destruct (q f u) as [|t' r] eqn:EQ; [discriminate|]. destruct (Nat.eqb_spec t t') as [<-|]; inversion E1; subst. cbn [q] in IH.
      cbn [appended_to taken_from flat_map]. unfold fupd in IH. rewrite (Nat.eqb_sym v u) in IH. destruct (Nat.eqb_spec u v) as [->|]; [|exact IH].
      rewrite EQ. cbn [app]. f_equal. exact IH.
Qed.
Theorem C24_nothing_lost_or_repeated : forall be cap nv n l s v, run be cap nv (init n) l = Ok s ->
  appended_to v (history be cap nv (init n) l) = taken_from v (history be cap nv (init n) l) ++ vq (va s v).
Proof.
  intros be cap nv n l s v R. destruct (C24_queues_are_fifo be cap nv n l s R) as (f & E & Q & _). rewrite Q.
  exact (replay_law v _ fifo0 f E).
Qed.
(** Two clients, one worker: three tasks, one of them taken. *)
Example C24_queues_example :
  let gos i n := repeat (i, Go) n in
  let l := (1, Submit 0 10) :: gos 1 8 ++ (2, Submit 0 20) :: gos 2 8 ++ (1, Assign 0 0) :: gos 1 8 ++ (0, Wait) :: gos 0 5 ++ [(0, Pick 0)] ++ (2, Submit 0 30) :: gos 2 8 in
  history Spin 8 1 (init 3) l = [Called 1 0 10; Appended 1 0 10; Returned 1; Called 2 0 20; Appended 2 0 20; Returned 2; Took 0 0 10; Called 2 0 30; Appended 2 0 30; Returned 2] /\
  match run Spin 8 1 (init 3) l with Ok s => vq (va s 0) = [20; 30] | _ => False end.
Proof. vm_compute. split; reflexivity. Qed.
Print Assumptions C24_queues_are_fifo.
Print Assumptions C24_nothing_lost_or_repeated.
