(** Where the processes map the segment: property C53.

    Code modelled
    - [src/arch/shm/impl.c:49-101, 122-129]  _arax_init: sizes, the two mappings, attaching, the failure path
    - [src/utils/system.c:37-66]             system_mmap
    - [src/core/arax_pipe.c:126-146, 165-173] arax_pipe_have_to_mmap, arax_pipe_mmap_address
    - [src/core/arax_pipe.c:5-22]            arax_pipe_init: first user or not, revision check, shm_size
    - [src/arch/shm/impl.c:156-180]          arax_exit as far as the mapping is concerned

    Any number of processes attach to one segment file, step by step and interleaved.  What the kernel and the
    configuration answer is part of the schedule, so a theorem about every schedule is about every answer.  Waiting
    for the initialiser is in [PipeInit], the size of the process table in [ProcMap]; arax_clean (a new file after the
    last user left) is not modelled here.  Mappings are whole: page rounding is ignored. *)
From Verif Require Import Base Sums.
Local Open Scope nat_scope.
Arguments Nat.eqb : simpl never.
Arguments N.eqb : simpl never.
Arguments N.leb : simpl never.
Arguments N.ltb : simpl never.

(** Where a process is in impl.c:33-129: not started; 62 passed; 86 mapped; after 88 with [shm_addr = a]; after 90 and
    a misplaced first mapping; before 99; attached; ended by exit(1); died of a bad access; gone. *)
Inductive ppc := PNew | PConf | PMapped | PCas (a : N) | PMap2 (a : N) | PInit | PIn | PExit1 | PCrash | PGone.

(** [vp]: arax_state.vpipe, 0 is NULL; [size]: this process's shm_size; [maps]: where the file is mapped. *)
Record proc := mkproc { pid : N; pc : ppc; vp : N; size : N; maps : list N }.

(** include/arax_pipe.h:24-47: [self], [segsize] (pipe->shm_size), [count] (pipe->processes), [tab] (pipe->proc_map);
    [flen]: the length of the file. *)
Record st := mkst { self : N; segsize : N; count : N; tab : list N; flen : N; ps : list proc }.

(** A file just created and processes about to attach. *)
Definition start (pids : list N) : st := mkst 0 0 0 [] 0 (map (fun p => mkproc p PNew 0 0 []) pids).

(** What a process does next, with the answers it gets. *)
Inductive act :=
| ACfg (file : bool) (sz total : N)              (* is shm_file set, shm_size, the machine's memory *)
| AMap (opened trunc : bool) (m : option N)      (* did open and ftruncate succeed, where did mmap put it *)
| ACas | ATab                                    (* arax_pipe_mmap_address, arax_pipe_have_to_mmap *)
| ARemap (m : option N)                          (* the second mmap *)
| AInit (same_rev : bool)                        (* arax_pipe_init *)
| AUse (off : N)                                 (* access a byte of the segment *)
| AExit | ADie.                                  (* arax_exit; the process is killed *)

(** One process changes; no code of its own. *)
Definition setp (s : st) (i : nat) (p : proc) : st := mkst (self s) (segsize s) (count s) (tab s) (flen s) (upd (ps s) i p).
(** exit(1) is reached through munmap(vpipe, vpipe->shm_size) (impl.c:127): a bad access unless vpipe is mapped. *)
Definition fail (p : proc) : proc :=
  mkproc (pid p) (if existsb (N.eqb (vp p)) (maps p) then PExit1 else PCrash) (vp p) (size p) (maps p).
(** Moving on; no code of its own. *)
Definition goto (p : proc) (c : ppc) : proc := mkproc (pid p) c (vp p) (size p) (maps p).

Definition step (s : st) (a : nat * act) : st :=
  let '(i, x) := a in
  match nth_error (ps s) i with
  | None => s
  | Some p =>
    match x, pc p with
    (* impl.c:54-62; vpipe is CONF_ARAX_MMAP_BASE, where nothing is mapped *)
    | ACfg file sz total, PNew =>
        if file && negb (sz =? 0)%N && (sz <=? total)%N
        then setp s i (mkproc (pid p) PConf (vp p) sz (maps p))
        else setp s i (fail p)
    (* system.c:37-66, impl.c:79-86; the test [fd < 0] of system.c:46 looks at the pointer *)
    | AMap opened trunc m, PConf =>
        if negb opened then setp s i (fail (mkproc (pid p) (pc p) 0 (size p) (maps p)))
        else if negb (flen s =? size p)%N && negb trunc
        then setp s i (goto p PCrash)      (* returns 1 with fd and vpipe set: goes on, nothing is mapped *)
        else let s' := mkst (self s) (segsize s) (count s) (tab s) (size p) (ps s) in
             match m with
             | None => setp s' i (fail (mkproc (pid p) (pc p) 0 (size p) (maps p)))
             | Some b => setp s' i (mkproc (pid p) PMapped b (size p) (b :: maps p))
             end
    (* arax_pipe.c:165-173 *)
    | ACas, PMapped =>
        if (self s =? 0)%N
        then mkst (vp p) (segsize s) (count s) (tab s) (flen s) (upd (ps s) i (goto p (PCas (vp p))))
        else setp s i (goto p (PCas (self s)))
    (* arax_pipe.c:126-146, impl.c:90-101 *)
    | ATab, PCas a =>
        if existsb (N.eqb (pid p)) (tab s)
        then setp s i (mkproc (pid p) PInit a (size p) (maps p))
        else let s' := mkst (self s) (segsize s) (count s) (pid p :: tab s) (flen s) (ps s) in
             if (a =? vp p)%N then setp s' i (goto p PInit)
             else setp s' i (mkproc (pid p) (PMap2 a) a (size p)
                               (if (segsize s =? 0)%N then maps p else filter (fun b => negb (b =? vp p)%N) (maps p)))
    | ARemap m, PMap2 a =>
        match m with
        | None => setp s i (fail (mkproc (pid p) (pc p) 0 (size p) (maps p)))
        | Some b => if (b =? a)%N then setp s i (mkproc (pid p) PInit b (size p) (b :: maps p))
                    else setp s i (fail (mkproc (pid p) (pc p) b (size p) (b :: maps p)))
        end
    (* arax_pipe.c:5-32, impl.c:99-102 *)
    | AInit same_rev, PInit =>
        if negb (existsb (N.eqb (vp p)) (maps p)) then setp s i (goto p PCrash)
        else if (count s =? 0)%N
        then mkst (self s) (size p) 1 (tab s) (flen s) (upd (ps s) i (goto p PIn))
        else let s' := mkst (self s) (segsize s) (count s + 1) (tab s) (flen s) (ps s) in
             if same_rev then setp s' i (goto p PIn)
             else setp s' i (fail (mkproc (pid p) (pc p) 0 (size p) (maps p)))
    (* outside the mapping: SIGSEGV; outside the file: SIGBUS *)
    | AUse off, PIn =>
        if existsb (N.eqb (vp p)) (maps p) && (off <? size p)%N && (off <? flen s)%N then s else setp s i (goto p PCrash)
    (* impl.c:161-175 *)
    | AExit, PIn => mkst (self s) (segsize s) (count s - 1) (filter (fun q => negb (q =? pid p)%N) (tab s)) (flen s)
                         (upd (ps s) i (mkproc (pid p) PGone (vp p) (size p) []))
    | ADie, _ => setp s i (mkproc (pid p) PGone (vp p) (size p) [])
    | _, _ => s
    end
  end.
(** Any interleaving, no code of its own. *)
Definition run (s : st) (l : list (nat * act)) : st := fold_left step l s.

(** ** Specification *)

(** mmap never answers NULL. *)
Definition kernel (l : list (nat * act)) : Prop :=
  forall i o t m, In (i, AMap o t m) l \/ In (i, ARemap m) l -> m <> Some 0%N.
(** All processes are configured with the same size. *)
Definition one_size (z : N) (l : list (nat * act)) : Prop := forall i f sz t, In (i, ACfg f sz t) l -> sz = z.
(** No process gets the pid of one that died without detaching. *)
Fixpoint fresh_pids (s : st) (l : list (nat * act)) : Prop :=
  match l with
  | [] => True
  | a :: r => (forall p b, nth_error (ps s) (fst a) = Some p -> snd a = ATab -> pc p = PCas b -> ~ In (pid p) (tab s)) /\ fresh_pids (step s a) r
  end.
Definition attached (s : st) (i : nat) (p : proc) : Prop := nth_error (ps s) i = Some p /\ pc p = PIn.

(** ** Proofs *)
Lemma existsb_in x l : existsb (N.eqb x) l = true <-> In x l.
Proof. rewrite existsb_exists. split; [intros (y & H & E); apply N.eqb_eq in E; now subst|intros H; exists x; split; [assumption|apply N.eqb_refl]]. Qed.

(** Of one process. *)
Definition okp (s : st) (p : proc) : Prop :=
  match pc p with
  | PMapped => vp p <> 0%N /\ In (vp p) (maps p)
  | PCas a => self s = a /\ a <> 0%N /\ In (vp p) (maps p)
  | PMap2 a => self s = a /\ a <> 0%N /\ vp p = a
  | PInit | PIn => self s = vp p /\ vp p <> 0%N
  | _ => True
  end.
Definition inv (s : st) : Prop := forall i p, nth_error (ps s) i = Some p -> okp s p.

Lemma okp_self s s' p : okp s p -> (self s = 0%N \/ self s' = self s) -> okp s' p.
Proof. unfold okp. destruct (pc p); intuition congruence. Qed.

Lemma upd_inv s s' i p' : inv s -> ps s' = upd (ps s) i p' -> (self s = 0%N \/ self s' = self s) -> okp s' p' -> inv s'.
Proof.
  intros I E S0 O j q N. rewrite E in N. apply nth_upd_cases in N. destruct N as [(-> & -> & _)|(N & EJ)]; [assumption|].
  apply (okp_self s); auto. now apply (I j).
Qed.

Lemma fail_ok s p : okp s (fail p).
Proof. unfold okp, fail. cbn. destruct (existsb _ _); exact Logic.I. Qed.

Lemma step_inv s a : inv s -> (forall o t m, snd a = AMap o t m \/ snd a = ARemap m -> m <> Some 0%N) -> inv (step s a).
Proof.
  intros I KN. destruct a as [i x]. unfold step. destruct (nth_error (ps s) i) as [p|] eqn:E; [|assumption].
  pose proof (I i p E) as O. unfold okp in O. cbn [snd] in KN.
  destruct x, (pc p) eqn:PC; try assumption;
    repeat match goal with
    | |- inv (if ?b then _ else _) => destruct b eqn:?
    | |- inv (match ?m with None => _ | Some _ => _ end) => destruct m eqn:?
    end; cbv zeta;
    repeat match goal with
    | |- inv (if ?b then _ else _) => destruct b eqn:?
    | |- inv (match ?m with None => _ | Some _ => _ end) => destruct m eqn:?
    end; try assumption;
    try (eapply (upd_inv s _ i); [assumption|reflexivity|cbn; now right|first [apply fail_ok|unfold okp; cbn; auto; fail]]; fail).
  - (* AMap *) eapply (upd_inv s _ i); [assumption|reflexivity|cbn; now right|]. unfold okp. cbn. split; [|now left].
    intros ->. eapply (KN opened trunc); [now left|reflexivity].
  - (* ACas, first *) apply N.eqb_eq in Heqb. destruct O as [O1 O2].
    eapply (upd_inv s _ i); [assumption|reflexivity|now left|]. unfold okp. cbn. auto.
  - (* ACas *) apply N.eqb_neq in Heqb. eapply (upd_inv s _ i); [assumption|reflexivity|cbn; now right|]. unfold okp. cbn. intuition.
  - (* ATab *) eapply (upd_inv s _ i); [assumption|reflexivity|cbn; now right|]. unfold okp. cbn. intuition.
  - apply N.eqb_eq in Heqb0. subst a. eapply (upd_inv s _ i); [assumption|reflexivity|cbn; now right|]. unfold okp. cbn. intuition.
  - eapply (upd_inv s _ i); [assumption|reflexivity|cbn; now right|]. unfold okp. cbn. intuition.
  - (* ARemap *) apply N.eqb_eq in Heqb. subst. eapply (upd_inv s _ i); [assumption|reflexivity|cbn; now right|]. unfold okp. cbn. intuition.
Qed.

Lemma start_inv pids : inv (start pids).
Proof.
  intros i p N. unfold start in N. cbn [ps] in N. rewrite nth_error_map in N. destruct (nth_error pids i); [|discriminate].
  injection N as <-. exact Logic.I.
Qed.

Lemma run_inv l : forall s, kernel l -> inv s -> inv (run s l).
Proof.
  induction l as [|a l IH]; intros s K I; cbn; [assumption|]. apply IH.
  - intros i o t m H. apply (K i o t m). cbn. tauto.
  - apply step_inv; [assumption|]. intros o t m [H|H]; destruct a as [i x]; cbn in H; subst x; apply (K i o t m); cbn; auto.
Qed.

(** ** C53 *)

(** In every execution, whatever the kernel and the configuration answer: two attached processes use the segment at the
    same address, the one stored in the segment. *)
Theorem C53_same_address : forall pids l i j p q,
  kernel l -> attached (run (start pids) l) i p -> attached (run (start pids) l) j q ->
  vp p = vp q /\ vp p = self (run (start pids) l) /\ vp p <> 0%N.
Proof.
  intros pids l i j p q K [EP CP] [EQ CQ]. pose proof (run_inv l (start pids) K (start_inv pids)) as I.
  pose proof (I i p EP) as O1. pose proof (I j q EQ) as O2. unfold okp in *. rewrite CP in O1. rewrite CQ in O2.
  destruct O1, O2. repeat split; congruence.
Qed.

(** Of one process, when all are configured with size [z] and pids are fresh. *)
Definition okz (z : N) (s : st) (p : proc) : Prop :=
  match pc p with
  | PConf => size p = z
  | PMapped | PCas _ | PInit | PIn => In (vp p) (maps p) /\ size p = z /\ flen s = z
  | PMap2 _ => size p = z /\ flen s = z
  | _ => True
  end.
Definition invz (z : N) (s : st) : Prop := forall i p, nth_error (ps s) i = Some p -> okz z s p.

Lemma okz_flen z s s' p : okz z s p -> (flen s' = z \/ flen s' = flen s) -> okz z s' p.
Proof. unfold okz. destruct (pc p); intuition congruence. Qed.

Lemma upd_invz z s s' i p' :
  invz z s -> ps s' = upd (ps s) i p' -> (flen s' = z \/ flen s' = flen s) -> okz z s' p' -> invz z s'.
Proof.
  intros I E S0 O j q N. rewrite E in N. apply nth_upd_cases in N. destruct N as [(-> & -> & _)|(N & EJ)]; [assumption|].
  apply (okz_flen z s); auto. now apply (I j).
Qed.

Lemma fail_okz z s p : okz z s (fail p).
Proof. unfold okz, fail. cbn. destruct (existsb _ _); exact Logic.I. Qed.

Lemma step_invz z s a : invz z s -> (forall f sz t, snd a = ACfg f sz t -> sz = z) ->
  (forall p b, nth_error (ps s) (fst a) = Some p -> snd a = ATab -> pc p = PCas b -> ~ In (pid p) (tab s)) ->
  invz z (step s a).
Proof.
  intros I ZS FR. destruct a as [i x]. cbn [fst snd] in *. unfold step. destruct (nth_error (ps s) i) as [p|] eqn:E; [|assumption].
  pose proof (I i p E) as O. unfold okz in O.
  destruct x, (pc p) eqn:PC; try assumption;
    repeat match goal with
    | |- invz _ (if ?b then _ else _) => destruct b eqn:?
    | |- invz _ (match ?m with None => _ | Some _ => _ end) => destruct m eqn:?
    end; cbv zeta;
    repeat match goal with
    | |- invz _ (if ?b then _ else _) => destruct b eqn:?
    | |- invz _ (match ?m with None => _ | Some _ => _ end) => destruct m eqn:?
    end; try assumption;
    try (eapply (upd_invz z s _ i); [assumption|reflexivity|cbn; intuition|first [apply fail_okz|unfold okz; cbn; intuition; fail]]; fail).
  - eapply (upd_invz z s _ i); [assumption|reflexivity|cbn; now right|]. unfold okz. cbn. now apply (ZS file sz total).
  - (* ATab, pid known *) exfalso. apply existsb_in in Heqb. now apply (FR p a eq_refl eq_refl PC).
Qed.

Lemma run_invz z l : forall s, one_size z l -> fresh_pids s l -> invz z s -> invz z (run s l).
Proof.
  induction l as [|a l IH]; intros s ZS FR I; cbn; [assumption|]. destruct FR as [F1 F2]. apply IH; [|assumption|].
  - intros i f sz t H. apply (ZS i f sz t). now right.
  - apply step_invz; [assumption| |assumption]. intros f sz t H. destruct a as [i x]; cbn in H; subst x. apply (ZS i f sz t). now left.
Qed.

Lemma start_invz z pids : invz z (start pids).
Proof.
  intros i p N. unfold start in N. cbn [ps] in N. rewrite nth_error_map in N. destruct (nth_error pids i); [|discriminate].
  injection N as <-. exact Logic.I.
Qed.

(** When every process is configured with the same size [z] and no process gets the pid of one that died attached: an
    attached process can use every byte of the [z], whatever the other processes did.  Partial: without either
    condition this is false, see below. *)
Theorem C53_usable_partial : forall z pids l i p off,
  one_size z l -> fresh_pids (start pids) l -> attached (run (start pids) l) i p -> (off < z)%N ->
  step (run (start pids) l) (i, AUse off) = run (start pids) l.
Proof.
  intros z pids l i p off ZS FR [E C] LT. pose proof (run_invz z l _ ZS FR (start_invz z pids)) as I.
  pose proof (I i p E) as O. unfold okz in O. rewrite C in O. destruct O as (O1 & O2 & O3).
  unfold step. rewrite E, C. apply existsb_in in O1. rewrite O1, O2, O3. apply N.ltb_lt in LT. now rewrite LT.
Qed.

(** Processes 0 and 1 attach interleaved; the second mapping of 1 had to be moved; both use the last byte. *)
Definition ex_l : list (nat * act) :=
  [(0, ACfg true 4096 8192); (1, ACfg true 4096 8192); (0, AMap true true (Some 40960%N)); (1, AMap true true (Some 81920%N));
   (1, ACas); (0, ACas); (0, ATab); (1, ATab); (1, AInit true); (0, ARemap (Some 81920%N)); (0, AInit true)].
Example C53_example :
  kernel ex_l /\ one_size 4096 ex_l /\ fresh_pids (start [7; 9]%N) ex_l /\
  map (fun p => (pc p, vp p)) (ps (run (start [7; 9]%N) ex_l)) = [(PIn, 81920%N); (PIn, 81920%N)] /\
  count (run (start [7; 9]%N) ex_l) = 2%N /\
  map pc (ps (run (start [7; 9]%N) (ex_l ++ [(0, AUse 4095); (1, AUse 4095)]))) = [PIn; PIn].
Proof.
  split; [|split; [|split; [|vm_compute; auto]]].
  - intros i o t m H. unfold ex_l in H. cbn in H. intuition congruence.
  - intros i f sz t H. unfold ex_l in H. cbn in H. intuition congruence.
  - unfold ex_l. repeat (split; [intros p b E A C; cbn in A; try discriminate A;
      vm_compute in E; injection E as <-; vm_compute in C |- *; intuition congruence|]). exact Logic.I.
Qed.

(** What fails.  A process attaches and is killed; a later process with the same pid attaches and is believed to have the
    segment mapped where it has not: its first access is fatal. *)
Theorem C53_stale_pid_refuted : exists l,
  kernel l /\ one_size 4096 l /\ map pc (ps (run (start [7; 7]%N) l)) = [PGone; PCrash] /\
  exists l', l = l' ++ [(1, AInit true)] /\ map pc (ps (run (start [7; 7]%N) l')) = [PGone; PInit].
Proof.
  exists ([(0, ACfg true 4096 8192); (0, AMap true true (Some 40960%N)); (0, ACas); (0, ATab); (0, AInit true); (0, ADie);
           (1, ACfg true 4096 8192); (1, AMap true true (Some 81920%N)); (1, ACas); (1, ATab)] ++ [(1, AInit true)]).
  split; [|split; [|split; [vm_compute; reflexivity|eexists; split; [reflexivity|vm_compute; reflexivity]]]].
  - intros i o t m H. cbn in H. intuition congruence.
  - intros i f sz t H. cbn in H. intuition congruence.
Qed.

(** A second process configured with a smaller segment shortens the file under the first one: an access that was good
    before is fatal afterwards. *)
Theorem C53_sizes_refuted : exists l1 l2 off,
  kernel (l1 ++ l2) /\ fresh_pids (start [7; 9]%N) (l1 ++ l2) /\ (forall x, In x l2 -> fst x = 1) /\
  map pc (ps (run (start [7; 9]%N) l1)) = [PIn; PNew] /\
  step (run (start [7; 9]%N) l1) (0, AUse off) = run (start [7; 9]%N) l1 /\
  map pc (ps (run (start [7; 9]%N) (l1 ++ l2 ++ [(0, AUse off)]))) = [PCrash; PIn].
Proof.
  exists [(0, ACfg true 8192 65536); (0, AMap true true (Some 40960%N)); (0, ACas); (0, ATab); (0, AInit true)],
    [(1, ACfg true 4096 65536); (1, AMap true true (Some 40960%N)); (1, ACas); (1, ATab); (1, AInit true)], 5000%N.
  split; [|split; [|split; [|split; [|split]]]]; try (vm_compute; reflexivity).
  - intros i o t m H. cbn in H. intuition congruence.
  - repeat (split; [intros p b E A C; cbn in A; try discriminate A;
      vm_compute in E; injection E as <-; vm_compute in C |- *; intuition congruence|]). exact Logic.I.
  - intros x H. cbn in H. intuition (subst; reflexivity).
Qed.

(** A process that cannot attach should print a message and end with exit(1).  In each of these seven cases it dies of a
    bad access in the failure path (impl.c:127 or 88) instead: no shm_file, size 0, more than the machine's memory, the
    file cannot be opened, cannot be resized, cannot be mapped, or belongs to another version. *)
Definition fails_with (l : list (nat * act)) : option ppc :=
  option_map pc (nth_error (ps (run (start [7; 9]%N) l)) 0).
Theorem C53_failure_reported_refuted :
  let other := [(1, ACfg true 4096 8192); (1, AMap true true (Some 40960%N)); (1, ACas); (1, ATab); (1, AInit true)] in
  let cfg := (0, ACfg true 4096 8192) in
  Forall (fun l => fails_with l = Some PCrash)
    [[(0, ACfg false 4096 8192)]; [(0, ACfg true 0 8192)]; [(0, ACfg true 8193 8192)];
     [cfg; (0, AMap false true None)]; [cfg; (0, AMap true false None)]; [cfg; (0, AMap true true None)];
     other ++ [cfg; (0, AMap true true (Some 40960%N)); (0, ACas); (0, ATab); (0, AInit false)]].
Proof. cbv zeta. repeat (constructor; [vm_compute; reflexivity|]). constructor. Qed.

(** The one failure that is reported: the segment cannot be placed at the agreed address. *)
Theorem C53_misplaced_reported_partial : forall s i p a b,
  nth_error (ps s) i = Some p -> pc p = PMap2 a -> b <> a ->
  option_map pc (nth_error (ps (step s (i, ARemap (Some b)))) i) = Some PExit1.
Proof.
  intros s i p a b E C NE. unfold step. rewrite E, C. apply N.eqb_neq in NE. rewrite NE. unfold setp. cbn [ps].
  assert (LT : i < length (ps s)) by (apply nth_error_Some; congruence).
  rewrite nth_error_upd_eq by assumption. unfold fail. cbn. rewrite N.eqb_refl. reflexivity.
Qed.
