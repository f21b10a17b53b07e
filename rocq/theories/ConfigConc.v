(** Several processes using one configuration file: property C48.

    Code modelled
    - [src/utils/config.c:13-47]   conf_get, file case (one step: the whole file is read)
    - [src/utils/config.c:49-69]   conf_set, file case (two steps: open for writing truncates the file, then fwrite)
    - [src/utils/config.c:71-83]   utils_config_write_str
    - [src/utils/config.c:133-162] _utils_config_get_str (conf_get, then the scan of the private copy)

    A write goes to offset 0 of the file as it then is.  No lock is taken in the
    code, and none here: steps of processes interleave freely. *)
From Coq Require Import Ascii String.
From Coq Require Import List Arith Lia Bool NArith ZArith.
From Verif Require Import Config.
Import ListNotations.
Local Open Scope N_scope.
Local Open Scope list_scope.

(** Inside src/utils/config.c:71-83: after conf_get (13-47), after the truncation in conf_set (49-69). *)
Inductive pc := Idle | GotText (snap key value : text) | Truncated (next : text).

(** The file of src/utils/config.c:13-69 and the processes. *)
Record st := mkst { file : text; pcs : nat -> pc }.
(** Update of a map, no code of its own. *)
Definition upd {A} (f : nat -> A) (i : nat) (v : A) : nat -> A := fun j => if Nat.eqb j i then v else f j.

(** Steps of src/utils/config.c:13-83. *)
Inductive ev :=
| EBegin (i : nat) (key value : text)   (* utils_config_write_str: conf_get *)
| ETrunc (i : nat)                      (* conf_set: fopen(path, "w") *)
| EWrite (i : nat)                      (* conf_set: fwrite, fclose *)
| ELook (i : nat) (key : text) (r : option text).  (* a lookup by a process and its result *)

(** fwrite at offset 0, src/utils/config.c:49-69. *)
Definition overlay (new old : text) : text := new ++ skipn (length new) old.

(** src/utils/config.c:13-83, one constructor per step. *)
Inductive step : st -> ev -> st -> Prop :=
| s_begin : forall s i key value, pcs s i = Idle ->
    step s (EBegin i key value) (mkst (file s) (upd (pcs s) i (GotText (file s) key value)))
| s_trunc : forall s i snap key value, pcs s i = GotText snap key value ->
    step s (ETrunc i) (mkst [] (upd (pcs s) i (Truncated (write_str snap key value))))
| s_write : forall s i next, pcs s i = Truncated next ->
    step s (EWrite i) (mkst (overlay next (file s)) (upd (pcs s) i Idle))
| s_look : forall s i key r, pcs s i = Idle -> r = lookup (file s) key -> step s (ELook i key r) s.

(** Any interleaving, no code of its own. *)
Inductive run : st -> list ev -> st -> Prop :=
| run_nil : forall s, run s [] s
| run_cons : forall s e s1 l s2, step s e s1 -> run s1 l s2 -> run s (e :: l) s2.

(** No call in progress; no code of its own. *)
Definition start (t : text) : st := mkst t (fun _ => Idle).

(** Calls that do not overlap: process, key, value. *)
Definition call := (nat * text * text)%type.
Definition call_events (c : call) : list ev := let '(i, k, v) := c in [EBegin i k v; ETrunc i; EWrite i].

(** C48, what holds: when calls do not overlap, the file ends up with every
    setting appended, in order. *)
Theorem C48_no_overlap_partial : forall cs t s, run (start t) (flat_map call_events cs) s ->
  file s = fold_left (fun acc c => write_str acc (snd (fst c)) (snd c)) cs t.
Proof.
  assert (G : forall cs s0 s, run s0 (flat_map call_events cs) s -> (forall i, pcs s0 i = Idle) ->
    file s = fold_left (fun acc c => write_str acc (snd (fst c)) (snd c)) cs (file s0)).
  { induction cs as [|[[i k] v] cs IH]; intros s0 s R ID.
    - inversion R; subst. reflexivity.
    - cbn [flat_map call_events app fold_left] in R |- *.
      inversion R as [|? ? s1 ? ? S1 R1]; subst; clear R. inversion S1; subst; clear S1.
      inversion R1 as [|? ? s2 ? ? S2 R2]; subst; clear R1. inversion S2 as [|? ? snap key value P2| |]; subst; clear S2.
      inversion R2 as [|? ? s3 ? ? S3 R3]; subst; clear R2. inversion S3 as [| |? ? next P3|]; subst; clear S3.
      cbn [file pcs] in *. unfold upd in P2, P3. rewrite Nat.eqb_refl in P2, P3. injection P2 as <- <- <-. injection P3 as <-.
      rewrite (IH _ _ R3); cbn [file pcs fst snd].
      + unfold overlay. rewrite skipn_nil, app_nil_r. reflexivity.
      + intros j. unfold upd. destruct (Nat.eqb j i); auto. }
  intros cs t s R. rewrite (G cs (start t) s R); [reflexivity|reflexivity].
Qed.

(** C48 refuted: two processes writing different keys; one setting is lost. *)
Theorem C48_lost_update_refuted : exists s,
  run (start (str "shm_file vdf" ++ [10]))
    [EBegin 0 (str "a") (str "1"); EBegin 1 (str "b") (str "2"); ETrunc 0; EWrite 0; ETrunc 1; EWrite 1] s /\
  lookup (file s) (str "a") = None /\ lookup (file s) (str "b") = Some (str "2").
Proof.
  eexists. split.
  - eapply run_cons; [apply s_begin; reflexivity|]. eapply run_cons; [apply s_begin; reflexivity|].
    eapply run_cons; [eapply s_trunc; reflexivity|]. eapply run_cons; [eapply s_write; reflexivity|].
    eapply run_cons; [eapply s_trunc; reflexivity|]. eapply run_cons; [eapply s_write; reflexivity|]. apply run_nil.
  - split; vm_compute; reflexivity.
Qed.

(** C48 refuted: a setting that nobody changes is not found by a process that
    looks while another one is writing a different key. *)
Theorem C48_missing_while_writing_refuted : exists s,
  run (start (str "shm_file vdf" ++ [10]))
    [ELook 1 (str "shm_file") (Some (str "vdf")); EBegin 0 (str "a") (str "1"); ETrunc 0; ELook 1 (str "shm_file") None;
     EWrite 0; ELook 1 (str "shm_file") (Some (str "vdf"))] s.
Proof.
  eexists. eapply run_cons; [apply s_look; [reflexivity|vm_compute; reflexivity]|].
  eapply run_cons; [apply s_begin; reflexivity|]. eapply run_cons; [eapply s_trunc; reflexivity|].
  eapply run_cons; [apply s_look; [reflexivity|vm_compute; reflexivity]|].
  eapply run_cons; [eapply s_write; reflexivity|].
  eapply run_cons; [apply s_look; [reflexivity|vm_compute; reflexivity]|]. apply run_nil.
Qed.

(** C48 refuted: the two writes may also blend into settings nobody wrote. *)
Theorem C48_blended_refuted : exists s,
  run (start []) [EBegin 0 (str "path") (str "/tmp/arax"); EBegin 1 (str "a") (str "1"); ETrunc 0; ETrunc 1; EWrite 0; EWrite 1] s /\
  lookup (file s) (str "path") = None /\ lookup (file s) (str "/tmp/arax") = None /\
  lookup (file s) (str "a") = Some (str "1") /\ file s = str "a 1" ++ [10] ++ str " /tmp/arax" ++ [10].
Proof.
  eexists. split.
  - eapply run_cons; [apply s_begin; reflexivity|]. eapply run_cons; [apply s_begin; reflexivity|].
    eapply run_cons; [eapply s_trunc; reflexivity|]. eapply run_cons; [eapply s_trunc; reflexivity|].
    eapply run_cons; [eapply s_write; reflexivity|]. eapply run_cons; [eapply s_write; reflexivity|]. apply run_nil.
  - repeat split; vm_compute; reflexivity.
Qed.

(** The hypothesis of [C48_no_overlap_partial] is met. *)
Example C48_example : exists s,
  run (start (str "z 9" ++ [10])) (flat_map call_events [(0%nat, str "a", str "1"); (1%nat, str "b", str "2")]) s /\
  lookup (file s) (str "a") = Some (str "1") /\ lookup (file s) (str "b") = Some (str "2") /\ lookup (file s) (str "z") = Some (str "9").
Proof.
  eexists. split.
  - cbn [flat_map call_events app].
    eapply run_cons; [apply s_begin; reflexivity|]. eapply run_cons; [eapply s_trunc; reflexivity|].
    eapply run_cons; [eapply s_write; reflexivity|]. eapply run_cons; [apply s_begin; reflexivity|].
    eapply run_cons; [eapply s_trunc; reflexivity|]. eapply run_cons; [eapply s_write; reflexivity|]. apply run_nil.
  - repeat split; vm_compute; reflexivity.
Qed.
