(** Loading kernel libraries: property C55.

    Code modelled
    - [include/arax.h:282-294]                          ARAX_HANDLER: the name and section of a kernel's function
    - [controller/src/Core/araxLibMgr.cpp:138-174]      loadFolder
    - [controller/src/Core/araxLibMgr.cpp:176-255]      loadLibrary
    - [controller/src/Core/araxLibMgr.cpp:257-268]      unloadLibraries
    - [controller/src/Core/araxLibMgr.cpp:275-307]      rtld_handler (the run-time loader), ~AraxLibMgr
    - [controller/src/Core/arax_controller.cpp:150-158] main: load every configured folder

    A folder is a tree and a path is a string: the configured folder and the names below it, joined by slashes.  What
    ELFIO and dlopen answer about a file is part of the tree.  Procedures are the pairs of a name and an accelerator type
    that have a kernel: registering and looking them up is C31, here they are one table.  The assertion of the C library
    used in loadLibrary is taken to be enabled (no NDEBUG).  Printing is left out. *)
From Coq Require Import String Ascii.
From Verif Require Import Base AccelTypes.
Local Open Scope nat_scope.
Arguments Nat.eqb : simpl never.

(** araxLibMgr.cpp:202, arax.h:283 *)
Definition sep : string := "_ARAX_FN_".
(** The rest of a string, no code of its own. *)
Fixpoint drop (n : nat) (s : string) : string :=
  match n, s with O, _ => s | _, EmptyString => s | S n, String _ s => drop n s end.
(** std::regex_search for two groups of any characters around the separator, araxLibMgr.cpp:202, 221-223: the first
    group takes as much as it can. *)
Fixpoint split (sp : string) (s : string) : option (string * string) :=
  match s with
  | EmptyString => None
  | String c r => match split sp r with
                  | Some (a, b) => Some (String c a, b)
                  | None => if prefix sp s then Some (EmptyString, drop (String.length sp) s) else None
                  end
  end.
(** std::string::rfind(p) != npos, araxLibMgr.cpp:178 *)
Fixpoint contains (p s : string) : bool :=
  prefix p s || match s with EmptyString => false | String _ r => contains p r end.

(** A file as ELFIO and dlopen see it.  [symtab]: the names of SHT_SYMTAB sections that are in the section .ARAX_HANDLERS;
    [dyn]: the functions of that section that dlsym finds. *)
Record lib := mklib { elf : bool; has_sec : bool; symtab : list string; dyn : list string; opens : bool }.
(** A directory entry; names are those readdir returns. *)
Inductive node := File (l : lib) | Folder (es : list (string * node)).

(** a path, no code of its own. *)
Definition path : Type := string.
(** araxLibMgr.cpp:166 *)
Definition below (p : path) (n : string) : path := (p ++ "/" ++ n)%string.
(** araxLibMgr.cpp:178 *)
Definition has_so (p : path) : bool := contains ".so" p.
(** araxLibMgr.cpp:163-164 *)
Definition hidden (n : string) : bool := match n with String "."%char _ => true | _ => false end.

(** [folders]: lib_paths; [libs]; [tab]: for a kernel name and a type the function: its library and symbol. *)
Record st := mkst { folders : list path; libs : list path; tab : string -> nat -> option (path * string) }.
(** araxLibMgr.cpp:136 and an empty segment *)
Definition empty : st := mkst [] [] (fun _ _ => None).

(** std::set/map::count *)
Definition known (p : path) (l : list path) : bool := if in_dec string_dec p l then true else false.

(** arax_proc_register, arax_proc_set_functor: araxLibMgr.cpp:248-249 *)
Definition set_kernel (s : st) (n : string) (ty : nat) (f : path * string) : st :=
  mkst (folders s) (libs s) (fun n' ty' => if String.eqb n' n && (ty' =? ty) then Some f else tab s n' ty').
(** the loop of loadLibrary, araxLibMgr.cpp:238-251; arax_proc_set_functor asserts the type (C31) *)
Fixpoint add_kernels (s : st) (p : path) (d : list string) (hs : list (string * string)) : outcome st :=
  match hs with
  | [] => Ok s
  | (n, a) :: r =>
      let sym := (n ++ sep ++ a)%string in
      let ty := type_from_str (Some a) in
      if negb (existsb (String.eqb sym) d) then Abort
      else if negb (valid_type ty) then Abort
      else add_kernels (set_kernel s n ty (p, sym)) p d r
  end.
(** the handlers found, araxLibMgr.cpp:206-226 *)
Definition handlers (l : lib) : list (string * string) :=
  flat_map (fun x => match split sep x with Some h => [h] | None => [] end) (symtab l).
(** loadLibrary, araxLibMgr.cpp:176-255 *)
Definition load_library (s : st) (p : path) (l : lib) : outcome st :=
  if negb (has_so p) then Ok s
  else if known p (libs s) then Ok s
  else if negb (elf l) then Ok s
  else if negb (has_sec l) then Ok s
  else if negb (opens l) then Ok s
  else add_kernels (mkst (folders s) (p :: libs s) (tab s)) p (dyn l) (handlers l).
(** loadFolder, araxLibMgr.cpp:138-174, and loadLibrary for what is not a folder (167-168) *)
Fixpoint load (s : st) (p : path) (nd : node) {struct nd} : outcome st :=
  match nd with
  | File l => load_library s p l
  | Folder es =>
      if known p (folders s) then Ok s
      else (fix go (s : st) (es : list (string * node)) {struct es} : outcome st :=
              match es with
              | [] => Ok s
              | (n, c) :: r => if hidden n then go s r else do s' <- load s (below p n) c; go s' r
              end) (mkst (p :: folders s) (libs s) (tab s)) es
  end.
(** the inner loop of [load], for the proofs *)
Fixpoint load_all (s : st) (p : path) (es : list (string * node)) : outcome st :=
  match es with
  | [] => Ok s
  | (n, c) :: r => if hidden n then load_all s p r else do s' <- load s (below p n) c; load_all s' p r
  end.

(** main, arax_controller.cpp:150-158: every configured folder in turn; [None]: opendir fails, and the controller does
    not start.  The result is [None] then. *)
Fixpoint load_roots (s : st) (rs : list (path * option node)) : outcome (option st) :=
  match rs with
  | [] => Ok (Some s)
  | (p, None) :: _ => Ok None
  | (p, Some nd) :: r => do s' <- load s p nd; load_roots s' r
  end.
(** unloadLibraries, araxLibMgr.cpp:257-268: [procs] is a member no function adds to, so nothing is unregistered *)
Definition unload (s : st) : st := mkst (folders s) [] (tab s).

(** * The run-time loader *)
(** inotify(7): an event and its name, padded to a multiple of the header's 16 bytes *)
Record ev := mkev { wd : nat; ename : string }.
(** inotify(7) *)
Definition ev_size (e : ev) : nat := 16 + 16 * ((String.length (ename e) + 1 + 15) / 16).
(** sizeof(InotifyEvent), araxLibMgr.cpp:275-278: NAME_MAX + 1 *)
Definition buf_size : nat := 256.
Arguments ev_size : simpl never.
Arguments buf_size : simpl never.
(** read of an inotify descriptor: whole events, as many as fit, are consumed; inotify(7) *)
Fixpoint consume (room : nat) (q : list ev) : list ev :=
  match q with
  | [] => []
  | e :: r => if ev_size e <=? room then consume (room - ev_size e) r else q
  end.
(** Where the loader's thread is: at the test of [run], in read, or finished. *)
Inductive at_ := ATest | ARead | AEnd.
(** [pend]: events the kernel holds; [handled]: events loadLibrary was called for; [joined]: the destructor returned. *)
Record ls := mkls { pend : list ev; run : bool; pc : at_; handled : list ev; stopping : bool; joined : bool }.
(** araxLibMgr.cpp:136, 270-273 *)
Definition ls0 : ls := mkls [] true ATest [] false false.
(** What can happen: a file is written and closed, a file is moved in, the thread takes its next step, the destructor is
    called ([w]: it can create its file), the destructor's join returns. *)
Inductive lact := LWrite (e : ev) | LMove (e : ev) | LStep | LStop (w : bool) | LJoin.
(** The file the destructor creates, araxLibMgr.cpp:298; the watch is the first of the map. *)
Definition signal : ev := mkev 0 "run.false"%string.
(** rtld_handler, araxLibMgr.cpp:280-292; ~AraxLibMgr, 294-307; the watch is for IN_CLOSE_WRITE only, 155-156.  [None]:
    this cannot happen now, e.g. read blocks.  An event that does not fit makes read fail (EINVAL): the event in the
    handler is whatever the stack held, taken here to name no library. *)
Definition lstep (s : ls) (a : lact) : option ls :=
  match a with
  | LWrite e => Some (mkls (pend s ++ [e]) (run s) (pc s) (handled s) (stopping s) (joined s))
  | LMove e => Some s
  | LStep => match pc s with
             | ATest => Some (mkls (pend s) (run s) (if run s then ARead else AEnd) (handled s) (stopping s) (joined s))
             | ARead => match pend s with
                        | [] => None
                        | e :: _ => if ev_size e <=? buf_size then Some (mkls (consume buf_size (pend s)) (run s) ATest (handled s ++ [e]) (stopping s) (joined s))
                                    else Some (mkls (pend s) (run s) ATest (handled s) (stopping s) (joined s))
                        end
             | AEnd => None
             end
  | LStop w => if stopping s then None else Some (mkls (if w then pend s ++ [signal] else pend s) false (pc s) (handled s) true (joined s))
  | LJoin => if stopping s then match pc s with AEnd => Some (mkls (pend s) (run s) (pc s) (handled s) (stopping s) true) | _ => None end else None
  end.
(** A history, no code of its own. *)
Fixpoint lrun (s : ls) (h : list lact) : option ls := match h with [] => Some s | a :: h => match lstep s a with Some s' => lrun s' h | None => None end end.

(** ** Specification *)

(** A name in a folder has no slash. *)
Fixpoint noslash (n : string) : Prop := match n with EmptyString => True | String c r => c <> "/"%char /\ noslash r end.
(** [at_path p nd q l]: with [nd] at path [p], [l] is the file at path [q], reached by names none of which is hidden. *)
Inductive at_path : path -> node -> path -> lib -> Prop :=
| at_file p l : at_path p (File l) p l
| at_folder p es n c q l : In (n, c) es -> hidden n = false -> at_path (below p n) c q l -> at_path p (Folder es) q l.
(** A library for the controller: its path says ".so", it is an ELF file with kernels, and it can be opened. *)
Definition eligible (p : path) (l : lib) : Prop := has_so p = true /\ elf l = true /\ has_sec l = true /\ opens l = true.
(** The library has a function ARAX_HANDLER(n, a), for an accelerator type of that name. *)
Definition offers (l : lib) (n : string) (ty : nat) (sym : string) : Prop :=
  In sym (dyn l) /\ exists a, sym = (n ++ sep ++ a)%string /\ type_from_str (Some a) = ty /\ valid_type ty = true.
(** Built with ARAX_HANDLER only and not stripped: the symbol table and the dynamic symbols of the section agree and
    every name is that of a kernel. *)
Definition well_built (l : lib) : Prop :=
  (forall x, In x (symtab l) <-> In x (dyn l)) /\
  forall x, In x (symtab l) -> exists n a, x = (n ++ sep ++ a)%string /\ valid_type (type_from_str (Some a)) = true.
(** Names in a folder are distinct. *)
Inductive sane : node -> Prop :=
| sane_file l : sane (File l)
| sane_folder es : NoDup (map fst es) -> (forall n c, In (n, c) es -> noslash n /\ sane c) -> sane (Folder es).

(** [q] is [p] or a path below it. *)
Definition ext (p q : path) : Prop := exists r, q = (p ++ r)%string /\ (r = EmptyString \/ exists r', r = String "/" r').
(** The libraries of the configured folders. *)
Definition in_roots (rs : list (path * option node)) (q : path) (l : lib) : Prop := exists p nd, In (p, Some nd) rs /\ at_path p nd q l.
(** No configured folder is another one or inside another one. *)
Fixpoint apart (rs : list (path * option node)) : Prop :=
  match rs with [] => True | (p, _) :: r => (forall p' x, In (p', x) r -> forall q, ext p q -> ~ ext p' q) /\ apart r end.

(** ** Names of kernels *)
Fixpoint lowers (s : string) : string := match s with EmptyString => EmptyString | String c r => String (lower c) (lowers r) end.
Lemma lowers_app a b : lowers (a ++ b)%string = (lowers a ++ lowers b)%string.
Proof. induction a as [|c a IH]; cbn; congruence. Qed.
Lemma strcaseeq_lowers a : forall b, strcaseeq a b = true -> lowers a = lowers b.
Proof.
  induction a as [|x a IH]; intros [|y b]; cbn; try discriminate; auto. rewrite andb_true_iff, Ascii.eqb_eq.
  intros [-> H]. f_equal. auto.
Qed.
Lemma prefix_lowers p : forall s, prefix p s = true -> prefix (lowers p) (lowers s) = true.
Proof.
  induction p as [|x p IH]; intros [|y s]; cbn; try discriminate; auto.
  destruct (ascii_dec x y) as [->|]; [|discriminate]. destruct (ascii_dec (lower y) (lower y)); [auto|congruence].
Qed.
Lemma split_lowers p s : split (lowers p) (lowers s) = None -> split p s = None.
Proof.
  induction s as [|c s IH]; cbn [split lowers]; auto.
  destruct (split (lowers p) (lowers s)) as [[a b]|]; [discriminate|]. rewrite IH by reflexivity.
  destruct (prefix p (String c s)) eqn:E; auto. apply prefix_lowers in E. cbn [lowers] in E. rewrite E. discriminate.
Qed.
Lemma valid_lowers a : valid_type (type_from_str (Some a)) = true -> In (lowers a) (map (fun e => lowers (fst e)) types_map).
Proof.
  intros V. assert (H : exists e, In e types_map /\ strcaseeq a (fst e) = true).
  { unfold type_from_str, types_map in *. cbn [from_loop] in V.
    repeat match type of V with context [strcaseeq a ?t] => destruct (strcaseeq a t) eqn:?; [eexists (t, _); split; [|cbn [fst]; eassumption]; cbn; tauto|] end. vm_compute in V. discriminate. }
  destruct H as (e & I & E). apply strcaseeq_lowers in E. rewrite E. apply in_map_iff. eauto.
Qed.
Lemma drop_app a b : drop (String.length a) (a ++ b)%string = b.
Proof. induction a; cbn; auto. Qed.
Lemma prefix_app p s : prefix p (p ++ s)%string = true.
Proof. induction p as [|c p IH]; cbn; [destruct s; reflexivity|]. destruct (ascii_dec c c); [auto|congruence]. Qed.
(** The names ARAX_HANDLER makes are taken apart again: even if the separator occurs in the kernel's name. *)
Lemma split_ok n a : valid_type (type_from_str (Some a)) = true -> split sep (n ++ sep ++ a)%string = Some (n, a).
Proof.
  intros V. induction n as [|c n IH].
  - change (EmptyString ++ sep ++ a)%string with (sep ++ a)%string.
    assert (H : split sep ("ARAX_FN_" ++ a)%string = None).
    { apply split_lowers. rewrite lowers_app. apply valid_lowers in V.
      cbn [types_map map fst] in V. repeat (destruct V as [V|V]; [rewrite <- V; vm_compute; reflexivity|]). destruct V. }
    change (sep ++ a)%string with (String "_" ("ARAX_FN_" ++ a)). cbn [split]. rewrite H.
    change (String "_" ("ARAX_FN_" ++ a)) with (sep ++ a)%string. rewrite prefix_app, drop_app. reflexivity.
  - change (String c n ++ sep ++ a)%string with (String c (n ++ sep ++ a)). cbn [split]. rewrite IH. reflexivity.
Qed.
Lemma prefix_drop p : forall s, prefix p s = true -> s = (p ++ drop (String.length p) s)%string.
Proof.
  induction p as [|x p IH]; intros [|y s]; cbn; try discriminate; auto.
  destruct (ascii_dec x y) as [->|]; [|discriminate]. intros H. f_equal. auto.
Qed.
Lemma split_sound s : forall n a, split sep s = Some (n, a) -> s = (n ++ sep ++ a)%string.
Proof.
  induction s as [|c s IH]; intros n a; cbn [split]; [discriminate|].
  destruct (split sep s) as [[x y]|]; [intros [= <- <-]; rewrite (IH _ _ eq_refl) at 1; reflexivity|].
  destruct (prefix sep (String c s)) eqn:E; [|discriminate]. intros [= <- <-]. apply prefix_drop in E. exact E.
Qed.
Lemma handlers_wb l n a : well_built l -> In (n, a) (handlers l) -> In (n ++ sep ++ a)%string (dyn l) /\ valid_type (type_from_str (Some a)) = true.
Proof.
  intros [W1 W2] I. unfold handlers in I. apply in_flat_map in I. destruct I as (x & I & J).
  destruct (split sep x) as [[n' a']|] eqn:E; [|destruct J]. destruct J as [[= -> ->]|[]].
  destruct (W2 _ I) as (m & b & Ex & V). subst x. rewrite (split_ok m b V) in E. injection E as -> ->. split; auto. now apply W1.
Qed.
Lemma handlers_wb' l n a : well_built l -> In (n ++ sep ++ a)%string (dyn l) -> valid_type (type_from_str (Some a)) = true -> In (n, a) (handlers l).
Proof.
  intros [W1 W2] I V. apply W1 in I. unfold handlers. apply in_flat_map. exists (n ++ sep ++ a)%string. split; auto. rewrite split_ok by auto. now left.
Qed.

(** ** One library *)
Lemma add_ok p d hs : forall s,
  (forall n a, In (n, a) hs -> In (n ++ sep ++ a)%string d /\ valid_type (type_from_str (Some a)) = true) ->
  exists s', add_kernels s p d hs = Ok s' /\ folders s' = folders s /\ libs s' = libs s /\
    forall n ty, (exists a, In (n, a) hs /\ type_from_str (Some a) = ty /\ tab s' n ty = Some (p, (n ++ sep ++ a)%string))
              \/ ((forall a, In (n, a) hs -> type_from_str (Some a) <> ty) /\ tab s' n ty = tab s n ty).
Proof.
  induction hs as [|[n a] hs IH]; intros s H.
  - exists s. split; [reflexivity|split; [reflexivity|split; [reflexivity|]]]. intros m ty. right. split; [intros b []|reflexivity].
  - destruct (H n a (or_introl eq_refl)) as [D V]. cbn [add_kernels]. 
    assert (ED : existsb (String.eqb (n ++ sep ++ a)%string) d = true) by (apply existsb_exists; exists (n ++ sep ++ a)%string; split; [auto|apply String.eqb_refl]).
    rewrite ED, V. cbn [negb].
    destruct (IH (set_kernel s n (type_from_str (Some a)) (p, (n ++ sep ++ a)%string)) (fun n' a' I => H n' a' (or_intror I))) as (s' & E & F & L & T).
    exists s'. split; [exact E|split; [exact F|split; [exact L|]]]. intros m ty.
    destruct (T m ty) as [(b & I & Ty & Q)|[N Q]]; [left; exists b; split; [now right|auto]|].
    cbn [set_kernel tab] in Q. destruct (String.eqb m n && (ty =? type_from_str (Some a))) eqn:C.
    + apply andb_prop in C. destruct C as [C1 C2]. apply String.eqb_eq in C1. apply Nat.eqb_eq in C2. subst m ty. left. exists a. split; [now left|auto].
    + right. split; [|exact Q]. intros b [[= <- <-]|I]; [|auto]. intros <-. rewrite String.eqb_refl, Nat.eqb_refl in C. discriminate.
Qed.
(** what loading the files [R] does to the table *)
Definition loads (R : path -> lib -> Prop) (s s' : st) : Prop :=
  forall n ty, (exists q l sym, R q l /\ eligible q l /\ offers l n ty sym /\ tab s' n ty = Some (q, sym))
            \/ ((forall q l sym, R q l -> eligible q l -> ~ offers l n ty sym) /\ tab s' n ty = tab s n ty).
Lemma known_in p l : known p l = true <-> In p l.
Proof. unfold known. destruct (in_dec string_dec p l); split; intros; auto; discriminate. Qed.
Lemma lib_ok s p l : ~ In p (libs s) -> (eligible p l -> well_built l) ->
  exists s', load_library s p l = Ok s' /\ folders s' = folders s /\ (libs s' = libs s \/ libs s' = p :: libs s) /\
    (eligible p l -> In p (libs s')) /\ loads (fun q k => q = p /\ k = l) s s'.
Proof.
  intros NI W. unfold load_library. 
  assert (K : known p (libs s) = false) by (destruct (known p (libs s)) eqn:E; auto; apply known_in in E; tauto). rewrite K.
  destruct (has_so p) eqn:E1, (elf l) eqn:E2, (has_sec l) eqn:E3, (opens l) eqn:E4; cbn [negb].
  1:{ assert (EL : eligible p l) by (unfold eligible; auto). specialize (W EL).
      destruct (add_ok p (dyn l) (handlers l) (mkst (folders s) (p :: libs s) (tab s)) (fun n a => handlers_wb l n a W)) as (s' & E & F & L & T).
      exists s'. split; [exact E|split; [exact F|split; [right; exact L|split; [intros _; rewrite L; now left|]]]].
      intros n ty. destruct (T n ty) as [(a & I & Ty & Q)|[N Q]].
      - left. destruct (handlers_wb l n a W I) as [D V]. exists p, l, (n ++ sep ++ a)%string.
        split; [auto|split; [auto|split; [|exact Q]]]. split; [auto|]. exists a. subst ty. auto.
      - right. split; [|exact Q]. intros q k sym [-> ->] _ (I & a & -> & Ty & V). apply (N a); [|auto]. apply handlers_wb'; auto. congruence. }
  all: exists s; split; [reflexivity|split; [reflexivity|split; [now left|split; [intros (A & B & C & D); congruence|]]]];
    intros n ty; right; split; [|reflexivity]; intros q k sym [-> ->] (A & B & C & D); congruence.
Qed.

(** ** Folders *)
Lemma app_assoc_s (a b c : string) : ((a ++ b) ++ c = a ++ (b ++ c))%string.
Proof. induction a; cbn; congruence. Qed.
Lemma app_nil_s (a : string) : (a ++ "" = a)%string.
Proof. induction a; cbn; congruence. Qed.
Lemma app_inj_s (a b c : string) : (a ++ b = a ++ c)%string -> b = c.
Proof. induction a; cbn; auto. intros [= H]. auto. Qed.
Lemma ext_refl p : ext p p.
Proof. exists EmptyString. rewrite app_nil_s. auto. Qed.
Lemma ext_below p n q : ext (below p n) q -> ext p q.
Proof. intros (r & -> & R). exists ("/" ++ n ++ r)%string. unfold below. rewrite !app_assoc_s. split; [reflexivity|right; eexists; reflexivity]. Qed.
Lemma ext_not_self p n : ~ ext (below p n) p.
Proof.
  intros (r & E & _). unfold below in E. apply (f_equal String.length) in E. 
  assert (LA : forall a b : string, String.length (a ++ b)%string = String.length a + String.length b) by (induction a; cbn; intros; auto).
  rewrite !LA in E. cbn [String.length] in E. lia.
Qed.
Lemma slash_split n : forall n' r r', noslash n -> noslash n' -> (r = EmptyString \/ exists x, r = String "/" x) -> (r' = EmptyString \/ exists x, r' = String "/" x) ->
  (n ++ r = n' ++ r')%string -> n = n'.
Proof.
  induction n as [|c n IH]; intros [|c' n'] r r' N N' R R' E; auto; cbn in *.
  - destruct R as [->|[x ->]]; [discriminate|]. injection E as <- _. destruct N'. congruence.
  - destruct R' as [->|[x ->]]; [discriminate|]. injection E as -> _. destruct N. congruence.
  - injection E as <- E. f_equal. destruct N, N'. eauto.
Qed.
Lemma ext_disj p n n' q : noslash n -> noslash n' -> ext (below p n) q -> ext (below p n') q -> n = n'.
Proof.
  intros N N' (r & -> & R) (r' & E & R'). unfold below in E. rewrite !app_assoc_s in E. apply app_inj_s in E. cbn in E. injection E as E.
  exact (slash_split n n' r r' N N' R R' E).
Qed.
Lemma at_ext p nd q l : at_path p nd q l -> ext p q.
Proof. induction 1; [apply ext_refl|]. eapply ext_below; eauto. Qed.

Definition fresh (s : st) (p : path) : Prop := forall q, ext p q -> ~ In q (folders s) /\ ~ In q (libs s).
Definition only (p : path) (s s' : st) : Prop :=
  (forall q, In q (folders s') -> In q (folders s) \/ ext p q) /\ (forall q, In q (libs s') -> In q (libs s) \/ ext p q) /\
  (forall q, In q (folders s) -> In q (folders s')) /\ (forall q, In q (libs s) -> In q (libs s')).
Definition load_spec (nd : node) : Prop := forall s p, fresh s p -> (forall q l, at_path p nd q l -> eligible q l -> well_built l) ->
  exists s', load s p nd = Ok s' /\ only p s s' /\ loads (at_path p nd) s s' /\ (forall q l, at_path p nd q l -> eligible q l -> In q (libs s')) /\
  (forall es, nd = Folder es -> In p (folders s')).
Lemma load_folder s p es : load s p (Folder es) = if known p (folders s) then Ok s else load_all (mkst (p :: folders s) (libs s) (tab s)) p es.
Proof.
  cbn [load]. destruct (known p (folders s)); [reflexivity|]. generalize (mkst (p :: folders s) (libs s) (tab s)). clear s.
  induction es as [|[n c] es IH]; intros s; cbn [load_all]; [reflexivity|]. destruct (hidden n); [apply IH|]. destruct (load s (below p n) c); cbn [bind]; auto.
Qed.
Lemma load_all_ok p es : forall s,
  NoDup (map fst es) -> (forall n c, In (n, c) es -> noslash n /\ load_spec c) ->
  (forall n c, In (n, c) es -> fresh s (below p n)) ->
  (forall n c q l, In (n, c) es -> hidden n = false -> at_path (below p n) c q l -> eligible q l -> well_built l) ->
  exists s', load_all s p es = Ok s' /\ only p s s' /\
    loads (fun q l => exists n c, In (n, c) es /\ hidden n = false /\ at_path (below p n) c q l) s s' /\
    (forall n c q l, In (n, c) es -> hidden n = false -> at_path (below p n) c q l -> eligible q l -> In q (libs s')).
Proof.
  induction es as [|[n c] es IH]; intros s ND SP FR WB; cbn [load_all].
  - exists s. split; [reflexivity|]. split; [unfold only; auto|]. split; [|intros ? ? ? ? []].
    intros m ty. right. split; [|reflexivity]. intros q l sym (? & ? & [] & _).
  - cbn in ND. apply NoDup_cons_iff in ND. destruct ND as [NI ND]. destruct (hidden n) eqn:Hn.
    + destruct (IH s ND (fun m d I => SP m d (or_intror I)) (fun m d I => FR m d (or_intror I)) (fun m d q l I => WB m d q l (or_intror I))) as (s' & E & O & L & Q).
      exists s'. split; [exact E|split; [exact O|split]].
      * intros m ty. destruct (L m ty) as [(q & l & sym & (m' & d & I & X) & Y)|[N Y]].
        -- left. exists q, l, sym. split; [|exact Y]. exists m', d. split; [now right|exact X].
        -- right. split; [|exact Y]. intros q l sym (m' & d & [[= <- <-]|I] & Hd & X); [congruence|]. apply (N q l sym). eauto.
      * intros m d q l [[= <- <-]|I] Hd; [congruence|eauto].
    + destruct (SP n c (or_introl eq_refl)) as [NS LS].
      destruct (LS s (below p n) (FR n c (or_introl eq_refl)) (fun q l => WB n c q l (or_introl eq_refl) Hn)) as (s1 & E1 & O1 & L1 & Q1 & _).
      rewrite E1. cbn [bind].
      assert (FR1 : forall m d, In (m, d) es -> fresh s1 (below p m)).
      { intros m d I q X. destruct (FR m d (or_intror I) q X) as [F1 F2]. destruct O1 as (O1 & O2 & _).
        assert (D : ~ ext (below p n) q). { intros Y. apply NI. replace n with m; [apply in_map_iff; exists (m, d); auto|]. eapply ext_disj; eauto. apply (SP m d). now right. }
        split; intros J; [apply O1 in J|apply O2 in J]; tauto. }
      destruct (IH s1 ND (fun m d I => SP m d (or_intror I)) FR1 (fun m d q l I => WB m d q l (or_intror I))) as (s' & E & O & L & Q).
      exists s'. split; [exact E|]. destruct O as (P1 & P2 & P3 & P4). destruct O1 as (O1 & O2 & O3 & O4). split; [|split].
      * split; [|split; [|split]]; auto.
        -- intros q I. apply P1 in I. destruct I as [I|I]; [|auto]. apply O1 in I. destruct I as [I|I]; auto. right. eapply ext_below; eauto.
        -- intros q I. apply P2 in I. destruct I as [I|I]; [|auto]. apply O2 in I. destruct I as [I|I]; auto. right. eapply ext_below; eauto.
      * intros m ty. destruct (L m ty) as [(q & l & sym & (m' & d & I & X) & Y)|[N Y]].
        -- left. exists q, l, sym. split; [|exact Y]. exists m', d. split; [now right|exact X].
        -- destruct (L1 m ty) as [(q & l & sym & X & EL & OF & Z)|[N1 Z]].
           ++ left. exists q, l, sym. split; [exists n, c; split; [now left|auto]|]. rewrite Y. auto.
           ++ right. split; [|congruence]. intros q l sym (m' & d & [[= <- <-]|I] & Hd & X); [eapply N1; eauto|]. apply (N q l sym). eauto.
      * intros m d q l [[= <- <-]|I] Hd X EL; [|eauto]. apply P4. eapply Q1; eauto.
Qed.
Lemma loads_eq (R R' : path -> lib -> Prop) s t t' s' : (forall q l, R q l <-> R' q l) -> tab s = tab t -> tab s' = tab t' -> loads R s s' -> loads R' t t'.
Proof.
  intros H E E' L n ty. rewrite <- E, <- E'. destruct (L n ty) as [(q & l & sym & X & Y)|[N Y]]; [left|right].
  - exists q, l, sym. split; [now apply H|exact Y].
  - split; [|exact Y]. intros q l sym X. apply N. now apply H.
Qed.
Fixpoint height (nd : node) : nat := match nd with File _ => 0 | Folder es => S (list_max (map (fun e => height (snd e)) es)) end.
Lemma load_ok : forall nd, sane nd -> load_spec nd.
Proof.
  intros nd. remember (height nd) as h eqn:Eh. assert (Hh : height nd <= h) by lia. clear Eh. revert nd Hh.
  induction h as [h IH] using (well_founded_induction lt_wf). intros [l|es] Hh SA s p FR WB.
  - cbn [load]. destruct (lib_ok s p l) as (s' & E & F & L & Q & LD).
    { destruct (FR p (ext_refl p)); auto. } { intros EL. apply (WB p l); [constructor|auto]. }
    exists s'. split; [exact E|]. split; [|split].
    + unfold only. rewrite F. split; [auto|split; [|split]]; auto; intros q I; destruct L as [L|L]; rewrite L in *; cbn in *; auto.
      destruct I as [<-|I]; auto. right. apply ext_refl.
    + eapply loads_eq; [| | |exact LD]; auto. intros q k. split; [intros [-> ->]; constructor|]. inversion 1; subst; auto.
    + split; [|discriminate]. intros q k X EL. inversion X; subst. auto.
  - rewrite load_folder. assert (K : known p (folders s) = false). { destruct (known p (folders s)) eqn:E; auto. apply known_in in E. destruct (FR p (ext_refl p)). tauto. }
    rewrite K. inversion SA as [|es' ND SC]; subst es'.
    destruct (load_all_ok p es (mkst (p :: folders s) (libs s) (tab s)) ND) as (s' & E & (O1 & O2 & O3 & O4) & L & Q).
    + intros n c I. destruct (SC n c I) as [NS S1]. split; [exact NS|]. 
      assert (Hc : height c < h).
      { cbn [height] in Hh. assert (G := list_max_le (map (fun e => height (snd e)) es) (list_max (map (fun e => height (snd e)) es))).
        destruct G as [G _]. specialize (G (le_n _)). rewrite Forall_forall in G. specialize (G (height c) (in_map (fun e => height (snd e)) es (n, c) I)). lia. }
      eapply (IH (height c)); eauto.
    + intros n c I q X. cbn [folders libs]. destruct (FR q (ext_below _ _ _ X)) as [F1 F2]. split; [|exact F2]. intros [<-|J]; [|tauto]. eapply ext_not_self; eauto.
    + intros n c q l I Hd X EL. apply (WB q l); [econstructor; eauto|auto].
    + exists s'. split; [exact E|]. cbn [folders libs] in *. split; [|split].
      * split; [|split; [|split]]; auto.
        -- intros q I. apply O1 in I. destruct I as [[<-|I]|I]; auto. right. apply ext_refl.
        -- intros q I. apply O3. now right.
      * eapply loads_eq; [| | |exact L]; auto. intros q l. split; [intros (n & c & I & Hd & X); econstructor; eauto|].
        inversion 1; subst. eauto 6.
      * split; [|intros; apply O3; now left]. intros q l X EL. inversion X; subst. eauto.
Qed.

(** ** Every kernel of every library in the folders, and nothing else *)
Lemma roots_ok rs : forall s, apart rs -> (forall p nd, In (p, Some nd) rs -> sane nd) -> (forall p nd, In (p, nd) rs -> nd <> None /\ fresh s p) ->
  (forall q l, in_roots rs q l -> eligible q l -> well_built l) ->
  exists s', load_roots s rs = Ok (Some s') /\ loads (in_roots rs) s s' /\
    (forall q, In q (folders s) -> In q (folders s')) /\ (forall q, In q (libs s) -> In q (libs s')) /\
    (forall p es, In (p, Some (Folder es)) rs -> In p (folders s')) /\ (forall q l, in_roots rs q l -> eligible q l -> In q (libs s')).
Proof.
  induction rs as [|[p x] rs IH]; intros s AP SA FR WB; cbn [load_roots].
  - exists s. split; [reflexivity|split; [|split; [auto|split; [auto|split; [intros ? ? []|]]]]].
    + intros n ty. right. split; [|reflexivity]. intros q l sym (? & ? & [] & _).
    + intros q l (? & ? & [] & _).
  - destruct AP as [AP1 AP]. destruct (FR p x (or_introl eq_refl)) as [NX F]. destruct x as [nd|]; [|congruence].
    destruct (load_ok nd (SA p nd (or_introl eq_refl)) s p F) as (s1 & E1 & (O1 & O2 & O3 & O4) & L1 & Q1 & Q1').
    { intros q l X. apply WB. exists p, nd. split; [now left|auto]. }
    rewrite E1. cbn [bind].
    destruct (IH s1 AP) as (s' & E & L & M1 & M2 & R1 & R2).
    + intros p' nd' I. apply (SA p'). now right.
    + intros p' x' I. destruct (FR p' x' (or_intror I)) as [NX' F']. split; [exact NX'|]. intros q X. destruct (F' q X) as [G1 G2].
      assert (D : ~ ext p q) by (intros Y; exact (AP1 p' x' I q Y X)). split; intros J; [apply O1 in J|apply O2 in J]; tauto.
    + intros q l (p' & nd' & I & X). apply WB. exists p', nd'. split; [now right|auto].
    + exists s'. split; [exact E|split; [|split; [auto|split; [auto|split]]]].
      * intros m ty. destruct (L m ty) as [(q & l & sym & (p' & nd' & I & X) & Y)|[N Y]].
        -- left. exists q, l, sym. split; [|exact Y]. exists p', nd'. split; [now right|exact X].
        -- destruct (L1 m ty) as [(q & l & sym & X & EL & OF & Z)|[N1 Z]].
           ++ left. exists q, l, sym. split; [exists p, nd; split; [now left|auto]|]. rewrite Y. auto.
           ++ right. split; [|congruence]. intros q l sym (p' & nd' & [[= <- <-]|I] & X); [eapply N1; eauto|]. apply (N q l sym). exists p', nd'. auto.
      * intros p' es [[= <- ->]|I]; [|eauto]. apply M1. eapply Q1'; eauto.
      * intros q l (p' & nd' & [[= <- <-]|I] & X) EL; [apply M2; eapply Q1; eauto|]. eapply R2; eauto. exists p', nd'. auto.
Qed.

(** With every configured folder there, and the libraries in them built with ARAX_HANDLER and not stripped, the controller
    starts, and then knows a kernel for a name and a type exactly if some library that can be opened, reached through
    folders and files that are not hidden and with ".so" in its path, has one; the function it will call is that library's
    function for that name and type.  Loading a configured folder again changes nothing.
    Not covered: folders inside one another, and libraries that are not well built (below). *)
Theorem C55_loaded_partial (rs : list (path * option node)) :
  apart rs -> (forall p nd, In (p, Some nd) rs -> sane nd) -> (forall p x, In (p, x) rs -> x <> None) ->
  (forall q l, in_roots rs q l -> eligible q l -> well_built l) ->
  exists s, load_roots empty rs = Ok (Some s) /\
    (forall n ty, tab s n ty <> None <-> exists q l sym, in_roots rs q l /\ eligible q l /\ offers l n ty sym) /\
    (forall n ty q sym, tab s n ty = Some (q, sym) -> exists l, in_roots rs q l /\ eligible q l /\ offers l n ty sym) /\
    (forall p es, In (p, Some (Folder es)) rs -> load s p (Folder es) = Ok s) /\
    (forall q l, in_roots rs q l -> load_library s q l = Ok s).
Proof.
  intros AP SA NN WB. destruct (roots_ok rs empty AP SA) as (s & E & L & _ & _ & R1 & R2); auto.
  { intros p x I. split; [eauto|]. intros q _. split; intros []. }
  exists s. split; [exact E|split; [|split; [|split]]].
  - intros n ty. destruct (L n ty) as [(q & l & sym & X & EL & OF & Z)|[N Z]]; rewrite Z; split.
    + intros _. exists q, l, sym. auto.
    + discriminate.
    + intros H. exfalso. apply H. reflexivity.
    + intros (q & l & sym & X & EL & OF). exfalso. eapply N; eauto.
  - intros n ty q sym T. destruct (L n ty) as [(q' & l & sym' & X & EL & OF & Z)|[N Z]]; rewrite Z in T; [|discriminate].
    injection T as -> ->. eauto.
  - intros p es I. rewrite load_folder. assert (K : known p (folders s) = true) by (apply known_in; eauto). now rewrite K.
  - intros q l X. unfold load_library.
    destruct (has_so q) eqn:E1, (elf l) eqn:E2, (has_sec l) eqn:E3, (opens l) eqn:E4; cbn [negb]; destruct (known q (libs s)) eqn:K; auto.
    assert (I : In q (libs s)) by (eapply R2; eauto; unfold eligible; auto). apply known_in in I. congruence.
Qed.

(** A configured folder that is not there keeps the controller from starting. *)
Theorem C55_missing_folder (rs : list (path * option node)) s : load_roots empty rs = Ok (Some s) -> forall p x, In (p, x) rs -> x <> None.
Proof.
  generalize empty. induction rs as [|[p [nd|]] rs IH]; intros e E p' x I; cbn [load_roots] in E; [destruct I| |discriminate].
  destruct (load e p nd) as [s1| |]; cbn [bind] in E; try discriminate. destruct I as [[= <- <-]|I]; [discriminate|eauto].
Qed.

(** The case: two folders, one with a nested folder; a library with two kernels, one for two types; a library without
    ".so"; a hidden one; one that cannot be opened; one without kernels; a kernel whose name contains the separator. *)
Definition ex_a : lib := (mklib true true ["noop_ARAX_FN_CPU"; "noop_ARAX_FN_gpu"; "x_ARAX_FN_y_ARAX_FN_HIP"] ["noop_ARAX_FN_CPU"; "noop_ARAX_FN_gpu"; "x_ARAX_FN_y_ARAX_FN_HIP"] true)%string.
Definition ex_b : lib := (mklib true true ["mul_ARAX_FN_GPU"] ["mul_ARAX_FN_GPU"] true)%string.
Definition ex_c : lib := (mklib true true ["add_ARAX_FN_CPU"] ["add_ARAX_FN_CPU"] false)%string.
Definition ex_d : lib := mklib true false [] [] true.
Definition ex_roots : list (path * option node) :=
  [("/lib/a", Some (Folder [("liba.so", File ex_a); ("notes", File ex_b); (".hid.so", File ex_b); ("sub", Folder [("libb.so.1", File ex_b); ("libc.so", File ex_c)])]));
   ("/lib/ab", Some (Folder [("libm.so", File ex_d); ("libb.so", File ex_b)]))]%string.
Definition same_res (r : outcome (option st)) (n : string) (ty : nat) : option (option (path * string)) := match r with Ok (Some s) => Some (tab s n ty) | _ => None end.
Lemma at_folder_inv p es q l : at_path p (Folder es) q l -> exists n c, In (n, c) es /\ hidden n = false /\ at_path (below p n) c q l.
Proof. inversion 1; subst. eauto. Qed.
Lemma at_file_inv p k q l : at_path p (File k) q l -> q = p /\ l = k.
Proof. inversion 1; subst. auto. Qed.
Lemma ex_wb l : In l [ex_a; ex_b; ex_c] -> well_built l.
Proof.
  intros I. split.
  - repeat (destruct I as [<-|I]; [intros x; cbn; tauto|]). destruct I.
  - repeat (destruct I as [<-|I]; [intros x J; cbn in J|]); [| | |destruct I];
      repeat (destruct J as [<-|J]; [|try contradiction]).
    + exists "noop"%string, "CPU"%string. split; reflexivity.
    + exists "noop"%string, "gpu"%string. split; reflexivity.
    + exists "x_ARAX_FN_y"%string, "HIP"%string. split; reflexivity.
    + exists "mul"%string, "GPU"%string. split; reflexivity.
    + exists "add"%string, "CPU"%string. split; reflexivity.
Qed.
Example C55_loaded_example :
  apart ex_roots /\ (forall p nd, In (p, Some nd) ex_roots -> sane nd) /\ (forall p x, In (p, x) ex_roots -> x <> None) /\
  (forall q l, in_roots ex_roots q l -> eligible q l -> well_built l) /\
  same_res (load_roots empty ex_roots) "noop"%string CPU = Some (Some ("/lib/a/liba.so", "noop_ARAX_FN_CPU"))%string /\
  same_res (load_roots empty ex_roots) "x_ARAX_FN_y"%string HIP = Some (Some ("/lib/a/liba.so", "x_ARAX_FN_y_ARAX_FN_HIP"))%string /\
  same_res (load_roots empty ex_roots) "mul"%string GPU = Some (Some ("/lib/ab/libb.so", "mul_ARAX_FN_GPU"))%string /\
  same_res (load_roots empty ex_roots) "add"%string CPU = Some None /\ same_res (load_roots empty ex_roots) "mul"%string CPU = Some None.
Proof.
  split; [|split; [|split; [|split; [|repeat split; vm_compute; reflexivity]]]].
  - split; [|split; [intros ? ? []|exact I]]. intros p' x [[= <- <-]|[]] q (r & -> & R) (r' & E & R'). cbn in E. injection E as E.
    destruct R as [->|[y ->]]; discriminate.
  - intros p nd H. cbn in H. destruct H as [[= <- <-]|[[= <- <-]|[]]].
    + constructor; [cbn; repeat (constructor; [cbn; intuition discriminate|]); constructor|].
      intros n c H. cbn in H. repeat (destruct H as [[= <- <-]|H]; [split; [cbn; repeat (split; [discriminate|]); exact I|try constructor]|]); [| |destruct H].
      * cbn; repeat (constructor; [cbn; intuition discriminate|]); constructor.
      * intros n c H'. cbn in H'. repeat (destruct H' as [[= <- <-]|H']; [split; [cbn; repeat (split; [discriminate|]); exact I|constructor]|]). destruct H'.
    + constructor; [cbn; repeat (constructor; [cbn; intuition discriminate|]); constructor|].
      intros n c H. cbn in H. repeat (destruct H as [[= <- <-]|H]; [split; [cbn; repeat (split; [discriminate|]); exact I|try constructor]|]). destruct H.
  - intros p x [[= <- <-]|[[= <- <-]|[]]]; discriminate.
  - intros q l (p & nd & H & X) (E1 & E2 & E3 & E4). apply ex_wb. cbn in H. destruct H as [[= <- <-]|[[= <- <-]|[]]];
      apply at_folder_inv in X; destruct X as (n & c & I & Hd & X); cbn in I.
    + destruct I as [[= <- <-]|[[= <- <-]|[[= <- <-]|[[= <- <-]|[]]]]].
      1-3: apply at_file_inv in X; destruct X as [-> ->]; cbn; auto.
      apply at_folder_inv in X. destruct X as (n & c & I & Hd' & X). cbn in I.
      destruct I as [[= <- <-]|[[= <- <-]|[]]]; apply at_file_inv in X; destruct X as [-> ->]; cbn; auto.
    + destruct I as [[= <- <-]|[[= <- <-]|[]]]; apply at_file_inv in X; destruct X as [-> ->]; cbn; auto. discriminate.
Qed.

(** Removing the symbols of a library (strip) leaves its functions callable, but the controller then knows none of its
    kernels. *)
Theorem C55_stripped_refuted : exists s l, l = mklib true true [] ["noop_ARAX_FN_CPU"%string] true /\ offers l "noop"%string CPU "noop_ARAX_FN_CPU"%string /\ eligible "/l/a.so"%string l /\
  load_roots empty [("/l"%string, Some (Folder [("a.so"%string, File l)]))] = Ok (Some s) /\ tab s "noop"%string CPU = None.
Proof.
  eexists; eexists. split; [reflexivity|]. split; [split; [now left|exists "CPU"%string; repeat split; reflexivity]|]. split; [repeat split; reflexivity|]. split; reflexivity.
Qed.
(** One library with a kernel for an accelerator type the controller does not know ends the controller. *)
Theorem C55_unknown_type_refuted : exists l, In "noop_ARAX_FN_FPGA"%string (symtab l) /\ (forall x, In x (symtab l) <-> In x (dyn l)) /\
  load_roots empty [("/l"%string, Some (Folder [("a.so"%string, File l)]))] = Abort.
Proof. exists (mklib true true ["noop_ARAX_FN_FPGA"] ["noop_ARAX_FN_FPGA"] true)%string. split; [now left|]. split; [tauto|]. vm_compute. reflexivity. Qed.
(** So does one with a function in the section that is not exported, e.g. under hidden visibility. *)
Theorem C55_not_exported_refuted : exists l, (forall x, In x (symtab l) -> exists n a, x = (n ++ sep ++ a)%string /\ valid_type (type_from_str (Some a)) = true) /\
  load_roots empty [("/l"%string, Some (Folder [("a.so"%string, File l)]))] = Abort.
Proof.
  exists (mklib true true ["noop_ARAX_FN_CPU"] [] true)%string. split; [|vm_compute; reflexivity].
  intros x [<-|[]]. exists "noop"%string, "CPU"%string. split; reflexivity.
Qed.
(** After unloading the libraries the controller still hands out their functions. *)
Theorem C55_unload_refuted : exists s, load_roots empty ex_roots = Ok (Some s) /\ libs (unload s) = [] /\
  tab (unload s) "noop"%string CPU = Some ("/lib/a/liba.so", "noop_ARAX_FN_CPU")%string.
Proof. eexists. split; [vm_compute; reflexivity|]. split; vm_compute; reflexivity. Qed.

(** ** Libraries that arrive while the controller runs *)
(** The files written so far, in order. *)
Fixpoint written (h : list lact) : list ev := match h with [] => [] | LWrite e :: h => e :: written h | LStop true :: h => signal :: written h | _ :: h => written h end.
(** No read of the history finds more than one event waiting. *)
Fixpoint calm (s : ls) (h : list lact) : Prop :=
  match h with
  | [] => True
  | a :: h => (a = LStep -> pc s = ARead -> length (pend s) <= 1) /\ match lstep s a with Some s' => calm s' h | None => True end
  end.
Lemma size_fits e : String.length (ename e) <= 239 <-> (ev_size e <=? buf_size) = true.
Proof.
  unfold ev_size, buf_size. rewrite Nat.leb_le. set (n := String.length (ename e)).
  assert (M := Nat.div_mod (n + 1 + 15) 16 ltac:(lia)). assert (B := Nat.mod_upper_bound (n + 1 + 15) 16 ltac:(lia)). lia.
Qed.
Lemma calm_gen h : forall s s', lrun s h = Some s' -> calm s h -> (forall e, In e (pend s) \/ In e (written h) -> String.length (ename e) <= 239) ->
  handled s' ++ pend s' = handled s ++ pend s ++ written h.
Proof.
  induction h as [|a h IH]; intros s s' R C SZ.
  - cbn in *. injection R as <-. now rewrite app_nil_r.
  - cbn [lrun calm written] in *. destruct C as [C1 C]. destruct (lstep s a) as [s1|] eqn:E; [|discriminate].
    destruct a as [e|e| |w|]; cbn [lstep] in E.
    + injection E as <-. rewrite (IH _ _ R C); cbn [pend handled]; [now rewrite <- app_assoc|].
      intros x [I|I]; [apply in_app_iff in I; destruct I as [I|[<-|[]]]; apply SZ; cbn; auto|apply SZ; cbn; auto].
    + injection E as <-. now apply IH.
    + destruct (pc s) eqn:Ep; [|destruct (pend s) as [|e [|e' r]] eqn:Eq; [discriminate| |]|discriminate].
      * injection E as <-. rewrite (IH _ _ R C); auto.
      * assert (F : (ev_size e <=? buf_size) = true) by (apply size_fits, SZ; left; now left). rewrite F in E.
        assert (CE : consume buf_size [e] = []) by (cbn [consume]; now rewrite F). rewrite CE in E. injection E as <-. rewrite (IH _ _ R C); cbn [pend handled]; [now rewrite <- app_assoc|].
        intros x [[]|I]. auto.
      * specialize (C1 eq_refl eq_refl). cbn in C1. lia.
    + destruct (stopping s); [discriminate|]. injection E as <-. destruct w.
      * rewrite (IH _ _ R C); cbn [pend handled]; [now rewrite <- app_assoc|].
        intros x [I|I]; [apply in_app_iff in I; destruct I as [I|[<-|[]]]; apply SZ; cbn; auto|apply SZ; cbn; auto].
      * now apply (IH _ _ R C).
    + destruct (stopping s); [|discriminate]. destruct (pc s); try discriminate. injection E as <-. rewrite (IH _ _ R C); auto.
Qed.
(** If files arrive one at a time, each after the one before was noticed, and their names have at most 239 characters,
    every file is handled, in the order of arrival. *)
Theorem C55_arrivals_partial h s : lrun ls0 h = Some s -> calm ls0 h -> (forall e, In e (written h) -> String.length (ename e) <= 239) ->
  handled s ++ pend s = written h.
Proof. intros R C SZ. rewrite (calm_gen _ _ _ R C); [reflexivity|]. intros e [[]|I]. auto. Qed.
(** Only files that were written are handled. *)
Theorem C55_only_written h : forall s, lrun ls0 h = Some s -> forall e, In e (handled s) -> In e (written h).
Proof.
  assert (CO : forall q room x, In x (consume room q) -> In x q). { induction q as [|y q IH]; intros room x I; cbn [consume] in I; auto. destruct (ev_size y <=? room); auto. right. eauto. }
  assert (G : forall h s s', lrun s h = Some s' -> forall e, In e (handled s') \/ In e (pend s') -> In e (handled s) \/ In e (pend s) \/ In e (written h)).
  { clear h. induction h as [|a h IH]; intros s s' R e I; [injection R as <-; tauto|]. cbn [lrun] in R. destruct (lstep s a) as [s1|] eqn:E; [|discriminate].
    specialize (IH _ _ R e I). destruct a as [x|x| |w|]; cbn [lstep written] in *.
    - injection E as <-. cbn [handled pend] in IH. rewrite in_app_iff in IH. cbn in *. tauto.
    - injection E as <-. tauto.
    - destruct (pc s); [injection E as <-; exact IH| |discriminate]. destruct (pend s) as [|y q] eqn:Ep; [discriminate|].
      assert (CO' := CO (y :: q) buf_size). remember (consume buf_size (y :: q)) as cq eqn:Ecq. clear Ecq.
      destruct (ev_size y <=? buf_size) eqn:F; injection E as <-; cbn [handled pend] in IH; [|rewrite ?Ep in *; exact IH].
      destruct IH as [J|[J|J]]; [|apply CO' in J; tauto|tauto]. apply in_app_iff in J. destruct J as [J|[<-|[]]]; [tauto|]. right. left. now left.
    - destruct (stopping s); [discriminate|]. injection E as <-. cbn [handled pend] in IH. destruct w; [rewrite in_app_iff in IH|]; cbn in *; tauto.
    - destruct (stopping s); [|discriminate]. destruct (pc s); try discriminate. injection E as <-. exact IH. }
  intros s R e I. destruct (G _ _ _ R e (or_introl I)) as [[]|[[]|J]]. exact J.
Qed.
(** Once the destructor was called and could create its file, the thread ends after at most two
    of its steps - it never waits - and the destructor returns. *)
Theorem C55_stops_partial h s : lrun ls0 (h ++ [LStop true]) = Some s ->
  exists k s', k <= 2 /\ lrun s (repeat LStep k ++ [LJoin]) = Some s' /\ joined s' = true.
Proof.
  intros R. assert (exists s0, lrun ls0 h = Some s0 /\ lstep s0 (LStop true) = Some s) as (s0 & R0 & R1).
  { revert R. generalize ls0. induction h as [|a h IH]; intros x R; cbn [app lrun] in *.
    - exists x. split; [reflexivity|]. cbn [lstep] in *. destruct (stopping x); [discriminate|]. exact R.
    - destruct (lstep x a); [auto|discriminate]. }
  cbn [lstep] in R1. destruct (stopping s0) eqn:Es; [discriminate|]. injection R1 as <-.
  destruct (pc s0) eqn:Ep.
  - exists 1. eexists. split; [lia|]. cbn. split; reflexivity.
  - exists 2. cbn [repeat app lrun lstep pc pend run handled stopping joined]. destruct (pend s0 ++ [signal]) as [|e r] eqn:Eq; [destruct (pend s0); discriminate|].
    destruct (ev_size e <=? buf_size); cbn; eexists; (split; [lia|]); split; reflexivity.
  - exists 0. eexists. split; [lia|]. cbn. split; reflexivity.
Qed.
(** The case: two libraries written one after the other while the loader keeps up, then the end. *)
Definition ex_h : list lact := [LStep; LWrite (mkev 1 "a.so"%string); LStep; LStep; LWrite (mkev 2 "b.so"%string); LStep].
Example C55_arrivals_example : exists s, lrun ls0 ex_h = Some s /\ calm ls0 ex_h /\ (forall e, In e (written ex_h) -> String.length (ename e) <= 239) /\
  handled s = [mkev 1 "a.so"%string; mkev 2 "b.so"%string] /\ exists s', lrun ls0 (ex_h ++ [LStop true; LStep; LJoin]) = Some s' /\ joined s' = true.
Proof.
  eexists. split; [vm_compute; reflexivity|]. split; [vm_compute; repeat split; intros; try discriminate; repeat constructor|]. split; [intros e [<-|[<-|[]]]; cbn; lia|].
  split; [vm_compute; reflexivity|]. eexists. split; vm_compute; reflexivity.
Qed.
(** Two libraries that arrive together: the second is not loaded, now or later. *)
Theorem C55_together_refuted : exists h s, lrun ls0 h = Some s /\ written h = [mkev 1 "a.so"%string; mkev 1 "b.so"%string] /\ handled s = [mkev 1 "a.so"%string] /\ pend s = [] /\
  forall h' s', lrun s h' = Some s' -> In (mkev 1 "b.so"%string) (handled s') -> In (mkev 1 "b.so"%string) (written h').
Proof.
  exists [LWrite (mkev 1 "a.so"%string); LWrite (mkev 1 "b.so"%string); LStep; LStep]. eexists. split; [vm_compute; reflexivity|]. split; [reflexivity|]. split; [reflexivity|]. split; [reflexivity|].
  intros h' s' R I. set (h0 := [LStep; LWrite (mkev 1 "a.so"%string); LStep]).
  assert (R0 : lrun ls0 (h0 ++ h') = Some s') by exact R. apply C55_only_written with (e := mkev 1 "b.so"%string) in R0; auto. cbn in R0. destruct R0 as [[=]|J]; exact J.
Qed.
(** A library moved into the folder (the usual way to install one) is never noticed: it is handled only if it is also
    written there. *)
Theorem C55_moved_refuted : exists h s, lrun ls0 h = Some s /\ In (LMove (mkev 1 "a.so"%string)) h /\
  forall h' s', lrun s h' = Some s' -> ~ In (mkev 1 "a.so"%string) (written h') -> ~ In (mkev 1 "a.so"%string) (handled s').
Proof.
  exists [LStep; LMove (mkev 1 "a.so"%string)]. eexists. split; [reflexivity|]. split; [cbn; auto|]. intros h' s' R N I. apply N.
  assert (R0 : lrun ls0 ([LStep; LMove (mkev 1 "a.so"%string)] ++ h') = Some s') by exact R.
  exact (C55_only_written _ _ R0 _ I).
Qed.
(** A file with a name of 240 characters or more: no file is handled any more. *)
Theorem C55_long_name_refuted : exists e, String.length (ename e) = 240 /\
  forall h s, lrun ls0 (LWrite e :: h) = Some s -> handled s = [].
Proof.
  assert (L : exists n : string, String.length n = 240).
  { exists (let fix r k := match k with O => EmptyString | S k => String "a" (r k) end in r 240). reflexivity. }
  destruct L as [n L]. exists (mkev 1 n). split; [exact L|].
  assert (G : forall h s s', lrun s h = Some s' -> (exists r, pend s = mkev 1 n :: r) -> handled s' = handled s).
  { induction h as [|a h IH]; intros s s' R [r P]; cbn [lrun] in R; [injection R as <-; reflexivity|]. destruct (lstep s a) as [s1|] eqn:E; [|discriminate].
    assert (Q : handled s1 = handled s /\ exists r, pend s1 = mkev 1 n :: r).
    { destruct a as [x|x| |w|]; cbn [lstep] in E.
      - injection E as <-. cbn [handled pend]. rewrite P. split; [reflexivity|eexists; reflexivity].
      - injection E as <-. eauto.
      - destruct (pc s); [injection E as <-; cbn [handled pend]; rewrite ?P; split; [reflexivity|eexists; reflexivity]| |discriminate]. rewrite P in E.
        destruct (ev_size (mkev 1 n) <=? buf_size) eqn:F; [apply size_fits in F; cbn [ename] in F; lia|]. injection E as <-. cbn [handled pend]. split; [reflexivity|eexists; reflexivity].
      - destruct (stopping s); [discriminate|]. injection E as <-. cbn [handled pend]. rewrite P. destruct w; split; try reflexivity; eexists; reflexivity.
      - destruct (stopping s); [|discriminate]. destruct (pc s); try discriminate. injection E as <-. cbn [handled pend]. rewrite P. split; [reflexivity|eexists; reflexivity]. }
    destruct Q as [Q1 Q2]. rewrite (IH _ _ R Q2). exact Q1. }
  intros h s R. cbn [lrun lstep] in R. rewrite (G _ _ _ R); [reflexivity|]. exists []. reflexivity.
Qed.
(** If the destructor cannot create its file (a folder the controller may not write to), it never returns unless someone
    else writes a file there. *)
Theorem C55_cannot_stop_refuted : exists h s, lrun ls0 h = Some s /\ stopping s = true /\
  forall h' s', lrun s h' = Some s' -> written h' = [] -> joined s' = false.
Proof.
  exists [LStep; LStop false]. eexists. split; [reflexivity|]. split; [reflexivity|].
  set (s := mkls [] false ARead [] true false).
  assert (G : forall h' s', lrun s h' = Some s' -> written h' = [] -> s' = s).
  { induction h' as [|a h' IH]; intros s' R W; cbn [lrun] in R; [now injection R as <-|].
    destruct a as [x|x| |w|]; cbn in R; try discriminate. apply IH; auto. }
  intros h' s' R W. rewrite (G _ _ R W). reflexivity.
Qed.
