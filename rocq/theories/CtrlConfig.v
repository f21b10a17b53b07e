(** The controller's configuration: property C58.

    Code modelled
    - [controller/src/Core/Config.cpp:37-86]     GroupConfig::GroupConfig
    - [controller/src/Core/Config.cpp:94-98]     GroupConfig::addAccelerator
    - [controller/src/Core/Config.cpp:118-158]   AccelConfig::AccelConfig
    - [controller/src/Core/Config.cpp:160-193]   CpuSet
    - [controller/src/Core/Config.cpp:197-215]   fromString (job preferences)
    - [controller/src/Core/Config.cpp:217-302]   Config::Config
    - [controller/src/Core/Config.cpp:411-428]   reading a CpuSet
    - [controller/include/Utilities.h:24-59]     jsonCast, jsonGetSafe, jsonGetSafeOptional

    The JSON text is already parsed (picojson): a member is absent, of another type, or a value.  Members of an object come
    in the order of its map, so groups are a list without duplicate names.  What schedulers and worker threads are compiled
    in is a parameter.  A thrown exception (the controller prints it and exits) is [None].  Maps are association lists: the
    order of iteration is not claimed.  Error texts and the "pci_id" and other device members are left out. *)
From Coq Require Import String Ascii DecimalString Decimal DecimalNat.
From Verif Require Import Base AccelTypes.
Local Open Scope nat_scope.
Arguments Nat.eqb : simpl never.

(** A member of a JSON object. *)
Inductive field (A : Type) := Absent | Wrong | Val (a : A).
Arguments Absent {A}. Arguments Wrong {A}. Arguments Val {A} a.
(** jsonGetSafe, Utilities.h:33-43 *)
Definition req {A} (f : field A) : option A := match f with Val a => Some a | _ => None end.
(** jsonGetSafeOptional, Utilities.h:45-59 *)
Definition opt {A} (f : field A) (d : A) : option A := match f with Val a => Some a | Absent => Some d | Wrong => None end.
(** An exception ends the construction; no code of its own. *)
Definition obind {A B} (o : option A) (f : A -> option B) : option B := match o with Some a => f a | None => None end.
Notation "'get' x <- o ; f" := (obind o (fun x => f)) (at level 60, x name, right associativity).

(** The members the code reads. *)
Record jaccel := mkja { j_arch : field string; j_name : field string; j_core : field string; j_pref : field string }.
(** [j_sched]: the object "sched" and its member "class" *)
Record jgroup := mkjg { j_sched : field (field string); j_accels : field (list (field jaccel)) }.
(** the members of the whole configuration *)
Record jconf := mkjc { j_clean : field bool; j_paths : field (list (field string)); j_groups : field (list (string * field jgroup)) }.
(** [ncores]: hardware_concurrency(); [threads]: threadFactory.getTypes(); [scheds]: names schedulerFactory can construct *)
Record env := mkenv { ncores : N; threads : list string; scheds : list string }.

(** AccelConfig::JobPreference, Config.h:39 *)
Inductive pref := NoJob | UserJob | BatchJob | AnyJob.
(** std::transform with tolower, Config.cpp:201 *)
Fixpoint lowers (s : string) : string := match s with EmptyString => EmptyString | String c r => String (lower c) (lowers r) end.
(** fromString, Config.cpp:197-215 *)
Definition pref_of (s : string) : option pref :=
  let l := lowers s in
  if String.eqb l "nojob" then Some NoJob else if String.eqb l "userjob" then Some UserJob
  else if String.eqb l "batchjob" then Some BatchJob else if String.eqb l "anyjob" then Some AnyJob else None.

(** ** Cores *)
(** isspace *)
Definition space (c : ascii) : bool := let n := nat_of_ascii c in (n =? 32) || ((9 <=? n) && (n <=? 13)).
(** the value of a digit, isdigit *)
Definition digit (c : ascii) : option N := let n := nat_of_ascii c in if (48 <=? n) && (n <=? 57) then Some (N.of_nat (n - 48)) else None.
(** is >> fmt, Config.cpp:416: one word *)
Fixpoint word (s : string) : string := match s with EmptyString => EmptyString | String c r => if space c then EmptyString else String c (word r) end.
(** is >> fmt: white space before the word is skipped *)
Fixpoint first_word (s : string) : string := match s with EmptyString => EmptyString | String c r => if space c then first_word r else word s end.
(** CpuSet::set, Config.cpp:173-182 *)
Definition set_core (n : N) (neg : bool) (v : N) (set : N -> bool) : option (N -> bool) :=
  if neg && (0 <? v)%N then Some (fun c => (c <? n)%N || set c)
  else if (n <=? v)%N then None else Some (fun c => (c =? v)%N || set c).
(** num_get for int: between numbers, after a sign, in a number *)
Inductive nst := NSkip | NSign (neg : bool) | NNum (neg : bool) (v : N).
(** a number that does not fit makes the stream fail *)
Definition fits (neg : bool) (v : N) : bool := (v <=? (if neg then 2147483648 else 2147483647))%N.
(** between numbers at character [c]: where to go on; [None]: the stream fails *)
Definition begin (c : ascii) : option nst :=
  if Ascii.eqb c "," then Some NSkip else if Ascii.eqb c "-" then Some (NSign true) else if Ascii.eqb c "+" then Some (NSign false)
  else match digit c with Some d => Some (NNum false d) | None => None end.
(** the loop of Config.cpp:421-425, commas having become blanks (417); the word has no other white space *)
Fixpoint scan (n : N) (s : string) (t : nst) (set : N -> bool) : option (N -> bool) :=
  match s with
  | EmptyString => match t with NNum neg v => if fits neg v then set_core n neg v set else Some set | _ => Some set end
  | String c r =>
      match t with
      | NSkip => match begin c with Some t' => scan n r t' set | None => Some set end
      | NSign neg => match digit c with Some d => scan n r (NNum neg d) set | None => Some set end
      | NNum neg v => match digit c with
                      | Some d => scan n r (NNum neg (10 * v + d)) set
                      | None => if fits neg v
                                then match set_core n neg v set with
                                     | Some set' => match begin c with Some t' => scan n r t' set' | None => Some set' end
                                     | None => None end
                                else Some set
                      end
      end
  end.
(** operator >> for CpuSet, Config.cpp:411-428 *)
Definition cores_of (n : N) (s : string) : option (N -> bool) := scan n (first_word s) NSkip (fun _ => false).

(** ** Accelerators and groups *)
(** AccelConfig, Config.h:37-55 *)
Record accel := mkaccel { a_name : string; a_arch : string; a_type : nat; a_cores : N -> bool; a_pref : pref; a_group : string }.
(** std::to_string of a size_t *)
Definition to_string (n : nat) : string := NilEmpty.string_of_uint (Nat.to_uint n).
(** the default name, Config.cpp:125-126; [k] is the number of accelerators the group has *)
Definition default_name (g arch : string) (k : nat) : string := (g ++ ":" ++ arch ++ ":" ++ to_string k)%string.
(** AccelConfig::AccelConfig, Config.cpp:118-158, without the addition to the group *)
Definition mk_accel (e : env) (g : string) (k : nat) (j : jaccel) : option accel :=
  get arch <- req (j_arch j);
  get name <- opt (j_name j) (default_name g arch k);
  if negb (type_from_str (Some arch) =? ARAX_ACCEL_TYPES) && existsb (String.eqb (arch ++ "accelThread")) (threads e) then
    get core <- opt (j_core j) "-1"%string;
    get cs <- cores_of (ncores e) core;
    get p <- opt (j_pref j) "AnyJob"%string;
    get pr <- pref_of p;
    Some (mkaccel name arch (type_from_str (Some arch)) cs pr g)
  else None.
(** A std::map from names. *)
Definition amap := list accel.
(** std::map::operator[] and assignment: addAccelerator, Config.cpp:94-98 *)
Definition put (m : amap) (a : accel) : amap := a :: filter (fun b => negb (String.eqb (a_name b) (a_name a))) m.
(** std::map::emplace, Config.cpp:295-296: an entry of that name stays *)
Definition emplace (m : amap) (a : accel) : amap := if existsb (fun b => String.eqb (a_name b) (a_name a)) m then m else a :: m.
(** the loop of GroupConfig::GroupConfig, Config.cpp:65-78 *)
Fixpoint mk_accels (e : env) (g : string) (m : amap) (l : list (field jaccel)) : option amap :=
  match l with
  | [] => Some m
  | f :: r => get j <- req f; get a <- mk_accel e g (length m) j; mk_accels e g (put m a) r
  end.
(** GroupConfig::GroupConfig, Config.cpp:37-86 *)
Definition mk_group (e : env) (g : string) (j : jgroup) : option amap :=
  get sc <- opt (j_sched j) Absent;
  get cls <- opt sc "RoundRobin"%string;
  if existsb (String.eqb cls) (scheds e) then
    get l <- req (j_accels j);
    match l with [] => None | _ => mk_accels e g [] l end
  else None.
(** the controller's configuration: Config.h:96-101 *)
Record config := mkconf { clean : bool; paths : list string; groups : list (string * amap); accels : amap }.
(** the loop over the groups, Config.cpp:280-297 *)
Fixpoint mk_groups (e : env) (c : config) (l : list (string * field jgroup)) : option config :=
  match l with
  | [] => Some c
  | (g, f) :: r =>
      get j <- req f;
      get m <- mk_group e g j;
      mk_groups e (mkconf (clean c) (paths c) (groups c ++ [(g, m)]) (fold_left emplace m (accels c))) r
  end.
(** the paths, Config.cpp:252-268 *)
Fixpoint mk_paths (l : list (field string)) : option (list string) :=
  match l with
  | [] => Some []
  | f :: r => get p <- req f; match p with String "/"%char _ => None | _ => get ps <- mk_paths r; Some (p :: ps) end
  end.
(** Config::Config, Config.cpp:217-302, after parsing *)
Definition load (e : env) (j : jconf) : option config :=
  get cl <- opt (j_clean j) true;
  get pl <- opt (j_paths j) [];
  get ps <- mk_paths pl;
  get gl <- req (j_groups j);
  match gl with [] => None | _ => mk_groups e (mkconf cl ps [] []) gl end.

(** * Specification *)
(** Entry [k] of group [g] of the configuration. *)
Definition entry (j : jconf) (g : string) (k : nat) (ja : jaccel) : Prop :=
  exists gl jg l, j_groups j = Val gl /\ In (g, Val jg) gl /\ j_accels jg = Val l /\ nth_error l k = Some (Val ja).
(** The name an entry gets: its own, or the group's name, the architecture and the position, separated by colons. *)
Definition named (g : string) (k : nat) (ja : jaccel) (n : string) : Prop :=
  j_name ja = Val n \/ (j_name ja = Absent /\ exists arch, j_arch ja = Val arch /\ n = (g ++ ":" ++ arch ++ ":" ++ to_string k)%string).
(** A job preference written as [s], in any case of letters. *)
Definition says (s : string) (p : pref) : Prop := ci s (match p with NoJob => "NoJob" | UserJob => "UserJob" | BatchJob => "BatchJob" | AnyJob => "AnyJob" end)%string.
(** The accelerator an entry describes. *)
Definition describes (e : env) (g : string) (k : nat) (ja : jaccel) (a : accel) : Prop :=
  named g k ja (a_name a) /\ j_arch ja = Val (a_arch a) /\ a_type a = type_from_str (Some (a_arch a)) /\ a_group a = g /\
  match j_core ja with Absent => forall c, a_cores a c = (c <? ncores e)%N | Val s => cores_of (ncores e) s = Some (a_cores a) | Wrong => False end /\
  match j_pref ja with Absent => a_pref a = AnyJob | Val s => says s (a_pref a) | Wrong => False end.
(** What the controller accepts. *)
Definition accel_ok (e : env) (ja : jaccel) : Prop :=
  (exists arch, j_arch ja = Val arch /\ valid_type (type_from_str (Some arch)) = true /\ In (arch ++ "accelThread")%string (threads e)) /\
  j_name ja <> Wrong /\
  match j_core ja with Absent => True | Val s => cores_of (ncores e) s <> None | Wrong => False end /\
  match j_pref ja with Absent => True | Val s => exists p, says s p | Wrong => False end.
Definition group_ok (e : env) (jg : jgroup) : Prop :=
  match j_sched jg with
  | Absent | Val Absent => In "RoundRobin"%string (scheds e)
  | Val (Val s) => In s (scheds e)
  | _ => False
  end /\
  exists l, j_accels jg = Val l /\ l <> [] /\ forall f, In f l -> exists ja, f = Val ja /\ accel_ok e ja.
Definition conf_ok (e : env) (j : jconf) : Prop :=
  j_clean j <> Wrong /\
  match j_paths j with Absent => True | Wrong => False | Val l => forall f, In f l -> exists p, f = Val p /\ (forall r, p <> String "/" r) end /\
  exists gl, j_groups j = Val gl /\ gl <> [] /\ forall g f, In (g, f) gl -> exists jg, f = Val jg /\ group_ok e jg.

(** * Proofs *)
Lemma existsb_str s l : existsb (String.eqb s) l = true <-> In s l.
Proof. rewrite existsb_exists. split; [intros (x & I & E); apply String.eqb_eq in E; now subst|intros I; exists s; split; [exact I|apply String.eqb_refl]]. Qed.
Lemma lowers_ci a : forall b, lowers a = lowers b <-> ci a b.
Proof.
  induction a as [|x a IH]; intros [|y b]; cbn; split; try tauto; try discriminate.
  - intros [= H1 H2]. split; [now apply lower_spec|now apply IH].
  - intros [H1 H2]. f_equal; [now apply lower_spec|now apply IH].
Qed.
Lemma pref_spec s p : pref_of s = Some p <-> says s p.
Proof.
  unfold says. rewrite <- lowers_ci. unfold pref_of. cbv zeta.
  assert (E1 : lowers "NoJob" = "nojob"%string) by reflexivity. assert (E2 : lowers "UserJob" = "userjob"%string) by reflexivity.
  assert (E3 : lowers "BatchJob" = "batchjob"%string) by reflexivity. assert (E4 : lowers "AnyJob" = "anyjob"%string) by reflexivity.
  destruct (String.eqb_spec (lowers s) "nojob") as [->|N1]; [|destruct (String.eqb_spec (lowers s) "userjob") as [->|N2]; [|destruct (String.eqb_spec (lowers s) "batchjob") as [->|N3]; [|destruct (String.eqb_spec (lowers s) "anyjob") as [->|N4]]]];
    split; (destruct p; rewrite ?E1, ?E2, ?E3, ?E4; intros H; (reflexivity || discriminate || congruence)).
Qed.
Lemma pref_none s : pref_of s = None <-> forall p, ~ says s p.
Proof.
  split.
  - intros H p Q. apply pref_spec in Q. congruence.
  - intros H. destruct (pref_of s) as [p|] eqn:E; [|reflexivity]. apply pref_spec in E. exfalso. eapply H; eauto.
Qed.
Lemma cores_default n : exists f, cores_of n "-1" = Some f /\ forall c, f c = (c <? n)%N.
Proof. eexists. split; [reflexivity|]. intros c. cbn. now rewrite orb_false_r. Qed.
Lemma type_valid arch : negb (type_from_str (Some arch) =? ARAX_ACCEL_TYPES) = valid_type (type_from_str (Some arch)).
Proof.
  unfold valid_type. assert (H := from_loop_le arch types_map ANY). unfold type_from_str. cbn [length types_map] in H. unfold ANY, ARAX_ACCEL_TYPES in *. cbn [from_loop] in *.
  set (x := from_loop arch types_map 0) in *. destruct (Nat.eqb_spec x 9), (Nat.ltb_spec x 9); cbn; auto; lia.
Qed.
Lemma mk_accel_some e g k ja a : mk_accel e g k ja = Some a -> describes e g k ja a /\ accel_ok e ja.
Proof.
  unfold mk_accel. destruct (j_arch ja) as [| |arch] eqn:A; cbn [req obind]; try discriminate.
  destruct (opt (j_name ja) (default_name g arch k)) as [n|] eqn:N; cbn [obind]; [|discriminate]. rewrite type_valid.
  destruct (valid_type (type_from_str (Some arch))) eqn:V; [|discriminate]. cbn [andb].
  destruct (existsb (String.eqb (arch ++ "accelThread")) (threads e)) eqn:T; [|discriminate]. apply existsb_str in T.
  destruct (opt (j_core ja) "-1"%string) as [co|] eqn:C; cbn [obind]; [|discriminate].
  destruct (cores_of (ncores e) co) as [cs|] eqn:CS; cbn [obind]; [|discriminate].
  destruct (opt (j_pref ja) "AnyJob"%string) as [p|] eqn:P; cbn [obind]; [|discriminate].
  destruct (pref_of p) as [pr|] eqn:PR; cbn [obind]; [|discriminate]. intros E.
  assert (E' : a = mkaccel n arch (type_from_str (Some arch)) cs pr g) by congruence. subst a. clear E. split.
  - split; [|split; [|split; [|split; [|split]]]]; cbn [a_name a_arch a_type a_group a_cores a_pref]; auto.
    + unfold named. destruct (j_name ja) as [| |x]; cbn in N; try discriminate; injection N as <-; [right|left]; auto. split; [reflexivity|]. exists arch. auto.
    + destruct (j_core ja) as [| |s]; cbn in C; try discriminate; injection C as <-; auto.
      destruct (cores_default (ncores e)) as (f & F1 & F2). rewrite F1 in CS. injection CS as <-. exact F2.
    + destruct (j_pref ja) as [| |s]; cbn in P; try discriminate; injection P as <-; [vm_compute in PR; congruence|now apply pref_spec].
  - split; [exists arch; auto|]. split; [destruct (j_name ja); try discriminate; cbn in N; congruence|]. split.
    + destruct (j_core ja); cbn in C; try discriminate; auto. injection C as <-. congruence.
    + destruct (j_pref ja); cbn in P; try discriminate; auto. injection P as <-. exists pr. now apply pref_spec.
Qed.
Lemma mk_accel_ok e g k ja : accel_ok e ja -> exists a, mk_accel e g k ja = Some a.
Proof.
  intros ((arch & A & V & T) & N & C & P). unfold mk_accel. rewrite A. cbn [req obind].
  destruct (opt (j_name ja) (default_name g arch k)) as [n|] eqn:Q; [|destruct (j_name ja); cbn in Q; congruence]. cbn [obind]. rewrite type_valid, V. cbn [andb].
  apply existsb_str in T. rewrite T.
  assert (exists co cs, opt (j_core ja) "-1"%string = Some co /\ cores_of (ncores e) co = Some cs) as (co & cs & E1 & E2).
  { destruct (j_core ja) as [| |s]; cbn; [destruct (cores_default (ncores e)) as (f & F & _); eauto|contradiction|]. destruct (cores_of (ncores e) s) eqn:E; [eauto|congruence]. }
  rewrite E1. cbn [obind]. rewrite E2. cbn [obind].
  assert (exists p pr, opt (j_pref ja) "AnyJob"%string = Some p /\ pref_of p = Some pr) as (p & pr & E3 & E4).
  { destruct (j_pref ja) as [| |s]; cbn; [exists "AnyJob"%string, AnyJob; split; reflexivity|contradiction|]. destruct P as [p P]. apply pref_spec in P. eauto. }
  rewrite E3. cbn [obind]. rewrite E4. eexists. reflexivity.
Qed.
Lemma mk_accels_ok e g l : forall m, (exists m', mk_accels e g m l = Some m') <-> forall f, In f l -> exists ja, f = Val ja /\ accel_ok e ja.
Proof.
  induction l as [|f l IH]; intros m; cbn [mk_accels]; [split; [intros _ f []|eauto]|]. split.
  - intros [m' E]. destruct f as [| |ja]; cbn [req obind] in E; try discriminate. destruct (mk_accel e g (length m) ja) as [a|] eqn:A; cbn [obind] in E; [|discriminate].
    apply mk_accel_some in A. intros f [<-|I]; [exists ja; tauto|]. destruct (IH (put m a)) as [G _]. apply G; eauto.
  - intros H. destruct (H f (or_introl eq_refl)) as (ja & -> & OK). cbn [req obind]. destruct (mk_accel_ok e g (length m) ja OK) as [a ->]. cbn [obind].
    apply IH. intros f I. apply H. now right.
Qed.
Lemma mk_group_ok e g j : (exists m, mk_group e g j = Some m) <-> group_ok e j.
Proof.
  unfold mk_group, group_ok. destruct (j_sched j) as [| |[| |s]]; cbn [opt obind]; try (split; [intros [? ?]; discriminate|tauto]).
  all: match goal with |- context [existsb (String.eqb ?x) ?y] => destruct (existsb (String.eqb x) y) eqn:S; [apply existsb_str in S|split; [intros [? ?]; discriminate|intros [I _]; apply existsb_str in I; congruence]] end.
  all: destruct (j_accels j) as [| |[|f l]]; cbn [req obind]; try (split; [intros [? ?]; discriminate|intros (_ & x & X & Y & _); congruence]).
  all: rewrite mk_accels_ok; split; [intros H; split; [exact S|exists (f :: l); split; [reflexivity|split; [discriminate|exact H]]]|intros (_ & x & [= <-] & _ & H); exact H].
Qed.
Lemma mk_groups_ok e l : forall c, (exists c', mk_groups e c l = Some c') <-> forall g f, In (g, f) l -> exists jg, f = Val jg /\ group_ok e jg.
Proof.
  induction l as [|[g f] l IH]; intros c; cbn [mk_groups]; [split; [intros _ g f []|eauto]|]. split.
  - intros [c' E]. destruct f as [| |jg]; cbn [req obind] in E; try discriminate. destruct (mk_group e g jg) as [m|] eqn:M; cbn [obind] in E; [|discriminate].
    assert (OK : group_ok e jg) by (apply (mk_group_ok e g); eauto). intros g' f' [[= <- <-]|I]; [eauto|].
    destruct (IH (mkconf (clean c) (paths c) (groups c ++ [(g, m)]) (fold_left emplace m (accels c)))) as [G _]. eapply G; eauto.
  - intros H. destruct (H g f (or_introl eq_refl)) as (jg & -> & OK). cbn [req obind]. apply (mk_group_ok e g) in OK. destruct OK as [m ->]. cbn [obind].
    apply IH. intros g' f' I. apply (H g'). now right.
Qed.
Lemma mk_paths_ok l : (exists ps, mk_paths l = Some ps) <-> forall f, In f l -> exists p, f = Val p /\ (forall r, p <> String "/" r).
Proof.
  induction l as [|f l IH]; cbn [mk_paths]; [split; [intros _ f []|eauto]|]. split.
  - intros [ps E]. destruct f as [| |p]; cbn [req obind] in E; try discriminate.
    assert (NP : forall r, p <> String "/" r) by (intros r ->; discriminate).
    intros f [<-|I]; [eauto|]. apply IH; [|exact I]. destruct (mk_paths l) eqn:M; [eauto|]. destruct p as [|[[] [] [] [] [] [] [] []] p]; cbn in E; discriminate.
  - intros H. destruct (H f (or_introl eq_refl)) as (p & -> & NP). cbn [req obind]. destruct (proj2 IH) as [ps E]; [intros; apply H; now right|]. rewrite E. cbn [obind].
    destruct p as [|[[] [] [] [] [] [] [] []] p]; eauto. exfalso. eapply NP. reflexivity.
Qed.
Lemma mk_paths_val l : forall ps, mk_paths l = Some ps -> map Val ps = l.
Proof.
  induction l as [|f l IH]; intros ps E; cbn [mk_paths] in E; [injection E as <-; reflexivity|]. destruct f as [| |p]; cbn [req obind] in E; try discriminate.
  assert (exists q, mk_paths l = Some q /\ ps = p :: q) as (q & Q & ->).
  { destruct (mk_paths l) as [q|]; [|destruct p as [|[[] [] [] [] [] [] [] []] p]; cbn in E; discriminate]. exists q. split; [reflexivity|]. destruct p as [|[[] [] [] [] [] [] [] []] p]; cbn in E; congruence. }
  cbn. f_equal. auto.
Qed.
(** The controller starts with exactly the configurations that are well formed: every member of the right type, paths
    relative, at least one group, every group with a scheduler that exists and at least one accelerator, every accelerator
    of a type there is a worker for, with cores that exist and a job preference. *)
Theorem C58_accepts e j : (exists c, load e j = Some c) <-> conf_ok e j.
Proof.
  unfold load, conf_ok. destruct (j_clean j) as [| |b]; cbn [opt obind]; try (split; [intros [? ?]; discriminate|intros [H _]; congruence]).
  all: destruct (j_paths j) as [| |l]; cbn [opt obind mk_paths]; try (split; [intros [? ?]; discriminate|tauto]).
  all: try (destruct (mk_paths l) as [ps|] eqn:P; cbn [obind];
      [assert (PO : forall f, In f l -> exists p, f = Val p /\ (forall r, p <> String "/" r)) by (apply mk_paths_ok; eauto)
      |split; [intros [? ?]; discriminate|intros (_ & H & _); apply mk_paths_ok in H; destruct H; congruence]]).
  all: destruct (j_groups j) as [| |[|[g f] gl]]; cbn [req obind]; try (split; [intros [? ?]; discriminate|intros (_ & _ & x & X & Y & _); congruence]).
  all: rewrite mk_groups_ok; split;
    [intros H; split; [discriminate|split; [assumption || exact Logic.I|exists ((g, f) :: gl); split; [reflexivity|split; [discriminate|exact H]]]]|intros (_ & _ & x & [= <-] & _ & H); exact H].
Qed.

(** ** Every accelerator of the configuration, and no other *)
Lemma filter_all {A} (f : A -> bool) l : (forall x, In x l -> f x = true) -> filter f l = l.
Proof. induction l as [|x l IH]; intros H; cbn; [reflexivity|]. rewrite (H x (or_introl eq_refl)), IH; auto. intros y I. apply H. now right. Qed.
Lemma put_new m a : (forall b, In b m -> a_name b <> a_name a) -> put m a = a :: m.
Proof. intros H. unfold put. f_equal. apply filter_all. intros b I. apply H in I. destruct (String.eqb_spec (a_name b) (a_name a)); [contradiction|reflexivity]. Qed.
Lemma emplace_new m a : (forall b, In b m -> a_name b <> a_name a) -> emplace m a = a :: m.
Proof.
  intros H. unfold emplace. destruct (existsb (fun b => String.eqb (a_name b) (a_name a)) m) eqn:E; [|reflexivity].
  apply existsb_exists in E. destruct E as (b & I & E). apply String.eqb_eq in E. exfalso. exact (H b I E).
Qed.
Lemma mk_accels_spec e g l : forall m m', mk_accels e g m l = Some m' ->
  (forall b i ja a, In b m -> nth_error l i = Some (Val ja) -> mk_accel e g (length m + i) ja = Some a -> a_name a <> a_name b) ->
  (forall i i' ja ja' a a', nth_error l i = Some (Val ja) -> nth_error l i' = Some (Val ja') -> mk_accel e g (length m + i) ja = Some a -> mk_accel e g (length m + i') ja' = Some a' -> a_name a = a_name a' -> i = i') ->
  exists q, m' = rev q ++ m /\ length q = length l /\ (forall i a, nth_error q i = Some a -> exists ja, nth_error l i = Some (Val ja) /\ mk_accel e g (length m + i) ja = Some a).
Proof.
  induction l as [|f l IH]; intros m m' E D1 D2; cbn [mk_accels] in E.
  - injection E as <-. exists []. split; [reflexivity|split; [reflexivity|]]. intros [|i] a Q; discriminate.
  - destruct f as [| |ja]; cbn [req obind] in E; try discriminate. destruct (mk_accel e g (length m) ja) as [a|] eqn:A; cbn [obind] in E; [|discriminate].
    assert (A0 : mk_accel e g (length m + 0) ja = Some a) by (rewrite Nat.add_0_r; exact A).
    rewrite put_new in E; [|intros b I Q; exact (D1 b 0 ja a I eq_refl A0 (eq_sym Q))].
    assert (SH : forall i, length (a :: m) + i = length m + S i) by (intros; cbn; lia).
    destruct (IH (a :: m) m' E) as (q & -> & L & Q).
    + intros b i ja' a' [<-|I] N A'; rewrite SH in A'; [|exact (D1 b (S i) ja' a' I N A')]. intros X. specialize (D2 (S i) 0 ja' ja a' a N eq_refl A' A0 X). discriminate.
    + intros i i' ja1 ja2 a1 a2 N1 N2 A1 A2 X. rewrite SH in A1, A2. specialize (D2 (S i) (S i') ja1 ja2 a1 a2 N1 N2 A1 A2 X). lia.
    + exists (a :: q). split; [cbn [rev]; now rewrite <- app_assoc|split; [cbn; lia|]]. intros [|i] b N; cbn in N.
      * injection N as <-. exists ja. split; [reflexivity|exact A0].
      * destruct (Q i b N) as (ja' & N' & A'). exists ja'. rewrite SH in A'. auto.
Qed.
Lemma fold_emplace q : forall m, NoDup (map a_name q) -> (forall a b, In a q -> In b m -> a_name a <> a_name b) -> fold_left emplace q m = rev q ++ m.
Proof.
  induction q as [|a q IH]; intros m ND D; [reflexivity|]. cbn [fold_left rev]. cbn in ND. apply NoDup_cons_iff in ND. destruct ND as [NI ND].
  rewrite emplace_new by (intros b I Q; exact (D a b (or_introl eq_refl) I (eq_sym Q))). rewrite IH; auto; [now rewrite <- app_assoc|].
  intros x b I [<-|J]; [intros Q; apply NI; rewrite <- Q; now apply in_map|apply D; auto; now right].
Qed.
(** No two entries get the same name. *)
Definition distinct (j : jconf) : Prop := forall g k ja n g' k' ja' n', entry j g k ja -> entry j g' k' ja' -> named g k ja n -> named g' k' ja' n' -> n = n' -> g = g' /\ k = k'.
(** the entries of some groups *)
Definition gentry (gl : list (string * field jgroup)) (g : string) (k : nat) (ja : jaccel) : Prop :=
  exists jg l, In (g, Val jg) gl /\ j_accels jg = Val l /\ nth_error l k = Some (Val ja).
Lemma NoDup_nth_name (q : list accel) : (forall i i' a a', nth_error q i = Some a -> nth_error q i' = Some a' -> a_name a = a_name a' -> i = i') -> NoDup (map a_name q).
Proof.
  intros H. apply NoDup_nth_error. intros i i' L E. rewrite map_length in L. rewrite !nth_error_map in E.
  destruct (nth_error q i) as [a|] eqn:A; [|apply nth_error_None in A; lia]. destruct (nth_error q i') as [a'|] eqn:A'; cbn in E; [|discriminate]. injection E as E. eauto.
Qed.
Lemma describes_named e g k ja a : describes e g k ja a -> named g k ja (a_name a).
Proof. now intros [H _]. Qed.
Lemma mk_group_spec e g jg m l : mk_group e g jg = Some m -> j_accels jg = Val l ->
  (forall k k' ja ja' n, nth_error l k = Some (Val ja) -> nth_error l k' = Some (Val ja') -> named g k ja n -> named g k' ja' n -> k = k') ->
  NoDup (map a_name m) /\ length m = length l /\
  (forall a, In a m -> exists k ja, nth_error l k = Some (Val ja) /\ describes e g k ja a) /\
  (forall k ja, nth_error l k = Some (Val ja) -> exists a, In a m /\ describes e g k ja a).
Proof.
  intros E JA D. unfold mk_group in E. destruct (opt (j_sched jg) Absent) as [sc|]; cbn [obind] in E; [|discriminate]. destruct (opt sc "RoundRobin"%string) as [cls|]; cbn [obind] in E; [|discriminate].
  destruct (existsb (String.eqb cls) (scheds e)); [|discriminate]. rewrite JA in E. cbn [req obind] in E.
  assert (E' : mk_accels e g [] l = Some m) by (destruct l; [discriminate|exact E]). clear E.
  destruct (mk_accels_spec e g l [] m E') as (q & -> & L & Q).
  - intros b i ja a [].
  - intros i i' ja ja' a a' N N' A A' X. cbn [length Nat.add] in A, A'. apply mk_accel_some in A, A'. destruct A as [A _], A' as [A' _]. apply describes_named in A, A'. rewrite X in A. eauto.
  - rewrite app_nil_r. cbn [length Nat.add] in Q.
    assert (QD : forall i a, nth_error q i = Some a -> exists ja, nth_error l i = Some (Val ja) /\ describes e g i ja a).
    { intros i a N. destruct (Q i a N) as (ja & N' & A). exists ja. split; [exact N'|]. now apply mk_accel_some in A. }
    split; [|split; [now rewrite rev_length|split]].
    + rewrite map_rev. apply NoDup_rev, NoDup_nth_name. intros i i' a a' N N' X. destruct (QD i a N) as (ja & M & P), (QD i' a' N') as (ja' & M' & P').
      apply describes_named in P, P'. rewrite X in P. eauto.
    + intros a I. apply in_rev in I. apply In_nth_error in I. destruct I as [i N]. destruct (QD i a N) as (ja & M & P). eauto.
    + intros k ja N. assert (LK : k < length q) by (rewrite L; apply nth_error_Some; congruence). destruct (nth_error q k) as [a|] eqn:A; [|apply nth_error_None in A; lia].
      destruct (QD k a A) as (ja' & M & P). assert (ja' = ja) by congruence. subst. exists a. split; [|exact P]. apply in_rev. rewrite rev_involutive. eapply nth_error_In; eauto.
Qed.
Lemma mk_groups_spec e gl : forall c c', mk_groups e c gl = Some c' -> NoDup (map fst gl) ->
  (forall g k ja n g' k' ja', gentry gl g k ja -> gentry gl g' k' ja' -> named g k ja n -> named g' k' ja' n -> g = g' /\ k = k') ->
  NoDup (map a_name (accels c)) -> (forall b g k ja, In b (accels c) -> gentry gl g k ja -> ~ named g k ja (a_name b)) ->
  exists gs, groups c' = groups c ++ gs /\ clean c' = clean c /\ paths c' = paths c /\ NoDup (map a_name (accels c')) /\
    (forall g m, In (g, m) gs -> exists jg, In (g, Val jg) gl /\ mk_group e g jg = Some m) /\
    (forall g jg, In (g, Val jg) gl -> exists m, In (g, m) gs /\ mk_group e g jg = Some m) /\
    (forall a, In a (accels c') <-> In a (accels c) \/ exists g m, In (g, m) gs /\ In a m).
Proof.
  induction gl as [|[g f] gl IH]; intros c c' E ND D NA DA; cbn [mk_groups] in E.
  - injection E as <-. exists []. rewrite app_nil_r. split; [reflexivity|split; [reflexivity|split; [reflexivity|split; [exact NA|split; [intros ? ? []|split; [intros ? ? []|]]]]]].
    intros a. split; [auto|]. intros [H|(g & m & [] & _)]. exact H.
  - destruct f as [| |jg]; cbn [req obind] in E; try discriminate. destruct (mk_group e g jg) as [m|] eqn:M; cbn [obind] in E; [|discriminate].
    cbn in ND. apply NoDup_cons_iff in ND. destruct ND as [NI ND].
    assert (exists l, j_accels jg = Val l) as [l JA] by (assert (OK : group_ok e jg) by (apply (mk_group_ok e g); eauto); destruct OK as (_ & l & H & _); eauto).
    assert (GE : forall k ja, nth_error l k = Some (Val ja) -> gentry ((g, Val jg) :: gl) g k ja) by (intros k ja N; exists jg, l; split; [now left|auto]).
    assert (GE' : forall g' k ja, gentry gl g' k ja -> gentry ((g, Val jg) :: gl) g' k ja) by (intros g' k ja (jg' & l' & I & X); exists jg', l'; split; [now right|auto]).
    destruct (mk_group_spec e g jg m l M JA) as (N1 & _ & N2 & N3).
    { intros k k' ja ja' n H1 H2 H3 H4. eapply (D g k ja n g k' ja'); eauto. }
    assert (FE : fold_left emplace m (accels c) = rev m ++ accels c).
    { apply fold_emplace; auto. intros a b I J Q. destruct (N2 a I) as (k & ja & K & P). apply (DA b g k ja J (GE k ja K)). rewrite <- Q. now apply describes_named in P. }
    rewrite FE in E.
    destruct (IH _ c' E ND) as (gs & G & C1 & C2 & NN & S1 & S2 & S3).
    + intros g1 k1 ja1 n g2 k2 ja2 H1 H2. apply D; auto.
    + cbn [accels]. rewrite map_app, map_rev.
      assert (DJ : forall x, In x (rev (map a_name m)) -> ~ In x (map a_name (accels c))).
      { intros x I J. apply in_rev in I. apply in_map_iff in I, J. destruct I as (a & <- & I), J as (b & Q & J). destruct (N2 a I) as (k & ja & K & P). apply (DA b g k ja J (GE k ja K)). rewrite Q. now apply describes_named in P. }
      assert (NR : NoDup (rev (map a_name m))) by now apply NoDup_rev.
      clear -DJ NR NA. induction (rev (map a_name m)) as [|x r IHr]; [exact NA|]. cbn. apply NoDup_cons_iff in NR. destruct NR as [R1 R2]. constructor.
      * rewrite in_app_iff. intros [H|H]; [contradiction|]. exact (DJ x (or_introl eq_refl) H).
      * apply IHr; auto. intros y I. apply DJ. now right.
    + cbn [accels]. intros b g' k ja I GN Q. apply in_app_iff in I. destruct I as [I|I]; [|eapply DA; eauto].
      apply in_rev in I. destruct (N2 b I) as (k' & ja' & K & P). apply describes_named in P. destruct (D g k' ja' (a_name b) g' k ja (GE _ _ K) (GE' _ _ _ GN) P Q) as [<- _].
      apply NI. destruct GN as (jg' & l' & J & _). apply in_map_iff. exists (g, Val jg'). auto.
    + cbn [groups clean paths accels] in *. exists ((g, m) :: gs). split; [rewrite G, <- app_assoc; reflexivity|]. split; [exact C1|split; [exact C2|split; [exact NN|split; [|split]]]].
      * intros g' m' [[= <- <-]|I]; [exists jg; split; [now left|exact M]|]. destruct (S1 g' m' I) as (jg' & J & X). exists jg'. split; [now right|exact X].
      * intros g' jg' [[= <- <-]|I]; [exists m; split; [now left|exact M]|]. destruct (S2 g' jg' I) as (m' & J & X). exists m'. split; [now right|exact X].
      * intros a. rewrite S3, in_app_iff. rewrite <- in_rev. split.
        -- intros [[H|H]|(g' & m' & I & H)]; [right; exists g, m; split; [now left|exact H]|now left|right; exists g', m'; split; [now right|exact H]].
        -- intros [H|(g' & m' & [[= <- <-]|I] & Hm)]; [left; now right|left; now left|right; eauto].
Qed.
(** If no two entries get the same name, the accelerators the controller will start are exactly those the configuration
    describes, each once, with the name, type, cores, preference and group given there; each group has its own; the
    folders are those given.
    Missing: entries that get the same name (refuted below). *)
Theorem C58_accels_partial e j c : load e j = Some c -> (forall gl, j_groups j = Val gl -> NoDup (map fst gl)) -> distinct j ->
  NoDup (map a_name (accels c)) /\
  (forall a, In a (accels c) -> exists g k ja, entry j g k ja /\ describes e g k ja a) /\
  (forall g k ja, entry j g k ja -> exists a, In a (accels c) /\ describes e g k ja a) /\
  (forall g m a, In (g, m) (groups c) -> (In a m <-> In a (accels c) /\ a_group a = g)) /\
  (forall g, In g (map fst (groups c)) <-> exists gl, j_groups j = Val gl /\ In g (map fst gl)) /\
  (forall p, In p (paths c) <-> exists l, j_paths j = Val l /\ In (Val p) l).
Proof.
  intros E ND D. unfold load in E. destruct (opt (j_clean j) true) as [cl|]; cbn [obind] in E; [|discriminate].
  destruct (opt (j_paths j) []) as [pl|] eqn:PL; cbn [obind] in E; [|discriminate]. destruct (mk_paths pl) as [ps|] eqn:PS; cbn [obind] in E; [|discriminate].
  destruct (j_groups j) as [| |gl] eqn:GL; cbn [req obind] in E; try discriminate. specialize (ND gl eq_refl).
  assert (E' : mk_groups e (mkconf cl ps [] []) gl = Some c) by (destruct gl; [discriminate|exact E]). clear E.
  assert (EG : forall g k ja, entry j g k ja <-> gentry gl g k ja).
  { intros g k ja. split; [intros (gl' & jg & l & H & X); assert (gl' = gl) by congruence; subst; exists jg, l; exact X|intros (jg & l & X); exists gl, jg, l; split; [exact GL|exact X]]. }
  destruct (mk_groups_spec e gl _ c E' ND) as (gs & G & C1 & C2 & NN & S1 & S2 & S3).
  - intros g k ja n g' k' ja' H1 H2 H3 H4. apply EG in H1, H2. exact (D g k ja n g' k' ja' n H1 H2 H3 H4 eq_refl).
  - constructor.
  - intros b ? ? ? [].
  - cbn [groups accels paths clean] in *. cbn [app] in G. subst gs.
    assert (GS : forall g m, In (g, m) (groups c) -> (forall a, In a m -> exists k ja, gentry gl g k ja /\ describes e g k ja a) /\
        forall k ja, gentry gl g k ja -> exists a, In a m /\ describes e g k ja a).
    { intros g m I. destruct (S1 g m I) as (jg & J & M).
      assert (exists l, j_accels jg = Val l) as [l JA] by (assert (OK : group_ok e jg) by (apply (mk_group_ok e g); eauto); destruct OK as (_ & l & H & _); eauto).
      destruct (mk_group_spec e g jg m l M JA) as (N1 & _ & N2 & N3).
      { intros k k' ja ja' n H1 H2 H3 H4. assert (X1 : entry j g k ja) by (apply EG; exists jg, l; auto). assert (X2 : entry j g k' ja') by (apply EG; exists jg, l; auto).
        now destruct (D g k ja n g k' ja' n X1 X2 H3 H4 eq_refl). }
      split.
      - intros a A. destruct (N2 a A) as (k & ja & K & P). exists k, ja. split; [exists jg, l; auto|exact P].
      - intros k ja (jg' & l' & J' & JA' & K). assert (jg' = jg).
        { clear -ND J J'. induction gl as [|[x y] gl IH]; [destruct J|]. cbn in ND. apply NoDup_cons_iff in ND. destruct ND as [NI ND].
          destruct J as [[= -> ->]|J], J' as [[= J']|J']; auto; exfalso; apply NI; apply in_map_iff; [exists (g, Val jg')|exists (g, Val jg)]; subst; auto. }
        subst jg'. assert (l' = l) by congruence. subst l'. apply N3. exact K. }
    split; [exact NN|split; [|split; [|split; [|split]]]].
    + intros a I. apply S3 in I. destruct I as [[]|(g & m & I & A)]. destruct (GS g m I) as [X _]. destruct (X a A) as (k & ja & K & P). exists g, k, ja. split; [now apply EG|exact P].
    + intros g k ja X. apply EG in X. assert (X' := X). destruct X' as (jg & l & J & _). destruct (S2 g jg J) as (m & I & _). destruct (GS g m I) as [_ Y]. destruct (Y k ja X) as (a & A & P). exists a. split; [apply S3; right; eauto|exact P].
    + intros g m a I. destruct (GS g m I) as [X Y]. split.
      * intros A. split; [apply S3; right; eauto|]. destruct (X a A) as (k & ja & _ & P). now destruct P as (_ & _ & _ & P & _).
      * intros [A AG]. apply S3 in A. destruct A as [[]|(g' & m' & I' & A)]. destruct (GS g' m' I') as [X' _]. destruct (X' a A) as (k & ja & K & P).
        assert (g' = g) by (destruct P as (_ & _ & _ & P & _); congruence). subst g'. 
        destruct (Y k ja K) as (a' & A' & P'). destruct (S1 g m I) as (jg & J & M), (S1 g m' I') as (jg' & J' & M').
        assert (jg' = jg).
        { clear -ND J J'. induction gl as [|[x y] gl IH]; [destruct J|]. cbn in ND. apply NoDup_cons_iff in ND. destruct ND as [NI ND].
          destruct J as [[= -> ->]|J], J' as [[= J']|J']; auto; exfalso; apply NI; apply in_map_iff; [exists (g, Val jg')|exists (g, Val jg)]; subst; auto. }
        subst. assert (m' = m) by congruence. now subst.
    + intros g. split.
      * intros I. apply in_map_iff in I. destruct I as ([g' m] & <- & I). destruct (S1 g' m I) as (jg & J & _). exists gl. split; [reflexivity|]. apply in_map_iff. exists (g', Val jg). auto.
      * intros (gl' & [= <-] & I). apply in_map_iff in I. destruct I as ([g' f] & <- & I). assert (exists jg, f = Val jg) as [jg ->].
        { destruct (mk_groups_ok e gl (mkconf cl ps [] [])) as [K _]. destruct (K ltac:(eauto) g' f I) as (jg & -> & _). eauto. }
        destruct (S2 g' jg I) as (m & J & _). apply in_map_iff. exists (g', m). auto.
    + rewrite C2. apply mk_paths_val in PS. intros p. destruct (j_paths j) as [| |l]; cbn in PL; try discriminate; injection PL as <-.
      * destruct ps; [|discriminate]. split; [intros []|intros (l & [=] & _)].
      * split; [intros I; exists l; split; [reflexivity|]; rewrite <- PS; now apply in_map|].
        intros (l' & [= <-] & I). rewrite <- PS in I. apply in_map_iff in I. destruct I as (q & [= <-] & I). exact I.
Qed.

(** ** Default names *)
Fixpoint nocolon (s : string) : Prop := match s with EmptyString => True | String c r => c <> ":"%char /\ nocolon r end.
Lemma colon_split a : forall b a' b', nocolon b -> nocolon b' -> (a ++ ":" ++ b = a' ++ ":" ++ b')%string -> a = a' /\ b = b'.
Proof.
  assert (NC : forall x y, ~ nocolon (x ++ ":" ++ y)%string) by (induction x as [|c x IH]; cbn; intros y [H1 H2]; [congruence|exact (IH y H2)]).
  induction a as [|c a IH]; intros b [|c' a'] b' N N' E; cbn in E.
  - split; [reflexivity|congruence].
  - injection E as _ E. subst b. exfalso. exact (NC a' b' N).
  - injection E as _ E. subst b'. exfalso. exact (NC a b N').
  - injection E as <- E. destruct (IH b a' b' N N' E) as [-> ->]. auto.
Qed.
Lemma nocolon_lowers s : nocolon (lowers s) -> nocolon s.
Proof. induction s as [|c s IH]; cbn; auto. intros [H1 H2]. split; [intros ->; apply H1; reflexivity|auto]. Qed.
Lemma nocolon_arch a : valid_type (type_from_str (Some a)) = true -> nocolon a.
Proof.
  intros V. apply nocolon_lowers. assert (H : exists e, In e types_map /\ strcaseeq a (fst e) = true).
  { unfold type_from_str, types_map in *. cbn [from_loop] in V.
    repeat match type of V with context [strcaseeq a ?t] => destruct (strcaseeq a t) eqn:?; [eexists (t, _); split; [|cbn [fst]; eassumption]; cbn; tauto|] end. vm_compute in V. discriminate. }
  destruct H as (e & I & E). apply strcaseeq_spec, lowers_ci in E. rewrite E. cbn in I. repeat (destruct I as [<-|I]; [cbn; repeat (split; [discriminate|]); exact Logic.I|]). destruct I.
Qed.
Lemma nocolon_to_string n : nocolon (to_string n).
Proof. unfold to_string. induction (Nat.to_uint n); cbn; auto; split; auto; discriminate. Qed.
Lemma to_string_inj n m : to_string n = to_string m -> n = m.
Proof.
  unfold to_string. intros H. apply (f_equal NilEmpty.uint_of_string) in H. rewrite !NilEmpty.usu in H. injection H as H.
  apply (f_equal Nat.of_uint) in H. now rewrite !Unsigned.of_to in H.
Qed.
(** A configuration that names no accelerator gives every accelerator a name of its own, so none is lost. *)
Theorem C58_default_names e j : conf_ok e j -> (forall g k ja, entry j g k ja -> j_name ja = Absent) -> distinct j.
Proof.
  intros OK NA g k ja n g' k' ja' n' E1 E2 N1 N2 <-.
  assert (AR : forall g k ja, entry j g k ja -> forall a, j_arch ja = Val a -> nocolon a).
  { intros g0 k0 ja0 (gl & jg & l & G & I & A & N) a Ja. destruct OK as (_ & _ & gl' & G' & _ & OK). assert (gl' = gl) by congruence. subst. destruct (OK g0 _ I) as (jg' & [= <-] & _ & l' & A' & _ & OKA).
    assert (l' = l) by congruence. subst. apply nth_error_In in N. destruct (OKA _ N) as (x & [= <-] & (arch & B & V & _) & _). assert (arch = a) by congruence. subst. now apply nocolon_arch. }
  destruct N1 as [N1|(_ & a & A & ->)]; [rewrite (NA _ _ _ E1) in N1; discriminate|]. destruct N2 as [N2|(_ & a' & A' & Q)]; [rewrite (NA _ _ _ E2) in N2; discriminate|].
  assert (X := AR _ _ _ E1 _ A). assert (X' := AR _ _ _ E2 _ A').
  assert (AS : forall x y z w : string, (x ++ ":" ++ y ++ ":" ++ z = (x ++ ":" ++ y) ++ ":" ++ z)%string) by (intros x y z _; induction x; cbn in *; congruence).
  rewrite (AS _ _ _ ""%string), (AS g' _ _ ""%string) in Q. apply colon_split in Q; auto using nocolon_to_string. destruct Q as [Q1 Q2].
  apply to_string_inj in Q2. apply colon_split in Q1; auto. destruct Q1. auto.
Qed.

(** ** Lists of cores *)
(** The number a string of digits writes, [v] being the number written before it. *)
Fixpoint number (v : N) (s : string) : option N := match s with EmptyString => Some v | String c r => match digit c with Some d => number (10 * v + d) r | None => None end end.
(** [s] writes [n] in decimal. *)
Definition writes (s : string) (n : N) : Prop := s <> EmptyString /\ number 0 s = Some n.
(** Words separated by commas. *)
Fixpoint commas (l : list string) : string := match l with [] => EmptyString | [s] => s | s :: r => (s ++ "," ++ commas r)%string end.
Lemma digit_range c d : digit c = Some d -> 48 <= nat_of_ascii c <= 57.
Proof. unfold digit. cbv zeta. destruct ((48 <=? nat_of_ascii c) && (nat_of_ascii c <=? 57)) eqn:E; [intros _; lia|discriminate]. Qed.
Lemma begin_digit c d : digit c = Some d -> begin c = Some (NNum false d).
Proof.
  intros H. assert (R := digit_range _ _ H). unfold begin. rewrite H.
  destruct (Ascii.eqb_spec c ",") as [->|_]; [cbn in R; lia|]. destruct (Ascii.eqb_spec c "-") as [->|_]; [cbn in R; lia|]. destruct (Ascii.eqb_spec c "+") as [->|_]; [cbn in R; lia|]. reflexivity.
Qed.
Lemma scan_digits n s : forall v w r set, number v s = Some w -> scan n (s ++ r)%string (NNum false v) set = scan n r (NNum false w) set.
Proof.
  induction s as [|c s IH]; intros v w r set H; cbn [number] in H; [injection H as <-; reflexivity|]. destruct (digit c) as [d|] eqn:D; [|discriminate].
  change (String c s ++ r)%string with (String c (s ++ r)). cbn [scan]. rewrite D. auto.
Qed.
Lemma scan_number n s w r set : writes s w -> scan n (s ++ r)%string NSkip set = scan n r (NNum false w) set.
Proof.
  intros [NE H]. destruct s as [|c s]; [congruence|]. cbn [number] in H. destruct (digit c) as [d|] eqn:D; [|discriminate].
  change (String c s ++ r)%string with (String c (s ++ r)). cbn [scan]. rewrite (begin_digit c d D). apply scan_digits. now rewrite N.mul_0_r, N.add_0_l in H.
Qed.
Fixpoint nospace (s : string) : Prop := match s with EmptyString => True | String c r => space c = false /\ nospace r end.
Lemma word_id s : nospace s -> word s = s.
Proof. induction s as [|c s IH]; cbn; auto. intros [-> H]. f_equal. auto. Qed.
Lemma first_word_id s : nospace s -> first_word s = s.
Proof. destruct s as [|c s]; cbn [first_word]; auto. intros H. assert (H' := H). destruct H' as [E _]. rewrite E. apply (word_id (String c s)). exact H. Qed.
Lemma nospace_number s : forall v w, number v s = Some w -> nospace s.
Proof.
  induction s as [|c s IH]; intros v w H; cbn in *; auto. destruct (digit c) as [d|] eqn:D; [|discriminate]. split; [|eauto].
  apply digit_range in D. unfold space. cbv zeta. destruct (Nat.eqb_spec (nat_of_ascii c) 32); [lia|]. cbn. lia.
Qed.
Lemma nospace_app a b : nospace a -> nospace b -> nospace (a ++ b)%string.
Proof. induction a as [|c a IH]; cbn; auto. intros [H1 H2] H3. split; auto. Qed.
Lemma nospace_commas l : (forall s n, In (s, n) l -> writes s n) -> nospace (commas (map fst l)).
Proof.
  induction l as [|[s n] l IH]; intros H; cbn; auto. assert (W : nospace s) by (destruct (H s n (or_introl eq_refl)) as [_ W]; eapply nospace_number; eauto).
  destruct l as [|x l]; cbn [map]; [exact W|]. apply nospace_app; [exact W|]. apply (nospace_app ","); [cbn; auto|]. apply IH. intros s' n' I. apply H. now right.
Qed.
(** A list of existing cores, written in decimal and separated by commas, is understood as exactly these cores. *)
Theorem C58_cores n (l : list (string * N)) : l <> [] -> (forall s v, In (s, v) l -> writes s v /\ (v < n)%N /\ (v <= 2147483647)%N) ->
  exists f, cores_of n (commas (map fst l)) = Some f /\ forall c, f c = true <-> In c (map snd l).
Proof.
  intros NE H. unfold cores_of. rewrite first_word_id by (apply nospace_commas; intros s v I; apply H; exact I).
  assert (G : forall l set, l <> [] -> (forall s v, In (s, v) l -> writes s v /\ (v < n)%N /\ (v <= 2147483647)%N) ->
     exists f, scan n (commas (map fst l)) NSkip set = Some f /\ forall c, f c = true <-> set c = true \/ In c (map snd l)).
  { clear. induction l as [|[s v] l IH]; intros set NE H; [congruence|]. destruct (H s v (or_introl eq_refl)) as (W & L & F). cbn [map fst].
    assert (SC : set_core n false v set = Some (fun c => (c =? v)%N || set c)) by (unfold set_core; cbn; destruct (N.leb_spec n v); [lia|reflexivity]).
    assert (FT : fits false v = true) by (unfold fits; apply N.leb_le; exact F).
    destruct l as [|x l].
    - cbn [map commas]. assert (E := scan_number n s v EmptyString set W). assert (AN : (s ++ "" = s)%string) by (clear; induction s; cbn; congruence). rewrite AN in E. rewrite E.
      cbn [scan]. rewrite FT, SC. eexists. split; [reflexivity|]. intros c. cbn. rewrite orb_true_iff, N.eqb_eq. split; [intros [->|]; auto|intros [|[->|[]]]; auto].
    - change (commas (s :: map fst (x :: l))) with (s ++ "," ++ commas (map fst (x :: l)))%string. rewrite (scan_number n s v _ set W).
      change ("," ++ commas (map fst (x :: l)))%string with (String "," (commas (map fst (x :: l)))). cbn [scan].
      change (digit ",") with (@None N). change (begin ",") with (Some NSkip). cbv iota beta. rewrite FT, SC.
      destruct (IH (fun c => (c =? v)%N || set c)) as (f & E & Q); [discriminate|intros s' v' I; apply H; now right|].
      rewrite E. exists f. split; [reflexivity|]. intros c. rewrite Q, orb_true_iff, N.eqb_eq. cbn [map snd In]. split; [intros [[->|]|]; auto|intros [|[->|]]; auto]. }
  destruct (G l (fun _ => false) NE H) as (f & E & Q). exists f. split; [exact E|]. intros c. rewrite Q. split; [intros [|]; [discriminate|auto]|auto].
Qed.
(** A core that does not exist is refused. *)
Theorem C58_no_such_core n s v : writes s v -> (n <= v)%N -> (v <= 2147483647)%N -> cores_of n s = None.
Proof.
  intros W L F. unfold cores_of. rewrite first_word_id by (destruct W; eapply nospace_number; eauto).
  assert (E := scan_number n s v EmptyString (fun _ => false) W). assert (AN : (s ++ "" = s)%string) by (clear; induction s; cbn; congruence). rewrite AN in E. rewrite E.
  cbn [scan]. unfold fits, set_core. cbn [andb]. apply N.leb_le in F, L. rewrite F, L. reflexivity.
Qed.

(** ** The case *)
Definition ex_env : env := mkenv 8 ["CPUaccelThread"; "GPUaccelThread"]%string ["RoundRobin"; "Elastic"]%string.
Definition cpu (n : field string) (core : field string) (p : field string) : field jaccel := Val (mkja (Val "CPU"%string) n core p).
(** Two groups; three accelerators without a name, one with; cores; preferences. *)
Definition ex_conf : jconf := mkjc Absent (Val [Val "../libs"%string])
  (Val [("a"%string, Val (mkjg Absent (Val [cpu Absent Absent Absent; cpu Absent (Val "0,2"%string) (Val "USERJOB"%string)])));
        ("b:CPU"%string, Val (mkjg (Val (Val "Elastic"%string)) (Val [cpu (Val "fast"%string) (Val "7"%string) Absent; Val (mkja (Val "GPU"%string) Absent Absent (Val "nojob"%string))])))]).
Definition names (m : amap) : list string := map a_name m.
Example C58_example :
  (exists c, load ex_env ex_conf = Some c /\ names (accels c) = ["fast"; "b:CPU:GPU:1"; "a:CPU:0"; "a:CPU:1"]%string /\
     map a_pref (accels c) = [AnyJob; NoJob; AnyJob; UserJob] /\ map (fun a => map (a_cores a) [0; 1; 2; 7; 8]%N) (accels c) = 
     [[false; false; false; true; false]; [true; true; true; true; false]; [true; true; true; true; false]; [true; false; true; false; false]]) /\
  (forall gl, j_groups ex_conf = Val gl -> NoDup (map fst gl)) /\ distinct ex_conf /\
  writes "12" 12 /\ load (mkenv 2 ["CPUaccelThread"; "GPUaccelThread"]%string ["RoundRobin"; "Elastic"]%string) ex_conf = None.
Proof.
  split; [|split; [|split; [|split]]].
  - eexists. split; [vm_compute; reflexivity|]. vm_compute. repeat split; reflexivity.
  - intros gl [= <-]. cbn. repeat constructor; cbn; intuition discriminate.
  - intros g k ja n g' k' ja' n' (gl & jg & l & G & I & A & N) (gl' & jg' & l' & G' & I' & A' & N') M M' Q.
    injection G as <-. injection G' as <-. cbn in I, I'.
    assert (P : In (g, k, n) [("a", 0, "a:CPU:0"); ("a", 1, "a:CPU:1"); ("b:CPU", 0, "fast"); ("b:CPU", 1, "b:CPU:GPU:1")]%string).
    { clear -I A N M. destruct I as [[= <- <-]|[[= <- <-]|[]]]; injection A as <-; destruct k as [|[|[|k]]]; cbn in N; try discriminate; injection N as <-;
        destruct M as [M|(M & arch & AR & ->)]; cbn in *; try discriminate; try (injection AR as <-); try (injection M as <-); cbn; auto. }
    assert (P' : In (g', k', n') [("a", 0, "a:CPU:0"); ("a", 1, "a:CPU:1"); ("b:CPU", 0, "fast"); ("b:CPU", 1, "b:CPU:GPU:1")]%string).
    { clear -I' A' N' M'. destruct I' as [[= <- <-]|[[= <- <-]|[]]]; injection A' as <-; destruct k' as [|[|[|k']]]; cbn in N'; try discriminate; injection N' as <-;
        destruct M' as [M|(M & arch & AR & ->)]; cbn in *; try discriminate; try (injection AR as <-); try (injection M as <-); cbn; auto. }
    subst n'. cbn in P, P'.
    destruct P as [[= <- <- <-]|[[= <- <- <-]|[[= <- <- <-]|[[= <- <- <-]|[]]]]]; destruct P' as [[= <- <-]|[[= <- <-]|[[= <- <-]|[[= <- <-]|[]]]]]; auto.
  - split; [discriminate|reflexivity].
  - vm_compute. reflexivity.
Qed.

(** ** What goes wrong *)
(** Two accelerators of one group with the same name: the first is silently dropped. *)
Theorem C58_same_name_refuted : exists j c, load ex_env j = Some c /\ names (accels c) = ["x"%string] /\
  exists ja ja', ja <> ja' /\ entry j "g" 0 ja /\ entry j "g" 1 ja'.
Proof.
  exists (mkjc Absent Absent (Val [("g"%string, Val (mkjg Absent (Val [cpu (Val "x"%string) (Val "0"%string) Absent; cpu (Val "x"%string) (Val "1"%string) Absent])))])). eexists.
  split; [vm_compute; reflexivity|]. split; [reflexivity|].
  exists (mkja (Val "CPU"%string) (Val "x"%string) (Val "0"%string) Absent), (mkja (Val "CPU"%string) (Val "x"%string) (Val "1"%string) Absent). split; [discriminate|].
  split; eexists; eexists; eexists; (split; [reflexivity|]); (split; [now left|]); split; reflexivity.
Qed.
(** The same in two groups: the second is not started, but its group still hands work to it. *)
Theorem C58_two_groups_refuted : exists j c a, load ex_env j = Some c /\ In a (concat (map snd (groups c))) /\ a_group a = "h"%string /\ ~ In a (accels c) /\
  forall b, In b (accels c) -> a_group b <> "h"%string.
Proof.
  exists (mkjc Absent Absent (Val [("g"%string, Val (mkjg Absent (Val [cpu (Val "x"%string) Absent Absent]))); ("h"%string, Val (mkjg Absent (Val [cpu (Val "x"%string) Absent Absent])))])).
  destruct (load ex_env _) as [c|] eqn:E; [|vm_compute in E; discriminate].
  exists c. vm_compute in E. injection E as <-. eexists. split; [reflexivity|]. split; [cbn; right; left; reflexivity|]. split; [reflexivity|]. split.
  - intros [H|[]]. apply (f_equal a_group) in H. discriminate.
  - intros b [<-|[]]. discriminate.
Qed.
(** A name someone chose may be the default name of another accelerator, which then replaces it. *)
Theorem C58_default_clash_refuted : exists j c, load ex_env j = Some c /\ names (accels c) = ["g:CPU:1"%string] /\
  exists l, j_groups j = Val [("g"%string, Val (mkjg Absent (Val l)))] /\ length l = 2.
Proof.
  exists (mkjc Absent Absent (Val [("g"%string, Val (mkjg Absent (Val [cpu (Val "g:CPU:1"%string) (Val "0"%string) Absent; cpu Absent (Val "1"%string) Absent])))])). eexists.
  split; [vm_compute; reflexivity|]. split; [reflexivity|]. eexists. split; reflexivity.
Qed.
(** Cores after a blank are ignored, a range means all cores, and so is what follows a letter. *)
Theorem C58_cores_refuted : exists f g h, cores_of 8 "0, 1" = Some f /\ f 1%N = false /\ cores_of 8 "0-3" = Some g /\ g 7%N = true /\ cores_of 8 "2x,3" = Some h /\ h 3%N = false.
Proof. eexists; eexists; eexists. split; [vm_compute; reflexivity|]. split; [reflexivity|]. split; [vm_compute; reflexivity|]. split; [reflexivity|]. split; [vm_compute; reflexivity|]. reflexivity. Qed.
