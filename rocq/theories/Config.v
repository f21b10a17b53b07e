(** The configuration text: property C39.

    Code modelled
    - [src/utils/config.c:71-83]    utils_config_write_str
    - [src/utils/config.c:85-92]    utils_config_write_long
    - [src/utils/config.c:133-162]  _utils_config_get_str
    - [src/utils/config.c:164-176]  utils_config_get_str
    - [src/utils/config.c:178-188]  utils_config_get_bool
    - [src/utils/config.c:190-204]  utils_config_get_int
    - [src/utils/config.c:206-224]  utils_config_get_long
    - [src/utils/config.c:226-240]  utils_config_get_size

    The text is a C string without its terminator (list of character codes, none
    of them 0), wherever it is kept (file or environment variable); one call at a
    time.  Of the C library, sscanf("%127s %895s%n"), strncpy, sprintf("%ld") and
    strtol with base 0 (glibc, 64-bit long) are modelled as the C standard
    describes them.  stderr messages are left out. *)
From Coq Require Import Ascii String.
From Coq Require Import List Arith Lia Bool NArith ZArith.
Import ListNotations.
Local Open Scope N_scope.
Local Open Scope list_scope.

Arguments N.add : simpl never.
Arguments N.mul : simpl never.
Arguments N.eqb : simpl never.
Arguments N.leb : simpl never.
Arguments N.ltb : simpl never.
Arguments N.sub : simpl never.
Arguments Z.add : simpl never.
Arguments Z.mul : simpl never.

(** char arrays of src/utils/config.c:71-240. *)
Definition text := list N.

(** C's isspace in the default locale. *)
(** C library, used by sscanf at src/utils/config.c:133-162 and strtol at 178-240. *)
Definition blank (c : N) : bool := (c =? 32) || ((9 <=? c) && (c <=? 13)).

(** C library, part of sscanf at src/utils/config.c:133-162. *)
Fixpoint skip_blanks (t : text) : text :=
  match t with
  | [] => []
  | c :: t' => if blank c then skip_blanks t' else t
  end.

(** Up to [n] non-blank characters, and the rest ("%<n>s" after its blanks). *)
(** C library, part of sscanf at src/utils/config.c:133-162. *)
Fixpoint take_word (n : nat) (t : text) : text * text :=
  match n, t with
  | S n', c :: t' => if blank c then ([], t) else let (w, r) := take_word n' t' in (c :: w, r)
  | _, _ => ([], t)
  end.

(** sscanf(conf, "%127s %895s%n", ckey, cval, &len) [src/utils/config.c:146]:
    [None] when fewer than two items are converted, else key, value and what
    follows the [len] characters consumed. *)
Definition scan2 (t : text) : option (text * text * text) :=
  let (k, r1) := take_word 127 (skip_blanks t) in
  match k with
  | [] => None
  | _ => let (v, r2) := take_word 895 (skip_blanks r1) in
         match v with [] => None | _ => Some (k, v, r2) end
  end.

(** _utils_config_get_str [src/utils/config.c:133-162].  The loop consumes at
    least two characters per round, so the length of the text bounds it. *)
Fixpoint lookup_loop (fuel : nat) (t key : text) : option text :=
  match fuel with
  | O => None
  | S f => match scan2 t with
           | None => None
           | Some (k, v, r) => if list_eq_dec N.eq_dec k key then Some v else lookup_loop f r key
           end
  end.
Definition lookup (t key : text) : option text := lookup_loop (S (length t)) t key.

(** utils_config_write_str [src/utils/config.c:71-83]. *)
Definition write_str (t key value : text) : text := t ++ key ++ [32] ++ value ++ [10].

(** strncpy into an array of [n] characters. *)
(** C library, used at src/utils/config.c:133-176. *)
Definition strncpy (v : text) (n : nat) : text := firstn n v ++ repeat 0 (n - length v).

(** The C string in an array; [None] when it is not terminated. *)
(** C strings in the arrays of src/utils/config.c:133-240. *)
Fixpoint cstring (a : text) : option text :=
  match a with
  | [] => None
  | c :: a' => if c =? 0 then Some [] else option_map (cons c) (cstring a')
  end.

(** utils_config_get_str [src/utils/config.c:164-176]: return value, the contents
    of the caller's array if it was written, the text afterwards. *)
Definition get_str (t key : text) (size : nat) (def : option text) : Z * option text * text :=
  match lookup t key with
  | Some v => (1%Z, Some (strncpy v size), t)
  | None => match def with
            | Some d => (0%Z, Some (strncpy d size), write_str t key d)
            | None => (0%Z, None, t)
            end
  end.

(** Digits of a number in a base up to 36. *)
(** C library, part of strtol at src/utils/config.c:178-240. *)
Definition digit (c : N) : option N :=
  if (48 <=? c) && (c <=? 57) then Some (c - 48)
  else if (97 <=? c) && (c <=? 122) then Some (c - 87)
  else if (65 <=? c) && (c <=? 90) then Some (c - 55)
  else None.
(** C library, part of strtol at src/utils/config.c:178-240. *)
Definition is_digit (base c : N) : bool := match digit c with Some d => d <? base | None => false end.

(** The longest run of digits; [None] when it runs off the array. *)
(** C library, part of strtol at src/utils/config.c:178-240. *)
Fixpoint digits (base : N) (a : text) : option (list N) :=
  match a with
  | [] => None
  | c :: a' => if is_digit base c then option_map (cons (match digit c with Some d => d | None => 0 end)) (digits base a')
               else Some []
  end.

(** C library, part of strtol at src/utils/config.c:178-240. *)
Definition value_of (base : N) (ds : list N) : N := fold_left (fun a d => a * base + d) ds 0.

(** C library, results of strtol at src/utils/config.c:178-240. *)
Inductive strtol_res := RunsOff | NoNumber | OutOfRange | Number (z : Z).

(** limits.h, src/utils/config.c:206-224. *)
Definition LONG_MIN : Z := (- 2 ^ 63)%Z.
(** limits.h, src/utils/config.c:206-224. *)
Definition LONG_MAX : Z := (2 ^ 63 - 1)%Z.
(** limits.h, src/utils/config.c:178-204. *)
Definition INT_MIN : Z := (- 2 ^ 31)%Z.
(** limits.h, src/utils/config.c:178-204. *)
Definition INT_MAX : Z := (2 ^ 31 - 1)%Z.

(** strtol(a, &end, 0): blanks, sign, base from the prefix, digits. *)
(** C library, part of strtol at src/utils/config.c:178-240. *)
Definition sign (a : text) : bool * text :=
  match a with
  | c :: a' => if c =? 45 then (true, a') else if c =? 43 then (false, a') else (false, a)
  | [] => (false, a)
  end.
(** C library, part of strtol at src/utils/config.c:178-240. *)
Definition radix (a : text) : N * text :=
  match a with
  | z :: a1 =>
      if z =? 48 then
        match a1 with
        | x :: d :: a2 => if ((x =? 120) || (x =? 88)) && is_digit 16 d then (16, d :: a2) else (8, a)
        | _ => (8, a)
        end
      else (10, a)
  | [] => (10, a)
  end.
(** C library, used at src/utils/config.c:178-240. *)
Definition strtol (a : text) : strtol_res :=
  let (neg, a1) := sign (skip_blanks a) in
  let (base, a2) := radix a1 in
  match digits base a2 with
  | None => RunsOff
  | Some [] => NoNumber
  | Some ds =>
      let z := if neg then (- Z.of_N (value_of base ds))%Z else Z.of_N (value_of base ds) in
      if ((LONG_MIN <=? z) && (z <=? LONG_MAX))%Z then Number z else OutOfRange
  end.

(** sprintf("%ld"): decimal digits, least significant first, then reversed. *)
(** C library, part of sprintf at src/utils/config.c:85-92. *)
Fixpoint dec_rev (fuel : nat) (n : N) : list N :=
  match fuel with
  | O => []
  | S f => (48 + n mod 10) :: (if n / 10 =? 0 then [] else dec_rev f (n / 10))
  end.
(** C library, sprintf at src/utils/config.c:85-92. *)
Definition print_long (z : Z) : text :=
  (if (z <? 0)%Z then [45] else []) ++ rev (dec_rev 20 (Z.abs_N z)).

(** utils_config_write_long [src/utils/config.c:85-92]. *)
Definition write_long (t key : text) (z : Z) : text := write_str t key (print_long z).

(** A call either returns (return value, *value, text afterwards) or reads outside
    an array. *)
(** How a getter of src/utils/config.c:164-240 ends. *)
Inductive outcome := Ret (r : Z) (v : Z) (t : text) | Undefined.

(** utils_config_get_long [src/utils/config.c:206-224]; [cval] has 22 characters. *)
Definition get_long (t key : text) (def : Z) : outcome :=
  match lookup t key with
  | None => Ret 0 def t
  | Some v => match strtol (strncpy v 22) with
              | RunsOff => Undefined
              | Number z => Ret 1 z t
              | _ => Ret 0 def (write_long t key def)
              end
  end.

(** utils_config_get_int [src/utils/config.c:190-204]. *)
Definition get_int (t key : text) (def : Z) : outcome :=
  match get_long t key def with
  | Ret 1 z t' => if ((z <=? INT_MAX) && (INT_MIN <=? z))%Z then Ret 1 z t' else Ret 0 def t'
  | Ret _ _ t' => Ret 0 def t'
  | Undefined => Undefined
  end.

(** utils_config_get_bool [src/utils/config.c:178-188]. *)
Definition get_bool (t key : text) (def : Z) : outcome :=
  match get_int t key def with
  | Ret 1 z t' => if ((z =? 0) || (z =? 1))%Z then Ret 1 z t' else Ret 0 def t'
  | Ret _ _ t' => Ret 0 def t'
  | Undefined => Undefined
  end.

(** utils_config_get_size [src/utils/config.c:226-240]; [def] is a size_t, passed
    on as a long. *)
Definition to_long (n : Z) : Z := if (n <=? LONG_MAX)%Z then n else (n - 2 ^ 64)%Z.
Definition get_size (t key : text) (def : Z) : outcome :=
  match get_long t key (to_long def) with
  | Ret 1 z t' => if (0 <=? z)%Z then Ret 1 z t' else Ret 0 def t'
  | Ret _ _ t' => Ret 0 def t'
  | Undefined => Undefined
  end.

(* ------------------------------------------------------------------ *)
(** ** Specification: what a text says *)

Definition word (w : text) : Prop := w <> [] /\ Forall (fun c => blank c = false) w.
Definition blanks (b : text) : Prop := Forall (fun c => blank c = true) b.
Definition starts_blank (t : text) : Prop := match t with [] => True | c :: _ => blank c = true end.
Definition ends_line (t : text) : Prop := t = [] \/ exists t' c, t = t' ++ [c] /\ blank c = true.

(** The characters the specification calls blank and the digits it counts with, spelled out. *)
Theorem C39_blank_characters : forall c, blank c = true <-> In c [32; 9; 10; 11; 12; 13].
Proof.
  intros c. unfold blank. rewrite orb_true_iff, andb_true_iff, N.eqb_eq, !N.leb_le. cbn [In]. lia.
Qed.

Theorem C39_digit_characters : forall c d, digit c = Some d <->
  (48 <= c <= 57 /\ d = c - 48) \/ (97 <= c <= 122 /\ d = c - 97 + 10) \/ (65 <= c <= 90 /\ d = c - 65 + 10).
Proof.
  intros c d. unfold digit.
  destruct ((48 <=? c) && (c <=? 57)) eqn:A; [|destruct ((97 <=? c) && (c <=? 122)) eqn:B; [|destruct ((65 <=? c) && (c <=? 90)) eqn:C]];
    rewrite ?andb_true_iff, ?andb_false_iff, ?N.leb_le, ?N.leb_gt in *;
    (split; [intros E; try discriminate E; injection E as <-; lia|intros E; try (f_equal; lia); lia]).
Qed.

(** [t] consists of the words [ws] separated by blanks. *)
Inductive spaced : text -> list text -> Prop :=
| sp_end : forall b, blanks b -> spaced b []
| sp_word : forall b w t ws, blanks b -> word w -> starts_blank t -> spaced t ws -> spaced (b ++ w ++ t) (w :: ws).

(** The words of a list of settings. *)
Definition words_of (l : list (text * text)) : list text := flat_map (fun kv => [fst kv; snd kv]) l.

(** Keys and values short enough for the scanner's arrays. *)
Definition fits (kv : text * text) : Prop := (length (fst kv) <= 127)%nat /\ (length (snd kv) <= 895)%nat.

(** The value of the first setting of [key]. *)
Fixpoint first_setting (l : list (text * text)) (key : text) : option text :=
  match l with
  | [] => None
  | (k, v) :: l' => if list_eq_dec N.eq_dec k key then Some v else first_setting l' key
  end.

(** [t] says exactly the settings [l]. *)
Definition says (t : text) (l : list (text * text)) : Prop :=
  spaced t (words_of l) /\ Forall fits l.

(* ------------------------------------------------------------------ *)

Lemma skip_blanks_app : forall b t, blanks b -> (match t with [] => True | c :: _ => blank c = false end) ->
  skip_blanks (b ++ t) = t.
Proof.
  induction b as [|c b IH]; intros t B S; cbn.
  - destruct t as [|c t]; [reflexivity|]. cbn. now rewrite S.
  - inversion B; subst. rewrite H1. auto.
Qed.

Lemma take_word_exact : forall w n t, Forall (fun c => blank c = false) w -> (length w <= n)%nat -> starts_blank t ->
  take_word n (w ++ t) = (w, t).
Proof.
  induction w as [|c w IH]; intros n t W L S; cbn.
  - destruct n, t as [|c t]; try reflexivity. cbn in *. now rewrite S.
  - inversion W; subst. destruct n; [cbn in L; lia|]. cbn. rewrite H1, IH; auto. cbn in L. lia.
Qed.

Lemma word_first : forall w t, word w -> match w ++ t with [] => True | c :: _ => blank c = false end.
Proof. intros [|c w] t [N F]; [congruence|]. cbn. now inversion F. Qed.

Lemma scan2_words : forall t k v ws, spaced t (k :: v :: ws) -> (length k <= 127)%nat -> (length v <= 895)%nat ->
  exists r, scan2 t = Some (k, v, r) /\ spaced r ws /\ (length r < length t)%nat.
Proof.
  intros t k v ws S LK LV. inversion S as [|b w t1 ws1 B W SB S1]; subst.
  inversion S1 as [|b2 w2 t2 ws2 B2 W2 SB2 S2]; subst. exists t2. unfold scan2.
  rewrite skip_blanks_app; [|assumption|now apply word_first].
  rewrite take_word_exact; [|apply W|assumption|assumption].
  rewrite skip_blanks_app; [|assumption|now apply word_first].
  rewrite take_word_exact; [|apply W2|assumption|assumption].
  destruct W as [NK _], W2 as [NV _]. destruct k; [congruence|]. destruct v; [congruence|].
  split; [reflexivity|]. split; [assumption|]. rewrite !app_length. cbn. lia.
Qed.

Lemma scan2_short : forall t ws, spaced t ws -> (length ws < 2)%nat -> Forall (fun w => (length w <= 127)%nat) ws ->
  scan2 t = None.
Proof.
  intros t ws S L F. destruct ws as [|w [|w2 ws]]; [| |cbn in L; lia].
  - inversion S; subst. unfold scan2. rewrite <- (app_nil_r t), skip_blanks_app; auto.
  - inversion S as [|b w' t1 ws1 B W SB S1]; subst. inversion S1 as [b2 B2|]; subst.
    unfold scan2. rewrite skip_blanks_app; [|assumption|now apply word_first].
    inversion F; subst. rewrite take_word_exact; [|apply W|assumption|assumption].
    destruct w; [reflexivity|]. rewrite <- (app_nil_r t1), skip_blanks_app; [reflexivity|assumption|exact I].
Qed.

Lemma lookup_loop_spec : forall l tail fuel t key, spaced t (words_of l ++ tail) -> Forall fits l -> (length tail < 2)%nat ->
  Forall (fun w => (length w <= 127)%nat) tail -> (length t < fuel)%nat -> lookup_loop fuel t key = first_setting l key.
Proof.
  induction l as [|[k v] l IH]; intros tail fuel t key S F LT FT LF; (destruct fuel; [lia|]).
  - cbn in S. cbn [lookup_loop]. erewrite scan2_short; eauto.
  - inversion F as [|? ? [LK LV] F']; subst. cbn in S. cbn [lookup_loop first_setting].
    destruct (scan2_words _ _ _ _ S LK LV) as (r & E & S' & LR). rewrite E.
    destruct (list_eq_dec N.eq_dec k key); [reflexivity|]. eapply IH; eauto. lia.
Qed.

(** C39: looking a key up in a text gives the value of the first setting of that
    key, and nothing when there is none; a last word without a value is ignored. *)
Theorem C39_first_setting_partial : forall l tail t key, spaced t (words_of l ++ tail) -> Forall fits l ->
  (length tail < 2)%nat -> Forall (fun w => (length w <= 127)%nat) tail ->
  lookup t key = first_setting l key.
Proof. intros. eapply lookup_loop_spec; eauto. Qed.

Lemma says_lookup : forall t l key, says t l -> lookup t key = first_setting l key.
Proof.
  intros t l key [S F]. apply (C39_first_setting_partial l []); auto. now rewrite app_nil_r.
Qed.

(** ... into the caller's array: complete and terminated if it is large enough. *)
Lemma cstring_app : forall v r, Forall (fun c => c <> 0) v -> cstring (v ++ 0 :: r) = Some v.
Proof.
  induction v as [|c v IH]; intros r F; cbn; [reflexivity|]. inversion F; subst.
  apply N.eqb_neq in H1. rewrite H1, IH; auto.
Qed.
Lemma cstring_none : forall v, Forall (fun c => c <> 0) v -> cstring v = None.
Proof.
  induction v as [|c v IH]; intros F; cbn; [reflexivity|]. inversion F; subst.
  apply N.eqb_neq in H1. rewrite H1, IH; auto.
Qed.
Lemma strncpy_long_enough : forall v n, (length v < n)%nat -> exists k, strncpy v n = v ++ 0 :: repeat 0 k.
Proof.
  intros v n L. remember (n - length v - 1)%nat as k eqn:K. exists k. unfold strncpy. rewrite firstn_all2 by lia. f_equal.
  replace (n - length v)%nat with (S k) by lia. reflexivity.
Qed.

Theorem C39_get_str : forall t l key size def, says t l ->
  match first_setting l key with
  | Some v => exists a, get_str t key size def = (1%Z, Some a, t) /\ length a = size /\
      (Forall (fun c => c <> 0) v -> if (length v <? size)%nat then cstring a = Some v else cstring a = None)
  | None => match def with
            | Some d => exists a, get_str t key size def = (0%Z, Some a, t ++ key ++ [32] ++ d ++ [10]) /\ length a = size /\
                (Forall (fun c => c <> 0) d -> if (length d <? size)%nat then cstring a = Some d else cstring a = None)
            | None => get_str t key size def = (0%Z, None, t)
            end
  end.
Proof.
  intros t l key size def H. unfold get_str. rewrite (says_lookup t l key H).
  assert (CP : forall v, length (strncpy v size) = size /\
     (Forall (fun c => c <> 0) v -> if (length v <? size)%nat then cstring (strncpy v size) = Some v else cstring (strncpy v size) = None)).
  { intros v. split.
    - unfold strncpy. rewrite app_length, firstn_length, repeat_length. lia.
    - intros F. destruct (Nat.ltb_spec (length v) size).
      + destruct (strncpy_long_enough v size) as [k ->]; [assumption|]. now apply cstring_app.
      + unfold strncpy. replace (size - length v)%nat with O by lia. cbn [repeat]. rewrite app_nil_r. apply cstring_none.
        apply Forall_forall. intros c I. rewrite Forall_forall in F. apply F.
        rewrite <- (firstn_skipn size v). apply in_or_app. now left. }
  destruct (first_setting l key) as [v|].
  - exists (strncpy v size). split; [reflexivity|apply CP].
  - destruct def as [d|]; [|reflexivity]. exists (strncpy d size). split; [reflexivity|apply CP].
Qed.

(* ------------------------------------------------------------------ *)
(** ** Writing *)

Lemma spaced_app : forall t ws t2 ws2, spaced t ws -> ends_line t -> spaced t2 ws2 -> spaced (t ++ t2) (ws ++ ws2).
Proof.
  intros t ws t2 ws2 S. induction S as [b B|b w t ws B W SB S IH]; intros E S2; cbn [app].
  - inversion S2 as [b2 B2|b2 w t ws B2 W SB S]; subst.
    + constructor. apply Forall_app. auto.
    + rewrite app_assoc. constructor; auto. apply Forall_app. auto.
  - rewrite <- !app_assoc. destruct t as [|c t].
    + exfalso. rewrite app_nil_r in E. destruct W as [NW FW]. destruct E as [E|(t' & c & E & BC)].
      * apply app_eq_nil in E. destruct E. contradiction.
      * destruct w as [|x w]; [congruence|]. destruct (exists_last (l := x :: w)) as (w' & y & EW); [discriminate|].
        rewrite EW, app_assoc in E. apply app_inj_tail in E. destruct E as [_ ->].
        rewrite EW in FW. apply Forall_app in FW. destruct FW as [_ FW]. inversion FW; subst. congruence.
    + constructor; auto. apply IH; [|assumption]. right.
      destruct (exists_last (l := c :: t)) as (t' & y & EW); [discriminate|]. exists t', y. split; [assumption|].
      destruct E as [E|(t2' & z & E & BZ)].
      * apply app_eq_nil in E. destruct E as [_ E]. apply app_eq_nil in E. destruct E. discriminate.
      * rewrite EW, !app_assoc in E. apply app_inj_tail in E. destruct E as [_ ->]. assumption.
Qed.

Lemma words_of_app : forall a b, words_of (a ++ b) = words_of a ++ words_of b.
Proof. intros. unfold words_of. apply flat_map_app. Qed.

(** C39: writing appends one setting to what the text says, provided the text is
    empty or ends with a blank (a complete last line). *)
Theorem C39_write_says : forall t l key value, says t l -> ends_line t -> word key -> word value -> fits (key, value) ->
  says (write_str t key value) (l ++ [(key, value)]) /\ ends_line (write_str t key value).
Proof.
  intros t l key value [S F] E WK WV FT. unfold write_str. split; [split|].
  - rewrite words_of_app. apply spaced_app; [assumption|assumption|].
    change (words_of [(key, value)]) with [key; value].
    apply (sp_word [] key ([32] ++ value ++ [10])); [constructor|assumption|reflexivity|].
    apply (sp_word [32] value [10]); [repeat constructor|assumption|reflexivity|].
    constructor. repeat constructor.
  - apply Forall_app. split; [assumption|]. constructor; [assumption|constructor].
  - right. exists (t ++ key ++ [32] ++ value), 10. split; [|reflexivity]. now rewrite <- !app_assoc.
Qed.

Lemma first_setting_app : forall l l2 key,
  first_setting (l ++ l2) key = match first_setting l key with Some v => Some v | None => first_setting l2 key end.
Proof.
  induction l as [|[k v] l IH]; intros l2 key; cbn; [reflexivity|]. destruct (list_eq_dec N.eq_dec k key); auto.
Qed.

(** ... so a key that was not set becomes readable, every other key reads as
    before, and a key that was set keeps its old value. *)
Theorem C39_write_partial : forall t l key value, says t l -> ends_line t -> word key -> word value -> fits (key, value) ->
  (first_setting l key = None -> lookup (write_str t key value) key = Some value) /\
  (forall key2, key2 <> key -> lookup (write_str t key value) key2 = lookup t key2) /\
  (forall v, lookup t key = Some v -> lookup (write_str t key value) key = Some v).
Proof.
  intros t l key value SY E WK WV FT. destruct (C39_write_says t l key value SY E WK WV FT) as [SY2 _].
  split; [|split].
  - intros N. rewrite (says_lookup _ _ _ SY2), first_setting_app, N. cbn.
    destruct (list_eq_dec N.eq_dec key key); [reflexivity|congruence].
  - intros key2 NE. rewrite (says_lookup _ _ _ SY2), (says_lookup _ _ _ SY), first_setting_app.
    destruct (first_setting l key2); [reflexivity|]. cbn. destruct (list_eq_dec N.eq_dec key key2); [congruence|reflexivity].
  - intros v L. rewrite (says_lookup _ _ _ SY) in L. now rewrite (says_lookup _ _ _ SY2), first_setting_app, L.
Qed.

(* ------------------------------------------------------------------ *)
(** ** Numbers *)

(** What a value denotes: an optional sign, then
    - decimal digits not starting with 0, or
    - 0 followed by octal digits (possibly none), or
    - 0x or 0X followed by at least one hexadecimal digit,
    followed by anything that does not continue the digits. *)
Definition opt_sign (neg : bool) (s : text) : Prop := s = [45] /\ neg = true \/ s = [43] /\ neg = false \/ s = [] /\ neg = false.
Definition not_digit (base : N) (t : text) : Prop := match t with [] => True | c :: _ => is_digit base c = false end.
Definition all_digits (base : N) (ds : text) : Prop := Forall (fun c => is_digit base c = true) ds.
Definition dval (c : N) : N := match digit c with Some d => d | None => 0 end.
Definition not_hex_prefix (t : text) : Prop :=
  match t with x :: d :: _ => (x = 120 \/ x = 88) -> is_digit 16 d = false | _ => True end.

Inductive magnitude : text -> N -> Prop :=
| m_dec : forall d ds rest, all_digits 10 (d :: ds) -> d <> 48 -> not_digit 10 rest ->
    magnitude ((d :: ds) ++ rest) (value_of 10 (map dval (d :: ds)))
| m_oct : forall ds rest, all_digits 8 ds -> not_digit 8 rest -> not_hex_prefix (ds ++ rest) ->
    magnitude (48 :: ds ++ rest) (value_of 8 (map dval (48 :: ds)))
| m_hex : forall x d ds rest, x = 120 \/ x = 88 -> all_digits 16 (d :: ds) -> not_digit 16 rest ->
    magnitude (48 :: x :: (d :: ds) ++ rest) (value_of 16 (map dval (d :: ds))).

Inductive denotes : text -> Z -> Prop :=
| den : forall neg s t m, opt_sign neg s -> magnitude t m ->
    denotes (s ++ t) (if neg then - Z.of_N m else Z.of_N m)%Z.

Lemma digits_run : forall base ds rest, all_digits base ds -> not_digit base rest -> rest <> [] ->
  digits base (ds ++ rest) = Some (map dval ds).
Proof.
  intros base. induction ds as [|c ds IH]; intros rest A ND NE; cbn [digits app map].
  - destruct rest as [|c rest]; [congruence|]. cbn in *. now rewrite ND.
  - inversion A; subst. rewrite H1, IH by assumption. reflexivity.
Qed.

Lemma digit_facts : forall c, is_digit 10 c = true -> c <> 45 /\ c <> 43 /\ blank c = false.
Proof.
  intros c H. unfold is_digit, digit in H.
  destruct ((48 <=? c) && (c <=? 57)) eqn:E.
  - apply andb_true_iff in E. destruct E as [E1 E2]. apply N.leb_le in E1, E2.
    repeat split; try lia. unfold blank. rewrite orb_false_iff, andb_false_iff, N.eqb_neq, N.leb_gt, N.leb_gt. lia.
  - exfalso. destruct ((97 <=? c) && (c <=? 122)) eqn:E2.
    + apply andb_true_iff in E2. destruct E2 as [E2 E3]. apply N.leb_le in E2, E3. apply N.ltb_lt in H. lia.
    + destruct ((65 <=? c) && (c <=? 90)) eqn:E3; [|discriminate].
      apply andb_true_iff in E3. destruct E3 as [E3 E4]. apply N.leb_le in E3, E4. apply N.ltb_lt in H. lia.
Qed.

Lemma not_digit0 : forall base rest k, base <= 36 -> not_digit base rest -> not_digit base (rest ++ 0 :: k).
Proof. intros base [|c rest] k B N; cbn in *; auto. Qed.

Definition ranged (z : Z) : strtol_res := if ((LONG_MIN <=? z) && (z <=? LONG_MAX))%Z then Number z else OutOfRange.

Lemma strtol_mag : forall neg s t m k, opt_sign neg s -> magnitude t m ->
  strtol ((s ++ t) ++ 0 :: k) = ranged (if neg then - Z.of_N m else Z.of_N m)%Z.
Proof.
  intros neg s t m k SG M. unfold strtol.
  assert (FST : exists c t', t = c :: t' /\ is_digit 10 c = true).
  { destruct M as [d ds rest A ND0 ND|ds rest A ND HP|x d ds rest X A ND].
    - inversion A; subst. cbn. eauto.
    - exists 48, (ds ++ rest). split; reflexivity.
    - eexists _, _. split; reflexivity. }
  destruct FST as (c & t' & Et & DC). destruct (digit_facts c DC) as (N45 & N43 & NB).
  assert (SK : sign (skip_blanks ((s ++ t) ++ 0 :: k)) = (neg, t ++ 0 :: k)).
  { destruct SG as [[-> ->]|[[-> ->]|[-> ->]]]; cbn [app skip_blanks].
    - reflexivity.
    - reflexivity.
    - subst t. cbn [app skip_blanks]. rewrite NB. cbn [sign]. apply N.eqb_neq in N45, N43. now rewrite N45, N43. }
  rewrite SK. clear SK SG.
  assert (R : exists base ds, radix (t ++ 0 :: k) = (base, ds) /\ exists d l, digits base ds = Some (d :: l) /\ value_of base (d :: l) = m).
  { destruct M as [d ds rest A ND0 ND|ds rest A ND HP|x d ds rest X A ND].
    - exists 10. eexists. split.
      + cbn [app radix]. apply N.eqb_neq in ND0. rewrite ND0. reflexivity.
      + exists (dval d), (map dval ds). split; [|reflexivity].
        change (d :: (ds ++ rest) ++ 0 :: k) with (((d :: ds) ++ rest) ++ 0 :: k). rewrite <- app_assoc.
        rewrite digits_run; [reflexivity|assumption|now apply not_digit0|destruct rest; discriminate].
    - exists 8, (48 :: (ds ++ rest) ++ 0 :: k). split.
      + cbn [app radix]. change (48 =? 48) with true. cbv iota.
        destruct (ds ++ rest) as [|x [|d u]] eqn:U; cbn [app].
        * destruct k; reflexivity.
        * change (is_digit 16 0) with false. rewrite andb_false_r. reflexivity.
        * cbn in HP. destruct ((x =? 120) || (x =? 88)) eqn:EX; [|reflexivity].
          rewrite HP; [reflexivity|]. apply orb_true_iff in EX. destruct EX as [EX|EX]; apply N.eqb_eq in EX; auto.
      + exists (dval 48), (map dval ds). split; [|reflexivity].
        change (48 :: (ds ++ rest) ++ 0 :: k) with (((48 :: ds) ++ rest) ++ 0 :: k). rewrite <- app_assoc.
        rewrite digits_run; [reflexivity| |now apply not_digit0|destruct rest; discriminate].
        constructor; [reflexivity|assumption].
    - exists 16, ((d :: ds) ++ rest ++ 0 :: k). split.
      + cbn [app radix]. change (48 =? 48) with true. cbv iota.
        assert (EX : ((x =? 120) || (x =? 88)) = true) by (destruct X; subst; reflexivity). rewrite EX.
        inversion A; subst. rewrite H1. cbn. now rewrite <- app_assoc.
      + exists (dval d), (map dval ds). split; [|reflexivity].
        rewrite digits_run; [reflexivity|assumption|now apply not_digit0|destruct rest; discriminate]. }
  destruct R as (base & ds & -> & d & l & -> & ->). reflexivity.
Qed.

Lemma strtol_denotes : forall v z k, denotes v z -> strtol (v ++ 0 :: k) = ranged z.
Proof. intros v z k [neg s t m SG M]. now apply strtol_mag. Qed.

(** A value that does not start like a number. *)
Definition no_number (v : text) : Prop :=
  exists neg s t, opt_sign neg s /\ v = s ++ t /\ not_digit 10 t /\
    (s = [] -> match t with c :: _ => c <> 45 /\ c <> 43 /\ blank c = false | [] => True end).

Lemma not_digit_48 : is_digit 10 48 = true.
Proof. reflexivity. Qed.

Lemma strtol_no_number : forall v k, no_number v -> strtol (v ++ 0 :: k) = NoNumber.
Proof.
  intros v k (neg & s & t & SG & -> & ND & F). unfold strtol.
  assert (SK : sign (skip_blanks ((s ++ t) ++ 0 :: k)) = (neg, t ++ 0 :: k)).
  { destruct SG as [[-> ->]|[[-> ->]|[-> ->]]]; [reflexivity|reflexivity|]. specialize (F eq_refl).
    destruct t as [|c t]; [reflexivity|]. destruct F as (N45 & N43 & NB). cbn [app skip_blanks]. rewrite NB. cbn [sign].
    apply N.eqb_neq in N45, N43. now rewrite N45, N43. }
  rewrite SK. assert (R : radix (t ++ 0 :: k) = (10, t ++ 0 :: k)).
  { destruct t as [|c t]; [reflexivity|]. cbn [app radix]. destruct (N.eqb_spec c 48) as [->|]; [discriminate|reflexivity]. }
  rewrite R. destruct t as [|c t]; [reflexivity|]. cbn [app digits]. cbn in ND. rewrite ND. reflexivity.
Qed.

Lemma strncpy22 : forall v, (length v < 22)%nat -> exists k, strncpy v 22 = v ++ 0 :: k.
Proof. intros v L. destruct (strncpy_long_enough v 22 L) as [k ->]. eauto. Qed.

(** C39: a numeric lookup of a key whose value (of at most 21 characters) denotes
    [z] gives [z] when it fits in a long; otherwise the default, reporting failure. *)
Theorem C39_get_long_partial : forall t l key def, says t l ->
  match first_setting l key with
  | None => get_long t key def = Ret 0 def t
  | Some v => (length v < 22)%nat ->
      (forall z, denotes v z -> (LONG_MIN <= z <= LONG_MAX)%Z -> get_long t key def = Ret 1 z t) /\
      (forall z, denotes v z -> ~ (LONG_MIN <= z <= LONG_MAX)%Z -> get_long t key def = Ret 0 def (write_long t key def)) /\
      (no_number v -> get_long t key def = Ret 0 def (write_long t key def))
  end.
Proof.
  intros t l key def SY. unfold get_long. rewrite (says_lookup t l key SY).
  destruct (first_setting l key) as [v|]; [|reflexivity]. intros L. destruct (strncpy22 v L) as [k ->].
  split; [|split].
  - intros z D R. rewrite (strtol_denotes v z k D). unfold ranged.
    assert (E : ((LONG_MIN <=? z) && (z <=? LONG_MAX))%Z = true) by (rewrite andb_true_iff, !Z.leb_le; assumption). now rewrite E.
  - intros z D R. rewrite (strtol_denotes v z k D). unfold ranged.
    assert (E : ((LONG_MIN <=? z) && (z <=? LONG_MAX))%Z = false).
    { apply not_true_is_false. rewrite andb_true_iff, !Z.leb_le. assumption. }
    now rewrite E.
  - intros NN. now rewrite strtol_no_number.
Qed.

(** Every value either denotes a number or does not start like one. *)
Lemma digit_split : forall base t, exists ds rest, t = ds ++ rest /\ all_digits base ds /\ not_digit base rest.
Proof.
  intros base. induction t as [|c t (ds & rest & E & A & N)]; [exists [], []; repeat split; constructor|].
  destruct (is_digit base c) eqn:D.
  - exists (c :: ds), rest. subst. repeat split; [constructor; assumption|assumption].
  - exists [], (c :: t). repeat split; [constructor|assumption].
Qed.

Theorem C39_denotes_or_not : forall v, word v -> (exists z, denotes v z) \/ no_number v.
Proof.
  intros v [NE WV].
  assert (G : forall neg s t, opt_sign neg s -> v = s ++ t ->
    (s = [] -> match t with c :: _ => c <> 45 /\ c <> 43 /\ blank c = false | [] => True end) ->
    (exists z, denotes v z) \/ no_number v).
  { intros neg s t SG E F. destruct t as [|c t].
    - right. exists neg, s, []. repeat split; auto.
    - destruct (is_digit 10 c) eqn:D.
      2:{ right. exists neg, s, (c :: t). repeat split; auto. all: apply F; assumption. }
      left. destruct (N.eq_dec c 48) as [->|N48].
      + assert (H : (exists x d u, t = x :: d :: u /\ (x = 120 \/ x = 88) /\ is_digit 16 d = true) \/ not_hex_prefix t).
        { destruct t as [|x [|d u]]; [right; exact I|right; exact I|].
          destruct (N.eq_dec x 120) as [E1|E1]; [|destruct (N.eq_dec x 88) as [E2|E2]].
          - destruct (is_digit 16 d) eqn:DD; [left; eauto 8|right; cbn; auto].
          - destruct (is_digit 16 d) eqn:DD; [left; eauto 8|right; cbn; auto].
          - right. cbn. intros [|]; congruence. }
        destruct H as [(x & d & u & -> & X & DD)|HP].
        * destruct (digit_split 16 u) as (ds & rest & -> & A & ND). subst v. eexists. econstructor; [exact SG|].
          apply (m_hex x d ds rest X); [constructor; assumption|assumption].
        * destruct (digit_split 8 t) as (ds & rest & -> & A & ND). subst v. eexists. econstructor; [exact SG|].
          apply (m_oct ds rest); assumption.
      + destruct (digit_split 10 t) as (ds & rest & -> & A & ND). subst v. eexists. econstructor; [exact SG|].
        apply (m_dec c ds rest); [constructor; assumption|assumption|assumption]. }
  destruct v as [|c v]; [congruence|]. inversion WV as [|? ? BC WV']; subst.
  destruct (N.eq_dec c 45) as [->|N1]; [apply (G true [45] v); [left; auto|reflexivity|discriminate]|].
  destruct (N.eq_dec c 43) as [->|N2]; [apply (G false [43] v); [right; left; auto|reflexivity|discriminate]|].
  apply (G false [] (c :: v)); [right; right; auto|reflexivity|auto].
Qed.

(** The other numeric lookups return what get_long returned when it is in their
    range, and the default otherwise. *)
Theorem C39_get_int : forall t key def,
  match get_long t key def with
  | Undefined => get_int t key def = Undefined
  | Ret r z t' => (r = 1%Z /\ (- 2147483648 <= z <= 2147483647)%Z /\ get_int t key def = Ret 1 z t') \/
                  (~ (r = 1%Z /\ (- 2147483648 <= z <= 2147483647)%Z) /\ get_int t key def = Ret 0 def t')
  end.
Proof.
  intros t key def. unfold get_int. destruct (get_long t key def) as [r z t'|]; [|reflexivity].
  destruct (Z.eq_dec r 1) as [->|N].
  - destruct ((z <=? INT_MAX) && (INT_MIN <=? z))%Z eqn:E.
    + left. apply andb_true_iff in E. rewrite !Z.leb_le in E. unfold INT_MAX, INT_MIN in E. split; [reflexivity|]. split; [lia|reflexivity].
    + right. split; [|reflexivity]. intros [_ H]. apply not_true_iff_false in E. apply E.
      rewrite andb_true_iff, !Z.leb_le. unfold INT_MAX, INT_MIN. lia.
  - right. split; [tauto|]. destruct r as [|[p|p|]|p]; try reflexivity. congruence.
Qed.

Theorem C39_get_bool : forall t key def,
  match get_long t key def with
  | Undefined => get_bool t key def = Undefined
  | Ret r z t' => (r = 1%Z /\ (z = 0 \/ z = 1)%Z /\ get_bool t key def = Ret 1 z t') \/
                  (~ (r = 1%Z /\ (z = 0 \/ z = 1)%Z) /\ get_bool t key def = Ret 0 def t')
  end.
Proof.
  intros t key def. pose proof (C39_get_int t key def) as GI. unfold get_bool.
  destruct (get_long t key def) as [r z t'|]; [|now rewrite GI].
  destruct GI as [(-> & R & ->)|(NR & ->)].
  - destruct ((z =? 0) || (z =? 1))%Z eqn:E.
    + left. apply orb_true_iff in E. rewrite !Z.eqb_eq in E. auto.
    + right. split; [|reflexivity]. intros [_ H]. apply not_true_iff_false in E. apply E. now rewrite orb_true_iff, !Z.eqb_eq.
  - right. split; [|reflexivity]. intros [-> H]. apply NR. split; [reflexivity|lia].
Qed.

Theorem C39_get_size : forall t key def,
  match get_long t key (to_long def) with
  | Undefined => get_size t key def = Undefined
  | Ret r z t' => (r = 1%Z /\ (0 <= z)%Z /\ get_size t key def = Ret 1 z t') \/
                  (~ (r = 1%Z /\ (0 <= z)%Z) /\ get_size t key def = Ret 0 def t')
  end.
Proof.
  intros t key def. unfold get_size. destruct (get_long t key (to_long def)) as [r z t'|]; [|reflexivity].
  destruct (Z.eq_dec r 1) as [->|N].
  - destruct (Z.leb_spec 0 z); [left; auto|right]. split; [|reflexivity]. intros [_ ?]. lia.
  - right. split; [tauto|]. destruct r as [|[p|p|]|p]; try reflexivity. congruence.
Qed.

(* ------------------------------------------------------------------ *)
(** ** Writing a number and reading it back *)

Lemma value_of_snoc : forall base l d, value_of base (l ++ [d]) = value_of base l * base + d.
Proof. intros. unfold value_of. now rewrite fold_left_app. Qed.

Lemma dig_char : forall r, r < 10 -> is_digit 10 (48 + r) = true /\ dval (48 + r) = r.
Proof.
  intros r L. unfold is_digit, dval, digit.
  assert (E : ((48 <=? 48 + r) && (48 + r <=? 57)) = true) by (rewrite andb_true_iff, !N.leb_le; lia).
  rewrite E. replace (48 + r - 48) with r by lia. split; [now apply N.ltb_lt|reflexivity].
Qed.

Lemma dec_rev_spec : forall f n, n < 10 ^ N.of_nat f -> (0 < f)%nat ->
  value_of 10 (map dval (rev (dec_rev f n))) = n /\ all_digits 10 (rev (dec_rev f n)) /\
  (length (dec_rev f n) <= f)%nat /\
  (n <> 0 -> exists d ds, rev (dec_rev f n) = d :: ds /\ d <> 48).
Proof.
  induction f as [|f IH]; intros n L P; [lia|]. cbn [dec_rev rev].
  pose proof (N.mod_lt n 10 ltac:(lia)) as ML. pose proof (N.div_mod n 10 ltac:(lia)) as DM.
  destruct (dig_char (n mod 10) ML) as [DC DV].
  destruct (N.eqb_spec (n / 10) 0) as [Z|NZ].
  - cbn [rev app map length]. split; [|split; [|split]].
    + unfold value_of. cbn [fold_left]. rewrite DV. lia.
    + constructor; [assumption|constructor].
    + lia.
    + intros NN. exists (48 + n mod 10), []. split; [reflexivity|]. lia.
  - assert (F : (0 < f)%nat).
    { destruct f; [|lia]. exfalso. change (10 ^ N.of_nat 1) with 10 in L. apply NZ. now apply N.div_small. }
    assert (L' : n / 10 < 10 ^ N.of_nat f).
    { apply N.div_lt_upper_bound; [lia|]. rewrite Nat2N.inj_succ, N.pow_succ_r' in L. exact L. }
    destruct (IH (n / 10) L' F) as (V & A & LN & H). split; [|split; [|split]].
    + rewrite map_app. cbn [map]. rewrite value_of_snoc, V, DV. lia.
    + apply Forall_app. split; [assumption|]. constructor; [assumption|constructor].
    + cbn [length]. lia.
    + intros _. destruct (H NZ) as (d & ds & E & N48). rewrite E. exists d, (ds ++ [48 + n mod 10]). split; [reflexivity|assumption].
Qed.

Lemma print_long_ok : forall z, (LONG_MIN <= z <= LONG_MAX)%Z ->
  denotes (print_long z) z /\ word (print_long z) /\ (length (print_long z) < 22)%nat.
Proof.
  intros z R. unfold print_long.
  assert (B : Z.abs_N z < 10 ^ N.of_nat 20).
  { apply N.le_lt_trans with (2 ^ 63); [|reflexivity].
    unfold LONG_MIN, LONG_MAX in R. change (2 ^ 63) with 9223372036854775808. change (2 ^ 63)%Z with 9223372036854775808%Z in R. lia. }
  destruct (dec_rev_spec 20 (Z.abs_N z) B ltac:(lia)) as (V & A & LN & H).
  set (s := if (z <? 0)%Z then [45] else []).
  assert (SG : opt_sign (z <? 0)%Z s).
  { subst s. destruct (z <? 0)%Z; [left; auto|right; right; auto]. }
  assert (LS : (length s <= 1)%nat) by (subst s; destruct (z <? 0)%Z; cbn; lia).
  assert (M : magnitude (rev (dec_rev 20 (Z.abs_N z))) (Z.abs_N z)).
  { destruct (N.eq_dec (Z.abs_N z) 0) as [E|NZ].
    - rewrite E. change (rev (dec_rev 20 0)) with (48 :: [] ++ []).
      apply (m_oct [] []); [constructor|exact I|exact I].
    - destruct (H NZ) as (d & ds & E & N48). rewrite E in *. rewrite <- V. rewrite <- (app_nil_r (d :: ds)) at 1.
      apply (m_dec d ds []); [assumption|assumption|exact I]. }
  split; [|split].
  - pose proof (den _ _ _ _ SG M) as D.
    assert (EZ : (if (z <? 0) then - Z.of_N (Z.abs_N z) else Z.of_N (Z.abs_N z))%Z = z).
    { destruct (Z.ltb_spec z 0); rewrite N2Z.inj_abs_N; lia. }
    rewrite EZ in D. exact D.
  - split.
    + intros E. apply app_eq_nil in E. destruct E as [_ E]. rewrite E in M. inversion M.
    + apply Forall_app. split.
      * subst s. destruct (z <? 0)%Z; repeat constructor.
      * eapply Forall_impl; [|exact A]. intros c D. now apply digit_facts.
  - rewrite app_length, rev_length. lia.
Qed.

(** C39: a number written under a new key reads back as that number. *)
Theorem C39_number_round_trip : forall t l key z def, says t l -> ends_line t -> word key -> (length key <= 127)%nat ->
  first_setting l key = None -> (LONG_MIN <= z <= LONG_MAX)%Z ->
  get_long (write_long t key z) key def = Ret 1 z (write_long t key z).
Proof.
  intros t l key z def SY E WK LK N R. destruct (print_long_ok z R) as (D & W & LP).
  assert (FT : fits (key, print_long z)) by (split; cbn; lia).
  destruct (C39_write_says t l key (print_long z) SY E WK W FT) as [SY2 _].
  pose proof (C39_get_long_partial _ _ key def SY2) as G. rewrite first_setting_app, N in G. cbn in G.
  destruct (list_eq_dec N.eq_dec key key); [|congruence]. apply G; assumption.
Qed.

(* ------------------------------------------------------------------ *)
(** ** Where the full statement fails *)

Fixpoint str (s : string) : text :=
  match s with EmptyString => [] | String c s' => N_of_ascii c :: str s' end.

(** A text whose last line is not ended (as an environment variable usually is):
    writing a new key changes the value of the last one and the new key is not
    readable. *)
Theorem C39_unfinished_line_refuted :
  let t := str "shm_size 4096 shm_file vdf" in
  lookup t (str "shm_file") = Some (str "vdf") /\
  lookup (write_str t (str "key") (str "1")) (str "shm_file") = Some (str "vdfkey") /\
  lookup (write_str t (str "key") (str "1")) (str "key") = None.
Proof. vm_compute. repeat split. Qed.

(** "The first line with that key": a line holding a key alone shifts the pairing
    of everything after it. *)
Theorem C39_key_without_value_refuted :
  lookup (str "shm_ivshmem" ++ [10] ++ str "shm_file vdf" ++ [10]) (str "shm_file") = None.
Proof. vm_compute. reflexivity. Qed.

(** A key of 128 characters cannot be read back, and hides the next setting. *)
Theorem C39_long_key_refuted :
  let k := repeat 97 128 in let t := write_str (write_str [] k (str "1")) (str "b") (str "2") in
  lookup t k = None /\ lookup t (str "b") = None.
Proof. vm_compute. split; reflexivity. Qed.

(** A number written with 22 or more digits (leading zeros count) makes the lookup
    read outside the array it was copied to. *)
Lemma strncpy_full : forall v n, (n <= length v)%nat -> strncpy v n = firstn n v.
Proof. intros v n L. unfold strncpy. replace (n - length v)%nat with O by lia. apply app_nil_r. Qed.
Lemma digits_all : forall base ds, all_digits base ds -> digits base ds = None.
Proof.
  intros base. induction ds as [|c ds IH]; intros A; cbn [digits]; [reflexivity|]. inversion A; subst. now rewrite H1, IH.
Qed.

Theorem C39_long_number_refuted : forall t l key v def, says t l -> first_setting l key = Some v ->
  (22 <= length v)%nat -> all_digits 8 v -> get_long t key def = Undefined.
Proof.
  intros t l key v def SY F L A. unfold get_long. rewrite (says_lookup t l key SY), F.
  rewrite strncpy_full by assumption.
  assert (A2 : all_digits 8 (firstn 22 v)).
  { apply Forall_forall. intros c I. unfold all_digits in A. rewrite Forall_forall in A. apply A.
    rewrite <- (firstn_skipn 22 v). apply in_or_app. now left. }
  assert (A10 : all_digits 10 (firstn 22 v)).
  { eapply Forall_impl; [|exact A2]. intros c. unfold is_digit. destruct (digit c) as [d|]; [|discriminate].
    rewrite !N.ltb_lt. lia. }
  assert (LN : length (firstn 22 v) = 22%nat) by (rewrite firstn_length; lia).
  set (a := firstn 22 v) in *. clearbody a. unfold strtol.
  destruct a as [|c a]; [discriminate|]. inversion A10 as [|? ? D10 _]; subst. destruct (digit_facts c D10) as (N45 & N43 & NB).
  cbn [skip_blanks]. rewrite NB. cbn [sign]. apply N.eqb_neq in N45, N43. rewrite N45, N43.
  cbn [radix]. destruct (N.eqb_spec c 48) as [->|N48].
  - destruct a as [|x [|d u]]; try discriminate. inversion A2 as [|? ? _ A3]; subst. inversion A3 as [|? ? X A4]; subst.
    assert (NX : ((x =? 120) || (x =? 88)) = false).
    { apply orb_false_iff. split; apply N.eqb_neq; intros ->; discriminate. }
    rewrite NX. cbn [andb]. now rewrite digits_all.
  - now rewrite digits_all.
Qed.

(** "Parses": a value that merely starts with a number is accepted as that number. *)
Theorem C39_trailing_characters_accepted :
  get_long (str "shm_size 64G" ++ [10]) (str "shm_size") 7 = Ret 1 64 (str "shm_size 64G" ++ [10]).
Proof. vm_compute. reflexivity. Qed.

(** A value that is no number is never replaced: each lookup appends the default
    once more, and still returns failure. *)
Theorem C39_bad_value_stays : forall t l key v def, says t l -> ends_line t -> word key ->
  first_setting l key = Some v -> (length v < 22)%nat -> (length key <= 127)%nat -> no_number v ->
  (LONG_MIN <= def <= LONG_MAX)%Z ->
  exists t', get_long t key def = Ret 0 def t' /\ lookup t' key = Some v /\ (length t < length t')%nat /\
    says t' (l ++ [(key, print_long def)]).
Proof.
  intros t l key v def SY E WK F L LK NN R. destruct (print_long_ok def R) as (_ & W & LP).
  assert (FT : fits (key, print_long def)) by (split; cbn; lia).
  exists (write_long t key def). split; [|split; [|split]].
  - pose proof (C39_get_long_partial t l key def SY) as G. rewrite F in G. now apply G.
  - destruct (C39_write_partial t l key (print_long def) SY E WK W FT) as (_ & _ & H). apply H.
    now rewrite (says_lookup t l key SY).
  - unfold write_long, write_str. rewrite !app_length. cbn [length]. lia.
  - now apply C39_write_says.
Qed.

(* ------------------------------------------------------------------ *)
(** ** The hypotheses are met *)

Definition ex_settings : list (text * text) :=
  [(str "shm_file", str "vdf"); (str "shm_size", str "0x1000"); (str "off", str "-010"); (str "shm_file", str "other"); (str "t", str "yes")].
Definition ex_text : text :=
  str "shm_file vdf" ++ [10; 10] ++ str "  shm_size    0x1000" ++ [10] ++ str "off -010" ++ [10] ++ str "shm_file other t yes" ++ [10].

Lemma ex_says : says ex_text ex_settings /\ ends_line ex_text.
Proof.
  split; [split|].
  - change (words_of ex_settings) with
      [str "shm_file"; str "vdf"; str "shm_size"; str "0x1000"; str "off"; str "-010"; str "shm_file"; str "other"; str "t"; str "yes"].
    assert (W : forall b w t ws, forallb blank b = true -> negb (Nat.eqb (length w) 0) = true -> forallb (fun c => negb (blank c)) w = true ->
       match t with [] => true | c :: _ => blank c end = true -> spaced t ws -> spaced (b ++ w ++ t) (w :: ws)).
    { intros b w t ws B NW FW ST S. constructor; auto.
      - apply Forall_forall. now apply forallb_forall.
      - split; [intros ->; discriminate|]. apply Forall_forall. intros c I. rewrite forallb_forall in FW. apply negb_true_iff. auto.
      - destruct t; [exact I|assumption]. }
    apply (W [] (str "shm_file") (skipn 8 ex_text)); try reflexivity.
    apply (W [32] (str "vdf") (skipn 12 ex_text)); try reflexivity.
    apply (W [10; 10; 32; 32] (str "shm_size") (skipn 24 ex_text)); try reflexivity.
    apply (W [32; 32; 32; 32] (str "0x1000") (skipn 34 ex_text)); try reflexivity.
    apply (W [10] (str "off") (skipn 38 ex_text)); try reflexivity.
    apply (W [32] (str "-010") (skipn 43 ex_text)); try reflexivity.
    apply (W [10] (str "shm_file") (skipn 52 ex_text)); try reflexivity.
    apply (W [32] (str "other") (skipn 58 ex_text)); try reflexivity.
    apply (W [32] (str "t") (skipn 60 ex_text)); try reflexivity.
    apply (W [32] (str "yes") (skipn 64 ex_text)); try reflexivity.
    constructor. repeat constructor.
  - apply Forall_forall. intros kv I. assert (H : forallb (fun kv => (length (fst kv) <=? 127)%nat && (length (snd kv) <=? 895)%nat) ex_settings = true) by reflexivity.
    rewrite forallb_forall in H. specialize (H kv I). apply andb_true_iff in H. rewrite !Nat.leb_le in H. exact H.
  - right. exists (firstn 64 ex_text), 10. split; reflexivity.
Qed.

Example C39_example :
  lookup ex_text (str "shm_file") = Some (str "vdf") /\
  get_size ex_text (str "shm_size") 5 = Ret 1 4096 ex_text /\
  get_int ex_text (str "off") 5 = Ret 1 (-8) ex_text /\
  get_bool ex_text (str "off") 1 = Ret 0 1 ex_text /\
  get_long ex_text (str "t") 5 = Ret 0 5 (ex_text ++ str "t 5" ++ [10]) /\
  get_long ex_text (str "none") 5 = Ret 0 5 ex_text.
Proof. vm_compute. repeat split. Qed.

Example C39_denotes_example : denotes (str "0x1000") 4096 /\ denotes (str "-010") (-8) /\ no_number (str "yes").
Proof.
  split; [|split].
  - apply (den false [] (str "0x1000") 4096); [right; right; auto|].
    apply (m_hex 120 49 (str "000") []); [auto|repeat constructor|exact I].
  - apply (den true [45] (str "010") 8); [left; auto|]. apply (m_oct (str "10") []); [repeat constructor|exact I|].
    cbn. intros [|]; discriminate.
  - exists false, [], (str "yes"). split; [right; right; auto|]. split; [reflexivity|]. split; [reflexivity|].
    intros _. repeat split; discriminate.
Qed.
