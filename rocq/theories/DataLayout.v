(** Memory layout of buffers and tasks: properties C25, C26 and C28.

    Code modelled
    - [src/core/arax_data.h] ARAX_BUFF_ALLOC_SIZE
    - [src/core/arax_data.c:21-50]   arax_data_init_aligned
    - [src/core/arax_data.c:260-323] arax_data_deref, arax_data_ref, arax_data_ref_offset
    - [src/core/arax_data.c:373-403] arax_data dtor (only: obj->type = ARAX_TYPE_COUNT)
    - [src/core/arax_ptr.c:4-18]     arax_ptr_valid
    - [src/core/arax_task.c:7-49]    arax_task_alloc (layout, io table)
    - [src/core/arax_task.c:51-62]   arax_task_host_data
    - [src/arch/shm/impl.c:482-483]  arax_task_issue (copy of the argument bytes)

    Addresses and sizes are 64-bit; arithmetic is modulo 2^64 as in the code.
    Memory is a map from addresses to bytes; numbers are little endian. *)
From Coq Require Import List NArith Lia Bool.
Import ListNotations.
Local Open Scope N_scope.

Arguments N.add : simpl never.
Arguments N.mul : simpl never.
Arguments N.sub : simpl never.
Arguments N.modulo : simpl never.
Arguments N.div : simpl never.
Arguments N.pow : simpl never.
Arguments N.eqb : simpl never.
Arguments N.ltb : simpl never.
Arguments N.leb : simpl never.

(** size_t and pointers of src/core/arax_data.c:21-50. *)
Definition W64 : N := 18446744073709551616.
Lemma W64_eq : W64 = 2 ^ 64. Proof. reflexivity. Qed.
(** size_t arithmetic of src/core/arax_data.c:21-50. *)
Definition w64 (x : N) : N := x mod W64.
Lemma w64_small : forall x, x < W64 -> w64 x = x.
Proof. intros. unfold w64. now apply N.mod_small. Qed.

(* ------------------------------------------------------------------ *)
(** ** Byte memory *)

(** The shared segment, byte by byte.  No code of its own. *)
Definition mem := N -> N.
(** A byte store in C, no code of its own. *)
Definition wr8 (m : mem) (a v : N) : mem := fun x => if x =? a then v else m x.
(** memcpy, as in src/arch/shm/impl.c:482-483. *)
Fixpoint wr (m : mem) (a : N) (l : list N) : mem :=
  match l with [] => m | b :: l' => wr (wr8 m a b) (a + 1) l' end.
(** memcpy, as in src/arch/shm/impl.c:482-483. *)
Fixpoint rd (m : mem) (a : N) (n : nat) : list N :=
  match n with O => [] | S k => m a :: rd m (a + 1) k end.
(** Little-endian encoding of a number in [n] bytes. *)
(** How x86 stores a number, no code of its own. *)
Fixpoint enc (n : nat) (v : N) : list N :=
  match n with O => [] | S k => v mod 256 :: enc k (v / 256) end.
(** How x86 loads a number, no code of its own. *)
Fixpoint dec (l : list N) : N :=
  match l with [] => 0 | b :: l' => b + 256 * dec l' end.

(** A pointer load, src/core/arax_data.c:274-323. *)
Definition load64 (m : mem) (a : N) : N := dec (rd m a 8).
(** A pointer store, src/core/arax_data.c:45-47. *)
Definition store64 (m : mem) (a v : N) : mem := wr m a (enc 8 v).
(** Load of obj.type, src/core/arax_data.c:274-323. *)
Definition load32 (m : mem) (a : N) : N := dec (rd m a 4).
(** Store of obj.type, src/core/arax_object.c:98-126. *)
Definition store32 (m : mem) (a v : N) : mem := wr m a (enc 4 v).

Lemma enc_length : forall n v, length (enc n v) = n.
Proof. induction n; cbn; intros; [reflexivity|]. now rewrite IHn. Qed.

Lemma dec_enc : forall n v, v < 256 ^ N.of_nat n -> dec (enc n v) = v.
Proof.
  induction n; intros v H; cbn [enc dec].
  - cbn in H. lia.
  - rewrite IHn.
    + rewrite N.add_comm. symmetry. apply N.div_mod. discriminate.
    + apply N.div_lt_upper_bound; [discriminate|]. rewrite Nat2N.inj_succ, N.pow_succ_r' in H. exact H.
Qed.

Lemma wr_out : forall l m a x, (x < a \/ a + N.of_nat (length l) <= x) -> wr m a l x = m x.
Proof.
  induction l as [|b l IH]; intros m a x H; [reflexivity|]. cbn [wr]. cbn [length] in H.
  rewrite IH by lia. unfold wr8. destruct (N.eqb_spec x a); [|reflexivity]. lia.
Qed.

Lemma rd_ext : forall n m m' a, (forall x, a <= x < a + N.of_nat n -> m x = m' x) -> rd m a n = rd m' a n.
Proof.
  induction n; intros m m' a H; [reflexivity|]. cbn [rd]. f_equal.
  - apply H. lia.
  - apply IHn. intros x Hx. apply H. lia.
Qed.

Lemma rd_wr_same : forall l m a, rd (wr m a l) a (length l) = l.
Proof.
  induction l as [|b l IH]; intros m a; [reflexivity|]. cbn [wr length rd]. f_equal.
  - rewrite wr_out by lia. unfold wr8. now rewrite N.eqb_refl.
  - apply IH.
Qed.

Lemma rd_wr_out : forall l m a x n, (x + N.of_nat n <= a \/ a + N.of_nat (length l) <= x) ->
  rd (wr m a l) x n = rd m x n.
Proof. intros. apply rd_ext. intros y Hy. apply wr_out. lia. Qed.

Lemma load64_same : forall m a v, v < W64 -> load64 (store64 m a v) a = v.
Proof.
  intros m a v H. unfold load64, store64. replace 8%nat with (length (enc 8 v)) at 1 by apply enc_length.
  rewrite rd_wr_same. apply dec_enc. exact H.
Qed.
Lemma load32_same : forall m a v, v < 4294967296 -> load32 (store32 m a v) a = v.
Proof.
  intros m a v H. unfold load32, store32. replace 4%nat with (length (enc 4 v)) at 1 by apply enc_length.
  rewrite rd_wr_same. apply dec_enc. exact H.
Qed.

Section Layout.
(** [H]: sizeof(arax_data_s); [TOFF]: offset of obj.type inside it (an enum, 4
    bytes).  120 and 40 in the default x86-64 build. *)
Variables H TOFF : N.
Hypothesis TOFF_in_H : TOFF + 4 <= H.

(** ARAX_TYPE_DATA and ARAX_TYPE_COUNT, [arax_object.h]. *)
(** src/core/arax_object.h:19. *)
Definition TYPE_DATA : N := 3.
(** src/core/arax_object.h:21. *)
Definition TYPE_COUNT : N := 5.

(* ------------------------------------------------------------------ *)
(** ** C25: buffer layout *)

(** sizeof(arax_data_s) + ARAX_BUFF_ALLOC_SIZE(size, align), [arax_data.c:24]. *)
Definition alloc_size (size align : N) : N := w64 (H + w64 (w64 (size + align) + 8)).

(** [arax_data.c:36-39]: skip the struct, skip a back pointer, align upwards. *)
Definition buff_ptr (a align : N) : N :=
  let p := w64 (w64 (a + H) + 8) in w64 (w64 (p + align) + (W64 - p mod align)).

(** Address of the back pointer, [arax_data.c:40], and of VD_BUFF_OWNER. *)
Definition owner_slot (p : N) : N := w64 (p + (W64 - 8)).

(** The memory effects of arax_data_init_aligned on an object at [a]: type field
    (by arax_object_register) and back pointer.  [None]: the assertion on
    [align]. *)
(** src/core/arax_data.c:21-50. *)
Definition init_aligned (m : mem) (a size align : N) : option (mem * N) :=
  if align =? 0 then None
  else let p := buff_ptr a align in
       Some (store64 (store32 m (a + TOFF) TYPE_DATA) (owner_slot p) a, p).

(** VD_BUFF_OWNER, [arax_data.c:14]. *)
Definition owner_of (m : mem) (p : N) : N := load64 m (owner_slot p).

Lemma buff_ptr_ok : forall a size align, align <> 0 -> H + size + align + 8 < W64 ->
  a + (H + size + align + 8) < W64 ->
  alloc_size size align = H + size + align + 8 /\
  a + H + 8 < buff_ptr a align <= a + H + 8 + align /\
  buff_ptr a align mod align = 0 /\
  owner_slot (buff_ptr a align) = buff_ptr a align - 8.
Proof using.
  clear TOFF_in_H. intros a size align A O P.
  assert (E : alloc_size size align = H + size + align + 8).
  { unfold alloc_size. rewrite (w64_small (size + align)) by lia. rewrite (w64_small (size + align + 8)) by lia.
    rewrite w64_small by lia. lia. }
  assert (B : buff_ptr a align = a + H + 8 + align - (a + H + 8) mod align).
  { unfold buff_ptr. rewrite (w64_small (a + H)) by lia. rewrite (w64_small (a + H + 8)) by lia. cbv zeta.
    rewrite (w64_small (a + H + 8 + align)) by lia.
    pose proof (N.mod_lt (a + H + 8) align A) as LT.
    set (r := (a + H + 8) mod align) in *. clearbody r.
    unfold w64. replace (a + H + 8 + align + (W64 - r)) with (a + H + 8 + align - r + 1 * W64) by (unfold W64 in *; lia).
    rewrite N.mod_add by (unfold W64; lia). apply N.mod_small. lia. }
  pose proof (N.mod_lt (a + H + 8) align A) as LT.
  split; [exact E|]. split.
  { rewrite B. set (r := (a + H + 8) mod align) in *. clearbody r. lia. }
  split.
  - rewrite B. pose proof (N.div_mod (a + H + 8) align A) as DM.
    set (q := (a + H + 8) / align) in *. set (r := (a + H + 8) mod align) in *. clearbody q r.
    replace (a + H + 8 + align - r) with ((q + 1) * align) by nia.
    now apply N.mod_mul.
  - unfold owner_slot. rewrite B. set (r := (a + H + 8) mod align) in *. clearbody r. unfold w64.
    replace (a + H + 8 + align - r + (W64 - 8)) with (a + H + 8 + align - r - 8 + 1 * W64) by (unfold W64 in *; lia).
    rewrite N.mod_add by (unfold W64; lia). apply N.mod_small. lia.
Qed.

(** C25 for every size and alignment whose sum does not overflow [size_t], and
    every address the allocator may choose: the data area [p, p+size) is aligned,
    starts after the header and the back pointer, ends inside the memory that was
    asked for; the back pointer lies between header and data area and leads from
    the data address to the buffer. *)
Theorem C25_layout_partial : forall m a size align, align <> 0 ->
  H + size + align + 8 < W64 -> a + (H + size + align + 8) < W64 ->
  exists m' p, init_aligned m a size align = Some (m', p) /\
  p mod align = 0 /\
  a + H <= owner_slot p /\ owner_slot p + 8 = p /\ p + size <= a + alloc_size size align /\
  owner_of m' p = a.
Proof using TOFF_in_H.
  intros m a size align A O P. destruct (buff_ptr_ok a size align A O P) as (E & B & AL & S).
  unfold init_aligned. apply N.eqb_neq in A as A'. rewrite A'. do 2 eexists. split; [reflexivity|].
  split; [exact AL|]. rewrite S, E. split; [lia|]. split; [lia|]. split; [lia|].
  unfold owner_of. rewrite S. apply load64_same. lia.
Qed.

(** Writing the back pointer leaves the header alone, and a write anywhere in the
    data area leaves header and back pointer alone. *)
Theorem C25_user_writes_keep_owner_partial : forall m a size align, align <> 0 ->
  H + size + align + 8 < W64 -> a + (H + size + align + 8) < W64 ->
  forall m' p, init_aligned m a size align = Some (m', p) ->
  load32 m' (a + TOFF) = TYPE_DATA /\
  forall off bytes, off + N.of_nat (length bytes) <= size ->
    owner_of (wr m' (p + off) bytes) p = a /\ load32 (wr m' (p + off) bytes) (a + TOFF) = TYPE_DATA.
Proof using TOFF_in_H.
  intros m a size align A O P m' p E. destruct (buff_ptr_ok a size align A O P) as (ES & B & AL & S).
  unfold init_aligned in E. apply N.eqb_neq in A as A'. rewrite A' in E. injection E as <- <-.
  assert (T : load32 (store64 (store32 m (a + TOFF) TYPE_DATA) (owner_slot (buff_ptr a align)) a) (a + TOFF) = TYPE_DATA).
  { unfold load32, store64. rewrite rd_wr_out.
    - fold (load32 (store32 m (a + TOFF) TYPE_DATA) (a + TOFF)). now apply load32_same.
    - rewrite enc_length, S. left. cbn. lia. }
  split; [exact T|]. intros off bytes L. split.
  - unfold owner_of, load64. rewrite rd_wr_out.
    + fold (load64 (store64 (store32 m (a + TOFF) TYPE_DATA) (owner_slot (buff_ptr a align)) a) (owner_slot (buff_ptr a align))).
      apply load64_same. lia.
    + rewrite S. left. cbn. lia.
  - unfold load32. rewrite rd_wr_out; [exact T|]. left. cbn. lia.
Qed.

(** Alignment zero is refused (assertion). *)
Theorem C25_zero_alignment_refused : forall m a size, init_aligned m a size 0 = None.
Proof using. reflexivity. Qed.
End Layout.

(** C25 without the overflow condition is refuted: asking for 2^64-64 bytes makes
    the allocation size wrap to 65 bytes - less than the header alone - and the
    call succeeds. *)
Theorem C25_overflow_refuted : exists size align, align <> 0 /\ size < W64 /\
  alloc_size 120 size align = 65 /\
  (forall m a, exists m' p, init_aligned 120 40 m a size align = Some (m', p)).
Proof.
  exists (W64 - 64), 1. split; [discriminate|]. split; [reflexivity|]. split; [reflexivity|].
  intros m a. unfold init_aligned. cbn. do 2 eexists. reflexivity.
Qed.

(** A concrete buffer: 100 bytes aligned to 64, object at 4096. *)
Example C25_example : exists m' p, init_aligned 120 40 (fun _ => 0) 4096 100 64 = Some (m', p) /\
  p = 4288 /\ p mod 64 = 0 /\ owner_of m' p = 4096 /\ alloc_size 120 100 64 = 292.
Proof. do 2 eexists. split; [reflexivity|]. repeat split. Qed.

(* ------------------------------------------------------------------ *)
(** ** C26: from an address to its buffer *)

(** A live buffer: object address, size, alignment. *)
(** src/core/arax_data.h:36-51. *)
Record buf := mkbuf { b_obj : N; b_size : N; b_align : N }.

Section Lookup.
Variables H TOFF : N.
Hypothesis TOFF_in_H : TOFF + 4 <= H.
(** The shared segment: base and length (pipe, pipe->shm_size). *)
Variables SB SL : N.
Hypothesis SB_pos : 0 < SB.
Hypothesis S_fits : SB + SL < W64.

(** src/core/arax_data.h:16 and arax_data.c:21-50. *)
Definition b_end (b : buf) : N := b_obj b + (H + b_size b + b_align b + 8).
(** The data area. *)
(** src/core/arax_data.c:21-50 and 260-272. *)
Definition b_start (b : buf) : N := buff_ptr H (b_obj b) (b_align b).
Definition in_data (b : buf) (x : N) : Prop := b_start b <= x < b_start b + b_size b.

(** The segment and its live buffers, no code of its own. *)
Record st := mkst { m_ : mem; live : list buf }.

(** [arax_ptr.c:4-18] *)
Definition ptr_valid (x : N) : bool := (SB <=? x) && (x <? SB + SL).

(** How src/core/arax_data.c:274-323 ends. *)
Inductive res := Abort | Fault | Found (o : option N).

(** The list walk of [arax_data.c:306-318]. *)
Fixpoint scan (l : list buf) (x : N) : option N :=
  match l with
  | [] => None
  | b :: l' => if (b_start b <? x) && (x <? b_start b + b_size b) then Some (b_obj b) else scan l' x
  end.

(** arax_data_ref_offset (with arax_data_ref inlined), [arax_data.c:274-323].
    [Fault]: a read outside the mapped segment. *)
Definition lookup (s : st) (x : N) : res :=
  if x =? 0 then Abort
  else if negb (ptr_valid x) then Abort
  else if x - 8 <? SB then Fault
  else
    let v := load64 (m_ s) (x - 8) in
    if (v =? 0) || negb (ptr_valid v) then Found (scan (live s) x)
    else if SB + SL <? v + TOFF + 4 then Fault
    else if load32 (m_ s) (v + TOFF) =? TYPE_DATA then Found (Some v)
    else Found (scan (live s) x).

(** What can happen to the memory. *)
(** src/core/arax_data.c:21-50, 325-332, and any other store. *)
Inductive op :=
| Create (b : buf)             (* arax_data_init_aligned got memory at b_obj b *)
| UserWrite (x v : N)          (* a byte written inside some live data area *)
| OtherWrite (x v : N)         (* a byte written outside all live buffers' memory *)
| Destroy (b : buf).           (* last reference dropped: dtor, memory released *)

Definition in_mem (b : buf) (x : N) : Prop := b_obj b <= x < b_end b.
Definition disjoint (b c : buf) : Prop := b_end b <= b_obj c \/ b_end c <= b_obj b.

(** src/core/arax_data.c:21-50, 372-405, and any other store. *)
Inductive step : st -> op -> st -> Prop :=
| s_create : forall s b m' p,
    b_align b <> 0 -> SB <= b_obj b -> b_end b <= SB + SL ->
    (forall c, In c (live s) -> disjoint b c) ->
    init_aligned H TOFF (m_ s) (b_obj b) (b_size b) (b_align b) = Some (m', p) ->
    step s (Create b) (mkst m' (b :: live s))
| s_user : forall s b x v, In b (live s) -> in_data b x -> v < 256 ->
    step s (UserWrite x v) (mkst (wr8 (m_ s) x v) (live s))
| s_other : forall s x v, (forall b, In b (live s) -> ~ in_mem b x) -> v < 256 ->
    step s (OtherWrite x v) (mkst (wr8 (m_ s) x v) (live s))
| s_destroy : forall s b l1 l2, live s = l1 ++ b :: l2 ->
    step s (Destroy b) (mkst (store32 (m_ s) (b_obj b + TOFF) TYPE_COUNT) (l1 ++ l2)).

Inductive reach : st -> Prop :=
| r_init : forall m, reach (mkst m [])
| r_step : forall s o s', reach s -> step s o s' -> reach s'.

(** The 8 bytes before [x] happen to be the address of something in the segment
    whose type field reads 'data'. *)
Definition decoy (s : st) (x : N) : Prop :=
  let v := load64 (m_ s) (x - 8) in
  v <> 0 /\ SB <= v < SB + SL /\ load32 (m_ s) (v + TOFF) = TYPE_DATA.

Definition b_ok (s : st) (b : buf) : Prop :=
  b_align b <> 0 /\ SB <= b_obj b /\ b_end b <= SB + SL /\
  load32 (m_ s) (b_obj b + TOFF) = TYPE_DATA /\ load64 (m_ s) (b_start b - 8) = b_obj b.

Fixpoint pw (l : list buf) : Prop :=
  match l with [] => True | b :: l' => (forall c, In c l' -> disjoint b c) /\ pw l' end.

Lemma pw_in : forall l b c, pw l -> In b l -> In c l -> b = c \/ disjoint b c.
Proof using TOFF_in_H SB_pos S_fits.
  induction l as [|a l IH]; intros b c P Hb Hc; [destruct Hb|]. destruct P as [P1 P2].
  destruct Hb as [<-|Hb], Hc as [<-|Hc]; auto.
  right. destruct (P1 b Hb) as [D|D]; [right|left]; exact D.
Qed.
Lemma pw_remove : forall l1 b l2, pw (l1 ++ b :: l2) -> pw (l1 ++ l2) /\ forall c, In c (l1 ++ l2) -> disjoint b c.
Proof using TOFF_in_H SB_pos S_fits.
  induction l1 as [|a l1 IH]; intros b l2 P; cbn in *.
  - destruct P; auto.
  - destruct P as [P1 P2]. destruct (IH b l2 P2) as [I1 I2]. split; [split; [|exact I1]|].
    + intros c Hc. apply P1. apply in_or_app. apply in_app_or in Hc. cbn. tauto.
    + intros c [<-|Hc]; [|now apply I2].
      destruct (P1 b) as [D|D]; [apply in_or_app; cbn; tauto|right; exact D|left; exact D].
Qed.

Lemma b_geom : forall b, b_align b <> 0 -> SB <= b_obj b -> b_end b <= SB + SL ->
  b_obj b + H + 8 < b_start b /\ b_start b + b_size b <= b_end b /\ owner_slot (b_start b) = b_start b - 8 /\
  b_end b < W64.
Proof using TOFF_in_H SB_pos S_fits.
  intros b A L R. unfold b_end in *.
  destruct (buff_ptr_ok H (b_obj b) (b_size b) (b_align b) A ltac:(lia) ltac:(lia)) as (_ & B & _ & S).
  unfold b_start. split; [lia|]. split; [lia|]. split; [exact S|lia].
Qed.

Lemma wr8_rd : forall m x v a n, (x < a \/ a + N.of_nat n <= x) -> rd (wr8 m x v) a n = rd m a n.
Proof using TOFF_in_H SB_pos S_fits.
  intros m x v a n D. apply rd_ext. intros y Hy. unfold wr8. destruct (N.eqb_spec y x); [lia|reflexivity].
Qed.

Lemma reach_inv : forall s, reach s -> pw (live s) /\ forall b, In b (live s) -> b_ok s b.
Proof using TOFF_in_H SB_pos S_fits.
  induction 1 as [m|s o s' R (PW & OK) ST]; [split; [exact I|intros b []]|].
  destruct ST as [s b m' p A L E D INI|s b x v B X V|s x v X V|s b l1 l2 E].
  - cbn [live m_]. split; [split; assumption|].
    destruct (b_geom b A L E) as (G1 & G2 & G3 & G4).
    assert (INI' := INI). unfold init_aligned in INI. apply N.eqb_neq in A as A'. rewrite A' in INI. injection INI as <- <-.
    fold (b_start b) in *.
    intros c [<-|Hc].
    + unfold b_ok. cbn [m_]. repeat split; auto.
      * unfold load32, store64. rewrite rd_wr_out.
        -- fold (load32 (store32 (m_ s) (b_obj b + TOFF) TYPE_DATA) (b_obj b + TOFF)). now apply load32_same.
        -- rewrite enc_length, G3. left. cbn. unfold b_end in *. lia.
      * rewrite G3. apply load64_same. unfold b_end in *. lia.
    + destruct (OK c Hc) as (A1 & L1 & E1 & T1 & O1). destruct (b_geom c A1 L1 E1) as (K1 & K2 & K3 & K4).
      unfold b_ok. cbn [m_]. repeat split; auto.
      * unfold load32, store64, store32. rewrite !rd_wr_out; [exact T1| |]; rewrite enc_length, ?G3; cbn;
        destruct (D c Hc) as [Q|Q]; unfold b_end in *; lia.
      * unfold load64, store64, store32. rewrite !rd_wr_out; [exact O1| |]; rewrite enc_length, ?G3; cbn;
        destruct (D c Hc) as [Q|Q]; unfold b_end in *; lia.
  - cbn [live m_]. split; [assumption|]. intros c Hc. destruct (OK c Hc) as (A1 & L1 & E1 & T1 & O1).
    destruct (b_geom c A1 L1 E1) as (K1 & K2 & K3 & K4).
    destruct (OK b B) as (A2 & L2 & E2 & _ & _). destruct (b_geom b A2 L2 E2) as (Q1 & Q2 & Q3 & Q4).
    unfold in_data in X. destruct (pw_in _ b c PW B Hc) as [<-|D].
    + unfold b_ok. cbn [m_]. repeat split; auto; unfold load32, load64; rewrite wr8_rd; auto; cbn; unfold b_end in *; lia.
    + unfold b_ok. cbn [m_]. repeat split; auto; unfold load32, load64; rewrite wr8_rd; auto; cbn;
      unfold disjoint, b_end in *; lia.
  - cbn [live m_]. split; [assumption|]. intros c Hc. destruct (OK c Hc) as (A1 & L1 & E1 & T1 & O1).
    destruct (b_geom c A1 L1 E1) as (K1 & K2 & K3 & K4). specialize (X c Hc). unfold in_mem in X.
    unfold b_ok. cbn [m_]. repeat split; auto; unfold load32, load64; rewrite wr8_rd; auto; cbn; unfold b_end in *; lia.
  - cbn [live m_]. rewrite E in PW, OK. destruct (pw_remove _ _ _ PW) as (PW' & D). split; [assumption|].
    intros c Hc. assert (Hc' : In c (l1 ++ b :: l2)) by (apply in_or_app; apply in_app_or in Hc; cbn; tauto).
    destruct (OK c Hc') as (A1 & L1 & E1 & T1 & O1). destruct (b_geom c A1 L1 E1) as (K1 & K2 & K3 & K4).
    destruct (OK b) as (A2 & L2 & E2 & _ & _); [apply in_or_app; cbn; tauto|].
    specialize (D c Hc). unfold b_ok. cbn [m_]. repeat split; auto; unfold load32, load64, store32; rewrite rd_wr_out; auto;
    rewrite enc_length; cbn; unfold disjoint, b_end in *; lia.
Qed.

Lemma scan_owner : forall l b x, pw l -> (forall c, In c l -> b_align c <> 0 /\ SB <= b_obj c /\ b_end c <= SB + SL) ->
  In b l -> b_start b < x < b_start b + b_size b -> scan l x = Some (b_obj b).
Proof using TOFF_in_H SB_pos S_fits.
  induction l as [|c l IH]; intros b x P G Hb X; [destruct Hb|]. cbn [scan].
  destruct Hb as [->|Hb].
  - replace (b_start b <? x) with true by (symmetry; apply N.ltb_lt; lia).
    replace (x <? b_start b + b_size b) with true by (symmetry; apply N.ltb_lt; lia). reflexivity.
  - destruct P as [P1 P2]. destruct ((b_start c <? x) && (x <? b_start c + b_size c)) eqn:E.
    + exfalso. apply andb_true_iff in E. destruct E as [E1 E2]. apply N.ltb_lt in E1, E2.
      destruct (G c (or_introl eq_refl)) as (A1 & L1 & R1). destruct (b_geom c A1 L1 R1) as (K1 & K2 & _).
      destruct (G b (or_intror Hb)) as (A2 & L2 & R2). destruct (b_geom b A2 L2 R2) as (Q1 & Q2 & _).
      destruct (P1 b Hb) as [D|D]; unfold b_end in *; lia.
    + apply IH; auto. intros d Hd. apply G. now right.
Qed.

Lemma scan_none : forall l x, (forall b, In b l -> ~ in_data b x) -> scan l x = None.
Proof using TOFF_in_H SB_pos S_fits.
  induction l as [|c l IH]; intros x D; [reflexivity|]. cbn [scan].
  destruct ((b_start c <? x) && (x <? b_start c + b_size c)) eqn:E.
  - exfalso. apply andb_true_iff in E. destruct E as [E1 E2]. apply N.ltb_lt in E1, E2.
    apply (D c (or_introl eq_refl)). unfold in_data. lia.
  - apply IH. intros b Hb. apply D. now right.
Qed.

Lemma valid_in : forall y, SB <= y < SB + SL -> ptr_valid y = true.
Proof using TOFF_in_H SB_pos S_fits. intros y Y. unfold ptr_valid. apply andb_true_iff. split; [apply N.leb_le|apply N.ltb_lt]; lia. Qed.

(** The first address of a live non-empty buffer's data area always resolves to
    that buffer, whatever was written anywhere. *)
Theorem C26_start : forall s b, reach s -> In b (live s) -> 0 < b_size b ->
  lookup s (b_start b) = Found (Some (b_obj b)).
Proof using TOFF_in_H SB_pos S_fits.
  intros s b R Hb NE. destruct (reach_inv s R) as (PW & OK). destruct (OK b Hb) as (A & L & E & T & O).
  destruct (b_geom b A L E) as (K1 & K2 & K3 & K4). unfold lookup.
  replace (b_start b =? 0) with false by (symmetry; apply N.eqb_neq; lia).
  rewrite valid_in by lia. cbn [negb]. replace (b_start b - 8 <? SB) with false by (symmetry; apply N.ltb_ge; lia).
  cbv zeta. rewrite O. replace (b_obj b =? 0) with false by (symmetry; apply N.eqb_neq; lia).
  rewrite valid_in by (unfold b_end in *; lia). cbn [negb orb].
  replace (SB + SL <? b_obj b + TOFF + 4) with false by (symmetry; apply N.ltb_ge; unfold b_end in *; lia).
  rewrite T. reflexivity.
Qed.

Lemma lookup_no_decoy : forall s x, SB + 8 <= x < SB + SL -> ~ decoy s x ->
  (let v := load64 (m_ s) (x - 8) in SB <= v -> v < SB + SL -> v + TOFF + 4 <= SB + SL) ->
  lookup s x = Found (scan (live s) x).
Proof using TOFF_in_H SB_pos S_fits.
  intros s x X ND FIT. unfold lookup.
  replace (x =? 0) with false by (symmetry; apply N.eqb_neq; lia).
  rewrite valid_in by lia. cbn [negb]. replace (x - 8 <? SB) with false by (symmetry; apply N.ltb_ge; lia).
  cbv zeta in *. unfold decoy in ND. cbv zeta in ND. set (v := load64 (m_ s) (x - 8)) in *.
  destruct (N.eqb_spec v 0) as [Z|NZ]; [reflexivity|].
  destruct (ptr_valid v) eqn:PV; cbn [orb negb]; [|reflexivity].
  unfold ptr_valid in PV. apply andb_true_iff in PV. destruct PV as [P1 P2]. apply N.leb_le in P1. apply N.ltb_lt in P2.
  specialize (FIT P1 P2). replace (SB + SL <? v + TOFF + 4) with false by (symmetry; apply N.ltb_ge; lia).
  destruct (N.eqb_spec (load32 (m_ s) (v + TOFF)) TYPE_DATA) as [D|D]; [|reflexivity].
  exfalso. apply ND. repeat split; auto.
Qed.

(** An address further inside a live data area resolves to the owner unless the
    8 bytes before it are (mis)taken for a back pointer. *)
Theorem C26_interior_partial : forall s b x, reach s -> In b (live s) -> in_data b x -> ~ decoy s x ->
  (let v := load64 (m_ s) (x - 8) in SB <= v -> v < SB + SL -> v + TOFF + 4 <= SB + SL) ->
  lookup s x = Found (Some (b_obj b)).
Proof using TOFF_in_H SB_pos S_fits.
  intros s b x R Hb X ND FIT. destruct (reach_inv s R) as (PW & OK). destruct (OK b Hb) as (A & L & E & T & O).
  destruct (b_geom b A L E) as (K1 & K2 & K3 & K4). unfold in_data in X.
  destruct (N.eq_dec x (b_start b)) as [->|N].
  - apply C26_start; auto. lia.
  - rewrite lookup_no_decoy; auto; [|lia]. f_equal. apply scan_owner; auto; [|lia].
    intros c Hc. destruct (OK c Hc) as (A1 & L1 & E1 & _). auto.
Qed.

(** An address of the segment outside all live data areas resolves to nothing,
    under the same condition. *)
Theorem C26_outside_partial : forall s x, reach s -> SB + 8 <= x < SB + SL ->
  (forall b, In b (live s) -> ~ in_data b x) -> ~ decoy s x ->
  (let v := load64 (m_ s) (x - 8) in SB <= v -> v < SB + SL -> v + TOFF + 4 <= SB + SL) ->
  lookup s x = Found None.
Proof using TOFF_in_H SB_pos S_fits.
  intros s x R X D ND FIT. rewrite lookup_no_decoy by auto. f_equal. now apply scan_none.
Qed.

(** Whatever the memory contents, a buffer is found only as owner of the address
    or because of a decoy. *)
Theorem C26_sound_up_to_decoy : forall s x o, reach s -> lookup s x = Found (Some o) ->
  (exists b, In b (live s) /\ b_obj b = o /\ in_data b x) \/ (decoy s x /\ o = load64 (m_ s) (x - 8)).
Proof using TOFF_in_H SB_pos S_fits.
  intros s x o R E. unfold lookup in E.
  destruct (x =? 0); [discriminate|]. destruct (negb (ptr_valid x)); [discriminate|].
  destruct (x - 8 <? SB); [discriminate|]. cbv zeta in E.
  assert (SC : scan (live s) x = Some o -> exists b, In b (live s) /\ b_obj b = o /\ in_data b x).
  { clear. generalize (live s). induction l as [|c l IH]; cbn [scan]; [discriminate|].
    destruct ((b_start c <? x) && (x <? b_start c + b_size c)) eqn:Q.
    - intros X. injection X as <-. exists c. apply andb_true_iff in Q. destruct Q as [Q1 Q2]. apply N.ltb_lt in Q1, Q2.
      split; [now left|]. split; [reflexivity|]. unfold in_data. lia.
    - intros X. destruct (IH X) as (b & B & O & D). exists b. split; [now right|auto]. }
  destruct (N.eqb_spec (load64 (m_ s) (x - 8)) 0) as [Z|NZ]; cbn [orb] in E.
  { left. apply SC. congruence. }
  destruct (ptr_valid (load64 (m_ s) (x - 8))) eqn:PV; cbn [negb] in E; [|left; apply SC; congruence].
  destruct (SB + SL <? _); [discriminate|].
  destruct (N.eqb_spec (load32 (m_ s) (load64 (m_ s) (x - 8) + TOFF)) TYPE_DATA) as [D|D]; [|left; apply SC; congruence].
  injection E as <-. right. split; [|reflexivity]. unfold decoy. cbv zeta.
  unfold ptr_valid in PV. apply andb_true_iff in PV. destruct PV as [P1 P2]. apply N.leb_le in P1. apply N.ltb_lt in P2.
  repeat split; auto.
Qed.
End Lookup.

(* ------------------------------------------------------------------ *)
(** ** C26 refuted *)

(** Two 64-byte buffers; the user of the first one stores the handle of the second
    one in it (8 bytes at offset 0). *)
Definition rb1 : buf := mkbuf 4096 64 1.
Definition rb2 : buf := mkbuf 8192 64 1.
Definition SB0 : N := 4096.
Definition SL0 : N := 1048576.

Definition user_writes (s : st) (x : N) (l : list N) : st := mkst (wr (m_ s) x l) (live s).

Lemma user_writes_reach : forall l s b x, reach 120 40 SB0 SL0 s -> In b (live s) ->
  b_start 120 b <= x -> x + N.of_nat (length l) <= b_start 120 b + b_size b -> Forall (fun v => v < 256) l ->
  reach 120 40 SB0 SL0 (user_writes s x l).
Proof.
  induction l as [|v l IH]; intros s b x R B L1 L2 F; [destruct s; exact R|].
  inversion F as [|? ? V F']; subst. cbn [length] in L2.
  apply (IH (mkst (wr8 (m_ s) x v) (live s)) b (x + 1)); auto; [|lia|lia].
  eapply r_step; [exact R|]. apply (s_user 120 40 SB0 SL0 s b x v); auto. unfold in_data. lia.
Qed.

Definition ex_st : st :=
  match init_aligned 120 40 (fun _ => 0) 4096 64 1 with
  | Some (m1, _) =>
      match init_aligned 120 40 m1 8192 64 1 with
      | Some (m2, _) => mkst m2 [rb2; rb1]
      | None => mkst m1 []
      end
  | None => mkst (fun _ => 0) []
  end.

Lemma ex_st_reach : reach 120 40 SB0 SL0 ex_st.
Proof.
  unfold ex_st.
  destruct (init_aligned 120 40 (fun _ => 0) 4096 64 1) as [[m1 p1]|] eqn:E1; [|apply r_init].
  destruct (init_aligned 120 40 m1 8192 64 1) as [[m2 p2]|] eqn:E2; [|apply r_init].
  apply (r_step _ _ _ _ (mkst m1 [rb1]) (Create rb2)).
  - apply (r_step _ _ _ _ (mkst (fun _ => 0) []) (Create rb1)); [apply r_init|].
    apply (s_create 120 40 SB0 SL0 (mkst (fun _ => 0) []) rb1 m1 p1).
    + discriminate.
    + vm_compute; discriminate.
    + vm_compute; discriminate.
    + intros c [].
    + exact E1.
  - apply (s_create 120 40 SB0 SL0 (mkst m1 [rb1]) rb2 m2 p2).
    + discriminate.
    + vm_compute; discriminate.
    + vm_compute; discriminate.
    + intros c [<-|[]]. right. vm_compute. discriminate.
    + exact E2.
Qed.

Lemma ex_live : live ex_st = [rb2; rb1].
Proof. vm_compute. reflexivity. Qed.

Definition ex_decoy : st := user_writes ex_st (b_start 120 rb1) (enc 8 8192).

Lemma ex_decoy_reach : reach 120 40 SB0 SL0 ex_decoy.
Proof.
  apply (user_writes_reach _ ex_st rb1).
  - exact ex_st_reach.
  - rewrite ex_live. cbn. tauto.
  - lia.
  - rewrite enc_length. vm_compute. discriminate.
  - repeat constructor.
Qed.

(** C26 refuted, inside: the address 8 bytes into the first buffer resolves to the
    second buffer. *)
Theorem C26_interior_refuted : exists s b c x, reach 120 40 SB0 SL0 s /\ In b (live s) /\ In c (live s) /\
  b_obj b <> b_obj c /\ in_data 120 b x /\ lookup 120 40 SB0 SL0 s x = Found (Some (b_obj c)).
Proof.
  exists ex_decoy, rb1, rb2, (b_start 120 rb1 + 8). split; [exact ex_decoy_reach|].
  split; [unfold ex_decoy, user_writes; cbn [live]; rewrite ex_live; cbn; tauto|].
  split; [unfold ex_decoy, user_writes; cbn [live]; rewrite ex_live; cbn; tauto|]. split; [discriminate|]. split.
  - unfold in_data. vm_compute. split; [discriminate|reflexivity].
  - vm_compute. reflexivity.
Qed.

(** C26 refuted, outside: memory of another object (for instance the buffer table
    of a task) that holds a buffer handle; the address right behind it resolves to
    that buffer although it is in no data area. *)
Fixpoint other_writes (s : st) (x : N) (l : list N) : st :=
  match l with [] => s | v :: l' => other_writes (mkst (wr8 (m_ s) x v) (live s)) (x + 1) l' end.

Lemma other_writes_reach : forall l s x, reach 120 40 SB0 SL0 s ->
  (forall b, In b (live s) -> x + N.of_nat (length l) <= b_obj b \/ b_end 120 b <= x) -> Forall (fun v => v < 256) l ->
  reach 120 40 SB0 SL0 (other_writes s x l).
Proof.
  induction l as [|v l IH]; intros s x R D F; [exact R|].
  inversion F as [|? ? V F']; subst. cbn [length other_writes] in *. apply IH; auto.
  - eapply r_step; [exact R|]. apply s_other; auto. intros b Hb. specialize (D b Hb). unfold in_mem. lia.
  - intros b Hb. specialize (D b Hb). lia.
Qed.

Theorem C26_outside_refuted : exists s x c, reach 120 40 SB0 SL0 s /\ In c (live s) /\
  (forall b, In b (live s) -> ~ in_data 120 b x) /\ lookup 120 40 SB0 SL0 s x = Found (Some (b_obj c)).
Proof.
  exists (other_writes ex_st 20000 (enc 8 8192)), 20008, rb2.
  assert (LV : live (other_writes ex_st 20000 (enc 8 8192)) = [rb2; rb1]) by (vm_compute; reflexivity).
  split; [|split; [|split]].
  - apply other_writes_reach; [exact ex_st_reach| |repeat constructor].
    rewrite ex_live. intros b [<-|[<-|[]]]; right; vm_compute; discriminate.
  - rewrite LV. cbn. tauto.
  - rewrite LV. intros b [<-|[<-|[]]] [X1 X2]; vm_compute in X2; discriminate.
  - vm_compute. reflexivity.
Qed.

(** C26: looking up the segment's own first address reads in front of the mapping. *)
Theorem C26_base_faults : forall s, lookup 120 40 SB0 SL0 s SB0 = Fault.
Proof. intros s. reflexivity. Qed.

(** Concrete case meeting the hypotheses of the positive theorems: an interior
    address of the second buffer, whose preceding bytes are zero. *)
Example C26_example : reach 120 40 SB0 SL0 ex_st /\ In rb2 (live ex_st) /\
  in_data 120 rb2 (b_start 120 rb2 + 20) /\ load64 (m_ ex_st) (b_start 120 rb2 + 20 - 8) = 0 /\
  lookup 120 40 SB0 SL0 ex_st (b_start 120 rb2 + 20) = Found (Some 8192).
Proof.
  split; [exact ex_st_reach|]. split; [rewrite ex_live; cbn; tauto|]. split.
  - unfold in_data. vm_compute. split; [discriminate|reflexivity].
  - split; vm_compute; reflexivity.
Qed.

(* ------------------------------------------------------------------ *)
(** ** C28: the argument block of a task *)

Section Task.
(** [T]: sizeof(arax_task_msg_s); [IO]: offset of the flexible array io[]. *)
Variables T IO : N.
Hypothesis IO_le_T : IO <= T.

(** A task as laid out by arax_task_alloc, [arax_task.c:7-49]. *)
Record task := mktask { t_addr : N; t_ios : list N (* buffer handles: inputs then outputs *); t_host : N }.

(** src/core/arax_task.h:9-23, in_count + out_count. *)
Definition nio (t : task) : N := N.of_nat (length (t_ios t)).

(** Bytes asked from the allocator, [arax_task.c:18]. *)
Definition task_size (t : task) : N := w64 (w64 (T + 8 * nio t) + t_host t).

(** The io table entries, [arax_task.c:34-46]. *)
Fixpoint write_ios (m : mem) (a : N) (l : list N) : mem :=
  match l with [] => m | h :: l' => write_ios (store64 m a h) (a + 8) l' end.

(** arax_task_host_data, [arax_task.c:51-62].  [None]: assertion. *)
Definition host_data (t : task) (size : N) : option N :=
  if size =? t_host t then Some (if t_host t =? 0 then 0 else w64 (w64 (t_addr t + T) + 8 * nio t)) else None.

(** arax_task_issue on a task placed at [t_addr t], up to submission: io table and
    argument bytes ([impl.c:478-483]; [None] for a null host_init). *)
Definition issue (m : mem) (t : task) (args : option (list N)) : option mem :=
  let m1 := write_ios m (t_addr t + IO) (t_ios t) in
  match args with
  | None => Some m1
  | Some l => if t_host t =? 0 then Some m1
              else match host_data t (t_host t) with Some p => Some (wr m1 p l) | None => None end
  end.

(** Reading [size] argument bytes on the executing side. *)
(** src/core/arax_task.c:51-62 on the executing side. *)
Definition read_args (m : mem) (t : task) (size : N) : option (list N) :=
  match host_data t size with Some p => Some (rd m p (N.to_nat size)) | None => None end.

(** Reading entry [i] of the buffer table. *)
(** src/core/arax_task.h:9-23, io[i]. *)
Definition read_io (m : mem) (t : task) (i : nat) : N := load64 m (t_addr t + IO + 8 * N.of_nat i).

Definition task_fits (t : task) : Prop := t_addr t + (T + 8 * nio t + t_host t) < W64.

Lemma host_addr : forall t, task_fits t -> t_host t <> 0 -> host_data t (t_host t) = Some (t_addr t + T + 8 * nio t).
Proof using IO_le_T.
  intros t F NZ. unfold host_data. rewrite N.eqb_refl. apply N.eqb_neq in NZ. rewrite NZ.
  unfold task_fits in F. rewrite (w64_small (t_addr t + T)) by lia. rewrite w64_small by lia. reflexivity.
Qed.

Lemma write_ios_out : forall l m a x, (x < a \/ a + 8 * N.of_nat (length l) <= x) -> write_ios m a l x = m x.
Proof using IO_le_T.
  induction l as [|h l IH]; intros m a x D; [reflexivity|]. cbn [write_ios length] in *.
  rewrite IH by lia. unfold store64. apply wr_out. rewrite enc_length. cbn. lia.
Qed.

Lemma write_ios_read : forall l m a i h, nth_error l i = Some h -> h < W64 ->
  load64 (write_ios m a l) (a + 8 * N.of_nat i) = h.
Proof using IO_le_T.
  induction l as [|x l IH]; intros m a i h E L; [destruct i; discriminate|]. destruct i as [|i]; cbn in E.
  - injection E as ->. cbn [write_ios]. unfold load64.
    rewrite (rd_ext 8 _ (store64 m a h)).
    + replace (a + 8 * N.of_nat 0) with a by lia. now apply load64_same.
    + intros y Y. apply write_ios_out. cbn in Y. lia.
  - cbn [write_ios]. replace (a + 8 * N.of_nat (S i)) with (a + 8 + 8 * N.of_nat i) by lia. now apply IH.
Qed.

(** C28 for every number of buffers and every argument size that fits in memory:
    the argument block lies inside the task's own memory, after header and buffer
    table; what the executing side reads are the bytes given at issue and the
    buffer handles given at issue; this stays so whatever is written outside the
    task's memory; a different size is refused. *)
Theorem C28_arguments_intact : forall m t args, task_fits t -> t_host t <> 0 ->
  N.of_nat (length args) = t_host t -> Forall (fun h => h < W64) (t_ios t) ->
  exists p, host_data t (t_host t) = Some p /\
    t_addr t + T <= p /\ t_addr t + IO + 8 * nio t <= p /\ p + t_host t = t_addr t + task_size t /\
  exists m1, issue m t (Some args) = Some m1 /\
  (forall x, (x < t_addr t + IO \/ t_addr t + task_size t <= x) -> m1 x = m x) /\
  forall m2, (forall x, t_addr t <= x < t_addr t + task_size t -> m2 x = m1 x) ->
    read_args m2 t (t_host t) = Some args /\
    forall i h, nth_error (t_ios t) i = Some h -> read_io m2 t i = h.
Proof using IO_le_T.
  intros m t args F NZ L HS. exists (t_addr t + T + 8 * nio t).
  pose proof (host_addr t F NZ) as HA. split; [exact HA|]. split; [lia|]. split; [lia|].
  assert (TS : task_size t = T + 8 * nio t + t_host t).
  { unfold task_size. unfold task_fits in F. rewrite (w64_small (T + 8 * nio t)) by lia. apply w64_small. lia. }
  split; [rewrite TS; lia|].
  unfold issue. apply N.eqb_neq in NZ as NZ'. rewrite NZ', HA. eexists. split; [reflexivity|]. split.
  { intros x X. rewrite wr_out by (rewrite L; lia). apply write_ios_out. fold (nio t). rewrite TS in X. lia. }
  intros m2 M. split.
  - unfold read_args. rewrite HA. f_equal.
    rewrite (rd_ext _ m2 (wr (write_ios m (t_addr t + IO) (t_ios t)) (t_addr t + T + 8 * nio t) args)).
    + rewrite <- L. rewrite Nat2N.id. apply rd_wr_same.
    + intros x X. apply M. rewrite TS. rewrite N2Nat.id in X. lia.
  - intros i h E. unfold read_io, load64.
    assert (LI : N.of_nat i < nio t). { unfold nio. assert (i < length (t_ios t))%nat by (apply nth_error_Some; congruence). lia. }
    rewrite (rd_ext 8 m2 (write_ios m (t_addr t + IO) (t_ios t))).
    + apply write_ios_read; [assumption|]. rewrite Forall_forall in HS. apply HS. eapply nth_error_In; eauto.
    + intros x X. rewrite M; [|rewrite TS; cbn in X; lia]. apply wr_out. cbn in X. lia.
Qed.

Theorem C28_other_size_refused : forall m t size, size <> t_host t -> read_args m t size = None.
Proof using IO_le_T. intros m t size N. unfold read_args, host_data. apply N.eqb_neq in N. now rewrite N. Qed.

(** No argument bytes: the block is absent and nothing but the table is written. *)
Theorem C28_no_arguments : forall m t args, t_host t = 0 ->
  host_data t 0 = Some 0 /\ issue m t args = Some (write_ios m (t_addr t + IO) (t_ios t)).
Proof using IO_le_T.
  intros m t args Z. unfold host_data, issue. rewrite Z. rewrite N.eqb_refl. split; [reflexivity|].
  destruct args; reflexivity.
Qed.
End Task.

(** Overflow: an argument size near 2^64 wraps the task's allocation, as for
    buffers. *)
Theorem C28_overflow_refuted : exists t, t_host t < W64 /\ task_size 240 t = 8 /\
  host_data 240 t (t_host t) <> None.
Proof. exists (mktask 4096 [1] (W64 - 240)). split; [reflexivity|]. split; [reflexivity|]. discriminate. Qed.

Example C28_example : exists m1, task_fits 240 (mktask 4096 [8192; 9000] 3) /\
  issue 240 240 (fun _ => 0) (mktask 4096 [8192; 9000] 3) (Some [7; 8; 9]) = Some m1 /\
  read_args 240 m1 (mktask 4096 [8192; 9000] 3) 3 = Some [7; 8; 9] /\ read_io 240 m1 (mktask 4096 [8192; 9000] 3) 1 = 9000.
Proof. eexists. split; [reflexivity|]. split; [reflexivity|]. split; reflexivity. Qed.
