(** The names of shared objects and the heap blocks an object consists of: property C71.

    Code modelled
    - [src/core/arax_object.c:98-126]   arax_object_register
    - [src/core/arax_object.c:128-143]  arax_object_rename
    - [src/core/arax_object.c:145-209]  arax_object_ref_inc, arax_object_ref_dec (one caller at a time; [ObjConc] has the interleavings)
    - [src/core/arax_pipe.c:194-217]    arax_pipe_find_accel
    - [src/core/arax_pipe.c:219-236]    arax_pipe_find_proc
    - [src/core/arax_accel.c:5-24]      arax_accel_init, the assignment of the accelerator's type (line 18)

    Memory is a table of heap blocks, each of so many bytes; a block is never reused here ([DlMalloc] has the allocator), so that any access
    to a released block shows as [UB], as does any access beyond the end of a block.  A fresh block holds what was there before.
    Strings are zero-terminated bytes in such blocks, read and written byte by byte as strlen, strcpy, strcmp and vsprintf do. *)
From Verif Require Import Base.
From Coq Require Import Lia Permutation.
Local Open Scope nat_scope.

(** ** C strings *)
(** strlen on the bytes of a block from the pointer to its end (src/core/arax_object.c:109, 135). *)
Fixpoint c_len (l : list nat) : outcome nat :=
  match l with [] => UB | 0 :: _ => Ok 0 | _ :: t => do n <- c_len t; Ok (S n) end.
(** Storing bytes one after the other (src/core/arax_object.c:110, 141). *)
Fixpoint store (l s : list nat) : outcome (list nat) :=
  match s, l with [], _ => Ok l | _ :: _, [] => UB | x :: s', _ :: l' => do t <- store l' s'; Ok (x :: t) end.
(** strcpy and the stores of vsprintf: the text and its terminator (src/core/arax_object.c:110, 141). *)
Definition c_put (l s : list nat) : outcome (list nat) := store l (s ++ [0]).
(** strcmp(a, b) == 0 (src/core/arax_pipe.c:207, 229). *)
Fixpoint c_eq (a b : list nat) : outcome bool :=
  match a, b with x :: a', y :: b' => if x =? y then if x =? 0 then Ok true else c_eq a' b' else Ok false | _, _ => UB end.
(** The text a block holds. *)
(** For statements about names; reads as a caller printing obj->name does (src/core/arax_object.h:47). *)
Fixpoint c_text (l : list nat) : outcome (list nat) :=
  match l with [] => UB | 0 :: _ => Ok [] | x :: t => do s <- c_text t; Ok (x :: s) end.

(** ** Formats *)
(** A format string as vsprintf reads it: characters copied ("%%" is one of them), and %s conversions; the argument list. *)
(** src/core/arax_object.c:128-143, vsprintf. *)
Inductive piece := Lit (c : nat) | Str.
(** vsprintf consuming a va_list: the text, and what is left of the list.  A conversion without an argument reads beyond the
    arguments (src/core/arax_object.c:134, 141). *)
Fixpoint vformat (f : list piece) (args : list (list nat)) : outcome (list nat * list (list nat)) :=
  match f with
  | [] => Ok ([], args)
  | Lit c :: f' => do (t, r) <- vformat f' args; Ok (c :: t, r)
  | Str :: f' => match args with [] => UB | a :: args' => do (t, r) <- vformat f' args'; Ok (a ++ t, r) end
  end.

(** ** State *)
(** arax_object_s (src/core/arax_object.h:40-48), with the type of an accelerator (arax_accel_s.type): where its block and its name are. *)
Record ob := mkob { blk : nat; nm : nat; ty : nat; kind : nat; refs : nat; osz : nat }.
(** The heap, all objects ever made by handle, the object list of each type (src/core/arax_object.h:27-36), and what the throttle was
    charged. *)
Record st := mkst { hp : list (option (list nat)); obs : list ob; lists : nat -> list nat; chg : nat }.
(** arax_object_repo_init, src/core/arax_object.c:60-69. *)
Definition st0 : st := mkst [] [] (fun _ => []) 0.
(** sizeof(arax_object_s), src/core/arax_object.h:40-48. *)
Definition HDR : nat := 56.

(** Access to a block; released or never handed out is an error. *)
(** A pointer dereference, no code of its own. *)
Definition bget (h : list (option (list nat))) (b : nat) : outcome (list nat) :=
  match nth_error h b with Some (Some l) => Ok l | _ => UB end.
(** A store through a pointer, no code of its own. *)
Definition bput (h : list (option (list nat))) (b : nat) (l : list nat) : outcome (list (option (list nat))) :=
  do _ <- bget h b; Ok (upd h b (Some l)).
(** arch_alloc_allocate (src/alloc/dlmalloc/alloc.c:62-82): [stale] is what the memory held; [ok]: there is room. *)
Definition balloc (h : list (option (list nat))) (n : nat) (stale : nat -> nat) : list (option (list nat)) := h ++ [Some (map stale (seq 0 n))].
(** arch_alloc_free (src/alloc/dlmalloc/alloc.c:84-100). *)
Definition bfree (h : list (option (list nat))) (b : nat) : outcome (list (option (list nat))) := do _ <- bget h b; Ok (upd h b None).
(** obj->... : the object's own block must be there (src/core/arax_object.h:40-48). *)
Definition oget (s : st) (h : nat) : outcome ob :=
  match nth_error (obs s) h with Some o => do _ <- bget (hp s) (blk o); Ok o | None => UB end.
(** memset(obj + 1, 0, min(size, sizeof(union)) - sizeof(arax_object_s)), src/core/arax_object.c:120-123: a size below the header
    wraps round. *)
Definition zero (usz size : nat) (l : list nat) : outcome (list nat) :=
  let n := Nat.min size usz in
  if n <? HDR then UB else if length l <? n then UB else Ok (firstn HDR l ++ repeat 0 (n - HDR) ++ skipn n l).

(** ** Calls *)
(** One call, and what the allocator and the memory do during it.  src/core/arax_object.c:98-209, src/core/arax_pipe.c:194-236,
    src/core/arax_accel.c:18. *)
Inductive op :=
| Reg (t : nat) (name : list nat) (size rc : nat) (s1 s2 : nat -> nat) (ok1 ok2 : bool)
| Kind (h k : nat)
| Ren (h : nat) (f : list piece) (args : list (list nat)) (s1 : nat -> nat) (ok1 : bool)
| Inc (h : nat)
| Dec (h : nat)
| FindAccel (name : option (list nat)) (k : nat)
| FindProc (name : list nat).
(** What a call answers (same lines as [op]). *)
Inductive ret := Void | Handle (h : option nat) | Refs (n : nat).

(** ARAX_TYPE_PHYS_ACCEL and ARAX_TYPE_PROC, src/core/arax_object.h:13-22. *)
Definition PHYS : nat := 0.
Definition PROC : nat := 2.

(** The walk over a list with a filter on the accelerator's type; 0 is ANY (src/core/arax_pipe.c:202-213, 227-232). *)
Fixpoint walk (s : st) (l : list nat) (name : option (list nat)) (k : nat) : outcome (option nat) :=
  match l with
  | [] => Ok None
  | h :: l' =>
    do o <- oget s h;
    if negb (k =? 0) && negb (k =? kind o) then walk s l' name k else
    match name with
    | None => Ok (Some h)
    | Some n => do b <- bget (hp s) (nm o); do e <- c_eq (n ++ [0]) b; if e then Ok (Some h) else walk s l' name k
    end
  end.

(** List insertion at the head and removal (src/utils/list.c:9-37; [ListModel] has the nodes). *)
Definition lset (f : nat -> list nat) (t : nat) (l : list nat) : nat -> list nat := fun x => if x =? t then l else f x.

(** One call, see [op]. *)
Definition step (usz : nat) (s : st) (x : op) : outcome (st * ret) :=
  match x with
  | Reg t name size rc s1 s2 ok1 ok2 =>                             (* 98-126 *)
    let s := mkst (hp s) (obs s) (lists s) (chg s + size) in          (* 103 *)
    if negb ok1 then Ok (s, Handle None) else                         (* 106-107 *)
    let b := length (hp s) in
    let h1 := balloc (hp s) size s1 in                                (* 104 *)
    if negb ok2 then UB else                                          (* 109-110: strcpy to NULL *)
    let n := length h1 in
    let h2 := balloc h1 (length name + 1) s2 in                       (* 109 *)
    do nb <- bget h2 n; do nb <- c_put nb name; do h3 <- bput h2 n nb;  (* 110 *)
    let h := length (obs s) in
    do ob_ <- bget h3 b; do ob_ <- zero usz size ob_; do h4 <- bput h3 b ob_;   (* 120-123 *)
    Ok (mkst h4 (obs s ++ [mkob b n t 0 rc size]) (lset (lists s) t (h :: lists s t)) (chg s), Handle (Some h))
  | Kind h k => do o <- oget s h; Ok (mkst (hp s) (upd (obs s) h (mkob (blk o) (nm o) (ty o) k (refs o) (osz o))) (lists s) (chg s), Void)
  | Ren h f args s1 ok1 =>                                          (* 128-143 *)
    do (t1, rest) <- vformat f args;                                  (* 134 *)
    do o <- oget s h; do b <- bget (hp s) (nm o); do old <- c_len b;    (* 135 *)
    if old <? length t1 then
      do h1 <- bfree (hp s) (nm o);                                   (* 138 *)
      if negb ok1 then UB else
      let h2 := balloc h1 (length t1 + 1) s1 in                       (* 139 *)
      let n := length h1 in
      do (t2, _) <- vformat f rest;                                   (* 141: the same va_list again *)
      do nb <- bget h2 n; do nb <- c_put nb t2; do h3 <- bput h2 n nb;
      Ok (mkst h3 (upd (obs s) h (mkob (blk o) n (ty o) (kind o) (refs o) (osz o))) (lists s) (chg s), Void)
    else
      do (t2, _) <- vformat f rest;
      do nb <- c_put b t2; do h3 <- bput (hp s) (nm o) nb;
      Ok (mkst h3 (obs s) (lists s) (chg s), Void)
  | Inc h => do o <- oget s h; Ok (mkst (hp s) (upd (obs s) h (mkob (blk o) (nm o) (ty o) (kind o) (S (refs o)) (osz o))) (lists s) (chg s), Void)
  | Dec h =>                                                        (* 161-209 *)
    do o <- oget s h;
    match refs o with
    | 0 => Abort
    | S 0 =>
      do h1 <- bfree (hp s) (nm o); do h2 <- bfree h1 (blk o);            (* 197-199 *)
      Ok (mkst h2 (upd (obs s) h (mkob (blk o) (nm o) (ty o) (kind o) 0 (osz o)))
            (lset (lists s) (ty o) (remove Nat.eq_dec h (lists s (ty o)))) (chg s - osz o), Refs 0)
    | S (S r) => Ok (mkst (hp s) (upd (obs s) h (mkob (blk o) (nm o) (ty o) (kind o) (S r) (osz o))) (lists s) (chg s), Refs (S r))
    end
  | FindAccel name k => do r <- walk s (lists s PHYS) name k; Ok (s, Handle r)
  | FindProc name => do r <- walk s (lists s PROC) (Some name) 0; Ok (s, Handle r)
  end.
(** Calls one after the other, with their answers. *)
(** A caller, no code of its own. *)
Fixpoint run (usz : nat) (s : st) (l : list op) : outcome (st * list ret) :=
  match l with [] => Ok (s, []) | x :: l' => do (s1, r) <- step usz s x; do (s2, rs) <- run usz s1 l'; Ok (s2, r :: rs) end.

(** ** Specification *)
(** An object as its users see it. *)
Record aobj := mka { a_h : nat; a_ty : nat; a_name : list nat; a_kind : nat; a_refs : nat; a_size : nat }.
(** The objects that exist, newest first, and how many there ever were. *)
Record sst := mks { live : list aobj; next : nat }.
(** the text of a format that has no conversion *)
Fixpoint plain (f : list piece) : option (list nat) :=
  match f with [] => Some [] | Lit c :: f' => option_map (cons c) (plain f') | Str :: _ => None end.
(** a C string: no zero byte in it *)
Definition text_ok (s : list nat) : bool := forallb (fun c => negb (c =? 0)) s.
Fixpoint find_live (h : nat) (l : list aobj) : option aobj :=
  match l with [] => None | a :: l' => if a_h a =? h then Some a else find_live h l' end.
Definition change (h : nat) (f : aobj -> aobj) (l : list aobj) : list aobj := map (fun a => if a_h a =? h then f a else a) l.
Definition drop (h : nat) (l : list aobj) : list aobj := filter (fun a => negb (a_h a =? h)) l.
(** the newest object of the type that has the name (any, if none is given) and the kind (0: any) *)
Definition newest (t : nat) (name : option (list nat)) (k : nat) (l : list aobj) : option nat :=
  option_map a_h (find (fun a => (a_ty a =? t) && ((k =? 0) || (k =? a_kind a)) &&
                           match name with None => true | Some n => if list_eq_dec Nat.eq_dec n (a_name a) then true else false end) l).
(** What a call must do; [None]: the caller or the memory broke the rules (a handle that is not there, a format with a conversion,
    no memory, a size below the header). *)
Definition sstep (s : sst) (x : op) : option (sst * ret) :=
  match x with
  | Reg t name size rc _ _ ok1 ok2 =>
    if ok1 && ok2 && text_ok name && (HDR <=? size) && (1 <=? rc)
    then Some (mks (mka (next s) t name 0 rc size :: live s) (S (next s)), Handle (Some (next s))) else None
  | Kind h k => match find_live h (live s) with
                | Some _ => Some (mks (change h (fun a => mka (a_h a) (a_ty a) (a_name a) k (a_refs a) (a_size a)) (live s)) (next s), Void)
                | None => None end
  | Ren h f _ _ ok1 => match find_live h (live s), plain f with
                | Some _, Some n => if ok1 && text_ok n
                  then Some (mks (change h (fun a => mka (a_h a) (a_ty a) n (a_kind a) (a_refs a) (a_size a)) (live s)) (next s), Void) else None
                | _, _ => None end
  | Inc h => match find_live h (live s) with
             | Some _ => Some (mks (change h (fun a => mka (a_h a) (a_ty a) (a_name a) (a_kind a) (S (a_refs a)) (a_size a)) (live s)) (next s), Void)
             | None => None end
  | Dec h => match find_live h (live s) with
             | Some a => match a_refs a with
                         | 0 => None
                         | S 0 => Some (mks (drop h (live s)) (next s), Refs 0)
                         | S r => Some (mks (change h (fun a => mka (a_h a) (a_ty a) (a_name a) (a_kind a) r (a_size a)) (live s)) (next s), Refs r) end
             | None => None end
  | FindAccel name k => match name with Some n => if text_ok n then Some (s, Handle (newest PHYS name k (live s))) else None
                                   | None => Some (s, Handle (newest PHYS name k (live s))) end
  | FindProc name => if text_ok name then Some (s, Handle (newest PROC (Some name) 0 (live s))) else None
  end.
Fixpoint srun (s : sst) (l : list op) : option (sst * list ret) :=
  match l with
  | [] => Some (s, [])
  | x :: l' => match sstep s x with None => None | Some (s1, r) => match srun s1 l' with None => None | Some (s2, rs) => Some (s2, r :: rs) end end
  end.
(** the name of an object as a reader finds it in memory *)
Definition name_of (s : st) (h : nat) : outcome (list nat) := do o <- oget s h; do b <- bget (hp s) (nm o); c_text b.
(** how many heap blocks are handed out *)
Definition blocks (s : st) : nat := length (filter (fun b => match b with Some _ => true | None => false end) (hp s)).
(** the bytes of the objects, without their names *)
Definition bytes (l : list aobj) : nat := fold_right (fun a n => a_size a + n) 0 l.

(** ** Proofs *)
Local Opaque HDR.
Lemma store_app a rest s : length s <= length a -> store (a ++ rest) s = Ok (s ++ skipn (length s) a ++ rest).
Proof.
  revert a. induction s as [|x s IH]; intros [|y a] H; simpl in *; try lia; auto.
  - destruct rest; reflexivity.
  - rewrite IH by lia. reflexivity.
Qed.
Lemma store_ok l s : length s <= length l -> store l s = Ok (s ++ skipn (length s) l).
Proof. intros H. rewrite <- (app_nil_r l) at 1. rewrite store_app by auto. now rewrite app_nil_r. Qed.
Lemma store_short l s : length l < length s -> store l s = UB.
Proof.
  revert l. induction s as [|x s IH]; intros [|y l] H; simpl in *; try lia; auto. rewrite IH by lia. reflexivity.
Qed.
Lemma text_cons x s : text_ok (x :: s) = true -> x <> 0 /\ text_ok s = true.
Proof. unfold text_ok; simpl. intros H. apply andb_prop in H as [A B]. split; auto. intros ->. discriminate. Qed.
Lemma c_len_text s r : text_ok s = true -> c_len (s ++ 0 :: r) = Ok (length s).
Proof.
  induction s as [|x s IH]; intros H; [reflexivity|]. apply text_cons in H as [A B]. simpl. destruct x; [easy|]. now rewrite IH.
Qed.
Lemma c_text_text s r : text_ok s = true -> c_text (s ++ 0 :: r) = Ok s.
Proof.
  induction s as [|x s IH]; intros H; [reflexivity|]. apply text_cons in H as [A B]. simpl. destruct x; [easy|]. now rewrite IH.
Qed.
Lemma c_eq_text a s r : text_ok a = true -> text_ok s = true ->
  c_eq (a ++ [0]) (s ++ 0 :: r) = Ok (if list_eq_dec Nat.eq_dec a s then true else false).
Proof.
  revert s. induction a as [|x a IH]; intros [|y s] Ha Hs.
  - reflexivity.
  - apply text_cons in Hs as [A B]. simpl. destruct y; [easy|]. simpl. reflexivity.
  - apply text_cons in Ha as [A B]. simpl. destruct x; [easy|]. reflexivity.
  - apply text_cons in Hs as [A B]. apply text_cons in Ha as [A' B'].
    cbn [c_eq app]. destruct (Nat.eqb_spec x y) as [->|E].
    + destruct (Nat.eqb_spec y 0) as [->|E0]; [easy|]. rewrite IH by auto.
      destruct (list_eq_dec Nat.eq_dec a s) as [->|F]; destruct (list_eq_dec Nat.eq_dec (y :: _) (y :: s)); auto; congruence.
    + destruct (list_eq_dec Nat.eq_dec (x :: a) (y :: s)); auto; congruence.
Qed.
Lemma vformat_plain f args n : plain f = Some n -> vformat f args = Ok (n, args).
Proof.
  revert n. induction f as [|[c|] f IH]; intros n H; simpl in *; try congruence.
  destruct (plain f) as [m|]; [|discriminate]. injection H as <-. rewrite (IH m) by auto. reflexivity.
Qed.

Lemma nth_app_new {A} (l : list A) x : nth_error (l ++ [x]) (length l) = Some x.
Proof. rewrite nth_error_app2 by lia. now rewrite Nat.sub_diag. Qed.
Lemma nth_app_old {A} (l : list A) x i y : nth_error l i = Some y -> nth_error (l ++ [x]) i = Some y.
Proof. intros H. rewrite nth_error_app1; auto. apply nth_error_Some. congruence. Qed.
Lemma upd_app_last {A} (l : list A) x y : upd (l ++ [x]) (length l) y = l ++ [y].
Proof. induction l as [|h t IH]; simpl; [reflexivity|]. now rewrite IH. Qed.

(** An entry: what the users see of an object, and the object. *)
Record ent := mke { ea : aobj; eo : ob }.
Definition own (L : list ent) : list nat := flat_map (fun e => [blk (eo e); nm (eo e)]) L.
(** how an object in memory stands for what the users see *)
Record good (h : list (option (list nat))) (obs : list ob) (e : ent) : Prop := mkgood {
  g_obs : nth_error obs (a_h (ea e)) = Some (eo e);
  g_ty : ty (eo e) = a_ty (ea e);
  g_kind : kind (eo e) = a_kind (ea e);
  g_refs : refs (eo e) = a_refs (ea e);
  g_size : osz (eo e) = a_size (ea e);
  g_blk : exists b, nth_error h (blk (eo e)) = Some (Some b) /\ length b = a_size (ea e);
  g_name : exists r, nth_error h (nm (eo e)) = Some (Some (a_name (ea e) ++ 0 :: r));
  g_text : text_ok (a_name (ea e)) = true;
  g_pos : 1 <= a_refs (ea e) }.
Record inv (ss : sst) (s : st) (L : list ent) : Prop := mkinv {
  i_live : live ss = map ea L;
  i_next : length (obs s) = next ss;
  i_nodup : NoDup (map (fun e => a_h (ea e)) L);
  i_lt : forall e, In e L -> a_h (ea e) < next ss;
  i_good : forall e, In e L -> good (hp s) (obs s) e;
  i_list : forall t, lists s t = map a_h (filter (fun a => a_ty a =? t) (live ss));
  i_own : NoDup (own L);
  i_all : forall b, In b (own L) <-> exists c, nth_error (hp s) b = Some (Some c);
  i_chg : chg s = bytes (live ss) }.

Lemma inv0 : inv (mks [] 0) st0 [].
Proof.
  split; simpl; auto; try constructor; try easy. intros [c H]. destruct b; discriminate.
Qed.

Lemma own_in L b : In b (own L) <-> exists e, In e L /\ (b = blk (eo e) \/ b = nm (eo e)).
Proof.
  unfold own. rewrite in_flat_map. split; intros [e [H K]]; exists e; split; auto; simpl in *; intuition.
Qed.
Lemma find_live_map h L a : find_live h (map ea L) = Some a -> exists e, In e L /\ ea e = a /\ a_h a = h.
Proof.
  induction L as [|e L IH]; simpl; [discriminate|]. destruct (Nat.eqb_spec (a_h (ea e)) h) as [E|E].
  - injection 1 as <-. eauto.
  - intros H. destruct (IH H) as (e' & A & B & C). eauto.
Qed.
Lemma own_app L1 L2 : own (L1 ++ L2) = own L1 ++ own L2.
Proof. apply flat_map_app. Qed.
Lemma split_ent L h a : find_live h (map ea L) = Some a -> NoDup (map (fun e => a_h (ea e)) L) ->
  exists L1 e L2, L = L1 ++ e :: L2 /\ ea e = a /\ a_h a = h /\ (forall e', In e' L1 \/ In e' L2 -> a_h (ea e') <> h).
Proof.
  intros F N. destruct (find_live_map _ _ _ F) as (e & I & E & Eh). apply in_split in I as (L1 & L2 & ->).
  exists L1, e, L2. repeat split; auto. rewrite map_app in N. simpl in N. apply NoDup_remove_2 in N.
  intros e' I' X. apply N. rewrite E, Eh, <- X. rewrite <- map_app. apply (in_map (fun e0 => a_h (ea e0))).
  apply in_or_app. tauto.
Qed.
Lemma change_split h f L1 e L2 : a_h (ea e) = h -> (forall e', In e' L1 \/ In e' L2 -> a_h (ea e') <> h) ->
  change h f (map ea (L1 ++ e :: L2)) = map ea L1 ++ f (ea e) :: map ea L2.
Proof.
  intros E N. unfold change. rewrite map_app, map_app. simpl. rewrite E, Nat.eqb_refl. f_equal; [|f_equal].
  - clear - N. induction L1 as [|x L IH]; simpl; auto. rewrite IH by (intros e' [I|I]; apply N; simpl; auto).
    destruct (Nat.eqb_spec (a_h (ea x)) h); auto. exfalso. apply (N x); simpl; auto.
  - clear - N. induction L2 as [|x L IH]; simpl; auto. rewrite IH by (intros e' [I|I]; apply N; simpl; auto).
    destruct (Nat.eqb_spec (a_h (ea x)) h); auto. exfalso. apply (N x); simpl; auto.
Qed.
Lemma drop_split h L1 e L2 : a_h (ea e) = h -> (forall e', In e' L1 \/ In e' L2 -> a_h (ea e') <> h) ->
  drop h (map ea (L1 ++ e :: L2)) = map ea (L1 ++ L2).
Proof.
  intros E N. unfold drop. rewrite map_app, map_app, filter_app. simpl. rewrite E, Nat.eqb_refl. simpl. f_equal.
  - clear - N. induction L1 as [|x L IH]; simpl; auto. rewrite IH by (intros e' [I|I]; apply N; simpl; auto).
    destruct (Nat.eqb_spec (a_h (ea x)) h); auto. exfalso. apply (N x); simpl; auto.
  - clear - N. induction L2 as [|x L IH]; simpl; auto. rewrite IH by (intros e' [I|I]; apply N; simpl; auto).
    destruct (Nat.eqb_spec (a_h (ea x)) h); auto. exfalso. apply (N x); simpl; auto.
Qed.

Lemma good_hp h h' obs obs' e : good h obs e -> nth_error obs' (a_h (ea e)) = nth_error obs (a_h (ea e)) ->
  nth_error h' (blk (eo e)) = nth_error h (blk (eo e)) -> nth_error h' (nm (eo e)) = nth_error h (nm (eo e)) -> good h' obs' e.
Proof. intros [] A B C. split; auto; rewrite ?A, ?B, ?C; auto. Qed.

Lemma good_oget ss s L e : inv ss s L -> In e L -> oget s (a_h (ea e)) = Ok (eo e).
Proof.
  intros I H. destruct (i_good _ _ _ I _ H). unfold oget, bget. rewrite g_obs0. destruct g_blk0 as (b & -> & _). reflexivity.
Qed.
Lemma good_bname ss s L e : inv ss s L -> In e L -> exists r, bget (hp s) (nm (eo e)) = Ok (a_name (ea e) ++ 0 :: r).
Proof.
  intros I H. destruct (i_good _ _ _ I _ H). unfold bget. destruct g_name0 as (r & ->). eauto.
Qed.
Lemma in_hp_lt ss s L b : inv ss s L -> In b (own L) -> b < length (hp s).
Proof. intros I H. apply (i_all _ _ _ I) in H as [c H]. apply nth_error_Some. congruence. Qed.

(** changing one object's fields, or its name *)
Lemma inv_change ss s L1 e L2 a' o' h' : inv ss s (L1 ++ e :: L2) ->
  (forall e', In e' L1 \/ In e' L2 -> a_h (ea e') <> a_h (ea e)) ->
  a_h a' = a_h (ea e) -> a_ty a' = a_ty (ea e) -> a_size a' = a_size (ea e) -> blk o' = blk (eo e) ->
  good h' (upd (obs s) (a_h (ea e)) o') (mke a' o') ->
  (forall b, b <> nm (eo e) -> b <> nm o' -> nth_error h' b = nth_error (hp s) b) ->
  (nm o' = nm (eo e) \/ (nth_error (hp s) (nm o') = None /\ nth_error h' (nm (eo e)) = Some None /\ nm o' <> nm (eo e))) ->
  inv (mks (map ea L1 ++ a' :: map ea L2) (next ss)) (mkst h' (upd (obs s) (a_h (ea e)) o') (lists s) (chg s)) (L1 ++ mke a' o' :: L2).
Proof.
  intros I N Eh Et Es Eb G Hh Hn.
  pose proof (i_own _ _ _ I) as NO. rewrite own_app in NO. cbn [own flat_map] in NO. fold own in NO.
  assert (PO : NoDup (blk (eo e) :: nm (eo e) :: own L1 ++ own L2)).
  { eapply Permutation_NoDup; [|exact NO]. simpl. rewrite <- Permutation_middle. constructor.
    rewrite <- Permutation_middle. reflexivity. }
  assert (Old : forall e', In e' L1 \/ In e' L2 -> In (blk (eo e')) (own L1 ++ own L2) /\ In (nm (eo e')) (own L1 ++ own L2)).
  { intros e' IN. rewrite <- own_app. split; apply own_in; exists e'; split; auto; apply in_or_app; auto. }
  assert (Fresh : forall b, In b (own L1 ++ own L2) -> b <> nm (eo e) /\ b <> nm o' /\ b <> blk (eo e)).
  { intros b IN. inversion PO as [|? ? P1 P2]; subst. inversion P2 as [|? ? P3 P4]; subst.
    assert (b <> nm (eo e)) by congruence. assert (b <> blk (eo e)) by (intros ->; apply P1; simpl; auto).
    repeat split; auto. destruct Hn as [->|(Hn & _)]; auto. intros ->.
    assert (X : In (nm o') (own (L1 ++ e :: L2))).
    { rewrite own_app. simpl. apply in_app_or in IN. apply in_or_app. simpl. tauto. }
    apply (i_all _ _ _ I) in X as [c X]. congruence. }
  split; simpl.
  - now rewrite map_app.
  - rewrite upd_length. apply I.
  - pose proof (i_nodup _ _ _ I) as ND. rewrite map_app in *. simpl in *. now rewrite Eh.
  - intros e' X. apply in_app_or in X. simpl in X. destruct X as [X|[<-|X]]; simpl.
    + apply (i_lt _ _ _ I). apply in_or_app; auto.
    + rewrite Eh. apply (i_lt _ _ _ I). apply in_or_app; simpl; auto.
    + apply (i_lt _ _ _ I). apply in_or_app; simpl; auto.
  - intros e' X. apply in_app_or in X. simpl in X.
    assert (Y : e' = mke a' o' \/ In e' L1 \/ In e' L2) by (destruct X as [X|[X|X]]; auto).
    clear X. destruct Y as [->|Y]; [exact G|].
    destruct (Old _ Y) as [O1 O2]. destruct (Fresh _ O1) as (F1 & F2 & F3). destruct (Fresh _ O2) as (F4 & F5 & F6).
    apply (good_hp (hp s) h' (obs s)).
    + apply (i_good _ _ _ I). apply in_or_app; simpl; tauto.
    + apply nth_error_upd_ne. intros Z. symmetry in Z. exact (N _ Y Z).
    + apply Hh; auto.
    + apply Hh; auto.
  - intros t. rewrite (i_list _ _ _ I), (i_live _ _ _ I). rewrite !map_app, !filter_app. simpl. rewrite Et.
    destruct (a_ty (ea e) =? t); simpl; rewrite !map_app; simpl; now rewrite ?Eh.
  - rewrite own_app. simpl. rewrite Eb. destruct Hn as [->|(Hn & Hf & Hne)]; [exact NO|].
    inversion PO as [|? ? P1 P2]; subst. inversion P2 as [|? ? P3 P4]; subst.
    apply (Permutation_NoDup (l := blk (eo e) :: nm o' :: own L1 ++ own L2)).
    { rewrite <- Permutation_middle. constructor. rewrite <- Permutation_middle. reflexivity. }
    assert (NI : ~ In (nm o') (own (L1 ++ e :: L2))).
    { intros X. apply (i_all _ _ _ I) in X as [c X]. congruence. }
    rewrite own_app in NI. simpl in NI.
    constructor; [|constructor]; auto.
    + simpl. intros [X|X]; [|apply P1; simpl; auto]. apply NI. apply in_or_app. simpl. rewrite X. tauto.
    + intros X. apply NI. apply in_app_or in X. apply in_or_app. simpl. tauto.
  - assert (IO : forall b, In b (own (L1 ++ mke a' o' :: L2)) <-> b = blk (eo e) \/ b = nm o' \/ In b (own L1 ++ own L2)).
    { intros b. rewrite own_app, !in_app_iff. simpl. rewrite Eb. intuition. }
    assert (IO' : forall b, (exists c, nth_error (hp s) b = Some (Some c)) <-> b = blk (eo e) \/ b = nm (eo e) \/ In b (own L1 ++ own L2)).
    { intros b. rewrite <- (i_all _ _ _ I), own_app, !in_app_iff. simpl. intuition. }
    intros b. rewrite IO. destruct (Nat.eq_dec b (nm o')) as [->|N1].
    { split; intros _; auto. destruct (g_name _ _ _ G) as [r X]. simpl in X. rewrite X. eauto. }
    destruct (Nat.eq_dec b (nm (eo e))) as [->|N2].
    { destruct Hn as [Hn|(Hn & Hf & Hne)]; [congruence|]. rewrite Hf. split; [|intros [c X]; discriminate].
      inversion PO as [|? ? P1 P2]; subst. inversion P2 as [|? ? P3 P4]; subst.
      intros [X|[X|X]]; exfalso; [apply P1; simpl; auto|congruence|easy]. }
    rewrite Hh by auto. rewrite IO'. intuition.
  - rewrite (i_chg _ _ _ I), (i_live _ _ _ I), map_app. simpl. clear - Es.
    induction (map ea L1) as [|x l IH]; simpl; [now rewrite Es|lia].
Qed.

(** a fresh block *)
Lemma bget_some h b l : bget h b = Ok l <-> nth_error h b = Some (Some l).
Proof. unfold bget. destruct (nth_error h b) as [[x|]|]; split; congruence. Qed.

Lemma zero_len usz size l l' : zero usz size l = Ok l' -> length l' = length l.
Proof.
  unfold zero. destruct (Nat.ltb_spec (Nat.min size usz) HDR); [discriminate|].
  destruct (Nat.ltb_spec (length l) (Nat.min size usz)); [discriminate|].
  intros E. assert (l' = firstn HDR l ++ repeat 0 (Nat.min size usz - HDR) ++ skipn (Nat.min size usz) l) as -> by congruence.
  rewrite !app_length, firstn_length, repeat_length, skipn_length. lia.
Qed.
Lemma zero_ok usz size l : HDR <= usz -> HDR <= size -> length l = size ->
  zero usz size l = Ok (firstn HDR l ++ repeat 0 (Nat.min size usz - HDR) ++ skipn (Nat.min size usz) l).
Proof.
  intros A B C. unfold zero. destruct (Nat.ltb_spec (Nat.min size usz) HDR); [lia|].
  destruct (Nat.ltb_spec (length l) (Nat.min size usz)); [lia|]. reflexivity.
Qed.
Lemma balloc_len h n s : length (balloc h n s) = S (length h).
Proof. unfold balloc. rewrite app_length. simpl. lia. Qed.

Lemma walk_ok s t name k : match name with Some n => text_ok n = true | None => True end ->
  forall L, (forall e, In e L -> good (hp s) (obs s) e) ->
  walk s (map a_h (filter (fun a => a_ty a =? t) (map ea L))) name k = Ok (newest t name k (map ea L)).
Proof.
  intros T. induction L as [|e L IH]; intros G; [reflexivity|].
  assert (IH' := IH (fun e' X => G e' (or_intror X))). clear IH.
  destruct (G e (or_introl eq_refl)). unfold newest in *. cbn [map filter find].
  destruct (Nat.eqb_spec (a_ty (ea e)) t) as [Et|Et]; cbn [andb]; [|exact IH'].
  cbn [map walk]. unfold oget. rewrite g_obs0. unfold bget at 1. destruct g_blk0 as (b & -> & _). cbn [bind].
  rewrite g_kind0. rewrite <- negb_orb. destruct ((k =? 0) || (k =? a_kind (ea e))); cbn [negb andb]; [|exact IH'].
  destruct name as [n|]; [|reflexivity].
  unfold bget at 1. destruct g_name0 as (r & ->). cbn [bind]. rewrite c_eq_text by auto. cbn [bind].
  destruct (list_eq_dec Nat.eq_dec n (a_name (ea e))); [reflexivity|exact IH'].
Qed.
Lemma step_ok usz ss s L x ss' r : HDR <= usz -> inv ss s L -> sstep ss x = Some (ss', r) ->
  exists s' L', step usz s x = Ok (s', r) /\ inv ss' s' L'.
Proof.
  intros HU I E. destruct x as [t name size rc s1 s2 ok1 ok2|h k|h f args s1 ok1|h|h|name k|name]; simpl in E.
  - (* register *)
    destruct ok1, ok2; simpl in E; try discriminate.
    destruct (text_ok name) eqn:T; simpl in E; [|discriminate].
    destruct (Nat.leb_spec HDR size) as [HS|HS]; cbn [andb] in E; [|discriminate].
    destruct rc as [|rc]; [discriminate|]. assert (HR : 1 <= S rc) by lia. set (rc1 := S rc) in *.
    injection E as <- <-. cbn [step]. cbn [negb hp obs lists chg].
    set (h1 := balloc (hp s) size s1). set (h2 := balloc h1 (length name + 1) s2).
    assert (B2 : bget h2 (length h1) = Ok (map s2 (seq 0 (length name + 1)))).
    { apply bget_some. unfold h2, balloc. apply nth_app_new. }
    rewrite B2. cbn [bind]. unfold c_put. rewrite store_ok by (rewrite map_length, seq_length, app_length; simpl; lia).
    cbn [bind]. set (nb := (name ++ [0]) ++ skipn (length (name ++ [0])) (map s2 (seq 0 (length name + 1)))).
    assert (NB : nb = name ++ 0 :: []).
    { unfold nb. rewrite skipn_all2 by (rewrite map_length, seq_length, app_length; simpl; lia). now rewrite app_nil_r. }
    unfold bput at 1. rewrite B2. cbn [bind].
    assert (U2 : upd h2 (length h1) (Some nb) = h1 ++ [Some nb]) by (unfold h2, balloc; apply upd_app_last).
    rewrite U2. set (h3 := h1 ++ [Some nb]).
    assert (B3 : nth_error h3 (length (hp s)) = Some (Some (map s1 (seq 0 size)))).
    { unfold h3. apply nth_app_old. unfold h1, balloc. apply nth_app_new. }
    pose proof (proj2 (bget_some _ _ _) B3) as B3'. rewrite B3'. cbn [bind].
    rewrite zero_ok by (auto; now rewrite map_length, seq_length). cbn [bind].
    unfold bput. rewrite B3'. cbn [bind].
    set (zb := firstn HDR _ ++ _).
    assert (ZL : length zb = size).
    { assert (Z : zero usz size (map s1 (seq 0 size)) = Ok zb) by (apply zero_ok; auto; now rewrite map_length, seq_length).
      apply zero_len in Z. now rewrite Z, map_length, seq_length. }
    set (h4 := upd h3 (length (hp s)) (Some zb)).
    assert (L1 : length h1 = S (length (hp s))) by apply balloc_len.
    assert (L3 : length h3 = S (S (length (hp s)))) by (unfold h3; rewrite app_length, L1; simpl; lia).
    assert (Old : forall b, b < length (hp s) -> nth_error h4 b = nth_error (hp s) b).
    { intros b Hb. unfold h4. rewrite nth_error_upd_ne by lia. unfold h3, h1, balloc.
      rewrite nth_error_app1 by (rewrite app_length; lia). now rewrite nth_error_app1. }
    assert (N0 : nth_error h4 (length (hp s)) = Some (Some zb)).
    { unfold h4. apply nth_error_upd_eq. lia. }
    assert (N1 : nth_error h4 (length h1) = Some (Some nb)).
    { unfold h4. rewrite nth_error_upd_ne by lia. unfold h3. apply nth_app_new. }
    assert (H4 : length h4 = S (S (length (hp s)))) by (unfold h4; rewrite upd_length; auto).
    eexists. set (a := mka (next ss) t name 0 rc1 size). set (o := mkob (length (hp s)) (length h1) t 0 rc1 size).
    exists (mke a o :: L). rewrite (i_next _ _ _ I). split; [reflexivity|].
    split; cbn [live next hp obs lists chg map ea].
    + now rewrite (i_live _ _ _ I).
    + rewrite app_length, (i_next _ _ _ I). simpl. lia.
    + constructor; [|apply I]. rewrite in_map_iff. intros (e & X & Y). apply (i_lt _ _ _ I) in Y. simpl in X. lia.
    + intros e [<-|X]; simpl; [lia|]. apply (i_lt _ _ _ I) in X. lia.
    + intros e [<-|X].
      * split; simpl; auto.
        -- rewrite <- (i_next _ _ _ I). apply nth_app_new.
        -- exists zb. auto.
        -- exists []. now rewrite N1, NB.
      * pose proof (i_good _ _ _ I _ X) as G. apply (good_hp (hp s) h4 (obs s)); auto.
        -- destruct G. rewrite g_obs0. now apply nth_app_old.
        -- apply Old. eapply in_hp_lt; [exact I|]. apply own_in; eauto.
        -- apply Old. eapply in_hp_lt; [exact I|]. apply own_in; eauto.
    + intros t'. unfold lset. simpl. rewrite (Nat.eqb_sym t t'). destruct (Nat.eqb_spec t' t) as [->|NE]; [simpl|]; now rewrite ?(i_list _ _ _ I).
    + simpl. constructor; [|constructor].
      * intros [X|X]; [lia|]. eapply in_hp_lt in X; [|exact I]. lia.
      * intros X. eapply in_hp_lt in X; [|exact I]. lia.
      * apply I.
    + intros b. cbn [own flat_map eo]. fold own. simpl. destruct (Nat.eq_dec b (length (hp s))) as [->|X0]; [split; eauto|].
      destruct (Nat.eq_dec b (length h1)) as [->|X1]; [split; eauto|].
      destruct (Nat.lt_ge_cases b (length (hp s))) as [X|X].
      * rewrite Old by auto. rewrite <- (i_all _ _ _ I). unfold own. intuition lia.
      * split.
        -- intros [Y|[Y|Y]]; try lia. eapply in_hp_lt in Y; [|exact I]. lia.
        -- intros [c Y]. assert (b < length h4) by (apply nth_error_Some; congruence). lia.
    + simpl. rewrite (i_chg _ _ _ I). lia.
  - (* kind *)
    destruct (find_live h (live ss)) as [a|] eqn:F; [|discriminate]. injection E as <- <-.
    rewrite (i_live _ _ _ I) in *. destruct (split_ent _ _ _ F (i_nodup _ _ _ I)) as (L1 & e & L2 & -> & <- & <- & N).
    cbn [step]. rewrite (good_oget _ _ _ e I) by (apply in_or_app; simpl; auto). cbn [bind].
    rewrite change_split by auto. do 2 eexists. split; [reflexivity|].
    destruct (i_good _ _ _ I e) as []; [apply in_or_app; simpl; auto|].
    apply inv_change; auto.
    split; simpl; auto. apply nth_error_upd_eq. apply nth_error_Some. congruence.
  - (* rename *)
    destruct (find_live h (live ss)) as [a|] eqn:F; [|discriminate].
    destruct (plain f) as [n|] eqn:P; [|discriminate]. destruct ok1; [|discriminate]. cbn [andb] in E.
    destruct (text_ok n) eqn:T; [|discriminate]. injection E as <- <-.
    rewrite (i_live _ _ _ I) in *. destruct (split_ent _ _ _ F (i_nodup _ _ _ I)) as (L1 & e & L2 & -> & <- & <- & N).
    assert (IN : In e (L1 ++ e :: L2)) by (apply in_or_app; simpl; auto).
    cbn [step]. rewrite (vformat_plain _ _ _ P). cbn [bind]. rewrite (good_oget _ _ _ e I IN). cbn [bind].
    destruct (good_bname _ _ _ e I IN) as [r B]. rewrite B. cbn [bind].
    pose proof (i_good _ _ _ I e IN) as G. destruct (i_good _ _ _ I e IN) as [].
    rewrite c_len_text by auto. cbn [bind negb]. rewrite change_split by auto.
    pose proof (proj1 (bget_some _ _ _) B) as B'.
    assert (Lt : nm (eo e) < length (hp s)) by (apply nth_error_Some; congruence).
    assert (Lo : a_h (ea e) < length (obs s)) by (apply nth_error_Some; congruence).
    assert (Bn : blk (eo e) <> nm (eo e)).
    { pose proof (i_own _ _ _ I) as NO. rewrite own_app in NO. simpl in NO. apply NoDup_remove_2 in NO.
      intros X. apply NO. apply in_or_app. simpl. rewrite <- X. auto. }
    destruct (Nat.ltb_spec (length (a_name (ea e))) (length n)) as [X|X].
    + unfold bfree. rewrite B. cbn [bind]. set (h1 := upd (hp s) (nm (eo e)) None).
      set (h2 := balloc h1 (length n + 1) s1). rewrite (vformat_plain _ _ _ P). cbn [bind].
      assert (B2 : bget h2 (length h1) = Ok (map s1 (seq 0 (length n + 1)))).
      { apply bget_some. unfold h2, balloc. apply nth_app_new. }
      rewrite B2. cbn [bind]. unfold c_put. rewrite store_ok by (rewrite map_length, seq_length, app_length; simpl; lia).
      cbn [bind]. set (nb := (n ++ [0]) ++ skipn (length (n ++ [0])) (map s1 (seq 0 (length n + 1)))).
      unfold bput. rewrite B2. cbn [bind].
      assert (U2 : upd h2 (length h1) (Some nb) = h1 ++ [Some nb]) by (unfold h2, balloc; apply upd_app_last). rewrite U2.
      assert (Lh1 : length h1 = length (hp s)) by (unfold h1; apply upd_length).
      assert (Oth : forall b, b <> nm (eo e) -> b <> length h1 -> nth_error (h1 ++ [Some nb]) b = nth_error (hp s) b).
      { intros b Y1 Y2. destruct (Nat.lt_ge_cases b (length h1)) as [Z|Z].
        - rewrite nth_error_app1 by auto. unfold h1. now rewrite nth_error_upd_ne by congruence.
        - rewrite (proj2 (nth_error_None (hp s) b)) by lia. apply nth_error_None. rewrite app_length; simpl; lia. }
      do 2 eexists. split; [reflexivity|]. apply inv_change; cbn [a_h a_ty a_size blk nm]; auto.
      * split; simpl; auto.
        -- now apply nth_error_upd_eq.
        -- destruct g_blk0 as (b & Z1 & Z2). exists b. split; auto. rewrite Oth; auto.
           assert (blk (eo e) < length (hp s)) by (apply nth_error_Some; congruence). lia.
        -- exists (skipn (length (n ++ [0])) (map s1 (seq 0 (length n + 1)))). rewrite nth_app_new. unfold nb. now rewrite <- app_assoc.
      * right. repeat split.
        -- apply nth_error_None. lia.
        -- rewrite nth_error_app1 by lia. unfold h1. now apply nth_error_upd_eq.
        -- lia.
    + rewrite (vformat_plain _ _ _ P). cbn [bind]. unfold c_put.
      rewrite store_ok by (rewrite !app_length; simpl; lia). cbn [bind].
      set (nb := (n ++ [0]) ++ skipn (length (n ++ [0])) (a_name (ea e) ++ 0 :: r)).
      unfold bput. rewrite B. cbn [bind].
      assert (UO : obs s = upd (obs s) (a_h (ea e)) (mkob (blk (eo e)) (nm (eo e)) (ty (eo e)) (kind (eo e)) (refs (eo e)) (osz (eo e)))).
      { apply nth_error_split in g_obs0 as (l1 & l2 & Q & Ql). rewrite <- Ql, Q. clear. destruct (eo e).
        induction l1 as [|y l1 IH]; simpl; [reflexivity|]. f_equal. exact IH. }
      do 2 eexists. split; [reflexivity|]. rewrite UO at 1.
      apply inv_change; cbn [a_h a_ty a_size blk nm]; auto.
      * split; simpl; auto.
        -- now apply nth_error_upd_eq.
        -- destruct g_blk0 as (b & Z1 & Z2). exists b. split; auto. rewrite nth_error_upd_ne; auto.
        -- exists (skipn (length (n ++ [0])) (a_name (ea e) ++ 0 :: r)). rewrite nth_error_upd_eq by auto. unfold nb. now rewrite <- app_assoc.
      * intros b Y1 _. apply nth_error_upd_ne. congruence.
  - (* inc *)
    destruct (find_live h (live ss)) as [a|] eqn:F; [|discriminate]. injection E as <- <-.
    rewrite (i_live _ _ _ I) in *. destruct (split_ent _ _ _ F (i_nodup _ _ _ I)) as (L1 & e & L2 & -> & <- & <- & N).
    cbn [step]. rewrite (good_oget _ _ _ e I) by (apply in_or_app; simpl; auto). cbn [bind].
    rewrite change_split by auto. do 2 eexists. split; [reflexivity|].
    destruct (i_good _ _ _ I e) as []; [apply in_or_app; simpl; auto|].
    apply inv_change; auto.
    split; simpl; auto; try congruence; try lia. apply nth_error_upd_eq. apply nth_error_Some. congruence.
  - (* dec *)
    destruct (find_live h (live ss)) as [a|] eqn:F; [|discriminate].
    rewrite (i_live _ _ _ I) in *. destruct (split_ent _ _ _ F (i_nodup _ _ _ I)) as (L1 & e & L2 & -> & <- & <- & N).
    assert (IN : In e (L1 ++ e :: L2)) by (apply in_or_app; simpl; auto).
    cbn [step]. rewrite (good_oget _ _ _ e I IN). cbn [bind].
    destruct (i_good _ _ _ I e IN) as []. rewrite g_refs0.
    destruct (a_refs (ea e)) as [|[|q]] eqn:Q; [discriminate| |].
    + injection E as <- <-. rewrite drop_split by auto.
      destruct (good_bname _ _ _ e I IN) as [r B]. destruct g_blk0 as (zb & Zb & _).
      pose proof (i_own _ _ _ I) as NO. rewrite own_app in NO. cbn [own flat_map] in NO. fold own in NO.
      assert (PO : NoDup (blk (eo e) :: nm (eo e) :: own L1 ++ own L2)).
      { eapply Permutation_NoDup; [|exact NO]. simpl. rewrite <- Permutation_middle. constructor.
        rewrite <- Permutation_middle. reflexivity. }
      inversion PO as [|? ? P1 P2]; subst. inversion P2 as [|? ? P3 P4]; subst.
      assert (Bn : blk (eo e) <> nm (eo e)) by (intros X; apply P1; simpl; auto).
      unfold bfree at 1. rewrite B. cbn [bind]. unfold bfree.
      assert (B2 : bget (upd (hp s) (nm (eo e)) None) (blk (eo e)) = Ok zb).
      { apply bget_some. rewrite nth_error_upd_ne; auto. }
      rewrite B2. cbn [bind]. eexists. exists (L1 ++ L2). split; [reflexivity|].
      pose proof (proj1 (bget_some _ _ _) B) as B'.
      assert (Ln : nm (eo e) < length (hp s)) by (apply nth_error_Some; congruence).
      assert (Lb : blk (eo e) < length (hp s)) by (apply nth_error_Some; congruence).
      set (h2 := upd (upd (hp s) (nm (eo e)) None) (blk (eo e)) None).
      assert (Oth : forall b, b <> nm (eo e) -> b <> blk (eo e) -> nth_error h2 b = nth_error (hp s) b).
      { intros b Y1 Y2. unfold h2. rewrite !nth_error_upd_ne; auto. }
      assert (Gn : nth_error h2 (nm (eo e)) = Some None).
      { unfold h2. rewrite nth_error_upd_ne by auto. now apply nth_error_upd_eq. }
      assert (Gb : nth_error h2 (blk (eo e)) = Some None).
      { unfold h2. apply nth_error_upd_eq. now rewrite upd_length. }
      split; cbn [live next hp obs lists chg].
      * reflexivity.
      * rewrite upd_length. apply I.
      * pose proof (i_nodup _ _ _ I) as ND. rewrite map_app in *. simpl in ND. now apply NoDup_remove_1 in ND.
      * intros e' X. apply (i_lt _ _ _ I). apply in_app_or in X. apply in_or_app. simpl. tauto.
      * intros e' X. assert (Y : In e' L1 \/ In e' L2) by now apply in_app_or.
        assert (O : In (blk (eo e')) (own L1 ++ own L2) /\ In (nm (eo e')) (own L1 ++ own L2)).
        { rewrite <- own_app. split; apply own_in; eauto. }
        destruct O as [O1 O2].
        apply (good_hp (hp s) h2 (obs s)).
        -- apply (i_good _ _ _ I). apply in_or_app. simpl. tauto.
        -- apply nth_error_upd_ne. intros Z. symmetry in Z. exact (N _ Y Z).
        -- apply Oth; intros Z; rewrite Z in O1; [now apply P3|apply P1; simpl; auto].
        -- apply Oth; intros Z; rewrite Z in O2; [now apply P3|apply P1; simpl; auto].
      * intros t. unfold lset. rewrite !(i_list _ _ _ I), (i_live _ _ _ I), g_ty0.
        rewrite !map_app, !filter_app. simpl.
        assert (RM : forall l, (forall e', In e' l -> a_h (ea e') <> a_h (ea e)) ->
                remove Nat.eq_dec (a_h (ea e)) (map a_h (filter (fun a => a_ty a =? a_ty (ea e)) (map ea l))) =
                map a_h (filter (fun a => a_ty a =? a_ty (ea e)) (map ea l))).
        { intros l Hl. apply notin_remove. rewrite in_map_iff. intros (a & Ya & Yb). apply filter_In in Yb as [Yb _].
          apply in_map_iff in Yb as (e' & <- & Ye). exact (Hl _ Ye Ya). }
        destruct (Nat.eqb_spec t (a_ty (ea e))) as [->|NE].
        -- rewrite Nat.eqb_refl. rewrite !map_app. simpl. rewrite remove_app. simpl.
           destruct (Nat.eq_dec (a_h (ea e)) (a_h (ea e))); [|easy]. rewrite !RM by auto. reflexivity.
        -- destruct (Nat.eqb_spec (a_ty (ea e)) t); [congruence|]. reflexivity.
      * now rewrite own_app.
      * intros b. rewrite own_app. destruct (Nat.eq_dec b (nm (eo e))) as [->|Y1].
        { rewrite Gn. split; [easy|intros [c X]; discriminate]. }
        destruct (Nat.eq_dec b (blk (eo e))) as [->|Y2].
        { rewrite Gb. split; [|intros [c X]; discriminate]. intros X. exfalso. apply P1. simpl; auto. }
        rewrite Oth by auto. rewrite <- (i_all _ _ _ I), own_app, !in_app_iff. simpl. unfold own. intuition congruence.
      * rewrite (i_chg _ _ _ I), (i_live _ _ _ I), g_size0, !map_app. simpl. clear.
        induction (map ea L1) as [|x l IH]; simpl; [lia|].
        assert (a_size (ea e) <= bytes (l ++ ea e :: map ea L2)); [|lia].
        clear. induction l; simpl; lia.
    + injection E as <- <-. rewrite change_split by auto. do 2 eexists. split; [reflexivity|].
      apply inv_change; auto.
      split; simpl; auto; try lia. apply nth_error_upd_eq. apply nth_error_Some. congruence.
  - (* find_accel *)
    assert (W : match name with Some n => text_ok n = true | None => True end ->
                walk s (lists s PHYS) name k = Ok (newest PHYS name k (live ss))).
    { intros T. rewrite (i_list _ _ _ I), (i_live _ _ _ I). apply walk_ok; auto. apply I. }
    exists s, L. cbn [step].
    destruct name as [n|]; [destruct (text_ok n) eqn:T; [|discriminate]|];
      injection E as <- <-; rewrite W by auto; auto.
  - (* find_proc *)
    destruct (text_ok name) eqn:T; [|discriminate]. injection E as <- <-. exists s, L. cbn [step].
    rewrite (i_list _ _ _ I), (i_live _ _ _ I), walk_ok; auto. apply I.
Qed.
Lemma run_ok usz l : HDR <= usz -> forall ss s L ss' rs, inv ss s L -> srun ss l = Some (ss', rs) ->
  exists s' L', run usz s l = Ok (s', rs) /\ inv ss' s' L'.
Proof.
  intros HU. induction l as [|x l IH]; intros ss s L ss' rs I E; simpl in E.
  - injection E as <- <-. exists s, L. auto.
  - destruct (sstep ss x) as [[s1 r]|] eqn:E1; [|discriminate]. destruct (srun s1 l) as [[s2 rs']|] eqn:E2; [|discriminate].
    injection E as <- <-. destruct (step_ok _ _ _ _ _ _ _ HU I E1) as (s1' & L1 & R1 & I1).
    destruct (IH _ _ _ _ _ I1 E2) as (s2' & L2 & R2 & I2). exists s2', L2. split; auto. simpl. rewrite R1. simpl. rewrite R2. reflexivity.
Qed.

(** counting blocks *)
Lemma count_live h l : NoDup l -> (forall b, In b l <-> exists c, nth_error h b = Some (Some c : option (list nat))) ->
  length (filter (fun b : option (list nat) => match b with Some _ => true | None => false end) h) = length l.
Proof.
  revert l. induction h as [|x h IH] using rev_ind; intros l N H.
  - destruct l as [|y l]; auto. destruct (proj1 (H y) (or_introl eq_refl)) as [c X]. destruct y; discriminate.
  - rewrite filter_app, app_length. simpl. destruct x as [c|]; simpl.
    + assert (IL : In (length h) l) by (apply H; exists c; apply nth_app_new).
      apply in_split in IL as (l1 & l2 & ->). rewrite (IH (l1 ++ l2)).
      * rewrite !app_length. simpl. lia.
      * now apply NoDup_remove_1 in N.
      * apply NoDup_remove_2 in N. intros b. split.
        -- intros X. assert (Y : In b (l1 ++ length h :: l2)) by (apply in_app_or in X; apply in_or_app; simpl; tauto).
           apply H in Y as [c' Y]. exists c'. rewrite <- Y. symmetry. apply nth_error_app1.
           assert (Z : b < length (h ++ [Some c])) by (apply nth_error_Some; congruence). rewrite app_length in Z. simpl in Z.
           assert (b <> length h) by congruence. lia.
        -- intros [c' X]. assert (Y : In b (l1 ++ length h :: l2)) by (apply H; exists c'; now apply nth_app_old).
           apply in_app_or in Y. apply in_or_app. simpl in Y. destruct Y as [Y|[Y|Y]]; auto.
           exfalso. assert (b < length h) by (apply nth_error_Some; congruence). lia.
    + rewrite Nat.add_0_r. apply IH; auto. intros b. rewrite H. split; intros [c X]; exists c.
      * rewrite <- X. symmetry. apply nth_error_app1.
        assert (Z : b < length (h ++ [None])) by (apply nth_error_Some; congruence). rewrite app_length in Z. simpl in Z.
        assert (b <> length h); [|lia]. intros ->. rewrite nth_app_new in X. discriminate.
      * now apply nth_app_old.
Qed.
Lemma own_len L : length (own L) = 2 * length L.
Proof. induction L; simpl in *; lia. Qed.

(** ** Theorems *)
(** Every use of the API by the rules: no call fails or touches memory it may not touch, every answer is the specified one; every
    object that exists has exactly the name it was given last, in memory; the heap holds two blocks per object and nothing else; the
    throttle is charged the sizes of the objects (and nothing for their names). *)
Theorem C71_names_and_blocks usz l ss rs : HDR <= usz -> srun (mks [] 0) l = Some (ss, rs) ->
  exists s, run usz st0 l = Ok (s, rs) /\
    (forall a, In a (live ss) -> name_of s (a_h a) = Ok (a_name a)) /\
    blocks s = 2 * length (live ss) /\ chg s = bytes (live ss).
Proof.
  intros HU E. destruct (run_ok _ _ HU _ _ _ _ _ inv0 E) as (s & L & R & I). exists s. split; [exact R|]. split; [|split].
  - intros a IN. rewrite (i_live _ _ _ I) in IN. apply in_map_iff in IN as (e & <- & IN). unfold name_of.
    rewrite (good_oget _ _ _ e I IN). simpl. destruct (good_bname _ _ _ e I IN) as [r B]. rewrite B. simpl.
    apply c_text_text. apply (i_good _ _ _ I e IN).
  - unfold blocks. rewrite (count_live _ (own L) (i_own _ _ _ I) (i_all _ _ _ I)). rewrite own_len, (i_live _ _ _ I), map_length. reflexivity.
  - apply I.
Qed.
(** When everything was released, the heap is empty again and nothing is charged. *)
Theorem C71_no_leak usz l n rs : HDR <= usz -> srun (mks [] 0) l = Some (mks [] n, rs) ->
  exists s, run usz st0 l = Ok (s, rs) /\ blocks s = 0 /\ chg s = 0.
Proof.
  intros HU E. destruct (C71_names_and_blocks _ _ _ _ HU E) as (s & R & _ & B & C). exists s. auto.
Qed.

(** A new object's fixed fields start as zero; what is beyond the largest of the five object structures keeps what the memory held. *)
Theorem C71_new_object_zeroed usz s t name size rc s1 s2 s' h : HDR <= usz -> HDR <= size ->
  step usz s (Reg t name size rc s1 s2 true true) = Ok (s', Handle (Some h)) ->
  exists o b, nth_error (obs s') h = Some o /\ nth_error (hp s') (blk o) = Some (Some b) /\ length b = size /\ refs o = rc /\ ty o = t /\
    forall i, i < size -> nth i b 0 = if (HDR <=? i) && (i <? usz) then 0 else s1 i.
Proof.
  intros HU HS E. cbn [step negb hp obs lists chg] in E.
  set (h1 := balloc (hp s) size s1) in *. set (h2 := balloc h1 (length name + 1) s2) in *.
  assert (B2 : bget h2 (length h1) = Ok (map s2 (seq 0 (length name + 1)))).
  { apply bget_some. unfold h2, balloc. apply nth_app_new. }
  rewrite B2 in E. cbn [bind] in E. unfold c_put in E.
  rewrite store_ok in E by (rewrite map_length, seq_length, app_length; simpl; lia). cbn [bind] in E. unfold bput at 1 in E.
  rewrite B2 in E. cbn [bind] in E.
  match type of E with context [upd h2 (length h1) (Some ?x)] => set (nb := x) in E end.
  assert (U2 : upd h2 (length h1) (Some nb) = h1 ++ [Some nb]) by (unfold h2, balloc; apply upd_app_last).
  rewrite U2 in E. set (h3 := h1 ++ [Some nb]) in *.
  assert (B3 : nth_error h3 (length (hp s)) = Some (Some (map s1 (seq 0 size)))).
  { unfold h3. apply nth_app_old. unfold h1, balloc. apply nth_app_new. }
  pose proof (proj2 (bget_some _ _ _) B3) as B3'. rewrite B3' in E. cbn [bind] in E.
  rewrite zero_ok in E by (auto; now rewrite map_length, seq_length). cbn [bind] in E.
  unfold bput in E. rewrite B3' in E. cbn [bind] in E.
  match type of E with Ok (mkst (upd h3 (length (hp s)) (Some ?x)) _ _ _, _) = _ => set (zb := x) in E end.
  assert (ZL : length zb = size).
  { assert (Z : zero usz size (map s1 (seq 0 size)) = Ok zb) by (apply zero_ok; auto; now rewrite map_length, seq_length).
    apply zero_len in Z. now rewrite Z, map_length, seq_length. }
  assert (Es : s' = mkst (upd h3 (length (hp s)) (Some zb)) (obs s ++ [mkob (length (hp s)) (length h1) t 0 rc size])
                 (lset (lists s) t (length (obs s) :: lists s t)) (chg s + size)) by congruence.
  assert (Eh : h = length (obs s)) by congruence. subst s' h. cbn [obs hp].
  exists (mkob (length (hp s)) (length h1) t 0 rc size), zb. cbn [blk refs ty].
  split; [apply nth_app_new|]. split; [apply nth_error_upd_eq; apply nth_error_Some; congruence|].
  repeat split; auto. intros i Hi. subst zb.
  assert (LM : length (map s1 (seq 0 size)) = size) by now rewrite map_length, seq_length.
  assert (NM : nth i (map s1 (seq 0 size)) 0 = s1 i).
  { rewrite (nth_indep _ 0 (s1 0)) by lia. rewrite (map_nth s1). now rewrite seq_nth. }
  destruct (Nat.leb_spec HDR i) as [A|A]; cbn [andb].
  - rewrite app_nth2 by (rewrite firstn_length; lia). rewrite firstn_length, LM, (Nat.min_l HDR size) by lia.
    destruct (Nat.ltb_spec i usz) as [B|B].
    + rewrite app_nth1 by (rewrite repeat_length; lia). apply nth_repeat.
    + rewrite app_nth2 by (rewrite repeat_length; lia). rewrite repeat_length.
      rewrite <- NM at 1. rewrite <- (firstn_skipn (Nat.min size usz) (map s1 (seq 0 size))) at 2.
      rewrite (app_nth2 (firstn _ _)) by (rewrite firstn_length; lia). f_equal. rewrite firstn_length. lia.
  - rewrite app_nth1 by (rewrite firstn_length; lia). rewrite <- NM at 1.
    rewrite <- (firstn_skipn HDR (map s1 (seq 0 size))) at 2. rewrite app_nth1; auto. rewrite firstn_length; lia.
Qed.

(** Refuted: a name cannot be given by a format with a conversion.  With exactly the arguments that the format asks for, every such
    call reads beyond its arguments: the list was used up when the length was computed. *)
Lemma vformat_nil f : plain f = None -> vformat f [] = UB.
Proof.
  induction f as [|[c|] f IH]; simpl; try discriminate; auto. destruct (plain f); [discriminate|]. intros _. now rewrite IH.
Qed.
Theorem C71_format_refuted usz s h f args s1 ok1 t : plain f = None -> vformat f args = Ok (t, []) ->
  step usz s (Ren h f args s1 ok1) = UB.
Proof.
  intros P V. cbn [step]. rewrite V. cbn [bind]. unfold oget, bget.
  destruct (nth_error (obs s) h) as [o|]; [|reflexivity]. destruct (nth_error (hp s) (blk o)) as [[x|]|]; try reflexivity. cbn [bind].
  destruct (nth_error (hp s) (nm o)) as [[b|]|]; try reflexivity. cbn [bind].
  assert (L : c_len b = UB \/ exists n, c_len b = Ok n).
  { clear. induction b as [|y b IH]; simpl; auto. destruct y; eauto. destruct IH as [->|[n ->]]; simpl; eauto. }
  destruct L as [->|[n ->]]; [reflexivity|]. cbn [bind]. rewrite vformat_nil by auto.
  destruct (n <? length t); [|reflexivity]. unfold bfree, bget.
  destruct (nth_error (hp s) (nm o)) as [[z|]|]; cbn [bind]; try reflexivity. now destruct ok1.
Qed.

(** ** Cases *)
(** "gpu", "cpu", "nano9", "abcdef" *)
Definition gpu := [103;112;117]. Definition cpu := [99;112;117]. Definition nano := [110;97;110;111;57]. Definition abcdef := [97;98;99;100;101;102].
Definition reg t n := Reg t n 80 1 (fun i => 7 + i) (fun i => 200 + i) true true.
(** Two accelerators and a procedure; names grow and shrink; a lookup by name, by kind and by both; everything released. *)
Definition case : list op :=
  [reg PHYS gpu; Kind 0 1; reg PHYS gpu; Kind 1 2; reg PROC cpu;
   FindAccel (Some gpu) 0; FindAccel (Some gpu) 1; FindAccel None 2;
   Ren 1 (map Lit abcdef) [] (fun _ => 65) true; FindAccel (Some gpu) 0; FindAccel (Some abcdef) 2;
   Ren 1 (map Lit cpu) [] (fun _ => 65) true; Ren 1 (map Lit nano) [] (fun _ => 65) true; FindAccel (Some nano) 0; FindProc cpu; FindProc gpu].
Example C71_case : srun (mks [] 0) case =
  Some (mks [mka 2 PROC cpu 0 1 80; mka 1 PHYS nano 2 1 80; mka 0 PHYS gpu 1 1 80] 3,
        [Handle (Some 0); Void; Handle (Some 1); Void; Handle (Some 2);
         Handle (Some 1); Handle (Some 0); Handle (Some 1);
         Void; Handle (Some 0); Handle (Some 1); Void; Void; Handle (Some 1); Handle (Some 2); Handle None]).
Proof. vm_compute. reflexivity. Qed.
Example C71_case_released : srun (mks [] 0) (case ++ [Inc 1; Dec 0; Dec 1; Dec 2; Dec 1]) <> None /\
  match srun (mks [] 0) (case ++ [Inc 1; Dec 0; Dec 1; Dec 2; Dec 1]) with Some (mks [] 3, _) => True | _ => False end.
Proof. split; [vm_compute; discriminate|vm_compute; exact I]. Qed.
(** The documented use, "%s" with one argument, is such a call. *)
Example C71_format_case : plain [Str] = None /\ vformat [Str] [gpu] = Ok (gpu, []).
Proof. split; reflexivity. Qed.
(** Refuted: with surplus arguments the name is the wrong one (the second argument), or its bytes are stored beyond the end of the block. *)
Theorem C71_format_wrong_text_refuted :
  match run 200 st0 [reg PHYS gpu; Ren 0 [Str] [cpu; gpu] (fun _ => 0) true] with
  | Ok (s, _) => name_of s 0 = Ok gpu /\ gpu <> cpu | _ => False end /\
  run 200 st0 [reg PHYS gpu; Ren 0 [Str] [cpu; abcdef] (fun _ => 0) true] = UB.
Proof. split; [vm_compute; split; [reflexivity|discriminate]|vm_compute; reflexivity]. Qed.
(** Refuted: without memory for the object, the caller is told, but the bytes stay charged; without memory for the name (of any object, in
    any state), strcpy stores through a null pointer. *)
Theorem C71_no_memory_refuted usz s t name size rc s1 s2 ok2 :
  step usz s (Reg t name size rc s1 s2 false ok2) = Ok (mkst (hp s) (obs s) (lists s) (chg s + size), Handle None) /\
  step usz s (Reg t name size rc s1 s2 true false) = UB.
Proof. split; reflexivity. Qed.
