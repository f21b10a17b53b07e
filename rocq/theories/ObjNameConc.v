(** The names of shared objects while threads and processes register, release, look up and rename objects at the same time: property C71.

    Code modelled
    - [src/core/arax_object.c:98-118]   arax_object_register: the object's block, the name's block, the name, the list
    - [src/core/arax_object.c:128-143]  arax_object_rename (with a format without conversion; [ObjName] has the formats)
    - [src/core/arax_object.c:180-201]  arax_object_ref_dec of the last reference: off the list, then the name, then the object
    - [src/core/arax_pipe.c:219-236]    arax_pipe_find_proc: a walk over the list, comparing byte by byte, under the list's lock
    - [src/core/arax_pipe.c:194-217]    arax_pipe_find_accel with a name and without a type: the same walk

    One type of objects, one list, its lock, any number of threads.  One step is one access to shared memory (one byte of a name, the list,
    the lock); the lock is taken in one step (C09 has the lock itself).  References are not counted here ([ObjConc] has the counts): an object
    has references until somebody releases the last one.  A released block is never reused, so an access to it shows as [UB]. *)
From Verif Require Import Base ObjName.
From Coq Require Import Lia.
Local Open Scope nat_scope.

(** An object: its name's block once there is one, and whether its own memory is there (src/core/arax_object.h:40-48). *)
Record cob := mkc { cn : option nat; there : bool }.
(** Where a thread is.  Registering (src/core/arax_object.c:103-118): R0 the object's block, R1 the name's block, R2 the name byte by
    byte, R3 the lock, R4 onto the list, R5 the unlock.  Releasing the last reference (180-201): D1 the lock, D2 off the list, D3 the unlock, D4
    the name, D5 the object.  Looking up (src/core/arax_pipe.c:225-235): L0 the lock, L1 the walk (what is left of the list, the
    next byte), L2 the unlock with the answer.  Renaming (src/core/arax_object.c:133-141): N0 strlen, N1 free, N2 allocate, N3 the bytes. *)
Inductive pc :=
| Idle
| R0 (n : list nat) | R1 (h : nat) (n : list nat) | R2 (h : nat) (n : list nat) (k : nat) | R3 (h : nat) | R4 (h : nat) | R5 (h : nat)
| D1 (h : nat) | D2 (h : nat) | D3 (h : nat) | D4 (h : nat) | D5 (h : nat)
| L0 (n : list nat) | L1 (n : list nat) (rest : list nat) (k : nat) | L2 (n : list nat) (res : option nat)
| N0 (h : nat) (n : list nat) | N1 (h : nat) (n : list nat) | N2 (h : nat) (n : list nat) | N3 (h : nat) (n : list nat) (k : nat).
(** The heap blocks of names, the objects ever made, the list (newest first), its lock, which objects have references, the threads;
    [given]: the name each object was registered under (for the statements only). *)
(** src/core/arax_object.h:27-48. *)
Record cst := mkcst { heap : list (option (list nat)); objs : list cob; lst : list nat; lk : bool; ref : nat -> bool; at_ : nat -> pc; given : nat -> list nat }.
(** arax_object_repo_init, src/core/arax_object.c:60-69. *)
Definition init : cst := mkcst [] [] [] false (fun _ => false) (fun _ => Idle) (fun _ => []).
(** A call, or the next step of the one in progress. *)
(** src/core/arax_object.c:98-209, src/core/arax_pipe.c:194-236. *)
Inductive act := Register (n : list nat) | Release (h : nat) | Lookup (n : list nat) | Rename (h : nat) (n : list nat) | Go (stale : nat -> nat).

(** A step that changes only where the thread is, no code of its own. *)
Definition goto (s : cst) (i : nat) (p : pc) : cst := mkcst (heap s) (objs s) (lst s) (lk s) (ref s) (fupd (at_ s) i p) (given s).
(** A store to obj->name or the heap, with the thread going on; no code of its own. *)
Definition mem (s : cst) (h : list (option (list nat))) (o : list cob) (i : nat) (p : pc) : cst :=
  mkcst h o (lst s) (lk s) (ref s) (fupd (at_ s) i p) (given s).
(** The lock and the list. *)
(** src/utils/spinlock.h:32-54, src/utils/list.c:9-37. *)
Definition sync (s : cst) (l : list nat) (k : bool) (i : nat) (p : pc) : cst :=
  mkcst (heap s) (objs s) l k (ref s) (fupd (at_ s) i p) (given s).
(** obj->name: the object must be there (src/core/arax_object.h:47). *)
Definition name_ptr (s : cst) (h : nat) : outcome nat :=
  match nth_error (objs s) h with Some (mkc (Some b) true) => Ok b | _ => UB end.
(** After one comparison of strcmp: equal so far, equal, or different (src/core/arax_pipe.c:227-233). *)
Definition after_byte (s : cst) (i : nat) (n : list nat) (h : nat) (tl : list nat) (k : nat) (x : nat) : cst :=
  if x =? nth k (n ++ [0]) 0 then if x =? 0 then goto s i (L2 n (Some h)) else goto s i (L1 n (h :: tl) (S k)) else goto s i (L1 n tl 0).

(** One step of thread [i]; see [pc]. *)
(** Lines as in [pc]. *)
Definition step (s : cst) (i : nat) (a : act) : outcome cst :=
  match at_ s i, a with
  | Idle, Register n => Ok (if text_ok n then goto s i (R0 n) else s)
  | Idle, Release h => Ok (if ref s h then mkcst (heap s) (objs s) (lst s) (lk s) (fupd (ref s) h false) (fupd (at_ s) i (D1 h)) (given s) else s)
  | Idle, Lookup n => Ok (if text_ok n then goto s i (L0 n) else s)
  | Idle, Rename h n => Ok (if ref s h && text_ok n then goto s i (N0 h n) else s)
  | Idle, Go _ => Ok s
  | _, Register _ | _, Release _ | _, Lookup _ | _, Rename _ _ => Ok s
  | R0 n, Go _ => let h := length (objs s) in
      Ok (mkcst (heap s) (objs s ++ [mkc None true]) (lst s) (lk s) (ref s) (fupd (at_ s) i (R1 h n)) (fupd (given s) h n))
  | R1 h n, Go stale =>
      Ok (mem s (balloc (heap s) (length n + 1) stale) (upd (objs s) h (mkc (Some (length (heap s))) true)) i (R2 h n 0))
  | R2 h n k, Go _ =>
      do b <- name_ptr s h; do c <- bget (heap s) b; do c <- wr c k (nth k (n ++ [0]) 0); do hp' <- bput (heap s) b c;
      Ok (mem s hp' (objs s) i (if k =? length n then R3 h else R2 h n (S k)))
  | R3 h, Go _ => Ok (if lk s then s else sync s (lst s) true i (R4 h))
  | R4 h, Go _ => Ok (sync s (h :: lst s) (lk s) i (R5 h))
  | R5 h, Go _ => Ok (mkcst (heap s) (objs s) (lst s) false (fupd (ref s) h true) (fupd (at_ s) i Idle) (given s))
  | D1 h, Go _ => Ok (if lk s then s else sync s (lst s) true i (D2 h))
  | D2 h, Go _ => Ok (sync s (remove Nat.eq_dec h (lst s)) (lk s) i (D3 h))
  | D3 h, Go _ => Ok (sync s (lst s) false i (D4 h))
  | D4 h, Go _ => do b <- name_ptr s h; do hp' <- bfree (heap s) b; Ok (mem s hp' (objs s) i (D5 h))
  | D5 h, Go _ => match nth_error (objs s) h with
                  | Some (mkc n true) => Ok (mem s (heap s) (upd (objs s) h (mkc n false)) i Idle) | _ => UB end
  | L0 n, Go _ => Ok (if lk s then s else sync s (lst s) true i (L1 n (lst s) 0))
  | L1 n [] _, Go _ => Ok (goto s i (L2 n None))
  | L1 n (h :: tl) k, Go _ => do b <- name_ptr s h; do c <- bget (heap s) b; do x <- rd c k; Ok (after_byte s i n h tl k x)
  | L2 n r, Go _ => Ok (sync s (lst s) false i Idle)
  | N0 h n, Go _ => do b <- name_ptr s h; do c <- bget (heap s) b; do l <- c_len c;
      Ok (goto s i (if l <? length n then N1 h n else N3 h n 0))
  | N1 h n, Go _ => do b <- name_ptr s h; do hp' <- bfree (heap s) b; Ok (mem s hp' (objs s) i (N2 h n))
  | N2 h n, Go stale => Ok (mem s (balloc (heap s) (length n + 1) stale) (upd (objs s) h (mkc (Some (length (heap s))) true)) i (N3 h n 0))
  | N3 h n k, Go _ =>
      do b <- name_ptr s h; do c <- bget (heap s) b; do c <- wr c k (nth k (n ++ [0]) 0); do hp' <- bput (heap s) b c;
      Ok (mem s hp' (objs s) i (if k =? length n then Idle else N3 h n (S k)))
  end.
(** Any interleaving. *)
(** Threads, no code of their own. *)
Fixpoint run (s : cst) (l : list (nat * act)) : outcome cst :=
  match l with [] => Ok s | (i, a) :: l' => do s' <- step s i a; run s' l' end.

(** ** Specification *)
(** nobody renames *)
Definition no_rename (l : list (nat * act)) : Prop := forall i h n, ~ In (i, Rename h n) l.
(** the answer of a lookup: the newest object on the list that was registered under the name *)
Definition answer (s : cst) (n : list nat) (res : option nat) : Prop :=
  match res with
  | Some h => exists l1 l2, lst s = l1 ++ h :: l2 /\ given s h = n /\ forall x, In x l1 -> given s x <> n
  | None => forall x, In x (lst s) -> given s x <> n
  end.

(** ** Proofs *)
(** an object whose name is in place *)
Definition named (s : cst) (h : nat) : Prop :=
  exists b r, nth_error (objs s) h = Some (mkc (Some b) true) /\ nth_error (heap s) b = Some (Some (given s h ++ 0 :: r)) /\ text_ok (given s h) = true.
Definition own (p : pc) : option nat :=
  match p with R1 h _ | R2 h _ _ | R3 h | R4 h | R5 h | D1 h | D2 h | D3 h | D4 h | D5 h => Some h | _ => None end.
Definition holds (p : pc) : bool := match p with R4 _ | R5 _ | D2 _ | D3 _ | L1 _ _ _ | L2 _ _ => true | _ => false end.
Definition loc (s : cst) (p : pc) : Prop :=
  match p with
  | Idle => True
  | R0 n | L0 n => text_ok n = true
  | R1 h n => nth_error (objs s) h = Some (mkc None true) /\ ~ In h (lst s) /\ given s h = n /\ text_ok n = true
  | R2 h n k => exists b c, nth_error (objs s) h = Some (mkc (Some b) true) /\ nth_error (heap s) b = Some (Some c) /\
                  length c = length n + 1 /\ firstn k c = firstn k (n ++ [0]) /\ k <= length n /\ ~ In h (lst s) /\ given s h = n /\ text_ok n = true
  | R3 h | R4 h | D3 h | D4 h => named s h /\ ~ In h (lst s)
  | R5 h | D1 h | D2 h => In h (lst s)
  | D5 h => (exists b, nth_error (objs s) h = Some (mkc (Some b) true)) /\ ~ In h (lst s)
  | L1 n rest k => text_ok n = true /\ exists done, lst s = done ++ rest /\ (forall x, In x done -> given s x <> n) /\
       k <= length n /\ match rest with [] => True | h :: _ => k <= length (given s h) /\ firstn k (given s h) = firstn k n end
  | L2 n res => answer s n res
  | N0 _ _ | N1 _ _ | N2 _ _ | N3 _ _ _ => False
  end.
Record inv (s : cst) : Prop := mkinv {
  v_list : forall h, In h (lst s) -> named s h;
  v_nodup : NoDup (lst s);
  v_loc : forall i, loc s (at_ s i);
  v_lk : forall i, holds (at_ s i) = true -> lk s = true /\ forall j, holds (at_ s j) = true -> j = i;
  v_own : forall i j h, own (at_ s i) = Some h -> own (at_ s j) = Some h -> i = j;
  v_ref : forall h, ref s h = true -> In h (lst s) /\ forall i, own (at_ s i) <> Some h;
  v_obs : forall h, length (objs s) <= h -> (forall i, own (at_ s i) <> Some h) /\ ~ In h (lst s);
  v_inj : forall h1 h2 b t1 t2, nth_error (objs s) h1 = Some (mkc (Some b) t1) -> nth_error (objs s) h2 = Some (mkc (Some b) t2) -> h1 = h2;
  v_blk : forall h b t, nth_error (objs s) h = Some (mkc (Some b) t) -> b < length (heap s) }.

Lemma inv_init : inv init.
Proof.
  split; simpl; try easy; try constructor.
  - intros [|h1] h2 b t1 t2; discriminate.
  - intros [|h] b t; discriminate.
Qed.

Lemma named_frame s s' h : named s h -> nth_error (objs s') h = nth_error (objs s) h -> given s' h = given s h ->
  (forall b, nth_error (objs s) h = Some (mkc (Some b) true) -> nth_error (heap s') b = nth_error (heap s) b) -> named s' h.
Proof. intros (b & r & A & B & C) E1 E2 E3. exists b, r. rewrite E1, E2, (E3 b A). auto. Qed.

(** what another thread may rely on: its own object, and, unless it does not hold the lock, the list *)
Lemma loc_frame s s' p :
  loc s p ->
  (forall h, In h (lst s) \/ own p = Some h -> nth_error (objs s') h = nth_error (objs s) h /\ given s' h = given s h /\
      (forall b, nth_error (objs s) h = Some (mkc (Some b) true) -> nth_error (heap s') b = nth_error (heap s) b)) ->
  (holds p = true -> lst s' = lst s) ->
  (forall h, own p = Some h -> In h (lst s') <-> In h (lst s)) ->
  loc s' p.
Proof.
  intros L Fr Hl Hi.
  assert (NM : forall h, own p = Some h -> named s h -> named s' h).
  { intros h O N. destruct (Fr h (or_intror O)) as (A & B & C). now apply (named_frame s). }
  destruct p as [|n|h n|h n k|h|h|h|h|h|h|h|h|n|n rest k|n res|h n|h n|h n|h n k]; cbn [loc own holds] in *; auto.
  - destruct (Fr h (or_intror eq_refl)) as (A & B & C). rewrite A, B, (Hi h eq_refl). auto.
  - destruct (Fr h (or_intror eq_refl)) as (A & B & C). destruct L as (b & c & L1 & L2 & L3). exists b, c.
    rewrite A, B, (Hi h eq_refl), (C b L1). auto.
  - rewrite (Hi h eq_refl). destruct L; auto.
  - rewrite (Hi h eq_refl). destruct L; auto.
  - now rewrite (Hi h eq_refl).
  - now rewrite (Hi h eq_refl).
  - now rewrite (Hi h eq_refl).
  - rewrite (Hi h eq_refl). destruct L; auto.
  - rewrite (Hi h eq_refl). destruct L; auto.
  - destruct (Fr h (or_intror eq_refl)) as (A & B & C). rewrite (Hi h eq_refl), A. auto.
  - destruct L as (T & done & L1 & L2 & L3 & L4). split; auto. exists done. rewrite Hl by auto. repeat split; auto.
    + intros x X. destruct (Fr x) as (_ & -> & _); auto. left. rewrite L1. apply in_or_app; auto.
    + destruct rest as [|h tl]; auto. destruct (Fr h) as (_ & -> & _); auto. left. rewrite L1. apply in_or_app; simpl; auto.
  - unfold answer in *. destruct res as [h|]; rewrite Hl by auto.
    + destruct L as (l1 & l2 & L1 & L2 & L3). exists l1, l2. split; auto. split.
      * destruct (Fr h) as (_ & -> & _); auto. left. rewrite L1. apply in_or_app; simpl; auto.
      * intros x X. destruct (Fr x) as (_ & -> & _); auto. left. rewrite L1. apply in_or_app; auto.
    + intros x X. destruct (Fr x) as (_ & -> & _); auto.
Qed.

(** one thread moves *)
Lemma inv_move s s' i p' :
  inv s -> at_ s' = fupd (at_ s) i p' ->
  (forall h, h < length (objs s) -> own (at_ s i) <> Some h \/ In h (lst s) -> nth_error (objs s') h = nth_error (objs s) h /\ given s' h = given s h /\
      (forall b, nth_error (objs s) h = Some (mkc (Some b) true) -> nth_error (heap s') b = nth_error (heap s) b)) ->
  (forall h, In h (lst s') -> ~ In h (lst s) -> named s' h) -> NoDup (lst s') -> loc s' p' ->
  (lst s' = lst s \/ holds (at_ s i) = true) -> (forall h, own (at_ s i) <> Some h -> In h (lst s') <-> In h (lst s)) ->
  (holds p' = true -> lk s' = true /\ (holds (at_ s i) = true \/ lk s = false)) -> (lk s' = lk s \/ holds (at_ s i) = true \/ lk s' = true) ->
  (own p' = own (at_ s i) \/ own p' = None \/ (exists h, own p' = Some h /\ forall j, own (at_ s j) <> Some h)) ->
  (forall h, ref s' h = true -> own p' <> Some h /\ (ref s h = true \/ (own (at_ s i) = Some h /\ In h (lst s')))) ->
  (length (objs s) <= length (objs s')) -> (forall h, own p' = Some h -> h < length (objs s')) ->
  (forall h, In h (lst s') -> h < length (objs s')) ->
  (forall h1 h2 b t1 t2, nth_error (objs s') h1 = Some (mkc (Some b) t1) -> nth_error (objs s') h2 = Some (mkc (Some b) t2) -> h1 = h2) ->
  (forall h b t, nth_error (objs s') h = Some (mkc (Some b) t) -> b < length (heap s')) ->
  inv s'.
Proof.
  intros I At Fr Nw ND Lo Ls Li Hk Hk2 Ow Rf Le Lo2 Ll Ij Bl.
  assert (LT : forall h, In h (lst s) -> h < length (objs s)).
  { intros h X. destruct (Nat.lt_ge_cases h (length (objs s))) as [Y|Y]; auto. exfalso. now apply (v_obs _ I h Y). }
  assert (LT2 : forall j h, own (at_ s j) = Some h -> h < length (objs s)).
  { intros j h X. destruct (Nat.lt_ge_cases h (length (objs s))) as [Y|Y]; auto. exfalso. now apply (proj1 (v_obs _ I h Y) j). }
  split.
  - intros h X. destruct (in_dec Nat.eq_dec h (lst s)) as [Y|Y]; [|now apply Nw].
    destruct (Fr h (LT h Y) (or_intror Y)) as (A & B & C). now apply (named_frame s); [apply (v_list _ I)| | |].
  - exact ND.
  - intros j. rewrite At. destruct (Nat.eq_dec j i) as [->|NE]; [now rewrite fupd_eq|]. rewrite fupd_ne by auto.
    apply (loc_frame s).
    + apply I.
    + intros h X. apply Fr.
      * destruct X as [X|X]; eauto.
      * destruct X as [X|X]; auto. left. intros Y. apply NE. eapply (v_own _ I); eauto.
    + intros X. destruct Ls as [Y|Y]; auto. exfalso. apply NE. now apply (v_lk _ I i Y).
    + intros h X. apply Li. intros Y. apply NE. eapply (v_own _ I); eauto.
  - intros j X. rewrite At in X. rewrite At.
    assert (OTH : forall j', j' <> i -> holds (at_ s j') = true -> holds p' = true -> False).
    { intros j' N H H'. destruct (Hk H') as [_ [Y|Y]].
      - apply N. now apply (v_lk _ I i Y).
      - destruct (v_lk _ I j' H) as [Z _]. congruence. }
    destruct (Nat.eq_dec j i) as [->|NE].
    + rewrite fupd_eq in X. split; [now apply Hk|]. intros j' Y. destruct (Nat.eq_dec j' i) as [->|N']; auto.
      rewrite fupd_ne in Y by auto. exfalso. eauto.
    + rewrite fupd_ne in X by auto. split.
      * destruct (v_lk _ I j X) as [Y Z]. destruct Hk2 as [->|[W|W]]; auto. exfalso. apply NE. symmetry. now apply Z.
      * intros j' Y. destruct (Nat.eq_dec j' i) as [->|N'].
        -- rewrite fupd_eq in Y. exfalso. eauto.
        -- rewrite fupd_ne in Y by auto. destruct (v_lk _ I j X) as [_ Z]. auto.
  - intros j1 j2 h X Y. rewrite At in X, Y.
    assert (OTH : forall j', j' <> i -> own (at_ s j') = Some h -> own p' = Some h -> False).
    { intros j' N H H'. destruct Ow as [E|[E|(h' & E & Z)]].
      - apply N. rewrite E in H'. eapply (v_own _ I); eauto.
      - congruence.
      - apply (Z j'). congruence. }
    destruct (Nat.eq_dec j1 i) as [->|N1]; destruct (Nat.eq_dec j2 i) as [->|N2]; auto;
      rewrite ?fupd_eq in *; rewrite ?fupd_ne in X by auto; rewrite ?fupd_ne in Y by auto.
    + exfalso; eauto.
    + exfalso; eauto.
    + eapply (v_own _ I); eauto.
  - intros h X. destruct (Rf h X) as [A B]. destruct B as [B|[B1 B2]].
    + destruct (v_ref _ I h B) as [C D]. split; [apply Li; auto|]. intros j. rewrite At.
      destruct (Nat.eq_dec j i) as [->|N]; [now rewrite fupd_eq|]. rewrite fupd_ne by auto. apply D.
    + split; auto. intros j. rewrite At. destruct (Nat.eq_dec j i) as [->|N]; [now rewrite fupd_eq|]. rewrite fupd_ne by auto.
      intros Y. apply N. eapply (v_own _ I); eauto.
  - intros h X. split.
    + intros j. rewrite At. destruct (Nat.eq_dec j i) as [->|N]; [rewrite fupd_eq|rewrite fupd_ne by auto].
      * intros Y. apply Lo2 in Y. lia.
      * intros Y. apply LT2 in Y. lia.
    + intros Y. apply Ll in Y. lia.
  - exact Ij.
  - exact Bl.
Qed.

(** a step that touches neither memory nor list nor lock *)
Lemma inv_goto s i p' : inv s -> loc s p' -> holds p' = holds (at_ s i) -> own p' = own (at_ s i) -> inv (goto s i p').
Proof.
  intros I Lo H O. apply (inv_move s _ i p'); auto; cbn [goto lst objs heap given lk ref]; auto.
  - tauto.
  - apply I.
  - tauto.
  - rewrite H. intros X. split; auto. now apply (v_lk _ I i).
  - intros h X. destruct (v_ref _ I h X) as [A B]. split; auto. rewrite O. apply B.
  - intros h X. destruct (Nat.lt_ge_cases h (length (objs s))) as [Y|Y]; auto. exfalso. rewrite O in X. now apply (proj1 (v_obs _ I h Y) i).
  - intros h X. destruct (Nat.lt_ge_cases h (length (objs s))) as [Y|Y]; auto. exfalso. now apply (proj2 (v_obs _ I h Y)).
  - apply I.
  - apply I.
Qed.
(** a step on the list and the lock only *)
Lemma loc_same s s' p : loc s p -> heap s' = heap s -> objs s' = objs s -> lst s' = lst s -> given s' = given s -> loc s' p.
Proof.
  intros L A B C D. apply (loc_frame s); auto; rewrite ?A, ?B, ?C, ?D; auto. tauto.
Qed.
Lemma inv_sync s i l k r p' : inv s -> NoDup l -> loc (mkcst (heap s) (objs s) l k r (fupd (at_ s) i p') (given s)) p' ->
  (l = lst s \/ holds (at_ s i) = true) -> (forall h, In h l -> ~ In h (lst s) -> named s h) ->
  (forall h, own (at_ s i) <> Some h -> In h l <-> In h (lst s)) ->
  (holds p' = true -> k = true /\ (holds (at_ s i) = true \/ lk s = false)) -> (k = lk s \/ holds (at_ s i) = true \/ k = true) ->
  (own p' = own (at_ s i) \/ own p' = None \/ (exists h, own p' = Some h /\ In h (lst s) /\ forall j, own (at_ s j) <> Some h)) ->
  (forall h, r h = true -> own p' <> Some h /\ (ref s h = true \/ (own (at_ s i) = Some h /\ In h l))) ->
  inv (mkcst (heap s) (objs s) l k r (fupd (at_ s) i p') (given s)).
Proof.
  intros I ND Lo Ls Nw Li Hk Hk2 Ow Rf.
  assert (LT : forall h, In h (lst s) -> h < length (objs s)).
  { intros h X. destruct (Nat.lt_ge_cases h (length (objs s))) as [Y|Y]; auto. exfalso. now apply (v_obs _ I h Y). }
  assert (LT2 : forall j h, own (at_ s j) = Some h -> h < length (objs s)).
  { intros j h X. destruct (Nat.lt_ge_cases h (length (objs s))) as [Y|Y]; auto. exfalso. now apply (proj1 (v_obs _ I h Y) j). }
  apply (inv_move s _ i p'); cbn [lst objs heap given lk ref]; auto.
  - destruct Ow as [E|[E|(h & E & _ & X)]]; eauto.
  - intros h X. destruct Ow as [E|[E|(h' & E & E2 & _)]]; [rewrite E in X; eauto|congruence|].
    assert (h = h') as -> by congruence. auto.
  - intros h X. destruct (in_dec Nat.eq_dec h (lst s)) as [Y|Y]; auto. destruct (Nw h X Y) as (b & q & A & _). apply nth_error_Some. congruence.
  - apply I.
  - apply I.
Qed.
Lemma wr_prefix (c m : list nat) k : length c = length m -> k < length m -> firstn k c = firstn k m ->
  firstn (S k) (upd c k (nth k m 0)) = firstn (S k) m.
Proof.
  revert c m. induction k as [|k IH]; intros [|x c] [|y m] L H E; simpl in *; try lia; auto.
  injection E as -> E. f_equal. apply (IH c m); auto; lia.
Qed.
Lemma firstn_S_nth (l : list nat) k : k < length l -> firstn (S k) l = firstn k l ++ [nth k l 0].
Proof. revert l. induction k as [|k IH]; intros [|x l] H; simpl in *; try lia; auto. rewrite <- IH by lia. reflexivity. Qed.
Lemma text_nth n k : text_ok n = true -> k < length n -> nth k n 0 <> 0.
Proof.
  revert k. induction n as [|x n IH]; intros k T H; simpl in *; [lia|]. apply text_cons in T as [A B]. destruct k; auto. apply IH; auto. lia.
Qed.

Lemma NoDup_rm h (l : list nat) : NoDup l -> NoDup (remove Nat.eq_dec h l).
Proof.
  induction 1 as [|x l N ND IH]; simpl; [constructor|]. destruct (Nat.eq_dec h x); auto. constructor; auto.
  intros X. apply in_remove in X. tauto.
Qed.
Lemma step_inv s i a : inv s -> (forall h n, a <> Rename h n) -> exists s', step s i a = Ok s' /\ inv s'.
Proof.
  intros I NR. pose proof (v_loc _ I i) as Li. unfold step.
  assert (LT : forall h, In h (lst s) -> h < length (objs s)).
  { intros h X. destruct (Nat.lt_ge_cases h (length (objs s))) as [Y|Y]; auto. exfalso. now apply (v_obs _ I h Y). }
  assert (OWN : forall h, own (at_ s i) = Some h -> h < length (objs s) /\ ref s h = false).
  { intros h X. split.
    - destruct (Nat.lt_ge_cases h (length (objs s))) as [Y|Y]; auto. exfalso. now apply (proj1 (v_obs _ I h Y) i).
    - destruct (ref s h) eqn:R; auto. destruct (v_ref _ I h R) as [_ Y]. exfalso. now apply (Y i). }
  assert (RF : forall h p', own p' = own (at_ s i) \/ own p' = None -> ref s h = true -> own p' <> Some h).
  { intros h p' [E|E] X; [rewrite E; apply (v_ref _ I h X)|congruence]. }
  destruct (at_ s i) as [|n|h n|h n k|h|h|h|h|h|h|h|h|n|n rest k|n res|h n|h n|h n|h n k] eqn:P; cbn [loc] in Li; try contradiction;
    destruct a as [an|ah|an|ah an|stale]; try (exfalso; eapply NR; reflexivity); try (eexists; split; [reflexivity|exact I]);
    try (destruct rest; eexists; (split; [reflexivity|exact I])).
  - (* a call to register *) destruct (text_ok an) eqn:T; eexists; (split; [reflexivity|]); auto. apply inv_goto; auto; now rewrite P.
  - (* a call to release *) destruct (ref s ah) eqn:R; eexists; (split; [reflexivity|]); auto. destruct (v_ref _ I ah R) as [A B].
    apply inv_sync; rewrite ?P; cbn [loc own holds lst]; auto; try apply I; try tauto; try discriminate.
    + right. right. exists ah. auto.
    + intros h X. unfold fupd in X. destruct (Nat.eqb_spec h ah); [discriminate|]. split; [congruence|auto].
  - (* a call to look up *) destruct (text_ok an) eqn:T; eexists; (split; [reflexivity|]); auto. apply inv_goto; auto; now rewrite P.
  - (* R0 *)
    eexists; split; [reflexivity|]. set (h := length (objs s)).
    destruct (v_obs _ I h (Nat.le_refl _)) as [Fo Fl].
    apply (inv_move s _ i (R1 h n)); cbn [loc own holds lst objs heap given lk ref]; rewrite ?P; auto; try apply I; try tauto; try discriminate.
    + intros h' X _. rewrite nth_error_app1 by auto. rewrite fupd_ne by (unfold h; lia). auto.
    + split; [apply nth_app_new|]. rewrite fupd_eq. auto.
    + right. right. exists h. auto.
    + intros h' X. split; auto. intros Y. injection Y as <-. destruct (v_ref _ I h X); contradiction.
    + rewrite app_length. lia.
    + intros h' Y. injection Y as <-. rewrite app_length. unfold h. simpl. lia.
    + intros h' X. rewrite app_length. apply LT in X. lia.
    + intros h1 h2 b t1 t2 X Y.
      assert (Z : forall x t, nth_error (objs s ++ [mkc None true]) x = Some (mkc (Some b) t) -> nth_error (objs s) x = Some (mkc (Some b) t)).
      { intros x t Q. destruct (Nat.lt_ge_cases x (length (objs s))) as [W|W]; [now rewrite nth_error_app1 in Q|].
        rewrite nth_error_app2 in Q by auto. destruct (x - length (objs s)) as [|[|]]; discriminate. }
      eapply (v_inj _ I); eauto.
    + intros h' b t X. destruct (Nat.lt_ge_cases h' (length (objs s))) as [W|W].
      * rewrite nth_error_app1 in X by auto. eapply (v_blk _ I); eauto.
      * rewrite nth_error_app2 in X by auto. destruct (h' - length (objs s)) as [|[|]]; discriminate.
  - (* R1 *)
    destruct Li as (A & B & C & T). eexists; split; [reflexivity|]. destruct (OWN h eq_refl) as [Hh Hr].
    apply (inv_move s _ i (R2 h n 0)); cbn [mem loc own holds lst objs heap given lk ref]; rewrite ?P; auto; try apply I; try tauto; try discriminate.
    + intros h' X [Y|Y]; [|assert (h' <> h) by congruence]; (rewrite nth_error_upd_ne by (cbn [own] in *; congruence)); repeat split; auto;
      intros b Z; unfold balloc; rewrite nth_error_app1; auto; eapply (v_blk _ I); eauto.
    + exists (length (heap s)), (map stale (seq 0 (length n + 1))). repeat split; auto.
      * now apply nth_error_upd_eq.
      * unfold balloc. apply nth_app_new.
      * now rewrite map_length, seq_length.
      * lia.
    + intros h' X. split; auto. intros Y. injection Y as <-. congruence.
    + rewrite upd_length. auto.
    + intros h' Y. injection Y as <-. now rewrite upd_length.
    + intros h' X. rewrite upd_length. auto.
    + assert (Z : forall x b t, nth_error (upd (objs s) h (mkc (Some (length (heap s))) true)) x = Some (mkc (Some b) t) ->
                 (x = h /\ b = length (heap s)) \/ (x <> h /\ nth_error (objs s) x = Some (mkc (Some b) t))).
      { intros x b t Q. destruct (Nat.eq_dec x h) as [->|W].
        - rewrite nth_error_upd_eq in Q by auto. left. split; auto. congruence.
        - rewrite nth_error_upd_ne in Q by auto. auto. }
      intros h1 h2 b t1 t2 X Y. apply Z in X, Y. destruct X as [[-> ->]|[X1 X]]; destruct Y as [[-> Y2]|[Y1 Y]]; auto.
      * apply (v_blk _ I) in Y. lia.
      * subst. apply (v_blk _ I) in X. lia.
      * eapply (v_inj _ I); eauto.
    + intros x b t Q. rewrite balloc_len. destruct (Nat.eq_dec x h) as [->|W].
      * rewrite nth_error_upd_eq in Q by auto. assert (b = length (heap s)) by congruence. lia.
      * rewrite nth_error_upd_ne in Q by auto. apply (v_blk _ I) in Q. lia.
  - (* R2 *)
    destruct Li as (b & c & A & B & C & D & E & F & G & T). destruct (OWN h eq_refl) as [Hh Hr].
    unfold name_ptr. rewrite A. cbn [bind]. rewrite (proj2 (bget_some _ _ _) B). cbn [bind].
    rewrite wr_ok by lia. cbn [bind]. unfold bput. rewrite (proj2 (bget_some _ _ _) B). cbn [bind].
    set (c' := upd c k (nth k (n ++ [0]) 0)). eexists; split; [reflexivity|].
    assert (Pre : firstn (S k) c' = firstn (S k) (n ++ [0])).
    { apply wr_prefix; rewrite ?app_length; simpl; auto; lia. }
    assert (Lc : length c' = length n + 1) by (unfold c'; now rewrite upd_length).
    assert (Lb : b < length (heap s)) by (eapply (v_blk _ I); eauto).
    set (p' := if k =? length n then R3 h else R2 h n (S k)).
    assert (Op : own p' = Some h) by (unfold p'; now destruct (k =? length n)).
    assert (Hp : holds p' = false) by (unfold p'; now destruct (k =? length n)).
    apply (inv_move s _ i p'); cbn [mem own holds lst objs heap given lk ref]; rewrite ?P, ?Op, ?Hp; auto; try apply I; try tauto; try discriminate.
    + intros h' X Y. assert (h' <> h) by (destruct Y as [Y|Y]; cbn [own] in *; congruence). repeat split; auto.
      intros b' Z. apply nth_error_upd_ne. intros <-. apply H. eapply (v_inj _ I); eauto.
    + unfold p'. destruct (Nat.eqb_spec k (length n)) as [->|Nk]; cbn [loc].
      * split; auto. exists b, []. repeat split; cbn [mem objs heap given]; auto; [|now rewrite G].
        rewrite nth_error_upd_eq by auto. do 2 f_equal. rewrite G.
        rewrite !firstn_all2 in Pre by (rewrite ?app_length, ?Lc; simpl; lia). exact Pre.
      * exists b, c'. repeat split; cbn [mem objs heap given lst]; auto; [now apply nth_error_upd_eq|lia].
    + intros h' X. split; auto. congruence.
    + intros h' Y. congruence.
    + intros h' b' t X. rewrite upd_length. eapply (v_blk _ I); eauto.
  - (* R3 *)
    destruct Li as [A B]. destruct (lk s) eqn:K; eexists; (split; [reflexivity|]); auto. destruct (OWN h eq_refl) as [Hh Hr].
    apply inv_sync; rewrite ?P; cbn [loc own holds lst]; auto; try apply I; try tauto; try discriminate.
    intros h' X. split; auto. congruence.
  - (* R4 *)
    destruct Li as [A B]. eexists; split; [reflexivity|]. destruct (OWN h eq_refl) as [Hh Hr].
    apply inv_sync; rewrite ?P; cbn [loc own holds lst]; auto; try tauto; try discriminate.
    + constructor; auto. apply I.
    + simpl; auto.
    + intros h' [<-|X] Y; tauto.
    + intros h' X. simpl. intuition congruence.
    + intros _. split; auto. apply (v_lk _ I i). now rewrite P.
    + intros h' X. split; auto. congruence.
  - (* R5 *)
    eexists; split; [reflexivity|]. destruct (OWN h eq_refl) as [Hh Hr].
    apply inv_sync; rewrite ?P; cbn [loc own holds lst]; auto; try apply I; try tauto; try discriminate.
    intros h' X. split; [discriminate|]. unfold fupd in X. destruct (Nat.eqb_spec h' h); subst; auto.
  - (* D1 *)
    destruct (lk s) eqn:K; eexists; (split; [reflexivity|]); auto. destruct (OWN h eq_refl) as [Hh Hr].
    apply inv_sync; rewrite ?P; cbn [loc own holds lst]; auto; try apply I; try tauto; try discriminate.
    intros h' X. split; auto. congruence.
  - (* D2 *)
    eexists; split; [reflexivity|]. destruct (OWN h eq_refl) as [Hh Hr].
    apply inv_sync; rewrite ?P; cbn [loc own holds lst]; auto; try tauto; try discriminate.
    + apply NoDup_rm. apply I.
    + split; [|apply remove_In]. destruct (v_list _ I h Li) as (b & r & X). exists b, r. exact X.
    + intros h' X Y. apply in_remove in X. tauto.
    + intros h' X. split; intros Y; [now apply in_remove in Y|]. apply in_in_remove; congruence.
    + intros _. split; auto. apply (v_lk _ I i). now rewrite P.
    + intros h' X. split; auto. congruence.
  - (* D3 *)
    eexists; split; [reflexivity|]. destruct (OWN h eq_refl) as [Hh Hr].
    apply inv_sync; rewrite ?P; cbn [loc own holds lst]; auto; try apply I; try tauto; try discriminate.
    intros h' X. split; auto. congruence.
  - (* D4 *)
    destruct Li as [(b & r & A & B & T) N]. destruct (OWN h eq_refl) as [Hh Hr].
    unfold name_ptr. rewrite A. cbn [bind]. unfold bfree. rewrite (proj2 (bget_some _ _ _) B). cbn [bind]. eexists; split; [reflexivity|].
    apply (inv_move s _ i (D5 h)); cbn [mem loc own holds lst objs heap given lk ref]; rewrite ?P; auto; try apply I; try tauto; try discriminate.
    + intros h' X Y. assert (h' <> h) by (destruct Y as [Y|Y]; cbn [own] in *; congruence). repeat split; auto.
      intros b' Z. apply nth_error_upd_ne. intros <-. apply H. eapply (v_inj _ I); eauto.
    + split; eauto.
    + intros h' X. split; auto. congruence.
    + intros h' Y. congruence.
    + intros h' b' t X. rewrite upd_length. eapply (v_blk _ I); eauto.
  - (* D5 *)
    destruct Li as [(b & A) N]. destruct (OWN h eq_refl) as [Hh Hr]. rewrite A. eexists; split; [reflexivity|].
    assert (Z : forall x b' t, nth_error (upd (objs s) h (mkc (Some b) false)) x = Some (mkc (Some b') t) ->
                 exists t', nth_error (objs s) x = Some (mkc (Some b') t')).
    { intros x b' t Q. destruct (Nat.eq_dec x h) as [->|W].
      - rewrite nth_error_upd_eq in Q by auto. exists true. congruence.
      - rewrite nth_error_upd_ne in Q by auto. eauto. }
    apply (inv_move s _ i Idle); cbn [mem loc own holds lst objs heap given lk ref]; rewrite ?P; auto; try apply I; try tauto; try discriminate.
    + intros h' X Y. assert (h' <> h) by (destruct Y as [Y|Y]; cbn [own] in *; congruence).
      rewrite nth_error_upd_ne by auto. auto.
    + intros h' X. split; auto. discriminate.
    + rewrite upd_length. auto.
    + intros h' X. rewrite upd_length. auto.
    + intros h1 h2 b' t1 t2 X Y. apply Z in X as [t1' X]. apply Z in Y as [t2' Y]. eapply (v_inj _ I); eauto.
    + intros h' b' t X. apply Z in X as [t' X]. eapply (v_blk _ I); eauto.
  - (* L0 *)
    destruct (lk s) eqn:K; eexists; (split; [reflexivity|]); auto.
    apply inv_sync; rewrite ?P; cbn [loc own holds lst given]; auto; try apply I; try tauto; try discriminate.
    + split; auto. exists []. repeat split; simpl; auto; try lia; try tauto. destruct (lst s); auto. split; auto. lia.
    + intros h' X. split; auto. discriminate.
  - (* L1 *)
    destruct Li as (T & done & A & B & C & D). destruct rest as [|h tl].
    + eexists; split; [reflexivity|]. apply inv_goto; rewrite ?P; auto. cbn [loc answer]. rewrite A, app_nil_r. exact B.
    + destruct D as [D1 D2]. assert (IL : In h (lst s)) by (rewrite A; apply in_or_app; simpl; auto).
      destruct (v_list _ I h IL) as (b & r & E & F & G). unfold name_ptr. rewrite E. cbn [bind].
      rewrite (proj2 (bget_some _ _ _) F). cbn [bind]. rewrite (rd_ok _ _ 0) by (rewrite app_length; simpl; lia). cbn [bind].
      eexists; split; [reflexivity|]. unfold after_byte.
      assert (X1 : nth k (given s h ++ 0 :: r) 0 = nth k (given s h ++ [0]) 0).
      { destruct (Nat.eq_dec k (length (given s h))) as [->|W].
        - rewrite !app_nth2 by lia. now rewrite Nat.sub_diag.
        - rewrite !app_nth1 by lia. reflexivity. }
      rewrite X1.
      assert (NX : forall m, text_ok m = true -> k <= length m -> (nth k (m ++ [0]) 0 = 0 <-> k = length m)).
      { intros m Tm Km. split.
        - intros Z. destruct (Nat.eq_dec k (length m)) as [|W]; auto. exfalso. rewrite app_nth1 in Z by lia. revert Z. apply text_nth; auto. lia.
        - intros ->. rewrite app_nth2 by lia. now rewrite Nat.sub_diag. }
      destruct (Nat.eqb_spec (nth k (given s h ++ [0]) 0) (nth k (n ++ [0]) 0)) as [Eq|Ne].
      * destruct (Nat.eqb_spec (nth k (given s h ++ [0]) 0) 0) as [Z|Z].
        -- apply inv_goto; rewrite ?P; auto. cbn [loc answer]. exists done, tl. repeat split; auto.
           pose proof (proj1 (NX _ G D1) Z) as K1. rewrite Eq in Z. pose proof (proj1 (NX _ T C) Z) as K2.
           rewrite (firstn_all2 (given s h)) in D2 by lia. rewrite (firstn_all2 n) in D2 by lia. exact D2.
        -- assert (K1 : k < length (given s h)).
           { destruct (Nat.eq_dec k (length (given s h))) as [W|W]; [|lia]. exfalso. apply Z. now apply NX. }
           assert (K2 : k < length n).
           { destruct (Nat.eq_dec k (length n)) as [W|W]; [|lia]. exfalso. apply Z. rewrite Eq. now apply NX. }
           apply inv_goto; rewrite ?P; auto. cbn [loc]. split; auto. exists done. repeat split; auto; try lia.
           rewrite !firstn_S_nth by auto. rewrite !app_nth1 in Eq by auto. now rewrite D2, Eq.
      * apply inv_goto; rewrite ?P; auto. cbn [loc]. split; auto. exists (done ++ [h]). rewrite <- app_assoc. repeat split; auto; try lia.
        -- intros x X. apply in_app_or in X as [X|[<-|[]]]; auto. intros Q. apply Ne. now rewrite Q.
        -- destruct tl; auto. split; auto. lia.
  - (* L2 *)
    eexists; split; [reflexivity|].
    apply inv_sync; rewrite ?P; cbn [loc own holds lst]; auto; try apply I; try tauto; try discriminate.
    intros h' X. split; auto. discriminate.
Qed.
Lemma run_inv l : forall s, inv s -> no_rename l -> exists s', run s l = Ok s' /\ inv s'.
Proof.
  induction l as [|[i a] l IH]; intros s I N; [simpl; eauto|].
  assert (Na : forall h n, a <> Rename h n) by (intros h n ->; apply (N i h n); simpl; auto).
  destruct (step_inv s i a I Na) as (s1 & E & I1). simpl. rewrite E. simpl. apply IH; auto.
  intros j h n X. apply (N j h n). simpl. auto.
Qed.

(** ** Theorems *)
(** As long as nobody renames: in every interleaving of any number of threads that register, release and look up objects, no thread reads
    a released name or a byte that is not part of one; every object on the list has, in memory, the name it was registered under; and
    a lookup that is about to return has, at that moment, the right answer: the newest object on the list with the name, or none if there is
    none. *)
Theorem C71_concurrent_lookups l : no_rename l ->
  exists s, run init l = Ok s /\
    (forall h, In h (lst s) -> exists b c, nth_error (objs s) h = Some (mkc (Some b) true) /\ nth_error (heap s) b = Some (Some c) /\ c_text c = Ok (given s h)) /\
    (forall i n res, at_ s i = L2 n res -> answer s n res).
Proof.
  intros N. destruct (run_inv l init inv_init N) as (s & R & I). exists s. split; [exact R|]. split.
  - intros h X. destruct (v_list _ I h X) as (b & r & A & B & C). exists b. eexists. repeat split; eauto. now apply c_text_text.
  - intros i n res P. pose proof (v_loc _ I i) as L. now rewrite P in L.
Qed.
(** At most one thread is at the list at a time. *)
Theorem C71_one_in_the_list l s i j : no_rename l -> run init l = Ok s -> holds (at_ s i) = true -> holds (at_ s j) = true -> i = j /\ lk s = true.
Proof.
  intros N R A B. destruct (run_inv l init inv_init N) as (s' & R' & I). assert (s' = s) as -> by congruence.
  destruct (v_lk _ I i A) as [C D]. split; auto. symmetry. auto.
Qed.

(** The lock is never left behind: whenever it is taken, some thread is at the list, even while objects are renamed. *)
Lemma held_step s i a s' : step s i a = Ok s' -> (lk s = true -> exists j, holds (at_ s j) = true) -> lk s' = true -> exists j, holds (at_ s' j) = true.
Proof.
  intros E V K.
  assert (Same : forall p, at_ s' = fupd (at_ s) i p -> lk s' = lk s -> (holds (at_ s i) = true -> holds p = true) -> exists j, holds (at_ s' j) = true).
  { intros p A B C. rewrite B in K. destruct (V K) as [j H]. destruct (Nat.eq_dec j i) as [->|N].
    - exists i. rewrite A, fupd_eq. auto.
    - exists j. rewrite A, fupd_ne; auto. }
  assert (Mine : forall p, at_ s' = fupd (at_ s) i p -> holds p = true -> exists j, holds (at_ s' j) = true).
  { intros p A B. exists i. now rewrite A, fupd_eq. }
  unfold step in E.
  destruct (at_ s i) as [|n|h n|h n k|h|h|h|h|h|h|h|h|n|n rest k|n res|h n|h n|h n|h n k] eqn:P; destruct a as [an|ah|an|ah an|stale];
    try destruct rest as [|rh rt]; cbv zeta in E;
    repeat first
      [ match type of E with
        | bind ?m _ = _ => destruct m; cbn [bind] in E; try discriminate E
        | Ok (if ?c then _ else _) = _ => destruct c eqn:?
        | Ok (after_byte _ _ _ _ _ _ _) = _ => unfold after_byte in E
        | match nth_error ?l ?x with _ => _ end = _ => destruct (nth_error l x) as [[? []]|]; try discriminate E
        end ];
    injection E as E; subst s';
    first [ now apply V | eapply Same; [reflexivity|reflexivity|solve [auto | discriminate | (destruct (_ =? _); discriminate) | (destruct (_ <? _); discriminate)]]
          | eapply Mine; [reflexivity|reflexivity] | discriminate K ].
Qed.
Theorem C71_lock_not_left_behind l s : run init l = Ok s -> lk s = true -> exists i, holds (at_ s i) = true.
Proof.
  assert (G : forall l s0, (lk s0 = true -> exists j, holds (at_ s0 j) = true) -> run s0 l = Ok s -> lk s = true -> exists i, holds (at_ s i) = true).
  { intros l0. induction l0 as [|[i a] l0 IH]; intros s0 V R K.
    - injection R as <-. auto.
    - simpl in R. destruct (step s0 i a) as [s1| |] eqn:E; try discriminate R. simpl in R. apply (IH s1); auto. intros K1. eapply held_step; eauto. }
  apply (G l init). discriminate.
Qed.

(** ** Cases *)
Definition go (i k : nat) : list (nat * act) := repeat (i, Go (fun _ => 65)) k.
(** Thread 0 registers "gpu"; thread 1 registers "cpu" while thread 2 looks for "gpu"; thread 0 releases its object while thread 2
    compares. *)
Definition busy : list (nat * act) :=
  (0, Register gpu) :: go 0 10 ++ (1, Register cpu) :: go 1 4 ++ (2, Lookup gpu) :: go 2 3 ++ (0, Release 0) :: go 0 1 ++ go 1 4 ++ go 2 2.
Example C71_concurrent_case :
  (forall i h n, ~ In (i, Rename h n) busy) /\
  match run init busy with
  | Ok s => at_ s 2 = L2 gpu (Some 0) /\ at_ s 0 = D1 0 /\ lst s = [0] /\ lk s = true
  | _ => False end.
Proof.
  split.
  - intros i h n X. repeat (destruct X as [X|X]; [discriminate X|]). exact X.
  - vm_compute. repeat split.
Qed.
(** Refuted: renaming an object while another thread looks for a name.  The name is released before the new one is in place, and without
    the list's lock: the lookup reads released memory (first run), or, when the new block is there but not yet written, finds the object under
    a name it never had, the text that happens to be in that memory (second run: "gpu" is renamed "gpus"; "cpu" is found). *)
Theorem C71_rename_race_refuted :
  run init ((0, Register gpu) :: go 0 10 ++ (1, Rename 0 (gpu ++ [115])) :: go 1 2 ++ (2, Lookup gpu) :: go 2 2) = UB /\
  match run init ((0, Register gpu) :: go 0 10 ++ (1, Rename 0 (gpu ++ [115])) :: go 1 2 ++ (1, Go (fun k => nth k cpu 0)) ::
                  (2, Lookup cpu) :: go 2 5) with
  | Ok s => at_ s 2 = L2 cpu (Some 0) /\ at_ s 1 = N3 0 (gpu ++ [115]) 0 /\ given s 0 = gpu /\ lst s = [0] | _ => False end.
Proof. split; vm_compute; repeat split. Qed.
