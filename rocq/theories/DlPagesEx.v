(** Concrete histories of the heap on the page bitmap of [DlPages] (property C64): the hypotheses are met, and what is not true.
    No code of its own. *)
From Verif Require Import Base AllocModel AllocProps PageMap DlModel DlInv DlAlloc DlSys DlPre DlMalloc DlFree DlFwd DlHist DlProps DlEx DlPages.
From Coq Require Import Lia.
Local Open Scope N_scope.
Arguments N.add : simpl never. Arguments N.sub : simpl never. Arguments N.mul : simpl never. Arguments N.div : simpl never.
Arguments N.modulo : simpl never. Arguments N.eqb : simpl never. Arguments N.ltb : simpl never. Arguments N.leb : simpl never.
Arguments N.odd : simpl never.

(** [PA n]: allocate [n] bytes; [PF i mr]: free the block number [i]; [PS i o w]: store [w] at offset [o] of the block number [i]. *)
Inductive pcmd := PA (n : N) | PF (i : nat) (mr : bool) | PS (i : nat) (o w : N).
Definition pst : Type := palloc * ms * list block.
Definition pstp (rm : bool) (z : pst) (c : pcmd) : option pst :=
  let '(a, s, L) := z in
  match c with
  | PA n => match allocate a s n (pick s (padded n)) with Ok (a', s', Some x) => Some (a', s', mkb x n (mem s') :: L) | _ => None end
  | PF i mr => match nth_error L i with
               | Some x => if implb mr rm then match release a s (addr x) mr with Ok (a', s') => Some (a', s', firstn i L ++ skipn (S i) L) | _ => None end else None
               | None => None
               end
  | PS i o w => match nth_error L i with
                | Some x => if o <? size x then Some (a, set_mem s (wr_ (mem s) (addr x + o) w), firstn i L ++ mkb (addr x) (size x) (wr_ (data x) (addr x + o) w) :: skipn (S i) L) else None
                | None => None
                end
  end.
Fixpoint prun (rm : bool) (z : pst) (l : list pcmd) : option pst := match l with [] => Some z | c :: r => match pstp rm z c with Some z' => prun rm z' r | None => None end end.
Section Run.
  Variables (rm : bool) (base hdr len : N).
  Definition pgood (z : pst) : Prop := let '(a, s, L) := z in sys rm base hdr len a s L.
  Lemma pstp_good z c z' : pgood z -> pstp rm z c = Some z' -> pgood z'.
  Proof.
    destruct z as [[a s] L]. intros H. destruct c as [n | i mr | i o w]; cbn [pstp].
    - destruct (allocate a s n _) as [[[a' s'] [x|]]| |] eqn:E; try discriminate. intros E1. injection E1 as <-. refine (y_alloc _ _ _ _ _ _ _ _ _ _ _ _ H _ E). apply (pick_answer rm s L). apply (C64_heap _ _ _ _ _ _ _ H).
    - destruct (nth_error L i) as [x|] eqn:EN; [|discriminate]. destruct (implb mr rm) eqn:EM; [|discriminate]. destruct (release a s (addr x) mr) as [[a' s']| |] eqn:E; try discriminate.
      intros E1. injection E1 as <-. rewrite (nth_split' _ _ _ EN) in H. refine (y_free _ _ _ _ _ _ _ _ _ mr _ _ H _ E). intros ->. destruct rm; [reflexivity | discriminate].
    - destruct (nth_error L i) as [[p n d]|] eqn:EN; [|discriminate]. cbn [addr size data]. destruct (o <? n) eqn:EO; [|discriminate]. apply N.ltb_lt in EO.
      intros E1. injection E1 as <-. rewrite (nth_split' _ _ _ EN) in H. apply (y_store _ _ _ _ _ _ _ _ _ _ _ (p + o) w H); lia.
  Qed.
  Lemma prun_good l : forall z z', pgood z -> prun rm z l = Some z' -> pgood z'.
  Proof.
    induction l as [|c l IH]; intros z z' G E; cbn [prun] in E; [injection E as <-; exact G|]. destruct (pstp rm z c) as [z1|] eqn:E1; [|discriminate].
    apply (IH z1); [apply (pstp_good _ _ _ G E1) | exact E].
  Qed.
  (** a segment of [len] bytes that contains zeros, and a program that runs on it *)
  Definition fresh_seg : option pst := match init_once base hdr len (fun _ => 0) with Ok (a, s) => Some (a, s, []) | _ => None end.
  Definition prog (l : list pcmd) : option pst := match fresh_seg with Some z => prun rm z l | None => None end.
  Lemma prog_check l (f : palloc -> ms -> list block -> bool) : 0 < base -> fits base hdr len ->
    match prog l with Some (a, s, L) => f a s L | None => false end = true -> exists a s L, sys rm base hdr len a s L /\ f a s L = true.
  Proof.
    intros B F E. unfold prog, fresh_seg in E. destruct (init_once base hdr len _) as [[a0 s0]| |] eqn:E0; try discriminate.
    destruct (prun rm (a0, s0, []) l) as [[[a s] L]|] eqn:E1; [|discriminate]. exists a, s, L. split; [|exact E].
    apply (prun_good l (a0, s0, []) (a, s, L)); [exact (y_init rm base hdr len _ _ _ B F E0) | exact E1].
  Qed.
End Run.

(** A history that meets the hypotheses: small, medium and large blocks, stores, frees; 4096 bytes at address 4096 for the structure,
    512 pages.  Afterwards three blocks are held, and the pages in use are the heap's footprint. *)
Example C64_example : exists a s L, sys false 4096 200 (4096 * 514) a s L /\
  (Nat.eqb (length L) 3 && (n_pages a =? 512) && (0 <? pages_used a) && (4096 * pages_used a =? foot s) && existsb (fun x => size x =? 300000) L)%bool = true.
Proof.
  refine (prog_check false 4096 200 (4096 * 514) [PA 100; PA 300000; PS 0 8 7; PA 5000; PF 2 false; PA 262144; PS 1 0 9; PF 0 false; PA 24] _ _ _ _); [lia | vm_compute; repeat split; discriminate | vm_compute; reflexivity].
Qed.
(** With 193 pages, which is not a multiple of 64, a block ends behind the end of the segment. *)
Theorem C64_inside_refuted : ~ (forall base hdr len a s L x, sys false base hdr len a s L -> In x L -> addr x + size x <= base + len).
Proof.
  intros H.
  destruct (prog_check false 4096 200 (4096 * 195) [PA 262144; PA 262144; PF 1 false; PA 409600]
              (fun _ _ L => match L with x :: _ => 4096 + 4096 * 195 <? addr x + size x | [] => false end)) as (a & s & L & HS & E); [lia | vm_compute; repeat split; discriminate | vm_compute; reflexivity |].
  destruct L as [|x L]; [discriminate|]. apply N.ltb_lt in E. specialize (H _ _ _ _ _ _ x HS (or_introl eq_refl)). lia.
Qed.
(** A segment that was used and freed is not as good as a new one: with no block held, a request aborts that a new segment serves. *)
Theorem C64_empty_abort_refuted : ~ (forall base hdr len a0 s0 a s bytes, 0 < base -> fits base hdr len -> init_once base hdr len (fun _ => 0) = Ok (a0, s0) ->
  sys false base hdr len a s [] -> (exists x, allocate a0 s0 bytes (pick s0 (padded bytes)) = Ok x) -> exists x, allocate a s bytes (pick s (padded bytes)) = Ok x).
Proof.
  intros H.
  destruct (prog_check false 4096 200 (4096 * 1026) (repeat (PA 250000) 10 ++ repeat (PF 0 false) 10)
              (fun a s L => match L with [] => match allocate a s 2867200 (pick s (padded 2867200)) with Abort => true | _ => false end | _ => false end)) as (a & s & L & HS & E); [lia | vm_compute; repeat split; discriminate | vm_compute; reflexivity |].
  destruct L as [|x L]; [|discriminate].
  destruct (init_once 4096 200 (4096 * 1026) (fun _ => 0)) as [[a0 s0]| |] eqn:E0; [| vm_compute in E0; discriminate | vm_compute in E0; discriminate].
  assert (K : match init_once 4096 200 (4096 * 1026) (fun _ => 0) with Ok (a0, s0) => match allocate a0 s0 2867200 (pick s0 (padded 2867200)) with Ok _ => true | _ => false end | _ => false end = true) by (vm_compute; reflexivity).
  rewrite E0 in K. destruct (allocate a0 s0 2867200 _) as [y| |] eqn:EA; try discriminate.
  destruct (H 4096 200 (4096 * 1026) a0 s0 a s 2867200) as (z & EZ); [lia | vm_compute; repeat split; discriminate | exact E0 | exact HS | exists y; exact EA |]. rewrite EZ in E. discriminate.
Qed.
(** With mremap, trimming leaks: tearing down the allocator of a program that freed everything leaves pages marked. *)
Theorem C64_exit_leak_refuted : ~ (forall base hdr len a s a', sys true base hdr len a s [] -> exit_ a s = Ok a' -> pages_used a' = 0).
Proof.
  intros H.
  destruct (prog_check true 4096 200 (4096 * 1026) (PA 300000 :: repeat (PA 250000) 9 ++ repeat (PF 0 true) 10)
              (fun a s L => match L with [] => match exit_ a s with Ok a' => pages_used a' =? 512 | _ => false end | _ => false end)) as (a & s & L & HS & E); [lia | vm_compute; repeat split; discriminate | vm_compute; reflexivity |].
  destruct L as [|x L]; [|discriminate]. destruct (exit_ a s) as [a'| |] eqn:EX; try discriminate. apply N.eqb_eq in E. rewrite (H _ _ _ _ _ _ HS EX) in E. discriminate.
Qed.
