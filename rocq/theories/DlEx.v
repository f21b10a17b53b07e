(** Concrete histories of the heap of [DlHist] (properties C59 and C60): the hypotheses of [DlProps] are met, and what is not
    true.  No code of its own. *)
From Verif Require Import Base DlModel DlInv DlAlloc DlSys DlPre DlMalloc DlFree DlFwd DlHist DlProps.
From Coq Require Import Lia.
Local Open Scope N_scope.
Arguments N.add : simpl never. Arguments N.sub : simpl never. Arguments N.mul : simpl never. Arguments N.div : simpl never.
Arguments N.modulo : simpl never. Arguments N.eqb : simpl never. Arguments N.ltb : simpl never. Arguments N.leb : simpl never.
Arguments N.odd : simpl never.

(** ** Which pages a call can change *)
Definition grow (mm : N -> option N) (s s' : ms) : Prop := forall x, pg s' x = true -> pg s x = true \/ exists n b, mm n = Some b /\ b <= x /\ x < b + n.
Definition same (s s' : ms) : Prop := pg s' = pg s.
Lemma same_grow mm s s' : same s s' -> grow mm s s'.
Proof. intros E x H. left. rewrite <- E. exact H. Qed.
Lemma same_pre mm s s1 s' : same s s1 -> grow mm s1 s' -> grow mm s s'.
Proof. intros E G x H. rewrite <- E. apply G, H. Qed.
Lemma unlink_same s p n s' : unlink_chunk s p n = Ok s' -> same s s'.
Proof.
  unfold unlink_chunk, unlink_small, unlink_large. destruct (is_small n); [destruct (in_dec N.eq_dec p (sb s (small_index n))) | destruct (in_dec N.eq_dec p (tb s))]; intros E; try discriminate; injection E as <-; reflexivity.
Qed.
Lemma unlink_large_same s p s' : unlink_large s p = Ok s' -> same s s'.
Proof. unfold unlink_large. destruct (in_dec N.eq_dec p (tb s)); intros E; try discriminate; injection E as <-; reflexivity. Qed.
Lemma insert_same s p n : same s (insert_chunk s p n).
Proof. unfold insert_chunk. destruct (is_small n); reflexivity. Qed.
Lemma replace_same s p n : same s (replace_dv s p n).
Proof. unfold replace_dv. destruct (dvsize s =? 0); reflexivity. Qed.
Lemma mmap_grow s nb mm s' o : mmap_alloc s nb mm = Ok (s', o) -> grow mm s s'.
Proof.
  unfold mmap_alloc. destruct (nb <? mmap_align ((nb + 63) mod W)); [|intros E; injection E as <- _; apply same_grow; reflexivity].
  set (sz := mmap_align _). destruct (mm sz) as [b|] eqn:EM; [|discriminate]. intros E. apply (f_equal (fun o => match o with Ok (s, _) => pg s | _ => pg s end)) in E. cbn beta iota in E.
  intros x H. rewrite <- E in H. destruct ((least _ =? 0) || _) in H; cbn in H; apply orb_true_iff in H; (destruct H as [H | H]; [right; exists sz, b; apply within_spec in H; auto | now left]).
Qed.
Lemma prepend_same s a b nb s' p : prepend_alloc s a b nb = Ok (s', p) -> same s s'.
Proof.
  unfold prepend_alloc. destruct (b =? top _); [intros E; injection E as <- _; reflexivity|]. destruct (b =? dv _); [intros E; injection E as <- _; reflexivity|].
  destruct (is_inuse _ b); [intros E; injection E as <- _; unfold same; rewrite insert_same; reflexivity|].
  destruct (unlink_chunk _ _ _) as [s1| |] eqn:EU; cbn [bind]; intros E; try discriminate. injection E as <- _. unfold same. rewrite insert_same. apply unlink_same in EU. unfold same in EU. cbn. rewrite EU. reflexivity.
Qed.
Lemma add_same s a n s' : add_segment s a n = Ok s' -> same s s'.
Proof.
  unfold add_segment. destruct (seg_of s (top s)) as [old|]; [|discriminate]. destruct (segs s) as [|cur rest]; [discriminate|]. cbv zeta.
  destruct (_ =? top s); intros E; injection E as <-; unfold same; rewrite ?insert_same; reflexivity.
Qed.
Lemma sys_grow s nb mm s' o : sys_alloc s nb mm = Ok (s', o) -> grow mm s s'.
Proof.
  unfold sys_alloc. set (m := if _ && _ then mmap_alloc s nb mm else Ok (s, None)).
  assert (M : forall s1 o, m = Ok (s1, o) -> (o <> None -> grow mm s s1) /\ (o = None -> s1 = s)).
  { intros s1 o1 E. unfold m in E. destruct (_ && _); [|injection E as <- <-; split; [congruence | reflexivity]]. split; [intros _; apply (mmap_grow _ _ _ _ _ E)|]. intros ->.
    unfold mmap_alloc in E. destruct (nb <? _) in E; [|injection E as <-; reflexivity]. destruct (mm _) in E; discriminate. }
  clearbody m. destruct m as [[s1 [p|]]| |]; cbn [bind]; try discriminate.
  - intros E. injection E as <- <-. apply (proj1 (M s1 (Some p) eq_refl)). discriminate.
  - rewrite (proj2 (M s1 None eq_refl) eq_refl) in *. clear M s1. cbv zeta. set (n := granularity_align _). destruct (n <=? nb); [intros E; injection E as <- _; apply same_grow; reflexivity|].
    destruct (mm n) as [b|] eqn:EM; [|discriminate]. set (s1 := set_foot_ _ _).
    assert (G1 : forall s2, same s1 s2 -> grow mm s s2).
    { intros s2 E x H. rewrite E in H. cbn in H. apply orb_true_iff in H. destruct H as [H | H]; [right; exists n, b; apply within_spec in H; auto | now left]. }
    assert (FI : forall s2 s' o, same s1 s2 -> (if nb <? topsize s2 then let '(s', p) := split_top s2 nb in Ok (s', Some (p + 16)) else Ok (s2, None)) = Ok (s', o) -> same s1 s').
    { intros s2 s3 o3 E F. destruct (nb <? topsize s2); injection F as <- _; unfold same in *; rewrite <- E; reflexivity. }
    set (s2 := if b <? least s1 then set_least s1 b else s1). assert (S2 : same s1 s2) by (unfold s2; destruct (b <? least s1); reflexivity).
    assert (K : match find_seg (fun g => sbase g =? b + n) (segs s2) with
                | Some (g, l1, l2) => do x <- prepend_alloc (set_segs s2 (l1 ++ mkseg b (ssize g + n) (srec g) :: l2)) b (sbase g) nb; Ok (fst x, Some (snd x + 16))
                | None => do s <- add_segment s2 b n; if nb <? topsize s then let '(s', p) := split_top s nb in Ok (s', Some (p + 16)) else Ok (s, None)
                end = Ok (s', o) -> grow mm s s').
    { intros E. apply G1. destruct (find_seg _ _) as [[[g l1] l2]|].
      - destruct (prepend_alloc _ _ _ _) as [[s3 p]| |] eqn:EP; cbn [bind] in E; try discriminate. injection E as <- _. cbn [fst]. apply prepend_same in EP. unfold same in *. rewrite EP. exact S2.
      - destruct (add_segment s2 b n) as [s3| |] eqn:EA; cbn [bind] in E; try discriminate. apply add_same in EA. apply (FI s3 s' o); [unfold same in *; congruence | exact E]. }
    destruct (find_seg (fun g => b =? sbase g + ssize g) (segs s1)) as [[[g l1] l2]|]; [|exact K].
    destruct (within (sbase g) (ssize g) (top s1)); [|exact K]. intros E. apply G1. eapply FI; [|exact E]. reflexivity.
Qed.
Lemma rest_grow s nb mm s' o : from_rest s nb mm = Ok (s', o) -> grow mm s s'.
Proof.
  unfold from_rest. destruct (nb <=? dvsize s); [destruct (MIN_CHUNK <=? _); intros E; injection E as <- _; apply same_grow; reflexivity|].
  destruct (nb <? topsize s); [intros E; injection E as <- _; apply same_grow; reflexivity | apply sys_grow].
Qed.
Lemma cut_same s v nb d s' p : cut s v nb d = Ok (s', p) -> same s s'.
Proof.
  unfold cut. destruct (_ && _); [|discriminate]. destruct (unlink_large s v) as [s1| |] eqn:EU; cbn [bind]; try discriminate. apply unlink_large_same in EU. unfold same in *.
  destruct (_ <? MIN_CHUNK); intros E; injection E as <- _; [rewrite <- EU; reflexivity|]. destruct d; [rewrite replace_same | rewrite insert_same]; rewrite <- EU; reflexivity.
Qed.
Lemma malloc_grow s bytes v mm s' o : malloc s bytes v mm = Ok (s', o) -> grow mm s s'.
Proof.
  unfold malloc. destruct (bytes <=? MAX_SMALL_REQUEST).
  - set (nb := if _ <? _ then _ else _). cbv zeta. destruct (sb s (small_index nb)) as [|p r]; [|intros E; injection E as <- _; apply same_grow; reflexivity].
    destruct (sb s (small_index nb + 1)) as [|p r]; [|intros E; injection E as <- _; apply same_grow; reflexivity].
    destruct (dvsize s <? nb); [|apply rest_grow]. destruct (first_bin _ _ _) as [i|].
    + destruct (sb s i) as [|p r]; [discriminate|]. destruct (_ <? MIN_CHUNK); intros E; injection E as <- _; apply same_grow; [reflexivity|]. unfold same. rewrite replace_same. reflexivity.
    + destruct (tb s); [apply rest_grow|]. unfold tmalloc_small. destruct v as [v|]; [|discriminate]. destruct (cut s v nb true) as [[s1 p]| |] eqn:EC; cbn [bind]; try discriminate.
      intros E. injection E as <- _. apply same_grow. apply (cut_same _ _ _ _ _ _ EC).
  - destruct (MAX_REQUEST <=? bytes); [apply rest_grow|]. cbv zeta. destruct (tb s); [apply rest_grow|]. unfold tmalloc_large. destruct v as [v|]; cbn [bind]; [|apply rest_grow].
    destruct (_ <? _); cbn [bind]; [|apply rest_grow]. destruct (cut s v (pad_request bytes) false) as [[s1 p]| |] eqn:EC; cbn [bind]; try discriminate.
    intros E. injection E as <- _. apply same_grow. apply (cut_same _ _ _ _ _ _ EC).
Qed.
Definition shrink (s s' : ms) : Prop := forall x, pg s' x = true -> pg s x = true.
Lemma shrink_trans s s1 s2 : shrink s s1 -> shrink s1 s2 -> shrink s s2.
Proof. unfold shrink. auto. Qed.
Lemma same_shrink s s' : same s s' -> shrink s s'.
Proof. intros E x H. rewrite <- E. exact H. Qed.
Lemma unmap_shrink s b n : shrink s (unmapped s b n).
Proof. intros x H. cbn in H. apply andb_true_iff in H. apply H. Qed.
Lemma loop_shrink l : forall s s' l' k, release_loop s l = Ok (s', l', k) -> shrink s s'.
Proof.
  induction l as [|g l IH]; intros s s' l' k; cbn [release_loop]; [intros E; injection E as <- _ _; apply same_shrink; reflexivity|]. destruct (_ && _).
  - destruct (if sbase g =? dv s then Ok (set_dv s 0 0) else unlink_large s (sbase g)) as [s1| |] eqn:E1; cbn [bind]; try discriminate.
    assert (S1 : same s s1) by (destruct (sbase g =? dv s); [injection E1 as <-; reflexivity | apply unlink_large_same in E1; exact E1]).
    destruct (release_loop _ l) as [[[s2 l2] k2]| |] eqn:E2; cbn [bind]; try discriminate. intros E. injection E as <- _ _. apply IH in E2.
    eapply shrink_trans; [apply same_shrink, S1|]. eapply shrink_trans; [apply (unmap_shrink s1 (sbase g) (ssize g))|]. exact E2.
  - destruct (release_loop s l) as [[[s2 l2] k2]| |] eqn:E2; cbn [bind]; try discriminate. intros E. injection E as <- _ _. apply IH in E2. exact E2.
Qed.
Lemma release_shrink s s' n : release_unused s = Ok (s', n) -> shrink s s'.
Proof.
  unfold release_unused. destruct (segs s) as [|g r]; [discriminate|]. destruct (release_loop s r) as [[[s2 l2] k2]| |] eqn:E2; cbn [bind]; try discriminate.
  intros E. injection E as <- _. apply loop_shrink in E2. exact E2.
Qed.
Lemma trim_shrink s mr s' : sys_trim s mr = Ok s' -> shrink s s'.
Proof.
  unfold sys_trim. match goal with |- context [bind ?x _] => destruct x as [[s1 n1]| |] eqn:E1 end; cbn [bind fst snd]; try discriminate.
  assert (S1 : shrink s s1).
  { destruct (TOP_FOOT <? topsize s); [|injection E1 as <- _; apply same_shrink; reflexivity]. destruct (seg_of s (top s)) as [g|]; [|discriminate]. cbv zeta in E1.
    destruct (_ && _ && _) in E1; [|injection E1 as <- _; apply same_shrink; reflexivity]. injection E1 as <- _. destruct mr; [apply same_shrink; reflexivity|]. apply (unmap_shrink s). }
  destruct (release_unused s1) as [[s2 n2]| |] eqn:E2; cbn [bind fst snd]; try discriminate. apply release_shrink in E2. intros E. injection E as <-.
  eapply shrink_trans; [exact S1|]. eapply shrink_trans; [exact E2|]. destruct (_ && _); apply same_shrink; reflexivity.
Qed.
Lemma bin_shrink s p n s' : bin_it s p n = Ok s' -> shrink s s'.
Proof.
  unfold bin_it. destruct (is_small n); [intros E; injection E as <-; apply same_shrink; reflexivity|]. cbv zeta. destruct (_ =? 0); [|intros E; injection E as <-; apply same_shrink; reflexivity].
  destruct (release_unused _) as [[s2 n2]| |] eqn:E2; cbn [bind fst]; try discriminate. intros E. injection E as <-. apply release_shrink in E2. exact E2.
Qed.
Lemma fwd_shrink s p n nx mr s' : free_fwd s p n nx mr = Ok s' -> shrink s s'.
Proof.
  unfold free_fwd. destruct (_ && _); [|discriminate]. destruct (negb (cinuse s nx)); [|intros E; apply bin_shrink in E; exact E].
  destruct (nx =? top s).
  - cbv zeta. set (s1 := if p =? dv _ then _ else _). assert (S1 : shrink s s1) by (unfold s1; destruct (p =? dv _); apply same_shrink; reflexivity).
    destruct (trimc s1 <? _); [intros E; apply trim_shrink in E; eapply shrink_trans; eauto | intros E; injection E as <-; exact S1].
  - destruct (nx =? dv s); [intros E; injection E as <-; apply same_shrink; reflexivity|]. cbv zeta.
    destruct (unlink_chunk s nx (chunksize s nx)) as [s1| |] eqn:E1; cbn [bind]; try discriminate. apply unlink_same in E1.
    destruct (p =? dv _); [intros E; injection E as <-; apply same_shrink; exact E1|]. intros E. apply bin_shrink in E. eapply shrink_trans; [apply same_shrink, E1 | exact E].
Qed.
Lemma free_shrink s a mr s' : mspace_free s a mr = Ok s' -> shrink s s'.
Proof.
  unfold mspace_free. destruct (a =? 0); [intros E; injection E as <-; apply same_shrink; reflexivity|]. unfold free. destruct (_ && _); [|discriminate]. cbv zeta.
  destruct (pinuse s (a - 16)); [apply fwd_shrink|]. destruct (is_mmapped s (a - 16)); [intros E; injection E as <-; apply unmap_shrink|].
  destruct (least s <=? _); [|discriminate]. destruct (negb _).
  - destruct (unlink_chunk _ _ _) as [s1| |] eqn:E1; cbn [bind]; try discriminate. apply unlink_same in E1. intros E. apply fwd_shrink in E. eapply shrink_trans; [apply same_shrink, E1 | exact E].
  - destruct (_ =? 3); [intros E; injection E as <-; apply same_shrink; reflexivity | apply fwd_shrink].
Qed.

(** ** Scripts *)
(** [Al n]: allocate [n] bytes, without arax_mmap; [Alm n gap]: the same, arax_mmap answers [gap] bytes above all pages given so
    far; [Fre i mr]: free the block
    number [i] of those held; [St i o w]: store [w] at offset [o] of the block number [i]. *)
Inductive cmd := Al (n : N) | Alm (n gap : N) | Fre (i : nat) (mr : bool) | St (i : nat) (o w : N).
Definition pick (s : ms) (nb : N) : option N :=
  fold_right (fun a v => if nb <=? chunksize s a then match v with Some b => if chunksize s a <=? chunksize s b then Some a else v | None => Some a end else v) None (tb s).
Lemma pick_ok s nb : best_fit s nb (pick s nb).
Proof.
  unfold pick, best_fit. induction (tb s) as [|a l IH]; cbn [fold_right]; [intros c []|].
  destruct (fold_right _ None l) as [b|] eqn:E.
  - destruct IH as (I1 & I2 & I3). destruct (nb <=? chunksize s a) eqn:EN; [apply N.leb_le in EN; destruct (chunksize s a <=? chunksize s b) eqn:EA|].
    + apply N.leb_le in EA. split; [now left|]. split; [exact EN|]. intros c [<- | IC] NC; [lia|]. specialize (I3 c IC NC). lia.
    + apply N.leb_gt in EA. split; [now right|]. split; [exact I2|]. intros c [<- | IC] NC; [lia | auto].
    + apply N.leb_gt in EN. split; [now right|]. split; [exact I2|]. intros c [<- | IC] NC; [lia | auto].
  - destruct (nb <=? chunksize s a) eqn:EN.
    + apply N.leb_le in EN. split; [now left|]. split; [exact EN|]. intros c [<- | IC] NC; [lia|]. specialize (IH c IC). lia.
    + apply N.leb_gt in EN. intros c [<- | IC]; [exact EN | auto].
Qed.
Lemma pick_answer rm s L nb : hist rm s L -> tree_answer s nb (pick s nb).
Proof. intros H. apply hist_inv in H. destruct H as (G & D & [I _ _ _ _ _]). apply (best_answer _ _ _ _ _ I), pick_ok. Qed.
Definition lim (n : N) : N := let nb := padded n in if MMAP_THRESHOLD <=? nb then mmap_align ((nb + 63) mod W) else granularity_align ((nb + 96) mod W).
Definition mm_at (brk l : N) (n : N) : option N := if n =? l then Some brk else None.
(** state, blocks, and a bound on the pages given *)
Definition stp (rm : bool) (z : ms * list block * N) (c : cmd) : option (ms * list block * N) :=
  let '(s, L, brk) := z in
  match c with
  | Al n =>
      match malloc s n (pick s (padded n)) (fun _ => None) with
      | Ok (s', Some a) => Some (s', mkb a n (mem s') :: L, brk)
      | _ => None
      end
  | Alm n gap =>
      if ((brk + gap) mod 4096 =? 0) && (brk + gap + lim n <=? W) then
      match malloc s n (pick s (padded n)) (mm_at (brk + gap) (lim n)) with
      | Ok (s', Some a) => Some (s', mkb a n (mem s') :: L, brk + gap + lim n)
      | _ => None
      end
      else None
  | Fre i mr =>
      match nth_error L i with
      | Some x => if implb mr rm then match mspace_free s (addr x) mr with Ok s' => Some (s', firstn i L ++ skipn (S i) L, brk) | _ => None end else None
      | None => None
      end
  | St i o w =>
      match nth_error L i with
      | Some x => if o <? size x then Some (set_mem s (wr_ (mem s) (addr x + o) w), firstn i L ++ mkb (addr x) (size x) (wr_ (data x) (addr x + o) w) :: skipn (S i) L, brk) else None
      | None => None
      end
  end.
Fixpoint run (rm : bool) (z : ms * list block * N) (l : list cmd) : option (ms * list block * N) :=
  match l with [] => Some z | c :: r => match stp rm z c with Some z' => run rm z' r | None => None end end.
Lemma nth_split' {A} i (L : list A) x : nth_error L i = Some x -> L = firstn i L ++ x :: skipn (S i) L.
Proof. revert L. induction i as [|i IH]; intros [|a L] E; cbn in *; try discriminate; [congruence|]. f_equal. apply IH, E. Qed.

Definition good (rm : bool) (z : ms * list block * N) : Prop := let '(s, L, brk) := z in hist rm s L /\ 4096 <= brk /\ forall x, pg s x = true -> x < brk.
Lemma stp_good rm z c z' : good rm z -> stp rm z c = Some z' -> good rm z'.
Proof.
  destruct z as [[s L] brk]. intros (H & B & P). destruct c as [n | n gap | i mr | i o w]; cbn [stp].
  - destruct (malloc s n _ _) as [[s' [a|]]| |] eqn:E; try discriminate. intros E1. injection E1 as <-. split; [|split; [exact B|]].
    + apply (h_alloc _ _ _ _ _ _ _ _ H (pick_answer _ _ _ _ H)) in E; [exact E | discriminate].
    + intros x HX. apply (malloc_grow _ _ _ _ _ _ E) in HX. destruct HX as [HX | (k & b & HK & _)]; [auto | discriminate].
  - destruct (_ && _) eqn:EC; [|discriminate]. apply andb_true_iff in EC. destruct EC as (C1 & C2). apply N.eqb_eq in C1. apply N.leb_le in C2.
    destruct (malloc s n _ _) as [[s' [a|]]| |] eqn:E; try discriminate. intros E1. injection E1 as <-. split; [|split; [lia|]].
    + apply (h_alloc _ _ _ _ _ _ _ _ H (pick_answer _ _ _ _ H)) in E; [exact E|]. intros k b EK. unfold mm_at in EK. destruct (k =? lim n) eqn:EL; [|discriminate]. injection EK as <-.
      apply N.eqb_eq in EL. subst k. split; [lia|]. split; [exact C1|]. split; [exact C2|]. intros x X1 X2. destruct (pg s x) eqn:EP; [|reflexivity]. apply P in EP. lia.
    + intros x HX. apply (malloc_grow _ _ _ _ _ _ E) in HX. destruct HX as [HX | (k & b & HK & H1 & H2)]; [specialize (P x HX); lia|].
      unfold mm_at in HK. destruct (k =? lim n) eqn:EL; [|discriminate]. injection HK as <-. apply N.eqb_eq in EL. subst k. exact H2.
  - destruct (nth_error L i) as [x|] eqn:EN; [|discriminate]. destruct (implb mr rm) eqn:EM; [|discriminate]. destruct (mspace_free s (addr x) mr) as [s'| |] eqn:E; try discriminate.
    intros E1. injection E1 as <-. split; [|split; [exact B|]].
    + rewrite (nth_split' _ _ _ EN) in H. apply (h_free _ _ _ _ _ mr _ H) in E; [exact E|]. intros ->. destruct rm; [reflexivity | discriminate].
    + intros y HY. apply P. apply (free_shrink _ _ _ _ E). exact HY.
  - destruct (nth_error L i) as [[a n d]|] eqn:EN; [|discriminate]. cbn [addr size data]. destruct (o <? n) eqn:EO; [|discriminate]. apply N.ltb_lt in EO.
    intros E1. injection E1 as <-. split; [|split; [exact B | exact P]]. rewrite (nth_split' _ _ _ EN) in H. apply (h_store _ _ _ _ _ _ _ (a + o) w H); lia.
Qed.
Lemma run_good rm l : forall z z', good rm z -> run rm z l = Some z' -> good rm z'.
Proof.
  induction l as [|c l IH]; intros z z' G E; cbn [run] in E; [injection E as <-; exact G|]. destruct (stp rm z c) as [z1|] eqn:E1; [|discriminate].
  apply (IH z1); [apply (stp_good _ _ _ _ G E1) | exact E].
Qed.
(** a heap at address 65536 *)
Definition heap0 : ms * list block * N := (create (fun _ => 0) 65536 65536, [], 131072).
Lemma heap0_good rm : good rm heap0.
Proof. split; [apply h_create; unfold W; lia|]. split; [lia|]. intros x H. cbn in H. apply within_spec in H. lia. Qed.
(** what is visible of a run *)
Definition view (z : option (ms * list block * N)) : option (list (N * N) * N * N * N * list N) :=
  match z with Some (s, L, _) => Some (map (fun x => (addr x, size x)) L, topsize s, dvsize s, foot s, tb s) | None => None end.
Lemma run_hist rm l : match run rm heap0 l with Some (s, L, _) => hist rm s L | None => True end.
Proof. destruct (run rm heap0 l) as [[[s L] k]|] eqn:E; [|exact Logic.I]. apply (run_good _ _ _ _ (heap0_good rm)) in E. apply E. Qed.

Definition script1 : list cmd :=
  [Al 100; Al 40000; Al 1000; St 0 16 77; St 2 8 5; Alm 30000 0; Fre 2 false; Al 500; Alm 300000 4096; Alm 200000 65536; Fre 1 false; Al 20000].
(** [script1] runs: six blocks are held, in two segments (the large block that had its own pages was freed). *)
Example script1_runs : view (run false heap0 script1) =
  Some ([(67120, 20000); (569360, 200000); (66608, 500); (107632, 30000); (106624, 1000); (66496, 100)], 62048, 0, 393216, [87120; 137632]).
Proof. vm_compute. reflexivity. Qed.
(** The hypotheses of the theorems of [DlProps] hold there. *)
Definition nlist_eqb (a b : list N) : bool := if list_eq_dec N.eq_dec a b then true else false.
(** a check of the result of a run *)
Lemma run_check rm l (f : ms -> list block -> bool) : match run rm heap0 l with Some (s, L, _) => f s L | None => false end = true -> exists s L, hist rm s L /\ f s L = true.
Proof. pose proof (run_hist rm l) as H. destruct (run rm heap0 l) as [[[s L] k]|]; [|discriminate]. intros E. exists s, L. auto. Qed.
Example script1_hist : exists s L, hist false s L /\ map addr L = [67120; 569360; 66608; 107632; 106624; 66496] /\ mem s 106640 = 77 /\ mem s 66504 = 5.
Proof.
  destruct (run_check false script1 (fun s L => nlist_eqb (map addr L) [67120; 569360; 66608; 107632; 106624; 66496] && (mem s 106640 =? 77) && (mem s 66504 =? 5))%bool) as (s & L & H & E).
  { vm_compute. reflexivity. }
  apply andb_true_iff in E. destruct E as (E & E3). apply andb_true_iff in E. destruct E as (E1 & E2). exists s, L. split; [exact H|].
  unfold nlist_eqb in E1. destruct (list_eq_dec N.eq_dec _ _) as [E|]; [|discriminate]. split; [exact E|]. split; apply N.eqb_eq; assumption.
Qed.
(** ten blocks of 250000 bytes, then all are freed *)
Definition fars (mr : bool) (gap : N) : list cmd := Alm 250000 gap :: repeat (Alm 250000 0) 9 ++ repeat (Fre 0 mr) 10.
(** Where mremap succeeds (Linux), trimming loses pages: they are neither in the heap nor given back, and even destroying a heap
    without blocks leaves them allocated for ever. *)
Theorem C60_mremap_leak_refuted : exists s, hist true s [] /\ (exists y, pg s y = true /\ forall g, In g (segs s) -> within (sbase g) (ssize g) y = false) /\
  exists y, pg (destroy s) y = true.
Proof.
  destruct (run_check true (fars true 1048576) (fun s L => match L with [] => pg s 3000000 && forallb (fun g => negb (within (sbase g) (ssize g) 3000000)) (segs s) && pg (destroy s) 3000000 | _ => false end)%bool) as (s & L & H & E).
  { vm_compute. reflexivity. }
  destruct L as [|x L]; [|discriminate]. apply andb_true_iff in E. destruct E as (E & E3). apply andb_true_iff in E. destruct E as (E1 & E2).
  exists s. split; [exact H|]. split; [|eauto]. exists 3000000. split; [exact E1|]. intros g IG. rewrite forallb_forall in E2. apply negb_true_iff. apply E2, IG.
Qed.
(** the same history where mremap fails: everything above 64 KB of slack is given back *)
Example heap_trim_works : exists s, hist false s [] /\ foot s = 589824.
Proof.
  destruct (run_check false (fars false 1048576) (fun s L => match L with [] => foot s =? 589824 | _ => false end)) as (s & L & H & E).
  { vm_compute. reflexivity. }
  destruct L as [|x L]; [|discriminate]. apply N.eqb_eq in E. eauto.
Qed.
(** A heap that grew contiguously is never trimmed, because its first segment has the record of the first segment: all blocks
    are freed, top is larger than the trim threshold, and nothing is given back. *)
Theorem C60_never_trimmed_refuted : exists s, hist false s [] /\ TRIM_THRESHOLD < topsize s /\ foot s = 2686976 /\ exists s', sys_trim s false = Ok s' /\ foot s' = 2686976.
Proof.
  destruct (run_check false (fars false 0) (fun s L => match L with [] => (TRIM_THRESHOLD <? topsize s) && (foot s =? 2686976) && match sys_trim s false with Ok s' => foot s' =? 2686976 | _ => false end | _ => false end)%bool) as (s & L & H & E).
  { vm_compute. reflexivity. }
  destruct L as [|x L]; [|discriminate]. apply andb_true_iff in E. destruct E as (E & E3). apply andb_true_iff in E. destruct E as (E1 & E2).
  exists s. split; [exact H|]. split; [apply N.ltb_lt, E1|]. split; [apply N.eqb_eq, E2|]. destruct (sys_trim s false) as [s'| |]; try discriminate. exists s'. split; [reflexivity | apply N.eqb_eq, E3].
Qed.
(** The segment that has the allocator's state can never be trimmed, whatever the history. *)
Theorem C60_first_segment_stays_refuted rm s L g : hist rm s L -> In g (segs s) -> within (sbase g) (ssize g) (mst s) = true -> has_link s g = true.
Proof.
  intros H IG IM. apply hist_inv in H. destruct H as (G & D & [I _ _ _ _ _]). pose proof (i_core _ _ _ I) as C. apply within_spec in IM.
  pose proof (c_rec _ _ _ _ _ _ _ _ C) as RC. destruct (c_mst _ _ _ _ _ _ _ _ C) as (c & EM & IT). unfold has_link. apply existsb_exists.
  destruct G as [|gl GT]; [destruct RC|]. exists (fst gl). split; [rewrite <- (i_segs _ _ _ I); now left|]. rewrite RC. apply within_spec.
  destruct (tiles_split _ _ _ _ IT) as (G1 & g1 & l1 & l2 & G2 & EG & EC).
  rewrite EG in C. destruct (tile_in _ _ _ _ _ _ _ _ _ _ _ _ _ _ C) as (_ & _ & _ & _ & _ & T & _). rewrite <- EC in T.
  assert (g = g1) as ->; [|lia].
  rewrite <- (i_segs _ _ _ I), EG in IG. apply in_map_iff in IG. destruct IG as ([g' l'] & <- & IG). cbn [fst] in *.
  assert (K : g' = g1 \/ In (g', l') (G1 ++ G2)) by (rewrite !in_app_iff in *; cbn [In] in IG; destruct IG as [IG | [IG | IG]]; [auto | left; congruence | auto]).
  destruct K as [K | K]; [exact K|]. pose proof (geo_apart _ _ _ _ _ _ _ (c_geo _ _ _ _ _ _ _ _ C) K) as P. unfold rdisj, reg in P. cbn [fst snd] in P. lia.
Qed.
(** A segment whose last 16 bytes were top's is not recognised as unused when all its blocks are freed: it is not given back
    (with a block 24 bytes shorter it is). *)
Definition stuck (k : N) : list cmd := [Al 64480; Alm 65000 1048576; Al k; Alm 250000 1048576; Fre 3 false; Fre 2 false; Fre 1 false].
Definition seg_eqb (g h : seg) : bool := (sbase g =? sbase h) && (ssize g =? ssize h) && (srec g =? srec h).
Lemma seg_in_ok g l : existsb (seg_eqb g) l = true -> In g l.
Proof.
  intros H. apply existsb_exists in H. destruct H as (h & I & E). unfold seg_eqb in E. apply andb_true_iff in E. destruct E as (E & E3). apply andb_true_iff in E. destruct E as (E1 & E2).
  apply N.eqb_eq in E1, E2, E3. destruct g, h. cbn in *. subst. exact I.
Qed.
Theorem C60_stuck_segment_refuted : exists s x, hist false s [x] /\ In (mkseg 1179648 65536 1245104) (segs s) /\ off (addr x) (size x) 1179648 65536 /\
  exists s', release_unused s = Ok (s', 0) /\ In (mkseg 1179648 65536 1245104) (segs s').
Proof.
  destruct (run_check false (stuck 424) (fun s L => match L with [x] => existsb (seg_eqb (mkseg 1179648 65536 1245104)) (segs s) && (1179648 + 65536 <=? addr x) &&
    match release_unused s with Ok (s', n) => (n =? 0) && existsb (seg_eqb (mkseg 1179648 65536 1245104)) (segs s') | _ => false end | _ => false end)%bool) as (s & L & H & E).
  { vm_compute. reflexivity. }
  destruct L as [|x [|y L]]; try discriminate. apply andb_true_iff in E. destruct E as (E & E3). apply andb_true_iff in E. destruct E as (E1 & E2).
  exists s, x. split; [exact H|]. split; [apply seg_in_ok, E1|]. split; [right; apply N.leb_le, E2|]. destruct (release_unused s) as [[s' n]| |]; try discriminate.
  apply andb_true_iff in E3. destruct E3 as (E3 & E4). apply N.eqb_eq in E3. subst n. exists s'. split; [reflexivity | apply seg_in_ok, E4].
Qed.
Example unstuck : match run false heap0 (stuck 400) with Some (s, _, _) => match release_unused s with Ok (_, n) => n =? 65536 | _ => false end | None => false end = true.
Proof. vm_compute. reflexivity. Qed.
(** A request the pages cannot serve aborts the process; a request near 2^64 returns NULL. *)
Example heap_full : malloc (fst (fst heap0)) 100000 None (fun _ => None) = Abort.
Proof. vm_compute. reflexivity. Qed.
Example heap_null : match malloc (fst (fst heap0)) (2 ^ 64 - 1) None (fun _ => None) with Ok (_, None) => true | _ => false end = true.
Proof. vm_compute. reflexivity. Qed.
