(** The heap of [DlModel] does not look at what the program stores (property C68): two heaps that differ in one word of a block the
    program holds take the same steps, and differ in that word only when they are done.  No code of its own. *)
From Verif Require Import Base DlModel DlInv DlAlloc DlSys DlPre DlMalloc DlFree DlFwd DlHist.
From Coq Require Import Lia.
Local Open Scope N_scope.
Arguments N.add : simpl never. Arguments N.sub : simpl never. Arguments N.mul : simpl never. Arguments N.div : simpl never.
Arguments N.modulo : simpl never. Arguments N.eqb : simpl never. Arguments N.ltb : simpl never. Arguments N.leb : simpl never.
Arguments N.odd : simpl never.

(** ** Specification *)
(** [t] is [s] but for the words of memory where [Y] holds. *)
Definition sim (Y : N -> Prop) (s t : ms) : Prop := t = set_mem s (mem t) /\ forall x, ~ Y x -> mem t x = mem s x.

(** ** Assignments *)
Section Sim.
Variable Y : N -> Prop.
Lemma sim_refl s : sim Y s s.
Proof. split; [destruct s; reflexivity | reflexivity]. Qed.
Lemma sim_ex s t : sim Y s t -> exists m, t = set_mem s m /\ forall x, ~ Y x -> m x = mem s x.
Proof. intros (E & F). exists (mem t). auto. Qed.
Lemma sim_mk s m : (forall x, ~ Y x -> m x = mem s x) -> sim Y s (set_mem s m).
Proof. intros F. split; [reflexivity | exact F]. Qed.
Ltac ex H := apply sim_ex in H; let m := fresh "m" in let F := fresh "F" in destruct H as (m & -> & F).
Lemma sim_wr s t a v : sim Y s t -> sim Y (set_mem s (wr_ (mem s) a v)) (set_mem t (wr_ (mem t) a v)).
Proof. intros H. ex H. split; [reflexivity|]. intros x X. cbn [set_mem mem]. unfold wr_. destruct (x =? a); [reflexivity | apply F, X]. Qed.
Lemma sim_head s t p : sim Y s t -> ~ Y (p + 8) -> head t p = head s p.
Proof. intros (_ & F) H. apply F, H. Qed.
Lemma sim_set_head s t p h : sim Y s t -> sim Y (set_head s p h) (set_head t p h).
Proof. apply sim_wr. Qed.
Lemma sim_top s t a n : sim Y s t -> sim Y (set_top s a n) (set_top t a n).
Proof. intros H. ex H. now apply sim_mk with (s := set_top s a n). Qed.
Lemma sim_dv s t a n : sim Y s t -> sim Y (set_dv s a n) (set_dv t a n).
Proof. intros H. ex H. now apply sim_mk with (s := set_dv s a n). Qed.
Lemma sim_sb s t i l : sim Y s t -> sim Y (set_sb s i l) (set_sb t i l).
Proof. intros H. ex H. now apply sim_mk with (s := set_sb s i l). Qed.
Lemma sim_tb s t l : sim Y s t -> sim Y (set_tb s l) (set_tb t l).
Proof. intros H. ex H. now apply sim_mk with (s := set_tb s l). Qed.
Lemma sim_segs s t l : sim Y s t -> sim Y (set_segs s l) (set_segs t l).
Proof. intros H. ex H. now apply sim_mk with (s := set_segs s l). Qed.
Lemma sim_least s t a : sim Y s t -> sim Y (set_least s a) (set_least t a).
Proof. intros H. ex H. now apply sim_mk with (s := set_least s a). Qed.
Lemma sim_rchk s t a : sim Y s t -> sim Y (set_rchk s a) (set_rchk t a).
Proof. intros H. ex H. now apply sim_mk with (s := set_rchk s a). Qed.
Lemma sim_trimc s t a : sim Y s t -> sim Y (set_trimc s a) (set_trimc t a).
Proof. intros H. ex H. now apply sim_mk with (s := set_trimc s a). Qed.
Lemma sim_foot s t a : sim Y s t -> sim Y (set_foot_ s a) (set_foot_ t a).
Proof. intros H. ex H. now apply sim_mk with (s := set_foot_ s a). Qed.
Lemma sim_mapped s t b n : sim Y s t -> sim Y (mapped s b n) (mapped t b n).
Proof. intros H. ex H. now apply sim_mk with (s := mapped s b n). Qed.
Lemma sim_unmapped s t b n : sim Y s t -> sim Y (unmapped s b n) (unmapped t b n).
Proof. intros H. ex H. now apply sim_mk with (s := unmapped s b n). Qed.
Lemma sim_fields s t : sim Y s t -> segs t = segs s /\ top t = top s /\ topsize t = topsize s /\ dv t = dv s /\ dvsize t = dvsize s /\ sb t = sb s /\ tb t = tb s /\
  least t = least s /\ rchk t = rchk s /\ trimc t = trimc s /\ foot t = foot s.
Proof. intros H. ex H. repeat split. Qed.
Ltac fields H := let A := fresh "HF" in pose proof (sim_fields _ _ H) as A;
  destruct A as (?HFsegs & ?HFtop & ?HFtops & ?HFdv & ?HFdvs & ?HFsb & ?HFtb & ?HFleast & ?HFrchk & ?HFtrimc & ?HFfoot).
Ltac rf := repeat match goal with H : ?f ?t = ?f ?s |- context [?f ?t] => rewrite H end.

Lemma sim_inuse_chunk s t p n : sim Y s t -> sim Y (set_inuse_chunk s p n) (set_inuse_chunk t p n).
Proof. apply sim_set_head. Qed.
Lemma sim_free_chunk s t p n : sim Y s t -> sim Y (set_free_chunk s p n) (set_free_chunk t p n).
Proof. intros H. unfold set_free_chunk. apply sim_wr, sim_set_head, H. Qed.
Lemma sim_inuse_pinuse s t p n : sim Y s t -> ~ Y (p + n + 8) -> sim Y (set_inuse_and_pinuse s p n) (set_inuse_and_pinuse t p n).
Proof.
  intros H NY. unfold set_inuse_and_pinuse. pose proof (sim_set_head s t p (n + 3) H) as H1. rewrite (sim_head _ _ _ H1 NY). apply sim_set_head, H1.
Qed.
Lemma sim_free_pinuse s t p n nx : sim Y s t -> ~ Y (nx + 8) -> sim Y (set_free_with_pinuse s p n nx) (set_free_with_pinuse t p n nx).
Proof. intros H NY. unfold set_free_with_pinuse. rewrite (sim_head _ _ _ H NY). apply sim_free_chunk, sim_set_head, H. Qed.
Lemma sim_insert s t p n : sim Y s t -> sim Y (insert_chunk s p n) (insert_chunk t p n).
Proof. intros H. fields H. unfold insert_chunk, insert_small, insert_large. rf. destruct (is_small n); [now apply sim_sb | now apply sim_tb]. Qed.
Lemma sim_replace_dv s t p n : sim Y s t -> sim Y (replace_dv s p n) (replace_dv t p n).
Proof. intros H. fields H. unfold replace_dv, insert_small. rf. destruct (dvsize s =? 0); apply sim_dv; [exact H | now apply sim_sb]. Qed.
Lemma sim_init_top s t p n : sim Y s t -> sim Y (init_top s p n) (init_top t p n).
Proof. intros H. unfold init_top. apply sim_trimc, sim_set_head, sim_set_head, sim_top, H. Qed.
Lemma sim_fences n : forall m m' p, (forall x, ~ Y x -> m' x = m x) -> forall x, ~ Y x -> fences m' p n x = fences m p n x.
Proof.
  induction n as [|n IH]; intros m m' p F x X; cbn [fences]; [apply F, X|]. apply IH; [|exact X]. intros z Z. unfold wr_. destruct (z =? p + 8); [reflexivity | apply F, Z].
Qed.

(** ** Functions *)
(** the same answer, and heaps that differ where [Y] holds only *)
Definition osim {A : Type} (o o' : outcome (ms * A)) : Prop :=
  match o, o' with Ok (s, r), Ok (t, r') => sim Y s t /\ r = r' | Abort, Abort => True | UB, UB => True | _, _ => False end.
Definition osim1 (o o' : outcome ms) : Prop := match o, o' with Ok s, Ok t => sim Y s t | Abort, Abort => True | UB, UB => True | _, _ => False end.
Lemma osim_bind {A B : Type} (o o' : outcome (ms * A)) (f f' : ms * A -> outcome (ms * B)) :
  osim o o' -> (forall s t r, o = Ok (s, r) -> sim Y s t -> osim (f (s, r)) (f' (t, r))) -> osim (bind o f) (bind o' f').
Proof. destruct o as [[s r]| |], o' as [[t r']| |]; cbn [osim bind]; try tauto. intros (H & <-) K. now apply K. Qed.
Lemma osim1_bind {B : Type} (o o' : outcome ms) (f f' : ms -> outcome (ms * B)) :
  osim1 o o' -> (forall s t, o = Ok s -> sim Y s t -> osim (f s) (f' t)) -> osim (bind o f) (bind o' f').
Proof. destruct o as [s| |], o' as [t| |]; cbn [osim1 bind]; try tauto. intros H K. now apply K. Qed.
Lemma osim1_bind1 (o o' : outcome ms) (f f' : ms -> outcome ms) :
  osim1 o o' -> (forall s t, o = Ok s -> sim Y s t -> osim1 (f s) (f' t)) -> osim1 (bind o f) (bind o' f').
Proof. destruct o as [s| |], o' as [t| |]; cbn [osim1 bind]; try tauto. intros H K. now apply K. Qed.
Lemma osim_bind1 {A : Type} (o o' : outcome (ms * A)) (f f' : ms * A -> outcome ms) :
  osim o o' -> (forall s t r, o = Ok (s, r) -> sim Y s t -> osim1 (f (s, r)) (f' (t, r))) -> osim1 (bind o f) (bind o' f').
Proof. destruct o as [[s r]| |], o' as [[t r']| |]; cbn [osim bind]; try tauto. intros (H & <-) K. now apply K. Qed.
Lemma sim_unlink s t p n : sim Y s t -> osim1 (unlink_chunk s p n) (unlink_chunk t p n).
Proof.
  intros H. fields H. unfold unlink_chunk, unlink_small, unlink_large. rf. destruct (is_small n).
  - destruct (in_dec N.eq_dec p (sb s (small_index n))); cbn [osim1]; [now apply sim_sb | exact Logic.I].
  - destruct (in_dec N.eq_dec p (tb s)); cbn [osim1]; [now apply sim_tb | exact Logic.I].
Qed.
Lemma sim_unlink_large s t p : sim Y s t -> osim1 (unlink_large s p) (unlink_large t p).
Proof.
  intros H. fields H. unfold unlink_large. rf. destruct (in_dec N.eq_dec p (tb s)); cbn [osim1]; [now apply sim_tb | exact Logic.I].
Qed.
Lemma sim_mmap_alloc s t nb mm : sim Y s t -> osim (mmap_alloc s nb mm) (mmap_alloc t nb mm).
Proof.
  intros H. unfold mmap_alloc. destruct (nb <? mmap_align ((nb + 63) mod W)); [|cbn [osim]; auto].
  destruct (mm (mmap_align ((nb + 63) mod W))) as [b|]; [|exact Logic.I]. cbv zeta.
  match goal with |- context [if (least ?a =? 0) || _ then _ else _] => set (s1 := a) end.
  match goal with |- context [if (least ?a =? 0) || _ then set_least ?a b else ?a] => match a with s1 => fail 1 | _ => set (t1 := a) end end.
  assert (H1 : sim Y s1 t1) by (unfold s1, t1; apply sim_set_head, sim_set_head, sim_set_head, sim_wr, sim_mapped, H).
  clearbody s1 t1. fields H1. rf.
  set (s2 := if (least s1 =? 0) || (b <? least s1) then set_least s1 b else s1).
  set (t2 := if (least s1 =? 0) || (b <? least s1) then set_least t1 b else t1).
  assert (H2 : sim Y s2 t2) by (unfold s2, t2; destruct ((least s1 =? 0) || (b <? least s1)); [now apply sim_least | exact H1]).
  clearbody s2 t2. fields H2. rf. cbn [osim]. split; [now apply sim_foot | reflexivity].
Qed.
Lemma sim_add_segment s t b n : sim Y s t -> (forall g, seg_of s (top s) = Some g -> topsize s + top s + 80 = sbase g + ssize g) ->
  (forall x, top s + 8 <= x -> x <= top s + topsize s + 16 -> ~ Y x) -> osim1 (add_segment s b n) (add_segment t b n).
Proof.
  intros H EG NY. fields H. unfold add_segment. assert (ES : seg_of t (top t) = seg_of s (top s)) by (unfold seg_of; rf; reflexivity). rewrite ES. rf.
  destruct (seg_of s (top s)) as [old|] eqn:EO; [|exact Logic.I]. specialize (EG _ eq_refl). destruct (segs s) as [|cur rest]; [exact Logic.I|]. cbv zeta.
  set (csp := if sbase old + ssize old - 80 <? top s + MIN_CHUNK then top s else sbase old + ssize old - 80).
  assert (CSP : csp = top s \/ csp = top s + topsize s) by (unfold csp; destruct (sbase old + ssize old - 80 <? top s + MIN_CHUNK); [now left | right; lia]).
  match goal with |- context [set_mem ?a (fences _ _ _)] => set (s1 := a) end.
  match goal with |- context [set_mem ?a (fences _ _ _)] => match a with s1 => fail 1 | _ => set (t1 := a) end end.
  assert (H1 : sim Y s1 t1) by (unfold s1, t1; apply sim_segs, sim_inuse_chunk, sim_init_top, H). clearbody s1 t1.
  match goal with |- context [set_mem s1 ?a] => set (ms1 := a) end. match goal with |- context [set_mem t1 ?a] => set (mt1 := a) end.
  assert (H2 : sim Y (set_mem s1 ms1) (set_mem t1 mt1)).
  { destruct H1 as (E & F). rewrite E. split; [reflexivity|]. cbn [set_mem mem]. unfold ms1, mt1. apply sim_fences, F. }
  destruct (csp =? top s) eqn:EC; cbn [osim1]; [exact H2|]. apply sim_insert, sim_free_pinuse; [exact H2|]. apply NY; lia.
Qed.
Lemma sim_prepend s t p o nb : sim Y s t -> ~ Y (o + 8) -> (o <> p -> o <> top s -> o <> dv s -> is_inuse s o = false -> ~ Y (o + chunksize s o + 8)) -> o <> p ->
  osim (prepend_alloc s p o nb) (prepend_alloc t p o nb).
Proof.
  intros H N1 N2 NE. unfold prepend_alloc. cbv zeta. pose proof (sim_inuse_chunk s t p nb H) as H1.
  assert (HO : head (set_inuse_chunk s p nb) o = head s o) by (unfold head, set_inuse_chunk, set_head; cbn [set_mem mem]; apply wr_other; lia).
  assert (IU : is_inuse (set_inuse_chunk s p nb) o = is_inuse s o) by (unfold is_inuse; rewrite HO; reflexivity).
  assert (CS : chunksize (set_inuse_chunk s p nb) o = chunksize s o) by (unfold chunksize; rewrite HO; reflexivity).
  set (s1 := set_inuse_chunk s p nb) in *. set (t1 := set_inuse_chunk t p nb) in *. change (top s) with (top s1) in N2. change (dv s) with (dv s1) in N2. rewrite <- IU, <- CS in N2.
  clearbody s1 t1. clear H HO IU CS s t. fields H1. rf. destruct (o =? top s1) eqn:E1; [cbn [osim]; split; [|reflexivity]; apply sim_set_head, sim_top, H1|].
  destruct (o =? dv s1) eqn:E2; [cbn [osim]; split; [|reflexivity]; apply sim_free_chunk, sim_dv, H1|].
  apply N.eqb_neq in E1. apply N.eqb_neq in E2. specialize (N2 NE E1 E2).
  assert (IT : is_inuse t1 o = is_inuse s1 o) by (unfold is_inuse; rewrite (sim_head _ _ _ H1 N1); reflexivity).
  assert (CT : chunksize t1 o = chunksize s1 o) by (unfold chunksize; rewrite (sim_head _ _ _ H1 N1); reflexivity).
  rewrite IT, CT. destruct (is_inuse s1 o); [cbn [osim]; split; [|reflexivity]; apply sim_insert, sim_free_pinuse; [exact H1 | exact N1]|].
  apply osim1_bind; [apply sim_unlink, H1|]. intros s2 t2 _ H2. cbn [osim]. split; [|reflexivity]. apply sim_insert, sim_free_pinuse; [exact H2 | apply N2; reflexivity].
Qed.
Lemma sim_split_top s t nb : sim Y s t -> sim Y (fst (split_top s nb)) (fst (split_top t nb)) /\ snd (split_top s nb) = snd (split_top t nb).
Proof. intros H. fields H. unfold split_top. cbv zeta. rf. cbn [fst snd]. split; [|reflexivity]. apply sim_inuse_chunk, sim_set_head, sim_top, H. Qed.
Lemma sim_finish s t nb : sim Y s t ->
  osim (if nb <? topsize s then let '(s', p) := split_top s nb in Ok (s', Some (p + 16)) else Ok (s, None))
       (if nb <? topsize t then let '(s', p) := split_top t nb in Ok (s', Some (p + 16)) else Ok (t, None)).
Proof.
  intros H. fields H. rf. destruct (nb <? topsize s); [|cbn [osim]; auto]. destruct (sim_split_top s t nb H) as (A & B).
  destruct (split_top s nb) as [s' p], (split_top t nb) as [t' p']. cbn [fst snd osim] in *. subst. auto.
Qed.
(** what sys_alloc relies on: [o]: the address of the first chunk of a segment *)
Record quiet (s : ms) : Prop := {
  z_top : forall g, seg_of s (top s) = Some g -> topsize s + top s + 80 = sbase g + ssize g;
  z_area : forall x, top s + 8 <= x -> x <= top s + topsize s + 16 -> ~ Y x;
  z_first : forall g, In g (segs s) -> ~ Y (sbase g + 8);
  z_next : forall g, In g (segs s) -> sbase g <> top s -> sbase g <> dv s -> is_inuse s (sbase g) = false -> ~ Y (sbase g + chunksize s (sbase g) + 8);
  z_size : forall g, In g (segs s) -> 0 < ssize g
}.
Lemma find_seg_in f l g a b : find_seg f l = Some (g, a, b) -> In g l.
Proof. intros H. apply find_seg_some in H. destruct H as (-> & _). apply in_elt. Qed.
Lemma sim_sys_alloc s t nb mm : sim Y s t -> quiet s -> (forall n b, mm n = Some b -> fresh (pg s) b n) -> (forall x, pg s x = false -> forall g, In g (segs s) -> within (sbase g) (ssize g) x = false) ->
  osim (sys_alloc s nb mm) (sys_alloc t nb mm).
Proof.
  intros H Q FR SG. pose proof H as H0. fields H0. unfold sys_alloc. apply osim_bind.
  - rf. destruct ((MMAP_THRESHOLD <=? nb) && negb (topsize s =? 0)); [now apply sim_mmap_alloc | cbn [osim]; auto].
  - intros s1 t1 r E1 H1. destruct r as [p|]; [cbn [osim]; auto|].
    assert (s1 = s) as ->.
    { destruct ((MMAP_THRESHOLD <=? nb) && negb (topsize s =? 0)) in E1; [|congruence]. unfold mmap_alloc in E1. cbv zeta in E1.
      destruct (nb <? mmap_align ((nb + 63) mod W)); [|congruence]. destruct (mm _); congruence. }
    clear H H0 HFsegs HFtop HFtops HFdv HFdvs HFsb HFtb HFleast HFrchk HFtrimc HFfoot E1. cbv zeta. set (asize := granularity_align ((nb + 96) mod W)).
    destruct (asize <=? nb) eqn:EA; [cbn [osim]; auto|]. apply N.leb_gt in EA. destruct (mm asize) as [b|] eqn:EM; [|exact Logic.I]. apply FR in EM.
    set (s2 := set_foot_ (mapped s b asize) (foot (mapped s b asize) + asize)). set (t2 := set_foot_ (mapped t1 b asize) (foot (mapped t1 b asize) + asize)).
    assert (H2 : sim Y s2 t2).
    { unfold s2, t2. pose proof (sim_mapped s t1 b asize H1) as HM. pose proof (sim_fields _ _ HM) as (_ & _ & _ & _ & _ & _ & _ & _ & _ & _ & EF). rewrite EF. apply sim_foot, HM. }
    assert (Q2 : quiet s2) by (destruct Q; constructor; assumption).
    assert (NB : forall g, In g (segs s2) -> sbase g <> b).
    { intros g IG EB. destruct EM as (_ & _ & _ & EM). pose proof (SG b (EM b ltac:(lia) ltac:(lia)) g IG) as X. pose proof (z_size _ Q2 g IG).
      assert (within (sbase g) (ssize g) b = true) by (apply within_spec; lia). congruence. }
    clearbody s2 t2. clear H1 Q EM SG FR. fields H2. rf.
    assert (TL : forall x y, x = (if b <? least s2 then set_least s2 b else s2) -> y = (if b <? least s2 then set_least t2 b else t2) ->
       osim match find_seg (fun g => sbase g =? b + asize) (segs x) with
            | Some (g, l1, l2) => do z <- prepend_alloc (set_segs x (l1 ++ mkseg b (ssize g + asize) (srec g) :: l2)) b (sbase g) nb; Ok (fst z, Some (snd z + 16))
            | None => do z <- add_segment x b asize; if nb <? topsize z then let '(s', p) := split_top z nb in Ok (s', Some (p + 16)) else Ok (z, None)
            end
            match find_seg (fun g => sbase g =? b + asize) (segs y) with
            | Some (g, l1, l2) => do z <- prepend_alloc (set_segs y (l1 ++ mkseg b (ssize g + asize) (srec g) :: l2)) b (sbase g) nb; Ok (fst z, Some (snd z + 16))
            | None => do z <- add_segment y b asize; if nb <? topsize z then let '(s', p) := split_top z nb in Ok (s', Some (p + 16)) else Ok (z, None)
            end).
    { intros x y EX EY. assert (H3 : sim Y x y) by (rewrite EX, EY; destruct (b <? least s2); [now apply sim_least | exact H2]).
      assert (Q3 : quiet x) by (rewrite EX; destruct (b <? least s2); [destruct Q2; constructor; assumption | exact Q2]).
      assert (NB3 : forall g, In g (segs x) -> sbase g <> b) by (rewrite EX; destruct (b <? least s2); exact NB).
      clear EX EY H2 Q2 NB HFsegs HFtop HFtops HFdv HFdvs HFsb HFtb HFleast HFrchk HFtrimc HFfoot. clear s2 t2. fields H3. rf.
      destruct (find_seg (fun g => sbase g =? b + asize) (segs x)) as [[[g l1] l2]|] eqn:EF.
      - pose proof (find_seg_in _ _ _ _ _ EF) as IG. apply osim_bind; [|intros s4 t4 r _ H4; cbn [osim fst snd]; auto].
        apply sim_prepend; [now apply sim_segs | apply (z_first _ Q3 g IG) | intros _; apply (z_next _ Q3 g IG) | apply (NB3 g IG)].
      - apply osim1_bind; [apply sim_add_segment; [exact H3 | apply (z_top _ Q3) | apply (z_area _ Q3)]|]. intros s4 t4 _ H4. apply sim_finish, H4. }
    destruct (find_seg (fun g => b =? sbase g + ssize g) (segs s2)) as [[[g l1] l2]|] eqn:EF; [|specialize (TL _ _ eq_refl eq_refl); exact TL].
    destruct (within (sbase g) (ssize g) (top s2)); [|specialize (TL _ _ eq_refl eq_refl); exact TL].
    set (s3 := set_segs s2 (l1 ++ mkseg (sbase g) (ssize g + asize) (srec g) :: l2)). set (t3 := set_segs t2 (l1 ++ mkseg (sbase g) (ssize g + asize) (srec g) :: l2)).
    assert (H3 : sim Y s3 t3) by (apply sim_segs, H2). clearbody s3 t3. apply sim_finish. fields H3. rf. apply sim_init_top, H3.
Qed.
Lemma sim_from_rest s t nb mm : sim Y s t -> quiet s -> (forall n b, mm n = Some b -> fresh (pg s) b n) -> (forall x, pg s x = false -> forall g, In g (segs s) -> within (sbase g) (ssize g) x = false) ->
  (dvsize s <> 0 -> ~ Y (dv s + dvsize s + 8)) -> osim (from_rest s nb mm) (from_rest t nb mm).
Proof.
  intros H Q FR SG ND. pose proof H as H0. fields H0. unfold from_rest. rf. destruct (nb <=? dvsize s) eqn:E1.
  - apply N.leb_le in E1. cbv zeta. destruct (MIN_CHUNK <=? dvsize s - nb); cbn [osim].
    + split; [|reflexivity]. apply sim_inuse_chunk, sim_free_chunk, sim_dv, H.
    + split; [|reflexivity]. destruct (N.eq_dec (dvsize s) 0) as [E0|E0]; [|apply sim_inuse_pinuse; [apply sim_dv, H | apply ND, E0]].
      rewrite E0. unfold set_inuse_and_pinuse. pose proof (sim_set_head _ _ (dv s) (0 + 3) (sim_dv s t 0 0 H)) as H1.
      assert (EH : forall z, head (set_head (set_dv z 0 0) (dv s) (0 + 3)) (dv s + 0) = 3).
      { intros z. unfold head, set_head. cbn [set_mem mem set_dv]. rewrite N.add_0_r. apply wr_same. }
      rewrite !EH. apply sim_set_head, H1.
  - destruct (nb <? topsize s) eqn:E2; [|apply sim_sys_alloc; assumption]. pose proof (sim_finish s t nb H) as SF. rewrite HFtops, E2 in SF. exact SF.
Qed.
(** ** Release *)
Definition osim3 (o o' : outcome (ms * list seg * N)) : Prop :=
  match o, o' with Ok (s, l, n), Ok (t, l', n') => sim Y s t /\ l = l' /\ n = n' | Abort, Abort => True | UB, UB => True | _, _ => False end.
Lemma sim_release_loop l : forall s t, sim Y s t -> (forall g, In g l -> ~ Y (sbase g + 8)) -> osim3 (release_loop s l) (release_loop t l).
Proof.
  induction l as [|g l IH]; intros s t H N1; cbn [release_loop]; [cbn [osim3]; auto|]. pose proof (sim_head s t (sbase g) H (N1 g (or_introl eq_refl))) as EH.
  unfold is_inuse, chunksize. rewrite EH. assert (N2 : forall h, In h l -> ~ Y (sbase h + 8)) by (intros h IH'; apply N1; now right).
  assert (K : forall (f : list seg -> list seg) a b, sim Y a b ->
    osim3 (do x <- release_loop a l; let '(s0, l', n) := x in Ok (s0, f l', n + 1)) (do x <- release_loop b l; let '(s0, l', n) := x in Ok (s0, f l', n + 1))).
  { intros f a b HAB. specialize (IH a b HAB N2). destruct (release_loop a l) as [[[a1 la] na]| |], (release_loop b l) as [[[b1 lb] nb]| |]; cbn [osim3 bind] in *; try tauto.
    destruct IH as (X & <- & <-). auto. }
  destruct (negb (negb (head s (sbase g) mod 4 =? 1)) && (sbase g + ssize g - TOP_FOOT <=? sbase g + head s (sbase g) / 8 * 8)); [|apply (K (cons g) s t H)].
  pose proof (sim_fields _ _ H) as (_ & _ & _ & ED & _). rewrite ED.
  assert (OB : osim1 (if sbase g =? dv s then Ok (set_dv s 0 0) else unlink_large s (sbase g)) (if sbase g =? dv s then Ok (set_dv t 0 0) else unlink_large t (sbase g))).
  { destruct (sbase g =? dv s); [cbn [osim1]; apply sim_dv, H | apply sim_unlink_large, H]. }
  destruct (if sbase g =? dv s then Ok (set_dv s 0 0) else unlink_large s (sbase g)) as [s1| |], (if sbase g =? dv s then Ok (set_dv t 0 0) else unlink_large t (sbase g)) as [t1| |]; cbn [osim1 bind] in *; try tauto.
  apply (K (fun l' => l')). pose proof (sim_unmapped _ _ (sbase g) (ssize g) OB) as HU. pose proof (sim_fields _ _ HU) as (_ & _ & _ & _ & _ & _ & _ & _ & _ & _ & EF). rewrite EF. apply sim_foot, HU.
Qed.
Lemma sim_release s t : sim Y s t -> (forall g, In g (segs s) -> ~ Y (sbase g + 8)) -> osim (release_unused s) (release_unused t).
Proof.
  intros H N1. pose proof (sim_fields _ _ H) as (ES & _ & _ & _ & _ & _ & _ & _ & _ & _ & EF). unfold release_unused. rewrite ES, EF. destruct (segs s) as [|g r]; [exact Logic.I|].
  pose proof (sim_release_loop r s t H (fun h J => N1 h (or_intror J))) as K. destruct (release_loop s r) as [[[s1 l1] n1]| |], (release_loop t r) as [[[t1 l1'] n1']| |]; cbn [osim3 bind osim] in *; try tauto.
  destruct K as (K & <- & <-). pose proof (sim_fields _ _ K) as (_ & _ & _ & _ & _ & _ & _ & _ & _ & _ & EF1). rewrite EF1. split; [|reflexivity]. apply sim_rchk, sim_segs, K.
Qed.
Lemma sim_trim s t mr : sim Y s t -> (forall g, In g (segs s) -> ~ Y (sbase g + 8)) -> osim1 (sys_trim s mr) (sys_trim t mr).
Proof.
  intros H N1. pose proof (sim_fields _ _ H) as (ES & ET & ETS & _). unfold sys_trim.
  apply (osim_bind1 (A := N)).
  - rewrite ETS. destruct (TOP_FOOT <? topsize s); [|cbn [osim]; auto]. assert (EG : seg_of t (top t) = seg_of s (top s)) by (unfold seg_of; rewrite ES, ET; reflexivity). rewrite EG.
    destruct (seg_of s (top s)) as [g|]; [|exact Logic.I]. cbv zeta. set (ex := ((topsize s - TOP_FOOT + (GRAN - 1)) / GRAN - 1) * GRAN).
    assert (EL : has_link t g = has_link s g) by (unfold has_link; rewrite ES; reflexivity). rewrite EL.
    destruct ((ex <=? ssize g) && negb (has_link s g) && negb (ex =? 0)); [|cbn [osim]; auto].
    set (s1 := if mr then s else unmapped s (sbase g + (ssize g - ex)) ex). set (t1 := if mr then t else unmapped t (sbase g + (ssize g - ex)) ex).
    assert (H1 : sim Y s1 t1) by (unfold s1, t1; destruct mr; [exact H | apply sim_unmapped, H]). clearbody s1 t1.
    pose proof (sim_fields _ _ H1) as (ES1 & ET1 & ETS1 & _). rewrite ES1, ET1.
    set (f := map _ (segs s1)). pose proof (sim_segs _ _ f H1) as H2. set (s2 := set_segs s1 f) in *. set (t2 := set_segs t1 f) in *. clearbody s2 t2.
    pose proof (sim_fields _ _ H2) as (_ & _ & _ & _ & _ & _ & _ & _ & _ & _ & EF2). rewrite EF2. pose proof (sim_foot _ _ (foot s2 - ex) H2) as H3.
    set (s3 := set_foot_ s2 (foot s2 - ex)) in *. set (t3 := set_foot_ t2 (foot s2 - ex)) in *. clearbody s3 t3. pose proof (sim_fields _ _ H3) as (_ & ET3 & ETS3 & _). rewrite ET3, ETS3.
    cbn [osim]. split; [|reflexivity]. apply sim_init_top, H3.
  - intros s1 t1 r E1 H1. cbn [fst snd].
    assert (N2 : forall g, In g (segs s1) -> ~ Y (sbase g + 8)).
    { destruct (TOP_FOOT <? topsize s); [|injection E1 as <- _; exact N1]. destruct (seg_of s (top s)) as [g|]; [|discriminate].
      destruct ((((topsize s - TOP_FOOT + (GRAN - 1)) / GRAN - 1) * GRAN <=? ssize g) && negb (has_link s g) && negb (((topsize s - TOP_FOOT + (GRAN - 1)) / GRAN - 1) * GRAN =? 0)); [|injection E1 as <- _; exact N1].
      assert (E2 : exists F, segs s1 = map F (segs s) /\ forall h, sbase (F h) = sbase h).
      { match type of E1 with Ok (?a, _) = _ => assert (s1 = a) as -> by congruence end. unfold init_top. cbn [set_trimc set_head set_mem set_top set_foot_ set_segs segs].
        destruct mr; (eexists; split; [reflexivity|]); intros h; cbn beta; match goal with |- sbase (if ?c then _ else _) = _ => destruct c end; reflexivity. }
      destruct E2 as (F & E2 & E3). intros h IH. rewrite E2 in IH. apply in_map_iff in IH. destruct IH as (h' & <- & IH). rewrite E3. apply N1, IH. }
    apply osim_bind1; [apply sim_release; assumption|]. intros s2 t2 r2 _ H2. cbn [fst snd osim1]. pose proof (sim_fields _ _ H2) as (_ & _ & ETS2 & _ & _ & _ & _ & _ & _ & ETC2 & _). rewrite ETS2, ETC2.
    destruct ((r + r2 =? 0) && (trimc s2 <? topsize s2)); [apply sim_trimc, H2 | exact H2].
Qed.
Lemma sim_bin_it s t p n : sim Y s t -> (forall g, In g (segs s) -> ~ Y (sbase g + 8)) -> osim1 (bin_it s p n) (bin_it t p n).
Proof.
  intros H N1. unfold bin_it. pose proof (sim_fields _ _ H) as (_ & _ & _ & _ & _ & ESB & ETB & _ & ER & _). destruct (is_small n).
  - cbn [osim1]. unfold insert_small. rewrite ESB. apply sim_sb, H.
  - unfold insert_large. rewrite ETB. cbn [set_tb rchk]. rewrite ER. cbv zeta. pose proof (sim_rchk _ _ (rchk s - 1) (sim_tb _ _ (p :: tb s) H)) as H1.
    set (s1 := set_rchk (set_tb s (p :: tb s)) (rchk s - 1)) in *. set (t1 := set_rchk (set_tb t (p :: tb s)) (rchk s - 1)) in *. change (segs s) with (segs s1) in N1. clearbody s1 t1.
    pose proof (sim_fields _ _ H1) as (_ & _ & _ & _ & _ & _ & _ & _ & ER1 & _). rewrite ER1. destruct (rchk s1 =? 0); [|cbn [osim1]; exact H1].
    apply osim_bind1; [apply sim_release; assumption|]. intros s2 t2 r2 _ H2. exact H2.
Qed.
Lemma unlink_segs s p n s' : unlink_chunk s p n = Ok s' -> segs s' = segs s.
Proof. unfold unlink_chunk, unlink_small, unlink_large. destruct (is_small n); destruct (in_dec _ _ _); intros E; try discriminate; injection E as <-; reflexivity. Qed.
Lemma sim_free_fwd s t p n nx mr : sim Y s t -> (forall g, In g (segs s) -> ~ Y (sbase g + 8)) -> ~ Y (nx + 8) -> osim1 (free_fwd s p n nx mr) (free_fwd t p n nx mr).
Proof.
  intros H N1 N2. unfold free_fwd. pose proof (sim_fields _ _ H) as (ES & ET & ETS & ED & EDS & _). pose proof (sim_head _ _ _ H N2) as EH.
  unfold pinuse, cinuse, chunksize. rewrite EH, ET, ETS, ED, EDS. destruct ((p <? nx) && N.odd (head s nx)); [|exact Logic.I]. destruct (negb (N.odd (head s nx / 2))).
  - destruct (nx =? top s).
    + cbv zeta. pose proof (sim_set_head _ _ p (topsize s + n + 1) (sim_top _ _ p (topsize s + n) H)) as H1. set (s1 := set_head _ _ _) in *. set (t1 := set_head (set_top t _ _) _ _) in *.
      change (segs s) with (segs s1) in N1. clearbody s1 t1. pose proof (sim_fields _ _ H1) as (_ & _ & _ & ED1 & _). rewrite ED1.
      set (s2 := if p =? dv s1 then set_dv s1 0 0 else s1). set (t2 := if p =? dv s1 then set_dv t1 0 0 else t1).
      assert (H2 : sim Y s2 t2) by (unfold s2, t2; destruct (p =? dv s1); [apply sim_dv, H1 | exact H1]).
      assert (N3 : forall g, In g (segs s2) -> ~ Y (sbase g + 8)) by (unfold s2; destruct (p =? dv s1); exact N1). clearbody s2 t2.
      pose proof (sim_fields _ _ H2) as (_ & _ & _ & _ & _ & _ & _ & _ & _ & ETC & _). rewrite ETC. destruct (trimc s2 <? topsize s + n); [apply sim_trim; assumption | exact H2].
    + destruct (nx =? dv s); [cbn [osim1]; apply sim_free_chunk, sim_dv, H|]. cbv zeta. apply osim1_bind1; [apply sim_unlink, H|]. intros s1 t1 E1 H1. apply unlink_segs in E1.
      pose proof (sim_free_chunk _ _ p (n + head s nx / 8 * 8) H1) as H2. set (s2 := set_free_chunk s1 _ _) in *. set (t2 := set_free_chunk t1 _ _) in *.
      assert (N3 : forall g, In g (segs s2) -> ~ Y (sbase g + 8)) by (change (segs s2) with (segs s1); rewrite E1; exact N1). clearbody s2 t2.
      pose proof (sim_fields _ _ H2) as (_ & _ & _ & ED2 & _). rewrite ED2. destruct (p =? dv s2); [cbn [osim1]; apply sim_dv, H2 | apply sim_bin_it; assumption].
  - apply sim_bin_it; [apply sim_free_pinuse; assumption | exact N1].
Qed.
Lemma sim_free s t p mr : sim Y s t -> (forall g, In g (segs s) -> ~ Y (sbase g + 8)) -> ~ Y (p + 8) -> (is_mmapped s p = false -> ~ Y (p + chunksize s p + 8)) ->
  (pinuse s p = false -> ~ Y p) -> osim1 (free s p mr) (free t p mr).
Proof.
  intros H N1 N2 N3 N4. pose proof (sim_fields _ _ H) as (ES & ET & ETS & ED & EDS & _ & _ & EL & _ & _ & EF). pose proof (sim_head _ _ _ H N2) as EH. unfold free.
  assert (IU : is_inuse t p = is_inuse s p) by (unfold is_inuse; rewrite EH; reflexivity). assert (CS : chunksize t p = chunksize s p) by (unfold chunksize; rewrite EH; reflexivity).
  assert (PI : pinuse t p = pinuse s p) by (unfold pinuse; rewrite EH; reflexivity). assert (IM : is_mmapped t p = is_mmapped s p) by (unfold is_mmapped; rewrite EH; reflexivity).
  rewrite IU, CS, PI, IM, EL. destruct ((least s <=? p) && is_inuse s p); [|exact Logic.I]. cbv zeta. destruct (pinuse s p) eqn:EP.
  - apply sim_free_fwd; [exact H | exact N1|]. apply N3. unfold pinuse in EP. unfold is_mmapped. rewrite odd_mod in EP. apply N.eqb_eq in EP. apply N.eqb_neq. intros E0.
    pose proof (N.div_mod (head s p) 4 ltac:(discriminate)) as DM. rewrite E0 in DM. rewrite DM in EP. replace (4 * (head s p / 4) + 0) with (0 + (2 * (head s p / 4)) * 2) in EP by lia.
    rewrite N.mod_add in EP by discriminate. discriminate.
  - assert (PF : prev_foot t p = prev_foot s p) by (apply (proj2 H), N4, eq_refl). rewrite PF. destruct (is_mmapped s p).
    + cbn [osim1]. pose proof (sim_unmapped _ _ (p - prev_foot s p) (chunksize s p + prev_foot s p + 32) H) as HU. pose proof (sim_fields _ _ HU) as (_ & _ & _ & _ & _ & _ & _ & _ & _ & _ & EU).
      rewrite EU. apply sim_foot, HU.
    + specialize (N3 eq_refl). destruct (least s <=? p - prev_foot s p); [|exact Logic.I]. rewrite ED. destruct (negb (p - prev_foot s p =? dv s)).
      * apply osim1_bind1; [apply sim_unlink, H|]. intros s1 t1 E1 H1. apply unlink_segs in E1. apply sim_free_fwd; [exact H1 | rewrite E1; exact N1 | exact N3].
      * rewrite (sim_head _ _ _ H N3). destruct (head s (p + chunksize s p) mod 4 =? 3); [|apply sim_free_fwd; assumption]. cbn [osim1]. apply sim_free_pinuse; [apply sim_dv, H | exact N3].
Qed.
End Sim.

(** ** Reads of a heap in order *)
Section Heap.
Variables (Y : N -> Prop) (s : ms) (G : list gseg) (D : list (N * N)).
Hypothesis I : Inv s G D.
Hypothesis HY : forall x, Y x -> exists a r, blk G D a r /\ a <= x /\ x < a + r.
Lemma ny_tile c n k : In (c, n, k) (tiles G) -> ~ Y (c + 8).
Proof.
  intros IT H. destruct (HY _ H) as (a & r & B & A1 & A2). pose proof (i_core _ _ _ I) as C.
  pose proof (tile_facts _ _ _ _ _ _ _ _ _ _ _ C IT) as (F1 & _). destruct B as [(c0 & n0 & -> & E & J) | (c0 & n0 & -> & E & J)].
  - pose proof (tile_facts _ _ _ _ _ _ _ _ _ _ _ C J) as (F2 & _). destruct (tiles_apart _ _ _ _ _ _ _ _ _ _ C IT J) as [X | X]; [injection X as -> _ _; lia|].
    unfold apart in X. cbn [fst snd] in X. lia.
  - pose proof (tile_dir _ _ _ _ _ _ _ _ _ _ _ _ C IT J) as P. cbn [fst snd] in P. lia.
Qed.
Lemma ny_foot c n : In (c, n, Fr) (tiles G) -> ~ Y (c + n).
Proof.
  intros IT H. destruct (HY _ H) as (a & r & B & A1 & A2). pose proof (i_core _ _ _ I) as C.
  pose proof (tile_facts _ _ _ _ _ _ _ _ _ _ _ C IT) as (F1 & _). destruct B as [(c0 & n0 & -> & E & J) | (c0 & n0 & -> & E & J)].
  - pose proof (tile_facts _ _ _ _ _ _ _ _ _ _ _ C J) as (F2 & _). destruct (tiles_apart _ _ _ _ _ _ _ _ _ _ C IT J) as [X | X]; [discriminate|].
    unfold apart in X. cbn [fst snd] in X. lia.
  - pose proof (tile_dir _ _ _ _ _ _ _ _ _ _ _ _ C IT J) as P. cbn [fst snd] in P. lia.
Qed.
Lemma ny_area x : top s + 8 <= x -> x <= top s + topsize s + 16 -> ~ Y x.
Proof.
  intros X1 X2 H. destruct (HY _ H) as (a & r & B & A1 & A2). pose proof (i_core _ _ _ I) as C. destruct B as [(c0 & n0 & -> & E & J) | (c0 & n0 & -> & E & J)].
  - pose proof (tile_facts _ _ _ _ _ _ _ _ _ _ _ C J) as (F2 & _). pose proof (top_apart _ _ _ _ _ _ _ _ _ _ _ C J) as P. lia.
  - pose proof (top_apartD _ _ _ _ _ _ _ _ _ C J) as P. cbn [fst snd] in P. lia.
Qed.
(** the chunk after a free one *)
Lemma ny_next c n : In (c, n, Fr) (tiles G) -> ~ Y (c + n + 8).
Proof.
  intros IT. destruct (tiles_split _ _ _ _ IT) as (G1 & g & l1 & l2 & G2 & EG & EC). pose proof (i_core _ _ _ I) as C. unfold core_s in C. rewrite EG in C.
  destruct (free_tile _ _ _ _ _ _ _ _ _ _ _ _ _ C) as (_ & _ & n2 & k2 & l3 & E2 & _). apply (ny_tile (c + n) n2 k2). rewrite EG, E2, EC.
  change ((n, Fr) :: (n2, k2) :: l3) with ([(n, Fr)] ++ (n2, k2) :: l3). rewrite app_assoc. replace (sbase g + tot l1 + n) with (sbase g + tot (l1 ++ [(n, Fr)])) by (rewrite tot_app; cbn [tot]; lia).
  apply tiles_mid.
Qed.
Lemma seg_gl g : In g (segs s) -> exists l G1 G2, G = G1 ++ (g, l) :: G2.
Proof. intros IG. rewrite <- (i_segs _ _ _ I) in IG. apply in_map_iff in IG. destruct IG as ([g' l] & <- & IG). apply in_split in IG. destruct IG as (G1 & G2 & E). exists l, G1, G2. exact E. Qed.
Lemma heap_quiet : quiet Y s.
Proof.
  pose proof (i_core _ _ _ I) as C. constructor.
  - intros g HG. destruct G as [|[g0 l] GT]; [destruct (c_segs _ _ _ _ _ _ _ _ C)|]. rewrite (seg_of_top _ _ _ _ _ I) in HG. injection HG as <-.
    destruct (head_reg _ _ _ _ _ _ _ _ _ _ C) as (_ & E & _). lia.
  - apply ny_area.
  - intros g IG. destruct (seg_gl g IG) as (l & G1 & G2 & EG). destruct l as [|[n k] l].
    + pose proof C as C'. unfold core_s in C'. rewrite EG in C'. destruct G1 as [|h G1].
      * pose proof (proj2 (top_at_base _ _ _ _ _ _ [] _ _ _ _ C') (conj eq_refl eq_refl)) as ET. rewrite ET. apply ny_area; lia.
      * exfalso. pose proof (segs_ok_pos _ _ _ _ _ _ (c_segs _ _ _ _ _ _ _ _ C')) as ((l' & EL) & _). destruct l'; discriminate.
    + apply (ny_tile (sbase g) n k). rewrite EG. replace (sbase g) with (sbase g + tot []) by (cbn [tot]; lia). apply (tiles_mid G1 g [] n k l G2).
  - intros g IG NT ND IU. destruct (seg_gl g IG) as (l & G1 & G2 & EG). pose proof C as C'. unfold core_s in C'. rewrite EG in C'. destruct l as [|[n k] l].
    + exfalso. destruct G1 as [|h G1]; [apply NT, (top_at_base _ _ _ _ _ _ [] _ _ _ _ C'); auto|].
      pose proof (segs_ok_pos _ _ _ _ _ _ (c_segs _ _ _ _ _ _ _ _ C')) as ((l' & EL) & _). destruct l'; discriminate.
    + destruct (first_chunk _ _ _ _ _ _ _ _ _ _ _ _ _ C') as (HH & HA & HB). unfold is_inuse, head in IU. unfold chunksize, head. rewrite HH in *.
      change (n + 2 * bit (used k) + 1) with (n + 2 * bit (used k) + bit true) in *. rewrite hd_mod4 in IU by exact HA. rewrite hd_size by exact HA.
      assert (k = Fr) as -> by (destruct k; [reflexivity | discriminate | discriminate]). apply ny_next. rewrite EG.
      replace (sbase g) with (sbase g + tot []) by (cbn [tot]; lia). apply (tiles_mid G1 g [] n Fr l G2).
  - intros g IG. destruct (seg_gl g IG) as (l & G1 & G2 & EG). rewrite EG in C. 
    assert (RG : reg_ok (pg s) (least s) (reg (g, l))) by (apply (geo_reg _ _ _ _ _ _ _ _ _ C), in_elt). destruct RG as (_ & _ & RG & _). unfold reg in RG. cbn [fst snd] in RG. lia.
Qed.
(** pages that are not mapped are in no segment *)
Lemma seg_mapped x : pg s x = false -> forall g, In g (segs s) -> within (sbase g) (ssize g) x = false.
Proof.
  intros P g IG. destruct (seg_gl g IG) as (l & G1 & G2 & EG). pose proof (i_core _ _ _ I) as C. rewrite EG in C.
  assert (RG : reg_ok (pg s) (least s) (reg (g, l))) by (apply (geo_reg _ _ _ _ _ _ _ _ _ C), in_elt). destruct RG as (_ & _ & _ & _ & _ & _ & RG). unfold reg in RG. cbn [fst snd] in RG.
  destruct (within (sbase g) (ssize g) x) eqn:E; [|reflexivity]. apply within_spec in E. rewrite RG in P by apply E. discriminate.
Qed.
Lemma ny_dv : dvsize s <> 0 -> ~ Y (dv s + dvsize s + 8).
Proof. intros H. apply ny_next. destruct (b_dv _ _ _ _ _ _ (i_bins _ _ _ I)) as [(_ & X) | (X & _)]; [congruence | exact X]. Qed.
Lemma heap_from_rest t nb mm : sim Y s t -> (forall n b, mm n = Some b -> fresh (pg s) b n) -> osim Y (from_rest s nb mm) (from_rest t nb mm).
Proof. intros H FR. apply sim_from_rest; [exact H | apply heap_quiet | exact FR | apply seg_mapped | apply ny_dv]. Qed.
Lemma heap_cut t v nb dvp : sim Y s t -> In v (tb s) -> nb <= chunksize s v -> osim Y (cut s v nb dvp) (cut t v nb dvp).
Proof.
  intros H IV LE. destruct (tree_tile _ _ _ _ I IV) as (A & B & E). pose proof (ny_tile _ _ _ A) as N1. pose proof (ny_next _ _ A) as N2.
  assert (CT : chunksize t v = chunksize s v) by (unfold chunksize; rewrite (sim_head _ _ _ _ H N1); reflexivity).
  unfold cut. cbv zeta. rewrite CT. pose proof (sim_fields _ _ _ H) as (_ & _ & _ & _ & _ & _ & _ & EL & _). rewrite EL. destruct ((least s <=? v) && (v <? v + nb)); [|exact Logic.I].
  apply osim1_bind; [apply sim_unlink_large, H|]. intros s1 t1 _ H1. destruct (chunksize s v - nb <? MIN_CHUNK); cbn [osim].
  - split; [|reflexivity]. apply sim_inuse_pinuse; [exact H1|]. replace (v + (chunksize s v - nb + nb)) with (v + chunksize s v) by lia. exact N2.
  - split; [|reflexivity]. pose proof (sim_free_chunk _ _ _ (v + nb) (chunksize s v - nb) (sim_inuse_chunk _ _ _ v nb H1)) as H2. destruct dvp; [apply sim_replace_dv, H2 | apply sim_insert, H2].
Qed.
Lemma sim_first_bin t i n : sim Y s t -> first_bin t i n = first_bin s i n.
Proof. intros H. pose proof (sim_fields _ _ _ H) as (_ & _ & _ & _ & _ & ES & _). revert i. induction n as [|n IH]; intros i; cbn [first_bin]; [reflexivity|]. rewrite ES, IH. reflexivity. Qed.
Lemma heap_malloc t bytes v mm : sim Y s t -> tree_answer s (padded bytes) v -> (forall n b, mm n = Some b -> fresh (pg s) b n) ->
  osim Y (malloc s bytes v mm) (malloc t bytes v mm).
Proof.
  intros H V FR. pose proof (sim_fields _ _ _ H) as (_ & _ & _ & _ & EDS & ESB & ETB & _).
  pose proof (fun nb => heap_from_rest t nb mm H FR) as LF.
  unfold malloc. destruct (bytes <=? MAX_SMALL_REQUEST) eqn:EB.
  - apply N.leb_le in EB. unfold MAX_SMALL_REQUEST in EB. pose proof (padded_small bytes EB) as P5.
    change (if bytes <? MIN_REQUEST then MIN_CHUNK else pad_request bytes) with (padded bytes). set (nb := padded bytes) in *. cbv zeta. rewrite ESB, ETB, EDS, (sim_first_bin t _ _ H).
    assert (WH : forall i p r, sb s i = p :: r -> osim Y (Ok (set_inuse_and_pinuse (set_sb s i r) p (8 * i), Some (p + 16))) (Ok (set_inuse_and_pinuse (set_sb t i r) p (8 * i), Some (p + 16)))).
    { intros i p r E. destruct (pop_loose _ _ _ _ _ _ I E) as (L1 & _). cbn [osim]. split; [|reflexivity]. apply sim_inuse_pinuse; [apply sim_sb, H | apply (ny_next _ _ L1)]. }
    destruct (sb s (small_index nb)) as [|p r] eqn:E1; [|apply WH, E1]. destruct (sb s (small_index nb + 1)) as [|p r] eqn:E2; [|apply WH, E2].
    destruct (dvsize s <? nb); [|apply LF]. destruct (first_bin s (small_index nb + 1) (N.to_nat (32 - (small_index nb + 1)))) as [i|].
    + destruct (sb s i) as [|p r] eqn:E3; [exact Logic.I|]. destruct (8 * i - nb <? MIN_CHUNK); [apply WH, E3|]. cbn [osim]. split; [|reflexivity].
      apply sim_replace_dv, sim_free_chunk, sim_inuse_chunk, sim_sb, H.
    + destruct (tb s) as [|c tr] eqn:ET; [apply LF|]. destruct v as [v|]; [|exact Logic.I]. cbn [tree_answer] in V. destruct V as (V1 & V2). cbn [tmalloc_small].
      apply osim_bind; [apply heap_cut; assumption|]. intros s1 t1 r1 _ H1. cbn [osim fst snd]. auto.
  - apply N.leb_gt in EB. unfold MAX_SMALL_REQUEST in EB. rewrite padded_big in V by exact EB. destruct (MAX_REQUEST <=? bytes); [apply LF|]. cbv zeta. rewrite ETB.
    destruct (tb s) as [|c tr] eqn:ET; [apply LF|]. rewrite <- ET in *. unfold tmalloc_large. destruct v as [v|].
    + cbn [tree_answer] in V. destruct V as (V1 & V2). destruct (tree_tile _ _ _ _ I V1) as (A & _). pose proof (ny_tile _ _ _ A) as N1.
      assert (CT : chunksize t v = chunksize s v) by (unfold chunksize; rewrite (sim_head _ _ _ _ H N1); reflexivity). rewrite CT, EDS.
      destruct (chunksize s v - pad_request bytes <? (dvsize s + W - pad_request bytes) mod W); [|cbn [bind]; apply LF].
      assert (OB : osim Y (do r <- cut s v (pad_request bytes) false; Ok (fst r, Some (snd r))) (do r <- cut t v (pad_request bytes) false; Ok (fst r, Some (snd r)))).
      { apply osim_bind; [apply heap_cut; assumption|]. intros s1 t1 r1 _ H1. cbn [osim fst snd]. auto. }
      destruct (cut s v (pad_request bytes) false) as [[s1 r1]| |], (cut t v (pad_request bytes) false) as [[t1 r1']| |]; cbn [osim bind fst snd] in *; try tauto.
      destruct OB as (OB & E). injection E as <-. auto.
    + cbn [bind]. apply LF.
Qed.
(** the search of the trees has the same answers *)
Lemma heap_answer t nb v : sim Y s t -> tree_answer s nb v -> tree_answer t nb v.
Proof.
  intros H. pose proof (sim_fields _ _ _ H) as (_ & _ & _ & _ & _ & _ & ETB & _). destruct v as [a|]; cbn [tree_answer]; rewrite ETB; [|auto]. intros (V1 & V2). split; [exact V1|].
  destruct (tree_tile _ _ _ _ I V1) as (A & _). unfold chunksize. rewrite (sim_head _ _ _ _ H (ny_tile _ _ _ A)). exact V2.
Qed.
(** the chunk after one the program holds *)
Lemma ny_after c n : In (c, n, Us) (tiles G) -> ~ Y (c + n + 8).
Proof.
  intros IT. destruct (tiles_split _ _ _ _ IT) as (G1 & g & l1 & l2 & G2 & EG & EC). destruct l2 as [|[n2 k2] l3].
  - pose proof (i_core _ _ _ I) as C. unfold core_s in C. rewrite EG in C. destruct G1 as [|h G1].
    + destruct (head_reg _ _ _ _ _ _ _ _ _ _ C) as (ET & _). rewrite tot_app in ET. cbn [tot] in ET. replace (c + n) with (top s) by lia. apply ny_area; lia.
    + exfalso. pose proof (segs_ok_pos _ _ _ _ _ _ (c_segs _ _ _ _ _ _ _ _ C)) as ((l' & EL) & _). cbn [snd] in EL. apply app_inj_tail in EL. destruct EL. discriminate.
  - apply (ny_tile (c + n) n2 k2). rewrite EG, EC.
    change ((n, Us) :: (n2, k2) :: l3) with ([(n, Us)] ++ (n2, k2) :: l3). rewrite app_assoc. replace (sbase g + tot l1 + n) with (sbase g + tot (l1 ++ [(n, Us)])) by (rewrite tot_app; cbn [tot]; lia).
    apply tiles_mid.
Qed.
Lemma ny_prev c n : In (c, n, Us) (tiles G) -> pinuse s c = false -> ~ Y c.
Proof.
  intros IT EP. destruct (tiles_split _ _ _ _ IT) as (G1 & g & l1 & l2 & G2 & EG & EC). pose proof (i_core _ _ _ I) as C. unfold core_s in C. rewrite EG in C.
  pose proof (segs_ok_pos _ _ _ _ _ _ (c_segs _ _ _ _ _ _ _ _ C)) as PK.
  destruct (pos_ok_rep _ _ _ _ _ PK) as (e & R & _). cbn [fst snd] in R. destruct (rep_at _ _ _ _ _ _ _ _ _ R) as (p & H1 & _ & H3 & H4 & _). rewrite <- EC in H1, H4.
  unfold pinuse, head in EP. rewrite H4, hd_odd in EP by exact H3. subst p. destruct (prev_free _ _ _ _ H1) as (l' & pn & E & _). 
  replace c with (sbase g + tot l' + pn) by (rewrite EC, E, tot_app; cbn [tot]; lia). apply ny_foot. rewrite EG, E, <- app_assoc. apply tiles_mid.
Qed.
Lemma ny_dir c n x : In (c, n) D -> c <= x -> x < c + 16 -> ~ Y x.
Proof.
  intros ID X1 X2 H. destruct (HY _ H) as (a & r & B & A1 & A2). pose proof (i_core _ _ _ I) as C.
  destruct B as [(c0 & n0 & -> & E & J) | (c0 & n0 & -> & E & J)].
  - pose proof (tile_dir _ _ _ _ _ _ _ _ _ _ _ _ C J ID) as P. cbn [fst snd] in P. lia.
  - destruct (dirs_apart _ _ _ _ _ _ _ _ _ _ _ _ C ID J) as [<- | P]; [lia|]. unfold off in P. lia.
Qed.
Lemma heap_free t a r mr : sim Y s t -> blk G D a r -> osim1 Y (mspace_free s a mr) (mspace_free t a mr).
Proof.
  intros H B. pose proof (i_core _ _ _ I) as C. pose proof (blk_aligned _ _ _ _ _ _ _ _ _ _ C B) as (_ & A16 & _). unfold mspace_free. replace (a =? 0) with false by (symmetry; apply N.eqb_neq; lia).
  destruct B as [(c & n & -> & E & J) | (c & n & -> & E & J)]; replace (c + 16 - 16) with c by lia.
  - destruct (tiles_split _ _ _ _ J) as (G1 & g & l1 & l2 & G2 & EG & EC). pose proof C as C'. unfold core_s in C'. rewrite EG in C'.
    pose proof (segs_ok_pos _ _ _ _ _ _ (c_segs _ _ _ _ _ _ _ _ C')) as PK.
    destruct (pos_ok_rep _ _ _ _ _ PK) as (e & R & _). cbn [fst snd] in R. destruct (rep_at _ _ _ _ _ _ _ _ _ R) as (p & _ & _ & H3 & H4 & _). rewrite <- EC in H4.
    assert (CS : chunksize s c = n) by (unfold chunksize, head; rewrite H4; apply hd_size; exact H3).
    apply sim_free; [exact H | apply (z_first _ _ heap_quiet) | apply (ny_tile _ _ _ J) | intros _; rewrite CS; apply (ny_after _ _ J) | apply (ny_prev _ _ J)].
  - pose proof (c_dirs _ _ _ _ _ _ _ _ C) as DI. rewrite Forall_forall in DI. pose proof (DI _ J) as (D1 & D2 & D3 & D4). cbn [fst snd] in *.
    apply sim_free; [exact H | apply (z_first _ _ heap_quiet) | apply (ny_dir c n); [exact J | lia | lia] | | intros _; apply (ny_dir c n); [exact J | lia | lia]].
    intros IM. exfalso. unfold is_mmapped, head in IM. rewrite D2 in IM. replace n with (n + 2 * bit false + bit false) in IM by (cbn [bit]; lia). rewrite hd_mod4 in IM by exact D3. discriminate.
Qed.
End Heap.

(** ** Histories *)
(** The words of the blocks in [L]. *)
Definition held (L : list block) (x : N) : Prop := exists b, In b L /\ addr b <= x /\ x < addr b + size b.
Lemma held_blk rm s L G D x : J rm s L G D -> held L x -> exists a r, blk G D a r /\ a <= x /\ x < a + r.
Proof.
  intros Q (b & IB & X1 & X2). pose proof (in_map addr _ _ IB) as IA. apply (q_live _ _ _ _ _ Q) in IA. destruct IA as (r & B). exists (addr b), r.
  pose proof (q_size _ _ _ _ _ Q _ _ IB B). split; [exact B | lia].
Qed.
(** The allocator's answer and what it does to its own memory do not depend on what is in the blocks the program holds: [t] is the
    heap [s] with other values in some words [Y] of those blocks. *)
Theorem C68_malloc_blind rm s L (Y : N -> Prop) t bytes v mm s' r : hist rm s L -> (forall x, Y x -> held L x) -> sim Y s t -> tree_answer s (padded bytes) v ->
  (forall n b, mm n = Some b -> fresh (pg s) b n) -> malloc s bytes v mm = Ok (s', r) ->
  tree_answer t (padded bytes) v /\ exists t', malloc t bytes v mm = Ok (t', r) /\ sim Y s' t'.
Proof.
  intros H HL S V FR E. destruct (hist_inv _ _ _ H) as (G & D & Q). pose proof (fun x y => held_blk _ _ _ _ _ x Q (HL x y)) as HY. pose proof (q_inv _ _ _ _ _ Q) as I.
  split; [apply (heap_answer Y s G D I HY t _ _ S V)|]. pose proof (heap_malloc Y s G D I HY t bytes v mm S V FR) as K. rewrite E in K. cbn [osim] in K.
  destruct (malloc t bytes v mm) as [[t' r']| |]; [|contradiction|contradiction]. destruct K as (K & <-). eauto.
Qed.
Theorem C68_free_blind rm s L (Y : N -> Prop) t x mr s' : hist rm s L -> (forall z, Y z -> held L z) -> In x L -> sim Y s t -> mspace_free s (addr x) mr = Ok s' ->
  exists t', mspace_free t (addr x) mr = Ok t' /\ sim Y s' t'.
Proof.
  intros H HL IX S E. destruct (hist_inv _ _ _ H) as (G & D & Q). pose proof (fun z y => held_blk _ _ _ _ _ z Q (HL z y)) as HY. pose proof (q_inv _ _ _ _ _ Q) as I.
  pose proof (in_map addr _ _ IX) as IA. apply (q_live _ _ _ _ _ Q) in IA. destruct IA as (r & B). pose proof (heap_free Y s G D I HY t _ _ mr S B) as K. rewrite E in K. cbn [osim1] in K.
  destruct (mspace_free t (addr x) mr) as [t'| |]; [|contradiction|contradiction]. eauto.
Qed.
