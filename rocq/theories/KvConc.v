(** The key/value store of [Kv] with many callers at once (property C69).

    Code modelled
    - [src/utils/Kv.c:11-48]  utils_kv_set, utils_kv_get: one access to the table per step
    utils_kv_get answers a pointer to the value; here, the index of the pair. *)
From Verif Require Import Base Kv Locked.
From Coq Require Import Lia Permutation.
Local Open Scope N_scope.

(** ** Calls one at a time *)
Inductive kop := Set_ (k v : N) | Get_ (k : N).
(** [Died]: arax_assert of Kv.c:29 *)
Inductive kret := Done | Died | Ptr (i : option nat).
Definition key_of (o : kop) : N := match o with Set_ k _ => k | Get_ k => k end.
(** the calls of [Kv], Kv.c:11-48 *)
Definition kseq (cap : nat) (o : kop) (s s' : kv) (r : kret) : Prop :=
  match o with
  | Set_ k v => (kv_set cap s k v = Ok s' /\ r = Done) \/ (kv_set cap s k v = Abort /\ s' = s /\ r = Died)
  | Get_ k => s' = s /\ exists p, kv_find (kv_arr s) k 0 (kv_pairs s) = Ok p /\ r = Ptr p
  end.
Definition kobj (cap : nat) : obj := mkobj kv kop kret unit (fun _ => []) (fun _ _ => []) (kseq cap) (kv_init cap).

(** ** Calls step by step *)
Inductive kloc :=
| Test (o : kop) (i : nat)   (* itr < kv->pairs, Kv.c:18, 39 *)
| Cmp (o : kop) (i : nat)    (* kv[itr].key == key, Kv.c:19, 40 *)
| UpdV (k v : N) (i : nat)   (* kv[itr].value = value, Kv.c:20 *)
| Room (k v : N)             (* kv->pairs < ARAX_KV_CAP, Kv.c:25 *)
| KeyW (k v : N)             (* kv[pairs].key = key, Kv.c:26 *)
| ValW (k v : N)             (* kv[pairs].value = value, Kv.c:27 *)
| IncP                       (* pairs++, Kv.c:27 *)
| Fin (r : kret).
(** One access, Kv.c:11-48; [None]: out of bounds. *)
Definition kstep (cap : nat) (l : kloc) (s : kv) : option (kloc * kv) :=
  match l with
  | Test o i => Some (if (i <? kv_pairs s)%nat then Cmp o i else match o with Set_ k v => Room k v | Get_ _ => Fin (Ptr None) end, s)
  | Cmp o i => match nth_error (kv_arr s) i with
               | Some p => Some (if fst p =? key_of o then match o with Set_ k v => UpdV k v i | Get_ _ => Fin (Ptr (Some i)) end else Test o (S i), s)
               | None => None
               end
  | UpdV k v i => match nth_error (kv_arr s) i with Some p => Some (Fin Done, mkkv (upd (kv_arr s) i (fst p, v)) (kv_pairs s)) | None => None end
  | Room k v => Some (if (kv_pairs s <? cap)%nat then KeyW k v else Fin Died, s)
  | KeyW k v => match nth_error (kv_arr s) (kv_pairs s) with Some p => Some (ValW k v, mkkv (upd (kv_arr s) (kv_pairs s) (k, snd p)) (kv_pairs s)) | None => None end
  | ValW k v => match nth_error (kv_arr s) (kv_pairs s) with Some p => Some (IncP, mkkv (upd (kv_arr s) (kv_pairs s) (fst p, v)) (kv_pairs s)) | None => None end
  | IncP => Some (Fin Done, mkkv (kv_arr s) (S (kv_pairs s)))
  | Fin _ => None
  end.
Definition kbody (cap : nat) : body (kobj cap) :=
  mkbody (kobj cap) kloc (fun o => Test o 0) (fun l s l' s' => kstep cap l s = Some (l', s')) (fun l => match l with Fin r => Some r | _ => None end).

(** ** The steps of a call are the call *)
Definition found (o : kop) (s : kv) (p : option nat) : Prop := kv_find (kv_arr s) (key_of o) 0 (kv_pairs s) = Ok p.
Definition mid (cap : nat) (o : kop) (s : kv) (l : kloc) (s' : kv) : Prop :=
  match l with
  | Test o' i => o' = o /\ s' = s /\ (i <= kv_pairs s)%nat /\ kv_find (kv_arr s) (key_of o) 0 (kv_pairs s) = kv_find (kv_arr s) (key_of o) i (kv_pairs s - i)
  | Cmp o' i => o' = o /\ s' = s /\ (i < kv_pairs s)%nat /\ kv_find (kv_arr s) (key_of o) 0 (kv_pairs s) = kv_find (kv_arr s) (key_of o) i (kv_pairs s - i)
  | UpdV k v i => o = Set_ k v /\ s' = s /\ found o s (Some i)
  | Room k v => o = Set_ k v /\ s' = s /\ found o s None
  | KeyW k v => o = Set_ k v /\ s' = s /\ found o s None /\ (kv_pairs s < cap)%nat
  | ValW k v => o = Set_ k v /\ found o s None /\ (kv_pairs s < cap)%nat /\ (kv_pairs s < length (kv_arr s))%nat /\ exists w, s' = mkkv (upd (kv_arr s) (kv_pairs s) (k, w)) (kv_pairs s)
  | IncP => exists k v, o = Set_ k v /\ found o s None /\ (kv_pairs s < cap)%nat /\ (kv_pairs s < length (kv_arr s))%nat /\ s' = mkkv (upd (kv_arr s) (kv_pairs s) (k, v)) (kv_pairs s)
  | Fin r => kseq cap o s s' r
  end.
Lemma put_put {A} (T : list A) i x y : upd (upd T i x) i y = upd T i y.
Proof. revert i. induction T as [|h T IH]; intros [|i]; cbn; try reflexivity. now rewrite IH. Qed.
Lemma mid_step cap o s l s1 l' s2 : mid cap o s l s1 -> kstep cap l s1 = Some (l', s2) -> mid cap o s l' s2.
Proof.
  destruct l as [o' i | o' i | k v i | k v | k v | k v | | r]; cbn [mid kstep]; intros M E.
  - destruct M as (-> & -> & LE & F). injection E as <- <-. destruct (i <? kv_pairs s)%nat eqn:EI.
    + apply Nat.ltb_lt in EI. cbn. auto.
    + apply Nat.ltb_ge in EI. replace (kv_pairs s - i)%nat with 0%nat in F by lia. cbn [kv_find] in F. destruct o as [k v | k]; cbn; [unfold found; auto|]. split; [reflexivity|]. eauto.
  - destruct M as (-> & -> & LT & F). destruct (kv_pairs s - i)%nat as [|m] eqn:EM; [lia|]. cbn [kv_find] in F. unfold rd in F. destruct (nth_error (kv_arr s) i) as [p|]; [|discriminate].
    injection E as <- <-. cbn [bind] in F. destruct (fst p =? key_of o); [destruct o as [k v | k]; cbn; [unfold found; auto | split; [reflexivity | eauto]]|].
    cbn [mid]. split; [reflexivity|]. split; [reflexivity|]. split; [lia|]. rewrite F. f_equal. lia.
  - destruct M as (-> & -> & F). unfold found in F. cbn [key_of] in F. destruct (nth_error (kv_arr s) i) as [p|] eqn:EN; [|discriminate]. injection E as <- <-. cbn [mid kseq]. left. split; [|reflexivity].
    unfold kv_set. rewrite F. cbn [bind]. unfold rd. rewrite EN. cbn [bind]. rewrite wr_ok by (apply nth_error_Some; congruence). reflexivity.
  - destruct M as (-> & -> & F). injection E as <- <-. unfold found in F. cbn [key_of] in F. destruct (kv_pairs s <? cap)%nat eqn:EC.
    + apply Nat.ltb_lt in EC. cbn. unfold found. auto.
    + cbn [mid kseq]. right. split; [|auto]. unfold kv_set. rewrite F. cbn [bind]. rewrite EC. reflexivity.
  - destruct M as (-> & -> & F & LT). destruct (nth_error (kv_arr s) (kv_pairs s)) as [p|] eqn:EN; [|discriminate]. injection E as <- <-. cbn [mid]. split; [reflexivity|]. split; [exact F|]. split; [exact LT|].
    split; [apply nth_error_Some; congruence | eauto].
  - destruct M as (-> & F & LT & LL & w & ->). cbn [kv_arr kv_pairs] in E. rewrite nth_error_upd_eq in E by exact LL. injection E as <- <-. cbn [fst mid]. exists k, v. rewrite put_put. auto.
  - destruct M as (k & v & -> & F & LT & LL & ->). injection E as <- <-. cbn [mid kseq kv_arr kv_pairs]. left. split; [|reflexivity]. unfold found in F. cbn [key_of] in F.
    unfold kv_set. rewrite F. cbn [bind]. apply Nat.ltb_lt in LT. rewrite LT. rewrite wr_ok by exact LL. reflexivity.
  - discriminate.
Qed.
Lemma mid_runs cap o s l s' : runs (kbody cap) (Test o 0) s l s' -> mid cap o s l s'.
Proof.
  remember (Test o 0) as l0 eqn:E0. intros R. change (loc (kbody cap)) with kloc in l0. revert E0. induction R as [l s | l s l1 s1 l2 s2 R IH _ M]; intros E0.
  - rewrite E0. cbn [mid]. split; [reflexivity|]. split; [reflexivity|]. split; [lia|]. f_equal. lia.
  - apply (mid_step _ _ _ _ _ _ _ (IH E0) M).
Qed.
Theorem C69_kv_steps cap : sound (kobj cap) (kbody cap).
Proof.
  intros s T R l0 o l s' r _ _ RR EF. apply mid_runs in RR. destruct l; try discriminate. cbn [kbody fin] in EF. injection EF as <-. exact RR.
Qed.

(** ** Specification *)
(** The pairs that the completed sets of a sequence of calls stored. *)
Definition sets (l : list (kop * kret)) : list (N * N) := flat_map (fun x => match x with (Set_ k v, Done) => [(k, v)] | _ => [] end) l.
(** The answers a map of at most [cap] keys gives: a pointer exactly for the keys that were set; a set is refused exactly if its key
    is new and [cap] keys are there. *)
Definition map_answers (cap : nat) (l : list (kop * kret)) : Prop :=
  forall l1 o r l2, l = l1 ++ (o, r) :: l2 ->
  match o with
  | Get_ k => exists p, r = Ptr p /\ (p <> None <-> In k (map fst (sets l1)))
  | Set_ k v => (r = Done \/ r = Died) /\ (r = Died <-> ~ In k (map fst (sets l1)) /\ distinct_keys (sets l1) = cap)
  end.

Lemma serial_prefix X s T l : serial X s T l -> forall l1 o r l2, l = l1 ++ (o, r) :: l2 -> exists s1 T1 s2, serial X s1 T1 l1 /\ seq X o s1 s2 r.
Proof.
  induction 1 as [| s T R o s' r l H IH P E]; intros l1 o1 r1 l2 EL; [destruct l1; discriminate|].
  destruct (exists_last (l := (o1, r1) :: l2)) as (l3 & x & EX); [discriminate|]. rewrite EX, app_assoc in EL. apply app_inj_tail in EL. destruct EL as (EL & <-).
  destruct l3 as [|y l3].
  - cbn in EX. injection EX as -> -> _. rewrite app_nil_r in EL. subst l. eauto.
  - cbn in EX. injection EX as <- EX. apply (IH _ _ _ _ EL).
Qed.
Lemma kv_sets_app cap a b s : kv_sets cap s (a ++ b) = bind (kv_sets cap s a) (fun s' => kv_sets cap s' b).
Proof. revert s. induction a as [|[k v] a IH]; intros s; cbn [app kv_sets bind]; [reflexivity|]. destruct (kv_set cap s k v); cbn [bind]; [apply IH | reflexivity | reflexivity]. Qed.
Lemma serial_sets cap s T l : serial (kobj cap) s T l -> kv_sets cap (kv_init cap) (sets l) = Ok s.
Proof.
  induction 1 as [| s T R o s' r l H IH P E]; [reflexivity|]. assert (EA : sets (l ++ [(o, r)]) = sets l ++ sets [(o, r)]) by apply flat_map_app. rewrite EA, kv_sets_app, IH. cbn [bind]. clear EA. cbn [kobj seq] in E. destruct o as [k v | k]; cbn [kseq] in E.
  - destruct E as [(E & ->) | (_ & -> & ->)]; [|reflexivity]. change (sets [(Set_ k v, Done)]) with [(k, v)]. cbn [kv_sets]. rewrite E. reflexivity.
  - destruct E as (-> & p & _ & ->). reflexivity.
Qed.
Lemma serial_kvinv cap s T l : serial (kobj cap) s T l -> kvinv cap s (last_set (sets l)).
Proof.
  intros H. apply serial_sets in H. pose proof (kv_sets_spec cap (sets l) _ _ (init_kvinv cap)) as Q. rewrite H in Q. destruct Q as [A B C D]. constructor; auto.
  intros k. rewrite D. destruct (last_set (sets l) k); reflexivity.
Qed.
Lemma serial_map cap s T l : serial (kobj cap) s T l -> map_answers cap l.
Proof.
  intros H l1 o r l2 EL. destruct (serial_prefix _ _ _ _ H _ _ _ _ EL) as (s1 & T1 & s2 & H1 & E). pose proof (serial_kvinv _ _ _ _ H1) as KI. pose proof (serial_sets _ _ _ _ H1) as KS.
  cbn [kobj seq kseq] in E. destruct o as [k v | k]; cbn [kseq] in E.
  - destruct (C11_refusal cap _ _ k v KS) as (CR & _). rewrite (C11_capacity _ _ _ KS) in CR.
    destruct E as [(E & ->) | (E & _ & ->)]; (split; [auto|]); (split; [intros X; try discriminate; apply CR, E|]); intros X; [|reflexivity]. apply CR in X. congruence.
  - destruct E as (_ & p & E & ->). exists p. split; [reflexivity|]. destruct (find_content _ _ _ k KI) as (r' & E' & F). rewrite E in E'. injection E' as <-.
    destruct p as [i|].
    + split; [intros _ | discriminate]. destruct F as (_ & _ & F). destruct (in_dec N.eq_dec k (map fst (sets l1))) as [I | NI]; [exact I|]. apply last_set_none in NI. congruence.
    + split; [congruence|]. intros I. apply last_set_none in F. contradiction.
Qed.

(** ** Theorems *)
(** Whatever the callers do at the same time, they get the answers of a map whose calls take effect one at a time, each between its
    call and its answer. *)
Theorem C69_kv_map cap c : reach (kbody cap) c ->
  exists g, filter seen g = trace c /\ (forall i, exists st, follows i g st) /\ map_answers cap (taken g).
Proof.
  intros R. destruct (C69_locked_linearizable _ _ (C69_kv_steps cap) c R) as (g & s & T & G1 & G2 & G3). exists g. split; [exact G1|]. split; [exact G2|]. apply (serial_map _ _ _ _ G3).
Qed.
(** A call that is inside always has a next step in bounds, or is done. *)
Theorem C69_kv_never_stuck cap c i o l : reach (kbody cap) c -> nth_error (ths c) i = Some (Inside o l) -> (exists r, l = Fin r) \/ exists l' s', kstep cap l (state c) = Some (l', s').
Proof.
  intros R E. pose proof (C69_locked_state _ _ (C69_kv_steps cap) c R) as (s0 & T0 & l0 & H & _ & L). destruct (C69_locked_one _ _ (C69_kv_steps cap) c i i o l o l R E E) as (_ & LK). rewrite LK in L.
  destruct L as (j & o' & l' & EJ & RR). destruct (C69_locked_one _ _ (C69_kv_steps cap) c i j o l o' l' R E EJ) as (<- & _). rewrite E in EJ. injection EJ as <- <-.
  apply mid_runs in RR. pose proof (serial_kvinv _ _ _ _ H) as [KL KP KN KM]. destruct l as [o' i' | o' i' | k v i' | k v | k v | k v | | r]; cbn [mid kstep] in *.
  - right. eauto.
  - right. destruct RR as (_ & -> & LT & _). destruct (nth_error (kv_arr s0) i') eqn:EN; [eauto|]. apply nth_error_None in EN. lia.
  - right. destruct RR as (-> & -> & F). unfold found in F. cbn [key_of] in F. destruct (find_content cap s0 _ k (serial_kvinv _ _ _ _ H)) as (q & F' & FF). rewrite F in F'. injection F' as <-.
    destruct (nth_error (kv_arr s0) i') eqn:EN; [eauto|]. apply nth_error_None in EN. lia.
  - right. eauto.
  - right. destruct RR as (_ & -> & _ & LT). destruct (nth_error (kv_arr s0) (kv_pairs s0)) eqn:EN; [eauto|]. apply nth_error_None in EN. lia.
  - right. destruct RR as (_ & _ & LT & LL & w & ->). cbn [kv_arr kv_pairs]. rewrite nth_error_upd_eq by exact LL. eauto.
  - right. eauto.
  - left. eauto.
Qed.
(** How many steps are left. *)
Definition rank (l : kloc) (s : kv) : nat :=
  match l with Test _ i => 2 * (kv_pairs s - i) + 5 | Cmp _ i => 2 * (kv_pairs s - i) + 4 | UpdV _ _ _ => 1 | Room _ _ => 4 | KeyW _ _ => 3 | ValW _ _ => 2 | IncP => 1 | Fin _ => 0 end.
Lemma rank_step cap o s l s1 l' s2 : mid cap o s l s1 -> kstep cap l s1 = Some (l', s2) -> (rank l' s2 < rank l s1)%nat.
Proof.
  destruct l as [o' i | o' i | k v i | k v | k v | k v | | r]; cbn [mid kstep rank]; intros M E.
  - injection E as <- <-. destruct (i <? kv_pairs s1)%nat eqn:EI; [cbn; lia|]. destruct o'; cbn; lia.
  - destruct M as (_ & -> & LT & _). destruct (nth_error (kv_arr s) i); [|discriminate]. injection E as <- <-. destruct (fst p =? key_of o'); [destruct o'; cbn; lia | cbn; lia].
  - destruct (nth_error _ _); [|discriminate]. injection E as <- <-. cbn. lia.
  - injection E as <- <-. destruct (_ <? _)%nat; cbn; lia.
  - destruct (nth_error _ _); [|discriminate]. injection E as <- <-. cbn. lia.
  - destruct (nth_error _ _); [|discriminate]. injection E as <- <-. cbn. lia.
  - injection E as <- <-. cbn. lia.
  - discriminate.
Qed.
(** The steps inside are at most five more than twice the pairs in the store. *)
Inductive nsteps (cap : nat) : nat -> kloc -> kv -> kloc -> kv -> Prop :=
| n_nil l s : nsteps cap 0 l s l s
| n_snoc n l s l1 s1 l2 s2 : nsteps cap n l s l1 s1 -> kstep cap l1 s1 = Some (l2, s2) -> nsteps cap (S n) l s l2 s2.
Theorem C69_kv_bounded cap n o s l s' : nsteps cap n (Test o 0) s l s' -> (n <= 2 * kv_pairs s + 5)%nat.
Proof.
  intros H. enough (G : mid cap o s l s' /\ (n + rank l s' <= 2 * kv_pairs s + 5)%nat) by lia.
  remember (Test o 0) as l0 eqn:E0. revert E0. induction H as [l s | n l s l1 s1 l2 s2 H IH E]; intros E0.
  - subst l. cbn [mid rank]. rewrite Nat.sub_0_r. split; [split; [reflexivity | split; [reflexivity | split; [lia | reflexivity]]] | lia].
  - destruct (IH E0) as (M & LE). split; [apply (mid_step _ _ _ _ _ _ _ M E)|]. pose proof (rank_step _ _ _ _ _ _ _ M E). lia.
Qed.
(** The pointer a caller got for a key points at that key's value for ever: what is read there is what the last completed set of the
    key stored, or what a set of the key that is inside at that moment is storing. *)
Theorem C69_kv_pointer cap c : reach (kbody cap) c -> exists g, filter seen g = trace c /\ (forall i, exists st, follows i g st) /\
  forall k i, In (Get_ k, Ptr (Some i)) (taken g) -> exists v, nth_error (kv_arr (state c)) i = Some (k, v) /\
    (last_set (sets (taken g)) k = Some v \/ exists j l, nth_error (ths c) j = Some (@Inside (kobj cap) (kbody cap) (Set_ k v) l)).
Proof.
  intros R. destruct (reach_K _ _ (C69_kv_steps cap) c R) as (g & s0 & T0 & [K1 K2 K3 K4 K5 K6]). exists g. split; [exact K1|].
  split; [intros i; destruct (nth_error (ths c) i) as [p|] eqn:E; eauto|].
  assert (G : forall s T l, serial (kobj cap) s T l -> forall k i, In (Get_ k, Ptr (Some i)) l -> (i < kv_pairs s)%nat /\ fst (nth i (kv_arr s) (0, 0)) = k).
  { clear. induction 1 as [| s T R o s' r l H IH P E]; intros k i I; [destruct I|]. pose proof (serial_kvinv _ _ _ _ H) as KI. apply in_app_or in I. cbn [kobj seq] in E. destruct I as [I | [I | []]].
    - destruct (IH k i I) as (I1 & I2). destruct o as [k' v | k']; cbn [kseq] in E; [|destruct E as (-> & _); auto]. destruct E as [(E & _) | (_ & -> & _)]; [|auto].
      unfold kv_set in E. destruct (find_content _ _ _ k' KI) as (q & F & FF). rewrite F in E. cbn [bind] in E. destruct KI as [KL KP _ _]. destruct q as [q|].
      + destruct FF as (F1 & F2 & _). rewrite (rd_ok _ _ (0, 0)) in E by lia. cbn [bind] in E. rewrite wr_ok in E by lia. cbn [bind] in E. injection E as <-. cbn [kv_pairs kv_arr]. split; [exact I1|].
        destruct (Nat.eq_dec i q) as [-> | NE]; [rewrite nth_upd_eq by lia; cbn; congruence | rewrite nth_upd_ne by auto; exact I2].
      + destruct (kv_pairs s <? cap)%nat; [|discriminate]. rewrite wr_ok in E. 2:{ unfold wr in E. destruct (_ <? _)%nat eqn:EL in E; [apply Nat.ltb_lt in EL; exact EL | discriminate]. }
        cbn [bind] in E. injection E as <-. cbn [kv_pairs kv_arr]. split; [lia|]. rewrite nth_upd_ne by lia. exact I2.
    - injection I as -> ->. cbn [kseq] in E. destruct E as (-> & p & F & EP). injection EP as <-. destruct (find_content _ _ _ k KI) as (q & F' & FF). rewrite F in F'. injection F' as <-. tauto. }
  intros k i I. destruct (G _ _ _ K4 k i I) as (I1 & I2). pose proof (serial_kvinv _ _ _ _ K4) as KI.
  assert (V : nth_error (kv_arr s0) i = Some (k, snd (nth i (kv_arr s0) (0, 0))) /\ last_set (sets (taken g)) k = Some (snd (nth i (kv_arr s0) (0, 0)))).
  { destruct KI as [KL KP KN KM]. split.
    - rewrite (nth_error_nth' _ (0, 0)) by lia. destruct (nth i (kv_arr s0) (0, 0)); cbn in *; congruence.
    - rewrite <- KM, <- I2. assert (LC : length (content s0) = kv_pairs s0) by (unfold content; rewrite firstn_length; lia).
      pose proof (assoc_nth (content s0) KN i ltac:(lia)) as A. unfold content in A at 2 3. rewrite nth_firstn' in A by lia. exact A. }
  destruct V as (V1 & V2). set (v := snd (nth i (kv_arr s0) (0, 0))) in *. destruct (lock c); [|destruct K6 as (_ & ->); eauto].
  destruct K6 as (j & o & l & EJ & U & RR). apply mid_runs in RR. destruct l as [o' i' | o' i' | k' v' i' | k' v' | k' v' | k' v' | | r]; cbn [mid] in RR.
  - destruct RR as (_ & -> & _). eauto.
  - destruct RR as (_ & -> & _). eauto.
  - destruct RR as (_ & -> & _). eauto.
  - destruct RR as (_ & -> & _). eauto.
  - destruct RR as (_ & -> & _). eauto.
  - destruct RR as (_ & _ & _ & _ & w & ->). exists v. split; [cbn [kv_arr]; rewrite nth_error_upd_ne by lia; exact V1 | auto].
  - destruct RR as (k' & v' & _ & _ & _ & _ & ->). exists v. split; [cbn [kv_arr]; rewrite nth_error_upd_ne by lia; exact V1 | auto].
  - destruct o as [k' v' | k']; cbn [kseq] in RR; [|destruct RR as (-> & _); eauto]. destruct RR as [(E & ->) | (_ & -> & _)]; [|eauto].
    unfold kv_set in E. destruct (find_content _ _ _ k' KI) as (q & F & FF). rewrite F in E. cbn [bind] in E. destruct KI as [KL KP _ _]. destruct q as [q|].
    + destruct FF as (F1 & F2 & _). rewrite (rd_ok _ _ (0, 0)) in E by lia. cbn [bind] in E. rewrite wr_ok in E by lia. cbn [bind] in E. injection E as <-. cbn [kv_arr].
      destruct (Nat.eq_dec i q) as [-> | NE].
      * exists v'. assert (k' = k) as -> by congruence. split; [rewrite nth_error_upd_eq by lia; congruence | eauto].
      * exists v. split; [rewrite nth_error_upd_ne by auto; exact V1 | auto].
    + destruct (kv_pairs s0 <? cap)%nat; [|discriminate]. unfold wr in E. destruct (_ <? _)%nat eqn:EL in E; [|discriminate]. cbn [bind] in E. injection E as <-. cbn [kv_arr].
      exists v. split; [rewrite nth_error_upd_ne by lia; exact V1 | auto].
Qed.

(** ** A concrete case *)
Definition kgive (o : kop) (H : list unit) : option (list unit) := Some H.
Definition kscheds (cap n : nat) (l : list (nat * option kop)) : option (conf (kobj cap) (kbody cap)) :=
  scheds (kobj cap) (kbody cap) (kstep cap) kgive (mkc (init (kobj cap)) false [] (repeat Idle n) []) l.
Lemma kscheds_reach cap n l c : kscheds cap n l = Some c -> reach (kbody cap) c.
Proof. apply (scheds_reach (kobj cap) (kbody cap) (kstep cap) kgive); [auto|]. intros o H H' E. injection E as <-. apply Permutation_refl. Qed.
(** what can be seen *)
Definition view (c : conf (kobj 2) (kbody 2)) : list (N * N) * nat * bool * nat := (kv_arr (state c), kv_pairs (state c), lock c, length (trace c)).
(** Thread 0 sets key 5 to 50 and has its answer, gets the pointer to it, then sets key 6 to 60 and is inside with the key written and
    the value not; thread 1 called get of 5 and waits. *)
Definition kcase : list (nat * option kop) :=
  let t0 := (0%nat, None) in
  [(0%nat, Some (Set_ 5 50)); t0; t0; t0; t0; t0; t0; t0; t0; t0] ++ [(0%nat, Some (Get_ 5)); t0; t0; t0; t0; t0; t0] ++
  [(0%nat, Some (Set_ 6 60)); t0; t0; (1%nat, Some (Get_ 5)); (1%nat, None); t0; t0; t0; t0; t0].
Example C69_kv_case : exists c, reach (kbody 2) c /\ view c = ([(5, 50); (6, 0)], 1%nat, true, 6%nat) /\
  ths c = [@Inside (kobj 2) (kbody 2) (Set_ 6 60) (ValW 6 60); @Spin (kobj 2) (kbody 2) (Get_ 5)] /\ In (@Answer (kobj 2) 0 (Ptr (Some 0%nat))) (trace c).
Proof.
  destruct (kscheds 2 2 kcase) as [c|] eqn:E; [|vm_compute in E; discriminate]. exists c. split; [apply (kscheds_reach _ _ _ _ E)|]. vm_compute in E. injection E as <-.
  split; [reflexivity|]. split; [reflexivity|]. cbn. tauto.
Qed.
