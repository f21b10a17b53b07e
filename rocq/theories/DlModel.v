(** The heap inside the shared segment (properties C59 to C61): model of the parts of src/alloc/dlmalloc/malloc.c that
    arch_alloc_allocate and _arch_alloc_free use, in the configuration of src/alloc/dlmalloc/CMakeLists.txt (ONLY_MSPACES,
    HAVE_MMAP, no MORECORE, no FOOTERS, not INSECURE, 64-bit words, alignment 16).

    Code modelled
    - [src/alloc/dlmalloc/malloc.c:2287-2337]  heads, feet and their macros
    - [src/alloc/dlmalloc/malloc.c:3114-3120]  heads of chunks in use
    - [src/alloc/dlmalloc/malloc.c:3659-3890]  insertion into and removal from bins
    - [src/alloc/dlmalloc/malloc.c:3921-3952]  mmap_alloc
    - [src/alloc/dlmalloc/malloc.c:3996-4010]  init_top
    - [src/alloc/dlmalloc/malloc.c:4047-4140]  prepend_alloc, add_segment
    - [src/alloc/dlmalloc/malloc.c:4145-4353]  sys_alloc
    - [src/alloc/dlmalloc/malloc.c:4358-4471]  release_unused_segments, sys_trim
    - [src/alloc/dlmalloc/malloc.c:4543-4653]  tmalloc_large, tmalloc_small, after the search of the tree
    - [src/alloc/dlmalloc/malloc.c:5528-5572]  init_user_mstate, create_mspace
    - [src/alloc/dlmalloc/malloc.c:5639-5842]  mspace_malloc, mspace_free
    - [src/alloc/dlmalloc/alloc.c:62-100]      arch_alloc_allocate, _arch_alloc_free

    Boundary tags (head and prev_foot words) are in memory, word by word.  The links of the bins are not: a small bin is
    the list of its chunks, the tree bins together are the set of their chunks, and the search of the trees is an input
    ([DlTree] is the model of the trees and proves what the search returns).  smallmap and treemap are the sets of bins that
    are not empty.  Every call holds the lock of the mspace (PREACTION), so calls are atomic.  [assert] of malloc.c is
    compiled out; the RTCHECKs of the functions above, which abort, are modelled except those on links. *)
From Verif Require Import Base.
Local Open Scope N_scope.
Arguments N.add : simpl never. Arguments N.sub : simpl never. Arguments N.mul : simpl never. Arguments N.div : simpl never.
Arguments N.modulo : simpl never. Arguments N.eqb : simpl never. Arguments N.ltb : simpl never. Arguments N.leb : simpl never.

(** MIN_CHUNK_SIZE, malloc.c:2262-2263 *)
Definition MIN_CHUNK : N := 32.
(** TOP_FOOT_SIZE, malloc.c:2788-2790: a padded malloc_segment (48) and MIN_CHUNK_SIZE *)
Definition TOP_FOOT : N := 80.
(** pad_request(sizeof(struct malloc_segment)), malloc.c:4095 *)
Definition SEG_SIZE : N := 48.
(** pad_request(sizeof(struct malloc_state)), malloc.c:5530: 936 bytes *)
Definition MSTATE : N := 944.
(** where the field seg is in struct malloc_state, malloc.c:2629-2653 *)
Definition SEG_OFF : N := 888.
(** malloc.c:2272 *)
Definition MAX_REQUEST : N := 2 ^ 64 - 128.
(** malloc.c:2627 *)
Definition MAX_SMALL_REQUEST : N := 232.
(** DEFAULT_GRANULARITY, malloc.c:678 *)
Definition GRAN : N := 65536.
(** DEFAULT_MMAP_THRESHOLD, malloc.c:690 *)
Definition MMAP_THRESHOLD : N := 262144.
(** DEFAULT_TRIM_THRESHOLD, malloc.c:683 *)
Definition TRIM_THRESHOLD : N := 2097152.
(** MAX_RELEASE_CHECK_RATE, malloc.c:697 *)
Definition RELEASE_RATE : N := 4095.
(** size_t *)
Definition W : N := 2 ^ 64.
(** pad_request, malloc.c:2275-2276 *)
Definition pad_request (r : N) : N := (r + 23) / 16 * 16.
(** malloc.c:5655 *)
Definition MIN_REQUEST : N := 23.
(** granularity_align, malloc.c:2725-2727 *)
Definition granularity_align (s : N) : N := (s + 65535) mod W / 65536 * 65536.
(** mmap_align, malloc.c:2721-2723, 2734 *)
Definition mmap_align (s : N) : N := (s + 4095) mod W / 4096 * 4096.
(** small_index, is_small, small_index2size: malloc.c:2882-2884 *)
Definition small_index (s : N) : N := s / 8.
(** malloc.c:2882 *)
Definition is_small (s : N) : bool := s / 8 <? 32.

(** struct malloc_segment, malloc.c:2518-2524; [srec]: where the record is *)
Record seg := mkseg { sbase : N; ssize : N; srec : N }.
(** A call of the page allocator, alloc.c:143-161: arax_mmap of [n] bytes answered [b]; arax_ummap of [n] bytes at [b]. *)
Inductive call := Map (b n : N) | Unm (b n : N).
(** struct malloc_state, malloc.c:2629-2653.  [mem]: the words of memory, by address; [segs]: the list that starts with the
    field seg; [sb]: the small bins; [tb]: the chunks in tree bins; [mst]: where this structure is; [pg]: the addresses in
    pages arax_mmap has given and arax_ummap not taken back; [plog]: the calls of arax_mmap and arax_ummap so far (a record the
    code does not keep; no function reads it). *)
Record ms := mk { mem : N -> N; segs : list seg; top : N; topsize : N; dv : N; dvsize : N; sb : N -> list N; tb : list N;
                  least : N; rchk : N; trimc : N; foot : N; mst : N; pg : N -> bool; plog : list call }.

(** Assignments; no code of their own. *)
Definition wr_ (m : N -> N) (a v : N) : N -> N := fun x => if x =? a then v else m x.
(** assignment to memory *)
Definition set_mem (s : ms) (m : N -> N) : ms :=
  mk m (segs s) (top s) (topsize s) (dv s) (dvsize s) (sb s) (tb s) (least s) (rchk s) (trimc s) (foot s) (mst s) (pg s) (plog s).
(** assignment to top and topsize *)
Definition set_top (s : ms) (t n : N) : ms :=
  mk (mem s) (segs s) t n (dv s) (dvsize s) (sb s) (tb s) (least s) (rchk s) (trimc s) (foot s) (mst s) (pg s) (plog s).
(** assignment to dv and dvsize *)
Definition set_dv (s : ms) (d n : N) : ms :=
  mk (mem s) (segs s) (top s) (topsize s) d n (sb s) (tb s) (least s) (rchk s) (trimc s) (foot s) (mst s) (pg s) (plog s).
(** assignment to a small bin *)
Definition set_sb (s : ms) (i : N) (l : list N) : ms :=
  mk (mem s) (segs s) (top s) (topsize s) (dv s) (dvsize s) (fun j => if j =? i then l else sb s j) (tb s) (least s) (rchk s) (trimc s) (foot s) (mst s) (pg s) (plog s).
(** assignment to the tree bins *)
Definition set_tb (s : ms) (l : list N) : ms :=
  mk (mem s) (segs s) (top s) (topsize s) (dv s) (dvsize s) (sb s) l (least s) (rchk s) (trimc s) (foot s) (mst s) (pg s) (plog s).
(** assignment to the segments *)
Definition set_segs (s : ms) (l : list seg) : ms :=
  mk (mem s) l (top s) (topsize s) (dv s) (dvsize s) (sb s) (tb s) (least s) (rchk s) (trimc s) (foot s) (mst s) (pg s) (plog s).
(** assignment to least_addr *)
Definition set_least (s : ms) (a : N) : ms :=
  mk (mem s) (segs s) (top s) (topsize s) (dv s) (dvsize s) (sb s) (tb s) a (rchk s) (trimc s) (foot s) (mst s) (pg s) (plog s).
(** assignment to release_checks *)
Definition set_rchk (s : ms) (n : N) : ms :=
  mk (mem s) (segs s) (top s) (topsize s) (dv s) (dvsize s) (sb s) (tb s) (least s) n (trimc s) (foot s) (mst s) (pg s) (plog s).
(** assignment to trim_check *)
Definition set_trimc (s : ms) (n : N) : ms :=
  mk (mem s) (segs s) (top s) (topsize s) (dv s) (dvsize s) (sb s) (tb s) (least s) (rchk s) n (foot s) (mst s) (pg s) (plog s).
(** assignment to footprint *)
Definition set_foot_ (s : ms) (n : N) : ms :=
  mk (mem s) (segs s) (top s) (topsize s) (dv s) (dvsize s) (sb s) (tb s) (least s) (rchk s) (trimc s) n (mst s) (pg s) (plog s).
(** pages given or taken back *)
Definition set_pg (s : ms) (f : N -> bool) (c : call) : ms :=
  mk (mem s) (segs s) (top s) (topsize s) (dv s) (dvsize s) (sb s) (tb s) (least s) (rchk s) (trimc s) (foot s) (mst s) f (plog s ++ [c]).
(** Is [x] in the [n] bytes at [b]? *)
Definition within (b n x : N) : bool := (b <=? x) && (x <? b + n).
(** arax_mmap answered [b], alloc.c:143-152 *)
Definition mapped (s : ms) (b n : N) : ms := set_pg s (fun x => within b n x || pg s x) (Map b n).
(** arax_ummap, alloc.c:154-161; it always returns 0 *)
Definition unmapped (s : ms) (b n : N) : ms := set_pg s (fun x => negb (within b n x) && pg s x) (Unm b n).

(** ** Heads and feet *)
(** p->head *)
Definition head (s : ms) (p : N) : N := mem s (p + 8).
(** p->head = h *)
Definition set_head (s : ms) (p h : N) : ms := set_mem s (wr_ (mem s) (p + 8) h).
(** p->prev_foot *)
Definition prev_foot (s : ms) (p : N) : N := mem s p.
(** pinuse, malloc.c:2305 *)
Definition pinuse (s : ms) (p : N) : bool := N.odd (head s p).
(** cinuse, malloc.c:2304 *)
Definition cinuse (s : ms) (p : N) : bool := N.odd (head s p / 2).
(** is_inuse, malloc.c:2307 *)
Definition is_inuse (s : ms) (p : N) : bool := negb (head s p mod 4 =? 1).
(** is_mmapped, malloc.c:2308 *)
Definition is_mmapped (s : ms) (p : N) : bool := head s p mod 4 =? 0.
(** chunksize, malloc.c:2310 *)
Definition chunksize (s : ms) (p : N) : N := head s p / 8 * 8.
(** h | PINUSE_BIT *)
Definition or_pin (h : N) : N := if N.odd h then h else h + 1.
(** h & ~PINUSE_BIT *)
Definition not_pin (h : N) : N := if N.odd h then h - 1 else h.
(** set_inuse_and_pinuse, malloc.c:3114-3116 (sizes are multiples of 16, so | is +) *)
Definition set_inuse_and_pinuse (s : ms) (p n : N) : ms :=
  let s := set_head s p (n + 3) in set_head s (p + n) (or_pin (head s (p + n))).
(** set_size_and_pinuse_of_inuse_chunk, malloc.c:3119-3120 *)
Definition set_inuse_chunk (s : ms) (p n : N) : ms := set_head s p (n + 3).
(** set_size_and_pinuse_of_free_chunk, malloc.c:2332-2333, set_foot 2329 *)
Definition set_free_chunk (s : ms) (p n : N) : ms :=
  let s := set_head s p (n + 1) in set_mem s (wr_ (mem s) (p + n) n).
(** set_free_with_pinuse, malloc.c:2336-2337 *)
Definition set_free_with_pinuse (s : ms) (p n nx : N) : ms := set_free_chunk (set_head s nx (not_pin (head s nx))) p n.

(** ** Bins *)
(** insert_small_chunk, malloc.c:3659-3676 *)
Definition insert_small (s : ms) (p n : N) : ms := set_sb s (small_index n) (p :: sb s (small_index n)).
(** unlink_small_chunk, malloc.c:3679-3703 *)
Definition unlink_small (s : ms) (p n : N) : outcome ms :=
  if in_dec N.eq_dec p (sb s (small_index n)) then Ok (set_sb s (small_index n) (remove N.eq_dec p (sb s (small_index n)))) else UB.
(** insert_large_chunk, malloc.c:3741-3791 *)
Definition insert_large (s : ms) (p : N) : ms := set_tb s (p :: tb s).
(** unlink_large_chunk, malloc.c:3810-3880 *)
Definition unlink_large (s : ms) (p : N) : outcome ms :=
  if in_dec N.eq_dec p (tb s) then Ok (set_tb s (remove N.eq_dec p (tb s))) else UB.
(** insert_chunk, malloc.c:3884-3886 *)
Definition insert_chunk (s : ms) (p n : N) : ms := if is_small n then insert_small s p n else insert_large s p.
(** unlink_chunk, malloc.c:3888-3890 *)
Definition unlink_chunk (s : ms) (p n : N) : outcome ms := if is_small n then unlink_small s p n else unlink_large s p.
(** replace_dv, malloc.c:3726-3736 *)
Definition replace_dv (s : ms) (p n : N) : ms :=
  let s := if dvsize s =? 0 then s else insert_small s (dv s) (dvsize s) in set_dv s p n.

(** ** System allocation *)
(** init_top, malloc.c:3996-4010 *)
Definition init_top (s : ms) (p n : N) : ms :=
  let s := set_top s p n in
  let s := set_head s p (n + 1) in
  set_trimc (set_head s (p + n) TOP_FOOT) TRIM_THRESHOLD.
(** init_user_mstate and create_mspace, malloc.c:5528-5572, of [tsize] bytes that arax_mmap returned at [b] *)
Definition create (junk : N -> N) (b tsize : N) : ms :=
  let s := mk junk [mkseg b tsize (b + 16 + SEG_OFF)] 0 0 0 0 (fun _ => []) [] b RELEASE_RATE 0 tsize (b + 16) (within b tsize) [Map b tsize] in
  let s := set_head s b (MSTATE + 3) in
  init_top s (b + MSTATE) (b + tsize - (b + MSTATE) - TOP_FOOT).

(** mmap_alloc, malloc.c:3921-3952; [mm]: what arax_mmap answers to a request for that many bytes, [None]: it aborts *)
Definition mmap_alloc (s : ms) (nb : N) (mm : N -> option N) : outcome (ms * option N) :=
  let mmsize := mmap_align ((nb + 63) mod W) in
  if nb <? mmsize then
    match mm mmsize with
    | None => Abort
    | Some b =>
        let s := mapped s b mmsize in
        let psize := mmsize - 32 in
        let s := set_mem s (wr_ (mem s) b 0) in
        let s := set_head s b psize in
        let s := set_head s (b + psize) 11 in
        let s := set_head s (b + psize + 8) 0 in
        let s := if (least s =? 0) || (b <? least s) then set_least s b else s in
        Ok (set_foot_ s (foot s + mmsize), Some (b + 16))
    end
  else Ok (s, None).
(** the trailing fence posts, malloc.c:4121-4129, [n] words from [p] *)
Fixpoint fences (m : N -> N) (p : N) (n : nat) : N -> N :=
  match n with O => m | S n => fences (wr_ m (p + 8) 11) (p + 8) n end.
(** segment_holding, malloc.c:2750-2761 *)
Definition seg_of (s : ms) (a : N) : option seg := find (fun g => within (sbase g) (ssize g) a) (segs s).
(** add_segment, malloc.c:4089-4140 (segments end at multiples of 16, so asp is 80 bytes before the end) *)
Definition add_segment (s : ms) (tbase tsize : N) : outcome ms :=
  match seg_of s (top s), segs s with
  | Some old, cur :: rest =>
      let old_top := top s in
      let old_end := sbase old + ssize old in
      let asp := old_end - 80 in
      let csp := if asp <? old_top + MIN_CHUNK then old_top else asp in
      let s := init_top s tbase (tsize - TOP_FOOT) in
      let s := set_inuse_chunk s csp SEG_SIZE in
      let s := set_segs s (mkseg tbase tsize (srec cur) :: mkseg (sbase cur) (ssize cur) (csp + 16) :: rest) in
      let s := set_mem s (fences (mem s) (csp + SEG_SIZE) (N.to_nat ((old_end - (csp + SEG_SIZE)) / 8 - 1))) in
      if csp =? old_top then Ok s
      else Ok (insert_chunk (set_free_with_pinuse s old_top (csp - old_top) csp) old_top (csp - old_top))
  | _, _ => UB
  end.
(** prepend_alloc, malloc.c:4047-4086; the result is the chunk *)
Definition prepend_alloc (s : ms) (newbase oldbase nb : N) : outcome (ms * N) :=
  let p := newbase in
  let oldfirst := oldbase in
  let q := p + nb in
  let qsize := oldfirst - p - nb in
  let s := set_inuse_chunk s p nb in
  if oldfirst =? top s then Ok (set_head (set_top s q (topsize s + qsize)) q (topsize s + qsize + 1), p)
  else if oldfirst =? dv s then Ok (set_free_chunk (set_dv s q (dvsize s + qsize)) q (dvsize s + qsize), p)
  else if is_inuse s oldfirst then Ok (insert_chunk (set_free_with_pinuse s q qsize oldfirst) q qsize, p)
  else let nsize := chunksize s oldfirst in
       do s <- unlink_chunk s oldfirst nsize;
       Ok (insert_chunk (set_free_with_pinuse s q (qsize + nsize) (oldfirst + nsize)) q (qsize + nsize), p).
(** splitting top, malloc.c:4337-4346, 5719-5729 *)
Definition split_top (s : ms) (nb : N) : ms * N :=
  let p := top s in
  let r := p + nb in
  let rsize := topsize s - nb in
  (set_inuse_chunk (set_head (set_top s r rsize) r (rsize + 1)) p nb, p).
(** the search for the segment a new one begins or ends at, malloc.c:4308-4311, 4322-4324; its position *)
Fixpoint find_seg (f : seg -> bool) (l : list seg) : option (seg * list seg * list seg) :=
  match l with
  | [] => None
  | g :: r => if f g then Some (g, [], r)
              else match find_seg f r with Some (x, a, b) => Some (x, g :: a, b) | None => None end
  end.
(** sys_alloc, malloc.c:4145-4353; the mspace is initialised and uses mmap *)
Definition sys_alloc (s : ms) (nb : N) (mm : N -> option N) : outcome (ms * option N) :=
  do r <- (if (MMAP_THRESHOLD <=? nb) && negb (topsize s =? 0) then mmap_alloc s nb mm else Ok (s, None));
  match r with
  | (s1, Some p) => Ok (s1, Some p)
  | (s1, None) =>
    let asize := granularity_align ((nb + 96) mod W) in
    if asize <=? nb then Ok (s1, None)
    else
      match mm asize with
      | None => Abort
      | Some tbase =>
          let s := mapped s1 tbase asize in
          let s := set_foot_ s (foot s + asize) in
          let finish s := if nb <? topsize s then let '(s', p) := split_top s nb in Ok (s', Some (p + 16)) else Ok (s, None) in
          match find_seg (fun g => tbase =? sbase g + ssize g) (segs s) with
          | Some (g, l1, l2) =>
              if within (sbase g) (ssize g) (top s) then
                let s := set_segs s (l1 ++ mkseg (sbase g) (ssize g + asize) (srec g) :: l2) in
                finish (init_top s (top s) (topsize s + asize))
              else
                let s := if tbase <? least s then set_least s tbase else s in
                match find_seg (fun g => sbase g =? tbase + asize) (segs s) with
                | Some (g, l1, l2) =>
                    let s := set_segs s (l1 ++ mkseg tbase (ssize g + asize) (srec g) :: l2) in
                    do x <- prepend_alloc s tbase (sbase g) nb; Ok (fst x, Some (snd x + 16))
                | None => do s <- add_segment s tbase asize; finish s
                end
          | None =>
              let s := if tbase <? least s then set_least s tbase else s in
              match find_seg (fun g => sbase g =? tbase + asize) (segs s) with
              | Some (g, l1, l2) =>
                  let s := set_segs s (l1 ++ mkseg tbase (ssize g + asize) (srec g) :: l2) in
                  do x <- prepend_alloc s tbase (sbase g) nb; Ok (fst x, Some (snd x + 16))
              | None => do s <- add_segment s tbase asize; finish s
              end
          end
      end
  end.

(** ** Allocation *)
(** the end of tmalloc_large and tmalloc_small: the chunk [v] is cut, malloc.c:4592-4606, 4632-4645; [dvp]: the rest becomes
    dv *)
Definition cut (s : ms) (v nb : N) (dvp : bool) : outcome (ms * N) :=
  let rsize := chunksize s v - nb in
  if (least s <=? v) && (v <? v + nb) then
    do s <- unlink_large s v;
    if rsize <? MIN_CHUNK then Ok (set_inuse_and_pinuse s v (rsize + nb), v)
    else let s := set_inuse_chunk s v nb in
         let s := set_free_chunk s (v + nb) rsize in
         Ok ((if dvp then replace_dv s (v + nb) rsize else insert_chunk s (v + nb) rsize), v)
  else Abort.
(** tmalloc_large, malloc.c:4543-4613; [v]: the best chunk of the trees, [None]: none is large enough.  The subtraction in
    the comparison with dvsize wraps. *)
Definition tmalloc_large (s : ms) (nb : N) (v : option N) : outcome (ms * option N) :=
  match v with
  | None => Ok (s, None)
  | Some v => if chunksize s v - nb <? (dvsize s + W - nb) mod W
              then do r <- cut s v nb false; Ok (fst r, Some (snd r))
              else Ok (s, None)
  end.
(** tmalloc_small, malloc.c:4616-4653; [v]: the smallest chunk of the trees *)
Definition tmalloc_small (s : ms) (nb : N) (v : option N) : outcome (ms * N) :=
  match v with Some v => cut s v nb true | None => UB end.
(** smallmap: the first bin that is not empty, from [i] on, of [n] bins; least_bit, malloc.c:2985 *)
Fixpoint first_bin (s : ms) (i : N) (n : nat) : option N :=
  match n with O => None | S n => match sb s i with [] => first_bin s (i + 1) n | _ => Some i end end.
(** dv, top or the system, malloc.c:5697-5733 *)
Definition from_rest (s : ms) (nb : N) (mm : N -> option N) : outcome (ms * option N) :=
  if nb <=? dvsize s then
    let rsize := dvsize s - nb in
    let p := dv s in
    if MIN_CHUNK <=? rsize then
      let s := set_dv s (p + nb) rsize in
      Ok (set_inuse_chunk (set_free_chunk s (p + nb) rsize) p nb, Some (p + 16))
    else let dvs := dvsize s in Ok (set_inuse_and_pinuse (set_dv s 0 0) p dvs, Some (p + 16))
  else if nb <? topsize s then let '(s', p) := split_top s nb in Ok (s', Some (p + 16))
  else sys_alloc s nb mm.
(** mspace_malloc, malloc.c:5639-5745; [v]: the answer of the search of the trees *)
Definition malloc (s : ms) (bytes : N) (v : option N) (mm : N -> option N) : outcome (ms * option N) :=
  if bytes <=? MAX_SMALL_REQUEST then
    let nb := if bytes <? MIN_REQUEST then MIN_CHUNK else pad_request bytes in
    let idx := small_index nb in
    match sb s idx, sb s (idx + 1) with
    | p :: r, _ => Ok (set_inuse_and_pinuse (set_sb s idx r) p (8 * idx), Some (p + 16))
    | [], p :: r => Ok (set_inuse_and_pinuse (set_sb s (idx + 1) r) p (8 * (idx + 1)), Some (p + 16))
    | [], [] =>
        if dvsize s <? nb then
          match first_bin s (idx + 1) (N.to_nat (32 - (idx + 1))) with
          | Some i =>
              match sb s i with
              | p :: r =>
                  let s := set_sb s i r in
                  let rsize := 8 * i - nb in
                  if rsize <? MIN_CHUNK then Ok (set_inuse_and_pinuse s p (8 * i), Some (p + 16))
                  else let s := set_inuse_chunk s p nb in
                       Ok (replace_dv (set_free_chunk s (p + nb) rsize) (p + nb) rsize, Some (p + 16))
              | [] => UB
              end
          | None =>
              match tb s with
              | [] => from_rest s nb mm
              | _ => do r <- tmalloc_small s nb v; Ok (fst r, Some (snd r + 16))
              end
          end
        else from_rest s nb mm
    end
  else if MAX_REQUEST <=? bytes then from_rest s (W - 1) mm
  else let nb := pad_request bytes in
       match tb s with
       | [] => from_rest s nb mm
       | _ => do r <- tmalloc_large s nb v;
              match r with (s, Some p) => Ok (s, Some (p + 16)) | (s, None) => from_rest s nb mm end
       end.

(** ** Release *)
(** the loop of release_unused_segments, malloc.c:4365-4397: the segments that stay, and how many there were *)
Fixpoint release_loop (s : ms) (l : list seg) : outcome (ms * list seg * N) :=
  match l with
  | [] => Ok (s, [], 0)
  | g :: r =>
      let p := sbase g in
      let psize := chunksize s p in
      if negb (is_inuse s p) && (sbase g + ssize g - TOP_FOOT <=? p + psize) then
        do s <- (if p =? dv s then Ok (set_dv s 0 0) else unlink_large s p);
        let s := unmapped s (sbase g) (ssize g) in
        let s := set_foot_ s (foot s - ssize g) in
        do x <- release_loop s r;
        let '(s, l', n) := x in Ok (s, l', n + 1)
      else do x <- release_loop s r;
           let '(s, l', n) := x in Ok (s, g :: l', n + 1)
  end.
(** release_unused_segments, malloc.c:4358-4403; the result is what was released *)
Definition release_unused (s : ms) : outcome (ms * N) :=
  match segs s with
  | [] => UB
  | g :: r => do x <- release_loop s r;
              let '(s', l', n) := x in
              Ok (set_rchk (set_segs s' (g :: l')) (if RELEASE_RATE <? n then n else RELEASE_RATE), foot s - foot s')
  end.
(** has_segment_link, malloc.c:2764-2775 *)
Definition has_link (s : ms) (g : seg) : bool := existsb (fun h => within (sbase g) (ssize g) (srec h)) (segs s).
(** sys_trim with pad 0, malloc.c:4405-4471.  [mr]: mremap succeeds (Linux; HAVE_MREMAP, malloc.c:648-655): the pages are
    taken out of the address space of this process, but the page allocator is not told. *)
Definition sys_trim (s : ms) (mr : bool) : outcome ms :=
  do x <- (if TOP_FOOT <? topsize s then
             let extra := ((topsize s - TOP_FOOT + (GRAN - 1)) / GRAN - 1) * GRAN in
             match seg_of s (top s) with
             | None => UB
             | Some g =>
                 if (extra <=? ssize g) && negb (has_link s g) && negb (extra =? 0) then
                   let newsize := ssize g - extra in
                   let s := if mr then s else unmapped s (sbase g + newsize) extra in
                   let s := set_segs s (map (fun h => if within (sbase h) (ssize h) (top s) then mkseg (sbase h) (ssize h - extra) (srec h) else h) (segs s)) in
                   let s := set_foot_ s (foot s - extra) in
                   Ok (init_top s (top s) (topsize s - extra), extra)
                 else Ok (s, 0)
             end
           else Ok (s, 0));
  do y <- release_unused (fst x);
  let s := fst y in
  Ok (if (snd x + snd y =? 0) && (trimc s <? topsize s) then set_trimc s (W - 1) else s).
(** the end of mspace_free: the chunk goes to a bin, malloc.c:5818-5829 *)
Definition bin_it (s : ms) (p psize : N) : outcome ms :=
  if is_small psize then Ok (insert_small s p psize)
  else let s := insert_large s p in
       let s := set_rchk s (rchk s - 1) in
       if rchk s =? 0 then do x <- release_unused s; Ok (fst x) else Ok s.
(** consolidation with the next chunk, malloc.c:5784-5830 *)
Definition free_fwd (s : ms) (p psize next : N) (mr : bool) : outcome ms :=
  if (p <? next) && pinuse s next then
    if negb (cinuse s next) then
      if next =? top s then
        let tsize := topsize s + psize in
        let s := set_head (set_top s p tsize) p (tsize + 1) in
        let s := if p =? dv s then set_dv s 0 0 else s in
        if trimc s <? tsize then sys_trim s mr else Ok s
      else if next =? dv s then
        let dsize := dvsize s + psize in Ok (set_free_chunk (set_dv s p dsize) p dsize)
      else
        let nsize := chunksize s next in
        let psize := psize + nsize in
        do s <- unlink_chunk s next nsize;
        let s := set_free_chunk s p psize in
        if p =? dv s then Ok (set_dv s p psize) else bin_it s p psize
    else bin_it (set_free_with_pinuse s p psize next) p psize
  else Abort.
(** mspace_free, malloc.c:5747-5842, of the chunk [p] *)
Definition free (s : ms) (p : N) (mr : bool) : outcome ms :=
  if (least s <=? p) && is_inuse s p then
    let psize := chunksize s p in
    let next := p + psize in
    if pinuse s p then free_fwd s p psize next mr
    else
      let prevsize := prev_foot s p in
      if is_mmapped s p then
        let n := psize + prevsize + 32 in
        let s := unmapped s (p - prevsize) n in Ok (set_foot_ s (foot s - n))
      else
        let prev := p - prevsize in
        if least s <=? prev then
          if negb (prev =? dv s) then
            do s <- unlink_chunk s prev prevsize; free_fwd s prev (psize + prevsize) next mr
          else if head s next mod 4 =? 3 then
            Ok (set_free_with_pinuse (set_dv s (dv s) (psize + prevsize)) prev (psize + prevsize) next)
          else free_fwd s prev (psize + prevsize) next mr
        else Abort
  else Abort.
(** mspace_free of an address a caller holds; free(0) does nothing *)
Definition mspace_free (s : ms) (a : N) (mr : bool) : outcome ms := if a =? 0 then Ok s else free s (a - 16) mr.
(** destroy_mspace, malloc.c:5610-5632 *)
Definition destroy (s : ms) : ms := fold_left (fun s g => unmapped s (sbase g) (ssize g)) (segs s) s.
