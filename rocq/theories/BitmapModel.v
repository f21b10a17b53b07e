(** Model of the page bitmap allocator, src/utils/bitmap.c. *)
From Verif Require Import Base.
Local Open Scope N_scope.

(** 64-bit words (uint64_t / size_t). *)
(** Bits of a chunk, src/utils/bitmap.h:6-14. *)
Definition W : N := 64.
(** uint64_t / size_t, src/utils/bitmap.h:6-14. *)
Definition two64 : N := 2 ^ 64.
(** src/utils/bitmap.h:18. *)
Definition all_ones : N := N.ones 64.              (* BITMAP_NOT_FOUND, bitmap.h: ((size_t)-1) *)
(** [x << n] on uint64_t; a shift by >= 64 is undefined behaviour in C. *)
(** Used in src/utils/bitmap.c:61-135. *)
Definition shl (x n : N) : outcome N :=
  if n <? 64 then Ok (N.land (N.shiftl x n) all_ones) else UB.
(** [((uint64_t)-1) >> n] *)
(** Used in src/utils/bitmap.c:76-135. *)
Definition shr_ones (n : N) : outcome N :=
  if n <? 64 then Ok (N.shiftr all_ones n) else UB.
(** size_t subtraction (wraps). *)
(** size_t arithmetic of src/utils/bitmap.c:25-307. *)
Definition sub64 (a b : N) : N := (a + two64 - b mod two64) mod two64.
(** size_t arithmetic of src/utils/bitmap.c:25-307. *)
Definition add64 (a b : N) : N := (a + b) mod two64.
(** bitwise not on 64 bits *)
(** Operator ~ in src/utils/bitmap.c:137-307. *)
Definition not64 (x : N) : N := N.lxor x all_ones.

(** __builtin_popcountl *)
(** Compiler builtin used in src/utils/bitmap.c:137-307. *)
Fixpoint popcount_upto (x : N) (k : nat) : N :=
  match k with
  | O => 0
  | S k' => popcount_upto x k' + (if N.testbit x (N.of_nat k') then 1 else 0)
  end.
(** Compiler builtin used in src/utils/bitmap.c:137-307. *)
Definition popcount (x : N) : N := popcount_upto x 64.
(** __builtin_clzl, argument non-zero *)
(** Compiler builtin used in src/utils/bitmap.c:76-205. *)
Definition clz (x : N) : N := 64 - N.size x.

(** struct utils_bitmap (bitmap.h); the pointers free_p/end are chunk indices,
    [end = length chunks].  The lock is not modelled here: every public function runs
    entirely inside it, so calls are one step here ([BitmapConc] has them step by step, from many threads, C69). *)
(** src/utils/bitmap.h:6-14. *)
Record bmp := mkbmp {
  chunks : list N;      (* bits[]    *)
  free_p : nat;         (* free_p    *)
  used   : N;           (* used_bits *)
  bsize  : N            (* size_bits *)
}.

(** Field update of src/utils/bitmap.h:6-14. *)
Definition set_chunks b c := mkbmp c (free_p b) (used b) (bsize b).
(** Field update of src/utils/bitmap.h:6-14. *)
Definition set_used b u := mkbmp (chunks b) (free_p b) u (bsize b).
(** Field update of src/utils/bitmap.h:6-14. *)
Definition set_free_p b p := mkbmp (chunks b) p (used b) (bsize b).

(** utils_bitmap_init, bitmap.c:25-41 *)
Definition bitmap_init (size_bits : N) : bmp :=
  mkbmp (repeat 0 (N.to_nat ((size_bits + 63) / 64))) 0 0 size_bits.

(** utils_bitmap_size / used / free, bitmap.c:43-56 *)
Definition bitmap_size (b : bmp) : N := bsize b.
Definition bitmap_used (b : bmp) : N := used b.
Definition bitmap_free (b : bmp) : N := sub64 (bsize b) (used b).

(** find_end_small, bitmap.c:61-74; [Some c'] is the updated chunk, [None] "already allocated" *)
Definition find_end_small (bits : N) (chunk : N) : outcome (option N) :=
  do mask <- (if bits =? 64 then Ok all_ones
              else do s <- shl 1 bits; Ok (sub64 s 1));
  if N.land mask chunk =? 0 then Ok (Some (N.lor chunk mask)) else Ok None.

(** The sliding search bitmap.c:103-108, [fuel] iterations left. *)
Fixpoint slide (usable mask : N) (shift : N) (fuel : nat) : option (N * N) :=
  match fuel with
  | O => None
  | S f =>
    if N.land mask usable =? 0 then Some (shift, mask)
    else slide usable (N.land (N.shiftl mask 1) all_ones) (shift + 1) f
  end.

(** find_start_small, bitmap.c:76-135 *)
Definition find_start_small (b : bmp) (bits : N) (ci : nat) : outcome (option (bmp * N)) :=
  let cs := chunks b in
  do chunk <- rd cs ci;
  let last := Nat.eqb (ci + 1) (length cs) in
  do usable <-
    (if last then
       let shift := bsize b mod 64 in
       if shift =? 0 then Ok chunk
       else do m <- shl all_ones shift; Ok (N.lor chunk m)
     else Ok chunk);
  if usable =? 0 then                                     (* completely empty, 86-93 *)
    do v <- (if bits =? 64 then Ok all_ones else do s <- shl 1 bits; Ok (sub64 s 1));
    do cs' <- wr cs ci v;
    Ok (Some (mkbmp cs' (free_p b) (add64 (used b) bits) (bsize b), N.of_nat ci * 64))
  else if chunk =? all_ones then Ok None                  (* completely full, 95-96 *)
  else
    let free_bits := 64 - popcount usable in
    if bits <=? free_bits then                            (* 100-117 *)
      do m0 <- (do s <- shl 1 bits; Ok (sub64 s 1));
      match slide usable m0 0 (N.to_nat (64 - bits) + 1) with
      | None => Ok None
      | Some (shift, mask) =>
        do cs' <- wr cs ci (N.lor chunk mask);
        Ok (Some (mkbmp cs' (free_p b) (add64 (used b) bits) (bsize b), N.of_nat ci * 64 + shift))
      end
    else                                                  (* 118-133 *)
      let free_end := if chunk =? 0 then 64 else clz chunk in
      if free_end =? 0 then Ok None
      else if last then Ok None
      else
        let remainder := bits - free_end in
        do nxt <- rd cs (ci + 1);
        do r <- find_end_small remainder nxt;
        match r with
        | None => Ok None
        | Some nxt' =>
          do cs1 <- wr cs (ci + 1) nxt';
          do m <- shl all_ones (64 - free_end);
          do cs2 <- wr cs1 ci (N.lor chunk m);
          Ok (Some (mkbmp cs2 (free_p b) (add64 (used b) bits) (bsize b),
                    N.of_nat ci * 64 + (64 - free_end)))
        end.

(** memset(base + from, v, 8 * cnt) on a chunk array; out of range is UB. *)
(** C library memset, used in src/utils/bitmap.c:137-307. *)
Definition fill (cs : list N) (from cnt : nat) (v : N) : outcome (list N) :=
  if (from + cnt <=? length cs)%nat
  then Ok (firstn from cs ++ repeat v cnt ++ skipn (from + cnt) cs)
  else UB.

(** The scan loop bitmap.c:180-187 over chunks [from .. from+cnt). *)
Fixpoint all_zero (cs : list N) (from cnt : nat) : outcome bool :=
  match cnt with
  | O => Ok true
  | S n => do c <- rd cs from; if c =? 0 then all_zero cs (S from) n else Ok false
  end.

(** find_start_big, bitmap.c:137-205 *)
Definition find_start_big (b : bmp) (bits : N) (ci : nat) : outcome (option (bmp * N)) :=
  let cs := chunks b in
  do chunk <- rd cs ci;
  if chunk =? all_ones then Ok None
  else
    do trip <-
      (if chunk =? 0 then Ok (all_ones, bits - 64, 0)
       else
         let fe := clz chunk in
         do fm <- (if fe =? 0 then Ok 0 else shl all_ones (64 - fe));
         Ok (fm, bits - fe, 64 - fe));
    let '(first_mask, remainder, free_end) := trip in
    if first_mask =? 0 then Ok None
    else if Nat.eqb (ci + 1) (length cs) then Ok None
    else if remainder <? 65 then
      do nxt <- rd cs (ci + 1);
      do r <- find_end_small remainder nxt;
      match r with
      | None => Ok None
      | Some nxt' =>
        do cs1 <- wr cs (ci + 1) nxt';
        do cs2 <- wr cs1 ci (N.lor chunk first_mask);
        Ok (Some (mkbmp cs2 (free_p b) (add64 (used b) bits) (bsize b),
                  N.of_nat ci * 64 + free_end))
      end
    else
      let span := remainder / 64 in
      let last_rem := N.land remainder 63 in
      let lr1 := if last_rem =? 0 then 0 else 1 in
      do lm <- (do s <- shl lr1 last_rem; Ok (sub64 s 1));
      if N.of_nat (length cs) <=? N.of_nat ci + span + lr1 then Ok None
      else
        do z <- all_zero cs (ci + 1) (N.to_nat span);
        if negb z then Ok None
        else
          do lst <-
            (if last_rem =? 0 then Ok (Some cs)
             else
               do c <- rd cs (ci + 1 + N.to_nat span);
               if N.land c lm =? 0
               then do cs' <- wr cs (ci + 1 + N.to_nat span) (N.lor c lm); Ok (Some cs')
               else Ok None);
          match lst with
          | None => Ok None
          | Some cs1 =>
            do cs2 <- fill cs1 (ci + 1) (N.to_nat span) all_ones;
            do cs3 <- wr cs2 ci (N.lor chunk first_mask);
            Ok (Some (mkbmp cs3 (free_p b) (add64 (used b) bits) (bsize b),
                      N.of_nat ci * 64 + free_end))
          end.

(** find_start, bitmap.c:207-215 *)
Definition find_start (b : bmp) (bits : N) (ci : nat) : outcome (option (bmp * N)) :=
  if bits <? 65 then find_start_small b bits ci else find_start_big b bits ci.

(** The two for-loops of utils_bitmap_alloc_bits, bitmap.c:231-241, over a list of chunk indices. *)
Fixpoint scan (b : bmp) (bits : N) (idx : list nat) : outcome (option (bmp * N)) :=
  match idx with
  | [] => Ok None
  | ci :: rest =>
    do r <- find_start b bits ci;
    match r with
    | Some x => Ok (Some x)
    | None => scan b bits rest
    end
  end.

(** utils_bitmap_alloc_bits, bitmap.c:217-253.  [None] is BITMAP_NOT_FOUND. *)
Definition alloc_bits (b : bmp) (bits : N) : outcome (bmp * option N) :=
  let b0 := if Nat.eqb (free_p b) (length (chunks b)) then set_free_p b 0 else b in
  if bitmap_free b0 <? bits then Ok (b0, None)
  else
    do r <- scan b0 bits (seq (free_p b0) (length (chunks b0) - free_p b0)
                          ++ seq 0 (free_p b0));
    match r with
    | Some (b1, found) => Ok (set_free_p b1 (N.to_nat (found / 64)), Some found)
    | None => Ok (b0, None)
    end.

(** Array access with a size_t index (guarded so that huge wrapped indices are UB). *)
(** bits[i], src/utils/bitmap.c:137-307. *)
Definition rdN (cs : list N) (i : N) : outcome N :=
  if i <? N.of_nat (length cs) then rd cs (N.to_nat i) else UB.
(** bits[i] = v, src/utils/bitmap.c:137-307. *)
Definition wrN (cs : list N) (i : N) (v : N) : outcome (list N) :=
  if i <? N.of_nat (length cs) then wr cs (N.to_nat i) v else UB.

(** utils_bitmap_free_bits, bitmap.c:255-296 *)
Definition free_bits (b : bmp) (start bits : N) : outcome bmp :=
  let cs := chunks b in
  if bits =? 1 then
    let k := start / 64 in
    do c <- rdN cs k;
    do m <- shl 1 (N.land start 63);
    do cs' <- wrN cs k (N.land c (not64 m));
    Ok (mkbmp cs' (free_p b) (sub64 (used b) 1) (bsize b))
  else
    let e := add64 start bits in
    let sc := start / 64 in
    let ec := sub64 e 1 / 64 in
    let s := N.land start 63 in
    let e' := N.land e 63 in
    if sc =? ec then
      do mask <- (if bits =? 64 then Ok all_ones
                  else do m1 <- shl 1 bits; shl (sub64 m1 1) s);
      do c <- rdN cs sc;
      do _ <- assert_ (N.land c mask =? mask);
      do cs' <- wrN cs sc (N.land c (not64 mask));
      Ok (mkbmp cs' (free_p b) (sub64 (used b) bits) (bsize b))
    else
      let span := sub64 (sub64 ec sc) 1 in
      do sm <- shl all_ones s;
      do em <- (if e' =? 0 then Ok all_ones else shr_ones (64 - e'));
      do c1 <- rdN cs sc;
      do _ <- assert_ (N.land c1 sm =? sm);
      do c2 <- rdN cs ec;
      do _ <- assert_ (N.land c2 em =? em);
      do cs1 <- wrN cs sc (N.land c1 (not64 sm));
      do c2' <- rdN cs1 ec;
      do cs2 <- wrN cs1 ec (N.land c2' (not64 em));
      do cs3 <- (if span =? 0 then Ok cs2
                 else if N.of_nat (length cs) <? span then UB   (* memset past the end *)
                 else fill cs2 (N.to_nat sc + 1) (N.to_nat span) 0);
      Ok (mkbmp cs3 (free_p b) (sub64 (used b) bits) (bsize b)).

(** utils_bitmap_count_allocated, bitmap.c:298-307 *)
Definition count_allocated (b : bmp) : N :=
  fold_right (fun c acc => popcount c + acc) 0 (chunks b).
