(** Model of the page part of src/alloc/dlmalloc/alloc.c: where the allocator metadata, its page
    bitmap and the pages themselves are placed, and arax_mmap / arax_ummap.
    The dlmalloc "mspace" used by arch_alloc_allocate is in DlModel, both together in DlPages. *)
From Verif Require Import Base BitmapModel.
Local Open Scope N_scope.

(** struct arch_alloc_inner_s, alloc.c:12-18: [a_start] is field start, [a_bmp] is field bmp,
    [a_bits] the address of the flexible array bmp.bits[], which begins right after the structure. *)
Record palloc := mkpalloc { a_start : N; a_bits : N; a_bmp : bmp }.

Definition BLOCK : N := 4096.                          (* BIT_ALLOCATOR_BLOCK, alloc.c:20 *)
Definition BITS_PER_PAGE : N := 32768.                 (* alloc.c:22 *)

(** arch_alloc_init_once, alloc.c:27-55.  [addr] is the address of the structure, [hdr] its
    sizeof, [size] the argument.  All arithmetic is size_t (mod 2^64). *)
Definition alloc_init_once (addr hdr size : N) : palloc :=
  let usable_area := add64 addr hdr in
  let aligned_start := add64 usable_area 4095 / 4096 * 4096 in       (* & ~MASK *)
  let aligned_size := sub64 size (sub64 aligned_start addr) in
  let aligned_pages := aligned_size / BLOCK in
  let bitmap_pages := (aligned_pages + (BITS_PER_PAGE - 1)) / BITS_PER_PAGE in
  let aligned_start := add64 aligned_start (BLOCK * bitmap_pages) in
  let aligned_pages := sub64 aligned_pages bitmap_pages in
  mkpalloc aligned_start usable_area (bitmap_init aligned_pages).

(** arax_mmap, alloc.c:143-152 *)
Definition arax_mmap (a : palloc) (s : N) : outcome (palloc * N) :=
  do _ <- assert_ (s mod 4096 =? 0);
  do r <- alloc_bits (a_bmp a) (s / BLOCK);
  match snd r with
  | None => Abort
  | Some off => Ok (mkpalloc (a_start a) (a_bits a) (fst r), add64 (a_start a) (off * BLOCK))
  end.

(** arax_ummap, alloc.c:154-161 *)
Definition arax_ummap (a : palloc) (p s : N) : outcome palloc :=
  do b <- free_bits (a_bmp a) (sub64 p (a_start a) / BLOCK) (s / BLOCK);
  Ok (mkpalloc (a_start a) (a_bits a) b).

(** Client histories: map [s] bytes / unmap the k-th mapping owned. *)
(** A client: src/alloc/dlmalloc/alloc.c:143-161, arax_mmap and arax_ummap. *)
Inductive mop := MMap (s : N) | MUnmap (k : nat).
(** Bookkeeping of the client, no code. *)
Fixpoint drop_nth {A} (k : nat) (l : list A) : list A :=
  match l, k with
  | [], _ => []
  | _ :: t, O => t
  | h :: t, S j => h :: drop_nth j t
  end.
(** One call of arax_mmap / arax_ummap, src/alloc/dlmalloc/alloc.c:143-161. *)
Definition mstep (st : palloc * list (N * N)) (op : mop) : outcome (palloc * list (N * N)) :=
  let '(a, live) := st in
  match op with
  | MMap s => do r <- arax_mmap a s; Ok (fst r, live ++ [(snd r, s)])
  | MUnmap k =>
    match nth_error live k with
    | None => Ok (a, live)
    | Some (p, s) => do a' <- arax_ummap a p s; Ok (a', drop_nth k live)
    end
  end.
(** A history of calls, no code of its own. *)
Fixpoint mrun (st : palloc * list (N * N)) (ops : list mop) : outcome (palloc * list (N * N)) :=
  match ops with
  | [] => Ok st
  | op :: rest => do st' <- mstep st op; mrun st' rest
  end.
