(** Sequential model of the bounded queue, src/utils/queue.c.  [cap] is UTILS_QUEUE_CAPACITY.
    Pointers are numbers, 0 is NULL. *)
From Verif Require Import Base.
Local Open Scope N_scope.

(** uint16_t indices, src/utils/queue.h:15-28. *)
Definition U16 : N := 65536.                       (* UINT16_MAX + 1 *)

(** struct queue, queue.h:15-29 *)
Record queue := mkq { q_entries : list N; q_bottom : N; q_top : N }.

(** utils_queue_init, queue.c:38-49 *)
Definition queue_init (cap : N) : outcome queue :=
  do _ <- assert_ (N.land cap (cap - 1) =? 0);
  Ok (mkq (repeat 0 (N.to_nat cap)) 0 0).

(** bottom - top computed in int, corrected by UINT16_MAX+1 when negative, queue.c:51-61 *)
Definition used_diff (b t : N) : N :=
  if b <? t then U16 + b - t else b - t.
Definition queue_used_slots (q : queue) : N := used_diff (q_bottom q) (q_top q).

(** utils_queue_pop, queue.c:63-87 (run alone: the compare-and-swap succeeds) *)
Definition queue_pop (cap : N) (q : queue) : outcome (queue * N) :=
  let t := q_top q in
  let b := q_bottom q in
  if b =? t then Ok (q, 0)
  else
    do v <- rd (q_entries q) (N.to_nat (N.land t (cap - 1)));
    Ok (mkq (q_entries q) b ((t + 1) mod U16), v).

(** utils_queue_push, queue.c:89-124 *)
Definition queue_push (cap : N) (q : queue) (data : N) : outcome (queue * N) :=
  do _ <- assert_ (negb (data =? 0));
  let b := q_bottom q in
  let t := q_top q in
  if used_diff b t =? cap then Ok (q, 0)
  else
    do e <- wr (q_entries q) (N.to_nat (N.land b (cap - 1))) data;
    Ok (mkq e ((b + 1) mod U16) t, data).

(** utils_queue_peek, queue.c:126-142 *)
Definition queue_peek (cap : N) (q : queue) : outcome N :=
  let t := q_top q in
  let b := q_bottom q in
  if b =? t then Ok 0 else rd (q_entries q) (N.to_nat (N.land t (cap - 1))).

(** Client histories *)
(** Calls of src/utils/queue.c:51-142. *)
Inductive qop := QPush (v : N) | QPop | QPeek | QUsed.
(** One call of src/utils/queue.c:51-142. *)
Definition qstep (cap : N) (q : queue) (op : qop) : outcome (queue * N) :=
  match op with
  | QPush v => queue_push cap q v
  | QPop => queue_pop cap q
  | QPeek => do v <- queue_peek cap q; Ok (q, v)
  | QUsed => Ok (q, queue_used_slots q)
  end.
(** A history of calls, no code of its own. *)
Fixpoint qrun (cap : N) (q : queue) (ops : list qop) : outcome (queue * list N) :=
  match ops with
  | [] => Ok (q, [])
  | op :: rest =>
    do r <- qstep cap q op;
    do r2 <- qrun cap (fst r) rest;
    Ok (fst r2, snd r :: snd r2)
  end.
