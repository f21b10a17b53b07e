(** Heap model of the intrusive doubly linked lists, src/utils/list.c and list.h.
    Nodes are addresses ([nat]); a list is the address of its head node.
    Any address may be dereferenced: the property is about histories that respect ownership. *)
From Verif Require Import Base.

(** struct utils_list_node {next, prev, owner}; [ln] is utils_list_s.length of the list at that address *)
(** src/utils/list.h:10-20. *)
Record lheap := mklh { nx : nat -> nat; pv : nat -> nat; ow : nat -> nat; ln : nat -> nat }.

(** node->next = v, src/utils/list.h:10-20. *)
Definition set_nx h a v := mklh (fupd (nx h) a v) (pv h) (ow h) (ln h).
(** node->prev = v, src/utils/list.h:10-20. *)
Definition set_pv h a v := mklh (nx h) (fupd (pv h) a v) (ow h) (ln h).
(** node->owner = v, src/utils/list.h:10-20. *)
Definition set_ow h a v := mklh (nx h) (pv h) (fupd (ow h) a v) (ln h).
(** list->length = v, src/utils/list.h:16-20. *)
Definition set_ln h a v := mklh (nx h) (pv h) (ow h) (fupd (ln h) a v).

(** utils_list_node_init, list.c:74-79 *)
Definition list_node_init (h : lheap) (n owner : nat) : lheap :=
  set_ow (set_pv (set_nx h n n) n n) n owner.
(** utils_list_init, list.c:3-10 *)
Definition list_init (h : lheap) (l : nat) : lheap := list_node_init (set_ln h l 0) l l.
(** utils_list_node_add, list.c:12-18 *)
Definition list_node_add (h : lheap) (hd n : nat) : lheap :=
  let h1 := set_pv h (nx h hd) n in
  let h2 := set_nx h1 n (nx h1 hd) in
  let h3 := set_pv h2 n hd in
  set_nx h3 hd n.
(** utils_list_add, list.c:20-24 *)
Definition list_add (h : lheap) (l n : nat) : lheap :=
  let h1 := list_node_add h l n in set_ln h1 l (ln h1 l + 1).
(** utils_list_del, list.c:26-34 *)
Definition list_del (h : lheap) (l n : nat) : lheap :=
  let h1 := set_pv h (nx h n) (pv h n) in
  let h2 := set_nx h1 (pv h1 n) (nx h1 n) in
  let h3 := set_ln h2 l (ln h2 l - 1) in
  let h4 := set_nx h3 n n in
  set_pv h4 n n.
(** utils_list_pop_head / pop_tail, list.c:36-56 *)
Definition list_pop_head (h : lheap) (l : nat) : lheap * option nat :=
  if Nat.eqb (ln h l) 0 then (h, None) else (list_del h l (nx h l), Some (nx h l)).
Definition list_pop_tail (h : lheap) (l : nat) : lheap * option nat :=
  if Nat.eqb (ln h l) 0 then (h, None) else (list_del h l (pv h l), Some (pv h l)).
(** utils_list_for_each, list.h:97-98: the nodes visited, [fuel] bounds the number of iterations
    ([None]: still running after [fuel] iterations) *)
Fixpoint walk (nxt : nat -> nat) (stop cur fuel : nat) : option (list nat) :=
  if Nat.eqb cur stop then Some []
  else match fuel with
       | O => None
       | S f => match walk nxt stop (nxt cur) f with Some r => Some (cur :: r) | None => None end
       end.
Definition for_each (h : lheap) (l fuel : nat) := walk (nx h) l (nx h l) fuel.
Definition for_each_reverse (h : lheap) (l fuel : nat) := walk (pv h) l (pv h l) fuel.
(** utils_list_to_array, list.c:58-72 with a non-NULL array: stored owners and returned count *)
Definition list_to_array (h : lheap) (l fuel : nat) : option (list nat * nat) :=
  if Nat.eqb (ln h l) 0 then Some ([], ln h l)
  else match for_each h l fuel with Some r => Some (map (ow h) r, ln h l) | None => None end.
(** utils_list_node_linked, list.c:81-84 *)
Definition list_node_linked (h : lheap) (n : nat) : bool := negb (Nat.eqb (nx h n) n).

(** utils_list_for_each_safe (list.h:107-108) whose body deletes the current node when [p] holds *)
Fixpoint walk_del (p : nat -> bool) (h : lheap) (l cur fuel : nat) : option lheap :=
  if Nat.eqb cur l then Some h
  else match fuel with
       | O => None
       | S f => let tmp := nx h cur in
                walk_del p (if p cur then list_del h l cur else h) l tmp f
       end.
