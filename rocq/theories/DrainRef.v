(** The destructive iterator of a tree with references (src/tree/drain.rs, src/tree/slice_ref.rs). *)
From Coq Require Import List Bool.
From Verif Require Import Base RefState.
Import ListNotations.

(** Dropping a `Drain` (src/tree/drain.rs 21-30; it has no `Drop` implementation) drops its `Root`, which it took out of
    the tree (36-48), and so the `SliceRefStore` in it (src/tree/mod.rs 162-169) without the `try_acquire_drop` of
    `destruct_root`.  [w] is the state with the tree at rest; nothing but the store changes, so the owner's side of
    [w] is kept. *)
Definition drain_drop_refs (w : world) : outcome * world := store_drop w.

(** Calls of the owner of the tree: these are not possible once the root is in a `Drain`. *)
Definition owner_call (o : call) : bool :=
  match o with NInsBegin | NIns _ | NInsEnd | NInsPanic | NDropBegin | NDropEnd | NMake _ => true | _ => false end.
