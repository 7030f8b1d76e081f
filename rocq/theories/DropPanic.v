(** The destructor of a tree whose slices may panic when they are dropped (src/tree/node.rs 1846-1953). *)
From Coq Require Import List Bool Arith.
From Verif Require Import Base Index Tree LTree LInsert LRef.
Import ListNotations.

(** How a destructor ends: it returns; it unwinds; the program is aborted, since a second destructor panicked while the
    first panic was unwinding. *)
Inductive dend : Type := DReturned | DUnwound | DAborted.

Section DropPanic.
  (** Which slices panic when they are dropped. *)
  Context {I S : Type} (bad : S -> bool).

  (** `ptr::drop_in_place` on a slice (`drop_vals`, node.rs 1946-1951): the elements in order; those after one that panics are dropped
      too, while unwinding.  An element whose destructor panics counts as dropped. *)
  Fixpoint drop_in_place (unwinding : bool) (vs : list S) : list S * dend :=
    match vs with
    | [] => ([], if unwinding then DUnwound else DReturned)
    | v :: vs' =>
      if bad v && unwinding then ([v], DAborted)
      else let (l, e) := drop_in_place (unwinding || bad v) vs' in (v :: l, e)
    end.

  (** `do_drop` (node.rs 1846-1937) with unit counts and no holes.  Unwinding leaves the function at once: the handle has no
      destructor, so the node is not freed and its children are not looked at; neither are the nodes that the callers
      have still to do. *)
  Fixpoint pdo_drop (h : nat) (t : tree I S) (lt : ltree) : list (@dev S) * dend :=
    match lt with
    | LNil => ([], DReturned)
    | LNode a _ _ ks =>
      let (vs, e) := drop_in_place false (map e_slice (keys t)) in
      match e with
      | DReturned =>
        let (r, e') :=
          match h with
          | 0 => ([], DReturned)
          | Datatypes.S h' =>
            (fix go ks cs :=
               match ks, cs with
               | k :: ks', c :: cs' =>
                 let (x, e1) := pdo_drop h' c k in
                 match e1 with
                 | DReturned => let (y, e2) := go ks' cs' in (x ++ y, e2)
                 | _ => (x, e1)
                 end
               | _, _ => ([], DReturned)
               end) ks (kids_of t)
          end in
        (map DSlice vs ++ DFree a :: r, e')
      | _ => (map DSlice vs, e)
      end
    end.

  (** `destruct_root` (src/tree/mod.rs 275-294): nothing catches the panic. *)
  Definition pp_drop (t : ptree I S) : list (@dev S) * dend :=
    match pt_rle t with None => ([], DReturned) | Some r => pdo_drop (r_height r) (r_node r) (pt_nodes t) end.
End DropPanic.
