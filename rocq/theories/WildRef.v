(** Histories with references in which the user's code differs from call to call. *)
From Coq Require Import List ZArith Bool Arith.
From Verif Require Import Base Index Slice Tree Insert Hist Order LTree LInsert LRef WildCalls.
Import ListNotations.

(** `insert_with_cursor` (src/tree/mod.rs 695-701) and `get_with_cursor(..).make_ref()` (mod.rs 398-448,
    src/tree/entry.rs 148-152), each with what the operations of `I` and `S` do during it.  `insert_ref` is not
    among the calls: its handle may be wrong also with lawful index types, see [C27_insert_ref_refuted]. *)
Inductive ref_call {I V : Type} : Type :=
| RIns (c : @ins_call I V)
| RRef (X : index_ops I) (hints : list nat) (idx : I).
Definition ref_ops {I V : Type} (c : @ref_call I V) : index_ops I := match c with RIns c => ic_x c | RRef X _ _ => X end.

Definition do_ref_call {I V : Type} (M : nat) (nop : bool) (t : @rtree I V) (c : @ref_call I V) : res (@rtree I V) :=
  match c with
  | RIns c =>
    let o := ic_op c in
    let* (p, hp, _, _) := p_insert (ic_x c) (ic_y c) M nop (rt_tree t) (rt_heap t) (o_hints o) (o_idx o) (o_slice o) (o_size o) in
    Ok {| rt_tree := p; rt_heap := hp; rt_refs := rt_refs t |}
  | RRef X hints idx =>
    let* _ := get_with_cursor X (pt_rle (rt_tree t)) hints idx in (* may panic where [get_handle] does not *)
    let* l := get_handle X (rt_tree t) hints idx in add_ref t l
  end.

(** The calls one after the other; the history ends at the first panic. *)
Fixpoint run_refs {I V : Type} (M : nat) (nop : bool) (t : @rtree I V) (cs : list (@ref_call I V)) : res (@rtree I V) :=
  match cs with
  | [] => Ok t
  | c :: cs' => let* t' := do_ref_call M nop t c in run_refs M nop t' cs'
  end.

(** The reference [r] belongs to slice number [j] of the tree: the slot of the store holds a place, and following
    the stored parents up from there (`cursor_to_handle`, src/tree/entry.rs 106-125) gives the path of the [j]-th
    key. *)
Definition ref_at {I V : Type} (t : @rtree I V) (r : rid) (j : nat) : Prop :=
  exists root a k p, pt_rle (rt_tree t) = Some root /\ nth_error (hp_store (rt_heap t)) r = Some (Some (a, k)) /\
    handle_cursor false (rt_tree t) (a, k) = Ok p /\ nth_error (handles (r_node root) []) j = Some (p, k).
