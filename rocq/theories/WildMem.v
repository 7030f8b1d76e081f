(** Several trees without features in one memory, where the user's code differs from call to call. *)
From Coq Require Import List ZArith Bool Arith.
From Verif Require Import Base Index Slice Tree Insert Hist LTree LInsert LRef Wild WildCalls.
Import ListNotations.

(** `RleTree::new_empty` (src/tree/mod.rs 324-328), `insert_with_cursor` (695-701) with what the operations of `I`
    and `S` do during it, `clone` (765-782) and the destructor (275-294).  Clones of slices are equal to the
    originals, as in [l_clone] (LRef.v). *)
Inductive mem_op {I V : Type} : Type :=
| ANew
| AIns (j : nat) (c : @ins_call I V)
| AClone (j : nat)
| ADrop (j : nat).

(** As [m_call] in LRef.v: a call on a tree that was never made or that is gone does nothing. *)
Definition do_mem_op {I V : Type} (M : nat) (nop : bool) (m : @mem I V) (c : @mem_op I V) : res (@mem I V) :=
  match c with
  | ANew =>
    Ok {| m_trees := m_trees m ++ [Some p_empty]; m_next := m_next m; m_freed := m_freed m; m_dropped := m_dropped m; m_writes := [] |}
  | AIns j c =>
    match nth_error (m_trees m) j with
    | Some (Some t) =>
      let o := ic_op c in
      let* (t', hp, _, log) := p_insert (ic_x c) (ic_y c) M nop t {| hp_store := []; hp_next := m_next m |} (o_hints o) (o_idx o) (o_slice o) (o_size o) in
      Ok {| m_trees := replace_at j (Some t') (m_trees m); m_next := hp_next hp; m_freed := m_freed m; m_dropped := m_dropped m; m_writes := log |}
    | _ => Ok (m_idle m)
    end
  | AClone j =>
    match nth_error (m_trees m) j with
    | Some (Some t) =>
      let* (t', next, log) := p_clone t (m_next m) in
      Ok {| m_trees := m_trees m ++ [Some t']; m_next := next; m_freed := m_freed m; m_dropped := m_dropped m; m_writes := log |}
    | _ => Ok (m_idle m)
    end
  | ADrop j =>
    match nth_error (m_trees m) j with
    | Some (Some t) =>
      let d := p_drop t in
      Ok {| m_trees := replace_at j None (m_trees m); m_next := m_next m; m_freed := m_freed m ++ frees d;
            m_dropped := m_dropped m ++ drops d; m_writes := frees d |}
    | _ => Ok (m_idle m)
    end
  end.

(** The calls one after the other; the history ends at the first panic. *)
Fixpoint run_mem {I V : Type} (M : nat) (nop : bool) (m : @mem I V) (cs : list (@mem_op I V)) : res (@mem I V) :=
  match cs with
  | [] => Ok m
  | c :: cs' => let* m' := do_mem_op M nop m c in run_mem M nop m' cs'
  end.

(** No law for the index operations of any call. *)
Definition any_op {I V : Type} (c : @mem_op I V) : Prop := match c with AIns _ c => index_any (ic_x c) | _ => True end.

(** Tree number [j] is there and is [t]; and the address [a] is that of one of its nodes. *)
Definition tree_is {I V : Type} (m : @mem I V) (j : nat) (t : ptree I V) : Prop := nth_error (m_trees m) j = Some (Some t).
Definition has_node {I V : Type} (t : ptree I V) (a : addr) : Prop := deref t a <> UB.
(** The tree that a call changes. *)
Definition changed {I V : Type} (c : @mem_op I V) : option nat := match c with AIns j _ | ADrop j => Some j | ANew | AClone _ => None end.
