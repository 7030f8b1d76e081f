(** The tree: nodes, node-level operations, search and get. *)
From Coq Require Import List ZArith Bool Arith.
From Verif Require Import Base Index Slice.
Import ListNotations.

(** A node (`struct Leaf` / `struct Internal`, src/tree/node.rs 435-592).
    [Node total c0 es]: `total_size`, the leftmost child, and for every key its position, its slice
    and the child to its right.  A leaf is a node whose handle has height 0; its children are [Nil]
    (a leaf has no child array).  Simplified away: `parent`/`idx_in_parent` (paths instead),
    `holes` (Holes.v), `refs` (Refs*.v), `strong_count` (Cow.v). *)
Inductive tree (I S : Type) : Type :=
| Nil
| Node (total : I) (c0 : tree I S) (es : list (I * S * tree I S)).
Arguments Nil {I S}.
Arguments Node {I S} total c0 es.

(** `ChildOrKey<(u8, I), (u8, I)>` (src/tree/node.rs 594-599). *)
Inductive cok (I : Type) : Type := CChild (c : nat) (pos : I) | CKey (k : nat) (pos : I).
Arguments CChild {I} c pos.
Arguments CKey {I} k pos.

Notation entry_of I S := (prod (prod I S) (tree I S)) (only parsing).
Definition e_pos {I S} (e : entry_of I S) : I := fst (fst e).
Definition e_slice {I S} (e : entry_of I S) : S := snd (fst e).
Definition e_child {I S} (e : entry_of I S) : tree I S := snd e.

Section Tree.
  Context {I S : Type} (X : index_ops I) (M : nat).
  Notation tree := (tree I S).
  Notation entry := (entry_of I S) (only parsing).

  (** `max_len` = 2*M (src/tree/node.rs 2707-2709). *)
  Definition max_len : nat := 2 * M.

  (** `subtree_size` (src/tree/node.rs 2794-2799); a missing child is only ever asked for its size
      by an out-of-type access, hence UB. *)
  Definition tsize (t : tree) : res I :=
    match t with Nil => UB | Node tot _ _ => Ok tot end.

  Definition keys (t : tree) : list entry :=
    match t with Nil => [] | Node _ _ es => es end.

  (** Number of keys (`len`, src/tree/node.rs 2702-2704). *)
  Definition tlen (t : tree) : nat := length (keys t).

  (** Child pointer at index [c] (`child`, `into_child`: src/tree/node.rs 1976-1989, 2043-2088);
      `c <= len` is required, else UB. *)
  Definition child_of (c0 : tree) (es : list entry) (c : nat) : res tree :=
    match c with
    | 0 => Ok c0
    | Datatypes.S k => let* e := nth_ub es k in Ok (e_child e)
    end.
  Definition child (t : tree) (c : nat) : res tree :=
    match t with Nil => UB | Node _ c0 es => child_of c0 es c end.

  (** Overwriting a child in place (the effect of mutating through `into_child`). *)
  Definition set_child (t : tree) (c : nat) (ch : tree) : res tree :=
    match t with
    | Nil => UB
    | Node tot c0 es =>
      match c with
      | 0 => Ok (Node tot ch es)
      | Datatypes.S k =>
        let* e := nth_ub es k in Ok (Node tot c0 (replace_at k (fst e, ch) es))
      end
    end.

  (** `key_pos` / `try_key_pos` (src/tree/node.rs 2754-2778). *)
  Definition key_pos (t : tree) (k : nat) : res I :=
    let* e := nth_ub (keys t) k in Ok (e_pos e).
  Definition try_key_pos (t : tree) (k : nat) : option I :=
    option_map e_pos (nth_error (keys t) k).

  (** `try_key_pos(k).unwrap_or(subtree_size)` — used all over. *)
  Definition key_pos_or_end (t : tree) (k : nat) : res I :=
    match try_key_pos t k with Some p => Ok p | None => tsize t end.

  (** `child_size` (internal nodes only; src/tree/node.rs 1997-2004). *)
  Definition child_size (t : tree) (c : nat) : res I :=
    let* ch := child t c in tsize ch.

  (** `try_child_size(c).unwrap_or(ZERO)` (src/tree/node.rs 990-1005). *)
  Definition child_size_or_zero (h : nat) (t : tree) (c : nat) : res I :=
    match h with 0 => Ok (ix_zero X) | Datatypes.S _ => child_size t c end.

  (** `SliceHandle::slice_size` (src/tree/node.rs 2887-2905). *)
  Definition slice_size (h : nat) (t : tree) (k : nat) : res I :=
    let* kp := key_pos t k in
    let* next := key_pos_or_end t (k + 1) in
    let* next' :=
      match h with
      | 0 => Ok next
      | Datatypes.S _ => let* s := child_size t (k + 1) in ix_sub_right X next s
      end in
    ix_sub_left X next' kp.

  (** The slice of key [k] (`into_ref`, src/tree/node.rs 2983-2996; holes are not modelled here). *)
  Definition slice_at (t : tree) (k : nat) : res S :=
    let* e := nth_ub (keys t) k in Ok (e_slice e).

  (** `search_step` (src/tree/mod.rs 846-922). *)
  Definition search_step (h : nat) (t : tree) (hint : option nat) (target : I) : res (cok I) :=
    let* total := tsize t in
    if ix_debug X && ix_ltb X total target then Panic PAssert (* debug_assert, line 852 *)
    else
    let* hinted :=
      match hint with
      | None => Ok None
      | Some ci =>
        if (h =? 0) || (tlen t <? ci) then Ok None
        else
          let* cs := child_size t ci in
          let* nk := key_pos_or_end t ci in
          let* cp := ix_sub_right X nk cs in
          if ix_leb X cp target && ix_ltb X target nk then Ok (Some (ci, cp)) else Ok None
      end in
    match hinted with
    | Some (ci, cp) => Ok (CChild ci cp)
    | None =>
      match ix_search X (map e_pos (keys t)) target with
      | inl i => let* p := key_pos t i in Ok (CKey i p)
      | inr 0 => Ok (CChild 0 (ix_zero X))
      | inr (Datatypes.S k) =>
        let* nk := key_pos_or_end t (k + 1) in
        let* ncs := child_size_or_zero h t (k + 1) in
        if ix_debug X && ix_ltb X nk target then Panic PAssert (* debug_assert, line 914 *)
        else
        let* start := ix_sub_right X nk ncs in
        if ix_ltb X target start then let* p := key_pos t k in Ok (CKey k p)
        else Ok (CChild (k + 1) start)
      end
    end.

  (** The remaining hints after a step: dropped as soon as one was not followed
      (src/tree/mod.rs 417-423; src/tree/insert.rs 1254-1260). *)
  Definition next_hints (r : cok I) (hints : list nat) : list nat :=
    match r, hints with
    | CChild c _, hc :: hs => if c =? hc then hs else []
    | _, _ => []
    end.

  (** Loop of `get_with_cursor` (src/tree/mod.rs 412-447).  Result: range start, range end, slice. *)
  Fixpoint get_loop (h : nat) (t : tree) (hints : list nat) (target idx : I) : res (I * I * S) :=
    let* r := search_step h t (hd_error hints) target in
    let hints' := next_hints r hints in
    match r with
    | CKey k ks =>
      let* diff := ix_sub_left X target ks in
      let* rs := ix_sub_right X idx diff in
      let* sz := slice_size h t k in
      let* re := ix_add_right X rs sz in
      let* s := slice_at t k in
      Ok (rs, re, s)
    | CChild c cs =>
      let* target' := ix_sub_left X target cs in
      match h with
      | 0 => Panic PUnreachable
      | Datatypes.S h' => let* ch := child t c in get_loop h' ch hints' target' idx
      end
    end.

  (** `struct Root` (src/tree/mod.rs 162-169): handle (pointer and height) and number of slices. *)
  Record root : Type := { r_height : nat; r_node : tree; r_len : nat }.
  Definition rle : Type := option root.

  (** `RleTree::size` (src/tree/mod.rs 361-366). *)
  Definition rle_size (r : rle) : res I :=
    match r with None => Ok (ix_zero X) | Some r => tsize (r_node r) end.

  (** `RleTree::number_of_slices` (src/tree/mod.rs 372-377). *)
  Definition rle_len (r : rle) : nat := match r with None => 0 | Some r => r_len r end.

  (** `RleTree::get_with_cursor` (src/tree/mod.rs 398-448). *)
  Definition get_with_cursor (r : rle) (hints : list nat) (idx : I) : res (I * I * S) :=
    let* sz := rle_size r in
    if ix_ltb X idx (ix_zero X) then Panic POutOfBounds
    else if ix_leb X sz idx then Panic POutOfBounds
    else match r with
         | None => Panic PUnreachable (* `expect` at line 405 *)
         | Some r => get_loop (r_height r) (r_node r) hints idx idx
         end.

  (** `RleTree::get` (src/tree/mod.rs 386-391). *)
  Definition get (r : rle) (idx : I) : res (I * I * S) := get_with_cursor r [] idx.

  (** `SliceEntry::size` (src/tree/entry.rs 91-93). *)
  Definition entry_size (e : I * I * S) : res I := ix_sub_right X (snd (fst e)) (fst (fst e)).

  (** `set_key_poss_with` (src/tree/node.rs 1325-1352): keys [from..] and the total. *)
  Definition set_key_poss_with (t : tree) (f : I -> res I) (from : nat) : res tree :=
    match t with
    | Nil => UB
    | Node tot c0 es =>
      if length es <? from then UB
      else
        let* after := mapM (fun e : entry => let* p := f (e_pos e) in Ok (p, e_slice e, e_child e))
                           (skipn from es) in
        let* tot' := f tot in
        Ok (Node tot' c0 (firstn from es ++ after))
    end.

  (** `shift_keys` (src/tree/fix.rs 686-759). *)
  Definition shift_keys (increase : bool) (t : tree) (from : nat) (pos old_size new_size : I)
    : res tree :=
    let* old_end := ix_add_right X pos old_size in
    let* new_end := ix_add_right X pos new_size in
    let* diff := if increase then ix_sub_left X new_end old_end
                 else ix_sub_right X old_end new_end in
    set_key_poss_with t
      (fun k => if increase then ix_add_left X k diff else ix_sub_left X k diff) from.

  (** `shift_keys_auto` (src/tree/fix.rs 626-642). *)
  Definition shift_keys_auto (t : tree) (from : nat) (pos old_size new_size : I) : res tree :=
    shift_keys (ix_ltb X old_size new_size) t from pos old_size new_size.

  (** `set_single_key_pos` (src/tree/node.rs 1303-1315). *)
  Definition set_single_key_pos (t : tree) (k : nat) (p : I) : res tree :=
    match t with
    | Nil => UB
    | Node tot c0 es =>
      let* e := nth_ub es k in
      Ok (Node tot c0 (replace_at k (p, e_slice e, e_child e) es))
    end.

  (** `set_subtree_size` (src/tree/node.rs 1284-1289). *)
  Definition set_subtree_size (t : tree) (s : I) : res tree :=
    match t with Nil => UB | Node _ c0 es => Ok (Node s c0 es) end.

  (** Overwriting the slice of a key in place (`fill_hole` after `take_value_and_leave_hole`,
      src/tree/node.rs 3014-3077). *)
  Definition set_slice (t : tree) (k : nat) (s : S) : res tree :=
    match t with
    | Nil => UB
    | Node tot c0 es =>
      let* e := nth_ub es k in
      Ok (Node tot c0 (replace_at k (e_pos e, s, e_child e) es))
    end.

  (** `insert_key_and_child` (src/tree/node.rs 2453-2572); with [ch = Nil] also `insert_key`
      (2152-2208).  The position of the new key is that of the key it displaces.
      Result: new node and that position. *)
  Definition insert_key_and_child (t : tree) (k : nat) (s : S) (ch : tree) : res (tree * I) :=
    match t with
    | Nil => UB
    | Node tot c0 es =>
      if (length es <? k) || (max_len <=? length es) then UB
      else
        let* pos := key_pos_or_end t k in
        Ok (Node tot c0 (insert_at k (pos, s, ch) es), pos)
    end.
  Definition insert_key (t : tree) (k : nat) (s : S) : res (tree * I) :=
    insert_key_and_child t k s Nil.

  (** `push_key_and_child` (src/tree/node.rs 2361-2425); with [ch = Nil] also `push_key`
      (2223-2269): the key is placed at the current total, and the total replaced. *)
  Definition push_key_and_child (t : tree) (s : S) (ch : tree) (new_total : I) : res tree :=
    match t with
    | Nil => UB
    | Node tot c0 es =>
      if max_len <=? length es then UB
      else Ok (Node new_total c0 (es ++ [(tot, s, ch)]))
    end.
  Definition push_key (t : tree) (s : S) (new_total : I) : res tree :=
    push_key_and_child t s Nil new_total.

  (** `replace_first_child` (src/tree/node.rs 2308-2345): new node and the old first child. *)
  Definition replace_first_child (t : tree) (ch : tree) : res (tree * tree) :=
    match t with Nil => UB | Node tot c0 es => Ok (Node tot ch es, c0) end.

  (** `split` (src/tree/node.rs 1372-1569): left node (total not updated), midpoint key (position,
      slice), right node (positions and total not updated). *)
  Definition split (t : tree) (m : nat) : res (tree * (I * S) * tree) :=
    match t with
    | Nil => UB
    | Node tot c0 es =>
      let* e := nth_ub es m in
      Ok (Node tot c0 (firstn m es), (e_pos e, e_slice e), Node tot (e_child e) (skipn (m + 1) es))
    end.

  (** `new_root` + `RleTree::new` (src/tree/node.rs 1802-1829; src/tree/mod.rs 339-358). *)
  Definition rle_new (s : S) (size : I) : res rle :=
    if ix_leb X size (ix_zero X) then Panic PBadSize
    else Ok (Some {| r_height := 0; r_node := Node size Nil [(ix_zero X, s, Nil)]; r_len := 1 |}).

  (** `make_new_parent` (src/tree/node.rs 1689-1792). *)
  Definition make_new_parent (lhs : tree) (s : S) (key_size : I) (rhs : tree) : res tree :=
    let* kp := tsize lhs in
    let* a := ix_add_right X kp key_size in
    let* rs := tsize rhs in
    let* total := ix_add_right X a rs in
    Ok (Node total lhs [(kp, s, rhs)]).
End Tree.

Arguments r_height {I S}.
Arguments r_node {I S}.
Arguments r_len {I S}.
Arguments Build_root {I S}.
