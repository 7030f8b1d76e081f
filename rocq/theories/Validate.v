(** `validate` (src/tree/mod.rs 1088-1190).  Not modelled: the checks of parent pointers (lines 1105
    and 1108-1114), since nodes carry no parent pointer here. *)
From Coq Require Import List ZArith Bool Arith.
From Verif Require Import Base Index Slice Tree.
Import ListNotations.

Section Validate.
  Context {I S : Type} (X : index_ops I) (M : nat).
  Notation tree := (tree I S).
  Notation entry := (entry_of I S) (only parsing).

  (** `valid_assert!` (src/tree/mod.rs 1049-1076). *)
  Definition check (b : bool) : res unit := if b then Ok tt else Panic PAssert.

  (** The loop of `validate_leaf` (src/tree/mod.rs 1130-1136): positions strictly increasing after
      [prev], and the last one below the total. *)
  Fixpoint validate_poss (prev : I) (es : list entry) (total : I) : res unit :=
    match es with
    | [] => check (ix_ltb X prev total)
    | e :: es' => let* _ := check (ix_ltb X prev (e_pos e)) in validate_poss (e_pos e) es' total
    end.

  (** `validate_leaf` (src/tree/mod.rs 1123-1138). *)
  Definition validate_leaf (t : tree) : res nat :=
    let* total := tsize t in
    match keys t with
    | [] => Panic PAssert
    | e :: es =>
      let* _ := check (ix_eqb X (e_pos e) (ix_zero X)) in
      let* _ := validate_poss (e_pos e) es total in
      Ok (tlen t)
    end.

  (** The loop of `validate_internal` (src/tree/mod.rs 1158-1187) after the keys before [es]; [prev]
      is the position of the key before the child [ch], [node] validates a child. *)
  Fixpoint validate_keys (node : tree -> res nat) (prev : I) (ch : tree) (es : list entry) (total : I) : res nat :=
    let* cs := tsize ch in
    match es with
    | [] =>
      let* _ := check (ix_ltb X cs total) in
      let* start := ix_sub_right X total cs in
      let* _ := check (ix_ltb X prev start) in
      Ok 0
    | e :: es' =>
      let* _ := check (ix_ltb X cs (e_pos e)) in
      let* start := ix_sub_right X (e_pos e) cs in
      let* _ := check (ix_ltb X prev start) in
      let* n := node (e_child e) in
      let* m := validate_keys node (e_pos e) (e_child e) es' total in
      Ok (1 + n + m)
    end.

  (** `validate_internal` (src/tree/mod.rs 1142-1190). *)
  Definition validate_internal (node : tree -> res nat) (t : tree) : res nat :=
    match t with
    | Nil => UB
    | Node total c0 es =>
      let* n0 := node c0 in
      match es with
      | [] => Panic PAssert
      | e :: es' =>
        let* cs := tsize c0 in
        let* _ := check (ix_eqb X (e_pos e) cs) in
        let* n := node (e_child e) in
        let* m := validate_keys node (e_pos e) (e_child e) es' total in
        Ok (n0 + (1 + n + m))
      end
    end.

  (** `validate_node` (src/tree/mod.rs 1100-1120). *)
  Fixpoint validate_node (h : nat) (is_root : bool) (t : tree) : res nat :=
    let* _ := check (1 <=? tlen t) in
    let* _ := check (is_root || (M <=? tlen t)) in
    match h with
    | 0 => validate_leaf t
    | Datatypes.S h' => validate_internal (validate_node h' false) t
    end.

  (** `validate` (src/tree/mod.rs 1088-1096). *)
  Definition validate (r : @rle I S) : res unit :=
    match r with
    | None => Ok tt
    | Some r => let* n := validate_node (r_height r) true (r_node r) in check (n =? r_len r)
    end.

  (** The B-tree shape: between [lo] and 2M keys in this node, at least M in the nodes below, all
      leaves [h] levels down (a leaf has no children). *)
  Fixpoint shape (lo h : nat) (t : tree) : bool :=
    match t with
    | Nil => false
    | Node _ c0 es =>
      (lo <=? length es) && (length es <=? 2 * M) &&
      match h with
      | 0 => forallb (fun c => match c with Nil => true | Node _ _ _ => false end) (c0 :: map e_child es)
      | Datatypes.S h' => forallb (shape M h') (c0 :: map e_child es)
      end
    end.
End Validate.
