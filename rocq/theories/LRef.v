(** Operations of a tree without shared nodes that follow node pointers: references, cursors, clones
    and the destructor. *)
From Coq Require Import List Bool Arith ZArith.
From Verif Require Import Base Index Slice Tree Insert LTree LInsert RefSpec.
Import ListNotations.

Section Mem.
  Context {I S : Type} (X : index_ops I).
  Notation tree := (tree I S).
  Notation ptree := (ptree I S).

  Definition kids_of (t : tree) : list tree :=
    match t with Nil => [] | Node _ c0 es => c0 :: map e_child es end.

  (** The nodes of a tree in memory: for every address the height, the contents and the pointers of
      the node there.  The height belongs to a `NodeHandle` (src/tree/node.rs 95-109), not to the
      node, but a node never changes its height. *)
  Fixpoint cells (h : nat) (lt : ltree) (t : tree) : list (addr * (nat * tree * ltree)) :=
    match lt with
    | LNil => []
    | LNode a _ _ ks =>
      (a, (h, t, lt)) ::
      (fix go ks cs :=
         match ks, cs with k :: ks', c :: cs' => cells (h - 1) k c ++ go ks' cs' | _, _ => [] end) ks (kids_of t)
    end.

  (** Following a node pointer; a pointer to no node of the tree dangles. *)
  Definition deref (t : ptree) (a : addr) : res (nat * tree * ltree) :=
    match pt_rle t with
    | None => UB
    | Some r =>
      match find (fun c => fst c =? a) (cells (r_height r) (pt_nodes t) (r_node r)) with
      | Some c => Ok (snd c)
      | None => UB
      end
    end.

  (** `child_pos` (src/tree/node.rs 2011-2025). *)
  Definition child_pos (t : tree) (c : nat) : res I :=
    let* sz := child_size t c in
    let* nk := key_pos_or_end t c in
    ix_sub_right X nk sz.

  (** The loop of `SliceHandle::range` (src/tree/node.rs 3132-3140) along stored parents
      (`into_parent`, 969-983).  One step per level; more would not terminate. *)
  Fixpoint climb_pos (fuel : nat) (t : ptree) (a : addr) (pos : I) : res I :=
    match fuel with
    | 0 => UB
    | Datatypes.S f =>
      let* (_, _, ln) := deref t a in
      match l_par ln with
      | None => Ok pos
      | Some (pa, c) =>
        let* (_, pn, _) := deref t pa in
        let* cp := child_pos pn c in
        let* pos' := ix_add_left X pos cp in
        climb_pos f t pa pos'
      end
    end.
  Definition levels (t : ptree) : nat := match pt_rle t with None => 0 | Some r => Datatypes.S (r_height r) end.

  (** `SliceHandle::range` (src/tree/node.rs 3124-3141), used by `SliceRef::range`
      (src/tree/slice_ref.rs 757-797). *)
  Definition handle_range (t : ptree) (l : loc) : res (I * I) :=
    let* (h, n, _) := deref t (fst l) in
    let* pos := key_pos n (snd l) in
    let* sz := slice_size X h n (snd l) in
    let* pos' := climb_pos (levels t) t (fst l) pos in
    let* e := ix_add_right X pos' sz in
    Ok (pos', e).

  (** `SliceHandle::borrow_slice` (src/tree/node.rs 3106-3121); holes are in Holes.v. *)
  Definition handle_value (t : ptree) (l : loc) : res S :=
    let* (_, n, _) := deref t (fst l) in slice_at n (snd l).

  (** The loop of `cursor_to_handle` (src/tree/entry.rs 118-121) and the second loop of `cursor_to`
      (src/tree/mod.rs 509-522 without COW). *)
  Fixpoint climb_path (fuel : nat) (t : ptree) (a : addr) (path : list nat) : res (list nat) :=
    match fuel with
    | 0 => UB
    | Datatypes.S f =>
      let* (_, _, ln) := deref t a in
      match l_par ln with
      | None => Ok path
      | Some (pa, c) => climb_path f t pa (c :: path)
      end
    end.

  (** `cursor_to_handle` (src/tree/entry.rs 106-125) for a cursor that records a path, and for
      `NoCursor` ([nop]). *)
  Definition handle_cursor (nop : bool) (t : ptree) (l : loc) : res (list nat) :=
    if nop then Ok [] else climb_path (levels t) t (fst l) [].

  (** The loop of `get_with_cursor` (src/tree/mod.rs 412-447) again, with the handle of the slice that
      the resulting `SliceEntry` holds. *)
  Fixpoint find_handle (h : nat) (t : tree) (lt : ltree) (hints : list nat) (target : I) : res loc :=
    let* r := search_step X h t (hd_error hints) target in
    match r, lt with
    | _, LNil => UB
    | CKey k _, LNode a _ _ _ => Ok (a, k)
    | CChild c cs, LNode _ _ _ ks =>
      let* target' := ix_sub_left X target cs in
      match h with
      | 0 => Panic PUnreachable
      | Datatypes.S h' =>
        let* ch := child t c in
        let* lch := nth_ub ks c in
        find_handle h' ch lch (next_hints r hints) target'
      end
    end.

  (** `get_with_cursor(..)` (src/tree/mod.rs 398-448) with the handle kept in the entry. *)
  Definition get_handle (t : ptree) (hints : list nat) (idx : I) : res loc :=
    let* sz := rle_size X (pt_rle t) in
    if ix_ltb X idx (ix_zero X) then Panic POutOfBounds
    else if ix_leb X sz idx then Panic POutOfBounds
    else match pt_rle t with
         | None => Panic PUnreachable
         | Some r => find_handle (r_height r) (r_node r) (pt_nodes t) hints idx
         end.

  (** The first loop of `cursor_to` (src/tree/mod.rs 482-506 without COW): the node it ends at. *)
  Fixpoint find_node (h : nat) (t : tree) (lt : ltree) (target : I) : res addr :=
    match lt with
    | LNil => UB
    | LNode a _ _ ks =>
      match h with
      | 0 => Ok a
      | Datatypes.S h' =>
        let* r := search_step X h t None target in
        match r with
        | CKey _ _ => Ok a
        | CChild c cs =>
          let* target' := ix_sub_left X target cs in
          let* ch := child t c in
          let* lch := nth_ub ks c in
          find_node h' ch lch target'
        end
      end
    end.

  (** `RleTree::cursor_to` (src/tree/mod.rs 460-529) for trees without COW. *)
  Definition cursor_to (nop : bool) (t : ptree) (idx : I) : res (list nat) :=
    let* sz := rle_size X (pt_rle t) in
    if ix_ltb X idx (ix_zero X) then Panic POutOfBounds
    else if ix_leb X sz idx then Panic POutOfBounds
    else match pt_rle t with
         | None => Panic PUnreachable (* `expect`, line 467 *)
         | Some r =>
           if nop then Ok []
           else
             let* a := find_node (r_height r) (r_node r) (pt_nodes t) idx in
             climb_path (levels t) t a []
         end.

  (** Writing the reference id of a key (`replace_refid`, src/tree/node.rs 2938-2947). *)
  Fixpoint set_refid (l : loc) (r : rid) (lt : ltree) : ltree :=
    match lt with
    | LNil => LNil
    | LNode a p rs ks =>
      LNode a p (if a =? fst l then replace_at (snd l) (Some r) rs else rs) (map (set_refid l r) ks)
    end.

  (** `SliceRefStore::make_ref` (src/tree/slice_ref.rs 337-363): an id that is already stored beside
      the key is shared, otherwise a new entry is pushed.  Counts of ids are in RefState.v. *)
  Definition make_ref (t : ptree) (hp : heap) (l : loc) : res (ptree * heap * rid) :=
    let* (_, _, ln) := deref t (fst l) in
    let* o := nth_ub (l_refs ln) (snd l) in
    match o with
    | Some r => Ok (t, hp, r)
    | None =>
      let r := length (hp_store hp) in
      Ok ({| pt_rle := pt_rle t; pt_nodes := set_refid l r (pt_nodes t) |},
          {| hp_store := hp_store hp ++ [Some l]; hp_next := hp_next hp |}, r)
    end.

  (** What a `SliceRef` with this id sees: `try_temporary_borrow` finds the handle in the store
      (src/tree/slice_ref.rs 684-697; a suspended handle is an invalid state), then `range_internal`
      (791-797) and `borrow_slice`. *)
  Definition ref_view (t : ptree) (hp : heap) (r : rid) : res (I * I * S) :=
    match nth_error (hp_store hp) r with
    | None => UB
    | Some None => Panic PInvalid
    | Some (Some l) => let* rg := handle_range t l in let* s := handle_value t l in Ok (rg, s)
    end.

  (** `deep_clone` (src/tree/node.rs 1117-1220): the children first, then the node, then the children's
      parents.  Clones of slices are taken to be equal to the originals, so the contents stay as they
      are.  `idx_in_parent` is written together with `parent` here. *)
  Fixpoint l_clone (lt : ltree) : sm ltree :=
    match lt with
    | LNil => sret LNil
    | LNode _ _ rs ks =>
      do* ks1 := (fix go ks : sm (list ltree) :=
                    match ks with
                    | [] => sret []
                    | k :: ks' => do* k1 := l_clone k in do* r := go ks' in sret (k1 :: r)
                    end) ks in
      do* a := alloc in
      do* ks2 := set_pars a 0 ks1 in
      sret (LNode a None (map (fun _ => None) rs) ks2)
    end.

  (** `Clone for RleTree<NoFeatures>` (src/tree/mod.rs 765-782).  Result as for [p_insert]: the nodes
      written. *)
  Definition p_clone (t : ptree) (next : addr) : res (ptree * addr * list addr) :=
    let* (lt, s) := l_clone (pt_nodes t)
      {| p_store := []; p_next := next; p_log := []; p_ho := None; p_present := false; p_skip := false |} in
    Ok ({| pt_rle := pt_rle t; pt_nodes := lt |}, p_next s, p_log s).

  (** The destructor: `destruct_root` (src/tree/mod.rs 275-294) without pending borrows, `try_drop` with
      a unit count (src/tree/node.rs 1586-1599) and `do_drop` (1846-1937): the slices of the node, the
      node, then the children in order. *)
  Inductive dev : Type := DSlice (s : S) | DFree (a : addr).
  Fixpoint do_drop (h : nat) (t : tree) (lt : ltree) : list dev :=
    match lt with
    | LNil => []
    | LNode a _ _ ks =>
      map (fun e => DSlice (e_slice e)) (keys t) ++ DFree a ::
      match h with
      | 0 => []
      | Datatypes.S h' =>
        (fix go ks cs :=
           match ks, cs with k :: ks', c :: cs' => do_drop h' c k ++ go ks' cs' | _, _ => [] end) ks (kids_of t)
      end
    end.
  Definition p_drop (t : ptree) : list dev :=
    match pt_rle t with None => [] | Some r => do_drop (r_height r) (r_node r) (pt_nodes t) end.

  Definition p_empty : ptree := {| pt_rle := None; pt_nodes := LNil |}.
End Mem.
Arguments DSlice {S} s.
Arguments DFree {S} a.

(** ** Histories *)
Section Hist.
  Context {I S : Type} (X : index_ops I) (Y : slice_ops I S) (M : nat) (inj : Z -> I).

  (** A tree with references: the tree, the store, and the ids of the references in the order of their
      creation. *)
  Record rtree : Type := { rt_tree : ptree I S; rt_heap : heap; rt_refs : list rid }.
  Definition rt_new : rtree := {| rt_tree := p_empty; rt_heap := {| hp_store := []; hp_next := 0 |}; rt_refs := [] |}.

  Definition add_ref (t : rtree) (l : loc) : res rtree :=
    let* (t', hp, r) := make_ref (rt_tree t) (rt_heap t) l in
    Ok {| rt_tree := t'; rt_heap := hp; rt_refs := rt_refs t ++ [r] |}.

  (** `insert` (src/tree/mod.rs 677-679), `insert_ref` (723-760) and `get(..).make_ref()`
      (src/tree/entry.rs 148-152). *)
  Definition rt_call (t : rtree) (c : rcall S) : res rtree :=
    match c with
    | CInsert i x n =>
      let* (p, hp, _, _) := p_insert X Y M true (rt_tree t) (rt_heap t) [] (inj i) x (inj n) in
      Ok {| rt_tree := p; rt_heap := hp; rt_refs := rt_refs t |}
    | CInsertRef i x n =>
      let* (p, hp, ho, _) := p_insert X Y M true (rt_tree t) (rt_heap t) [] (inj i) x (inj n) in
      match ho with
      | None => Panic PUnreachable
      | Some l => add_ref {| rt_tree := p; rt_heap := hp; rt_refs := rt_refs t |} l
      end
    | CMakeRef i =>
      let* l := get_handle X (rt_tree t) [] (inj i) in add_ref t l
    end.

  Fixpoint rt_run (t : rtree) (calls : list (rcall S)) : res rtree :=
    match calls with
    | [] => Ok t
    | c :: calls' => let* t' := rt_call t c in rt_run t' calls'
    end.

  (** What all references see: range and slice. *)
  Definition rt_view (t : rtree) : res (list (I * I * S)) :=
    mapM (ref_view X (rt_tree t) (rt_heap t)) (rt_refs t).

  (** Several trees without features in one memory. *)
  Inductive mcall : Type :=
  | MNew
  | MInsert (j : nat) (hints : list nat) (idx : Z) (x : S) (n : Z)
  | MClone (j : nat)
  | MDrop (j : nat).
  (** [m_freed] and [m_dropped]: the nodes freed and the slices dropped so far; [m_writes]: the nodes
      written by the last call. *)
  Record mem : Type := {
    m_trees : list (option (ptree I S)); m_next : addr; m_freed : list addr; m_dropped : list S; m_writes : list addr;
  }.
  Definition mem_new : mem := {| m_trees := []; m_next := 0; m_freed := []; m_dropped := []; m_writes := [] |}.

  Definition frees (l : list (@dev S)) : list addr := flat_map (fun e => match e with DFree a => [a] | DSlice _ => [] end) l.
  Definition drops (l : list (@dev S)) : list S := flat_map (fun e => match e with DSlice s => [s] | DFree _ => [] end) l.

  (** The borrow checker rejects a call on a dropped tree or one that was never made; such calls do
      nothing here. *)
  Definition m_idle (m : mem) : mem :=
    {| m_trees := m_trees m; m_next := m_next m; m_freed := m_freed m; m_dropped := m_dropped m; m_writes := [] |}.
  Definition m_call (nop : bool) (m : mem) (c : mcall) : res mem :=
    match c with
    | MNew => Ok {| m_trees := m_trees m ++ [Some p_empty]; m_next := m_next m; m_freed := m_freed m; m_dropped := m_dropped m; m_writes := [] |}
    | MInsert j hints idx x n =>
      match nth_error (m_trees m) j with
      | Some (Some t) =>
        let* (t', hp, _, log) := p_insert X Y M nop t {| hp_store := []; hp_next := m_next m |} hints (inj idx) x (inj n) in
        Ok {| m_trees := replace_at j (Some t') (m_trees m); m_next := hp_next hp; m_freed := m_freed m; m_dropped := m_dropped m; m_writes := log |}
      | _ => Ok (m_idle m)
      end
    | MClone j =>
      match nth_error (m_trees m) j with
      | Some (Some t) =>
        let* (t', next, log) := p_clone t (m_next m) in
        Ok {| m_trees := m_trees m ++ [Some t']; m_next := next; m_freed := m_freed m; m_dropped := m_dropped m; m_writes := log |}
      | _ => Ok (m_idle m)
      end
    | MDrop j =>
      match nth_error (m_trees m) j with
      | Some (Some t) =>
        let d := p_drop t in
        Ok {| m_trees := replace_at j None (m_trees m); m_next := m_next m; m_freed := m_freed m ++ frees d;
              m_dropped := m_dropped m ++ drops d; m_writes := frees d |}
      | _ => Ok (m_idle m)
      end
    end.
  Fixpoint m_run (nop : bool) (m : mem) (calls : list mcall) : res mem :=
    match calls with
    | [] => Ok m
    | c :: calls' => let* m' := m_call nop m c in m_run nop m' calls'
    end.
End Hist.
