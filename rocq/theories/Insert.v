(** Insertion (src/tree/insert.rs, src/tree/fix.rs). *)
From Coq Require Import List ZArith Bool Arith.
From Verif Require Import Base Index Slice Tree.
Import ListNotations.

(** `enum Side` (src/tree/mod.rs 811-814); `side as u8` is 0 or 1. *)
Inductive side : Type := SLeft | SRight.
Definition side_nat (s : side) : nat := match s with SLeft => 0 | SRight => 1 end.

Section Insert.
  Context {I S : Type} (X : index_ops I) (Y : slice_ops I S) (M : nat).
  Notation tree := (tree I S).
  Notation max_len := (max_len M).

  (** A slice handle: path from the root to the node, and key index (`SliceHandle`). *)
  Definition handle : Type := (list nat * nat)%type.

  (** `InsertionPoint` (src/tree/insert.rs 206-248): an edge in a leaf, with the adjacent keys
      (only collected when MAY_JOIN), or the inside of a key. *)
  Inductive inspoint : Type :=
  | EdgeInsert (path : list nat) (k : nat) (lhs rhs : option handle)
  | SplitKeyInsert (path : list nat) (h : nat) (k : nat) (pos_in_key : I).

  (** `find_insertion_point` (src/tree/insert.rs 1229-1326). *)
  Fixpoint find_insertion_point (h : nat) (t : tree) (hints : list nat) (target : I)
           (path : list nat) (lhs rhs : option handle) : res inspoint :=
    let* r0 := search_step X h t (hd_error hints) target in
    let* r :=
      match r0 with
      | CKey k kp =>
        if ix_eqb X kp target then
          let* cs := child_size_or_zero X h t k in
          let* cp := ix_sub_right X kp cs in
          Ok (CChild k cp)
        else Ok (CKey k kp)
      | CChild c cp => Ok (CChild c cp)
      end in
    let hints' := next_hints r hints in
    match r with
    | CKey k kp =>
      let* pos_in_key := ix_sub_left X target kp in
      Ok (SplitKeyInsert path h k pos_in_key)
    | CChild c cp =>
      let lhs' := if sl_may_join Y then
                    match c with 0 => lhs | Datatypes.S ki => Some (path, ki) end
                  else lhs in
      let rhs' := if sl_may_join Y then
                    if c <? tlen t then Some (path, c) else rhs
                  else rhs in
      match h with
      | 0 => Ok (EdgeInsert path c lhs' rhs')
      | Datatypes.S h' =>
        let* target' := ix_sub_left X target cp in
        let* ch := child t c in
        find_insertion_point h' ch hints' target' (path ++ [c]) lhs' rhs'
      end
    end.

  (** State on the way up.
      [Done]: `OpUpdateState` after a step (src/tree/fix.rs 411-463): the new node, its old and new
      total size, and the cursor path built so far (below and including the parent link once taken).
      [Bubble]: `BubbledInsertState` (src/tree/insert.rs 252-302). *)
  Record bubble : Type := {
    b_lhs : tree; b_key : S; b_key_size : I; b_rhs : tree; b_old : I;
    b_side : option side; b_cur : list nat;
  }.
  Inductive upstate : Type :=
  | Done (node : tree) (old_size new_size : I) (cur : list nat)
  | Bubble (b : bubble).

  (** `OpUpdateState::do_upward_step` for `ChildOrKey::Key` (src/tree/fix.rs 522-586). *)
  Definition key_step (t : tree) (k : nat) (override_pos : option I) (old_size new_size : I)
             (cur : list nat) : res upstate :=
    let* pos := match override_pos with Some p => Ok p | None => key_pos t k end in
    let* old_total := tsize t in
    let* t' := shift_keys_auto X t (k + 1) pos old_size new_size in
    let* new_total := tsize t' in
    Ok (Done t' old_total new_total cur).

  (** What the closures of `insert_rhs` know about the key to the left of the insertion
      (src/tree/insert.rs 1003-1006, 1046-1059); [l_remap] is `remap_cursor` (1115). *)
  Record lhsinfo : Type := { l_pos : I; l_old : I; l_new : I; l_remap : bool }.

  (** `OpUpdateState::do_upward_step` for `ChildOrKey::Child` (src/tree/fix.rs 522-586), preceded by
      the state map of `insert_rhs` (`map_sizes` src/tree/insert.rs 1061-1110, `map_cursor`
      1142-1146) when the node holds the left-hand key ([here = Some _]).  The `Key` branch of
      `map_sizes` cannot be taken (`handled_shift` is set then) and is omitted. *)
  Definition child_step (t : tree) (c : nat) (here : option lhsinfo) (old_size new_size : I)
             (cur : list nat) : res upstate :=
    let* (override_pos, old_size', new_size', cur') :=
      match here with
      | None => Ok (None, old_size, new_size, cur)
      | Some l =>
        let* old_lhs_end := ix_add_right X (l_pos l) (l_old l) in
        let* new_lhs_end := ix_add_right X (l_pos l) (l_new l) in
        let* next := key_pos_or_end t c in
        let* pos := ix_sub_left X next old_size in
        let* diff := ix_sub_left X pos old_lhs_end in
        let* o1 := ix_add_left X old_size diff in
        let* o2 := ix_add_left X o1 (l_old l) in
        let* n1 := ix_add_left X new_size diff in
        let* n2 := ix_add_left X n1 (l_new l) in
        Ok (Some (l_pos l), o2, n2, if l_remap l then [] else cur)
      end in
    let* pos :=
      match override_pos with
      | Some p => Ok p
      | None => let* next := key_pos_or_end t c in ix_sub_left X next old_size'
      end in
    let* old_total := tsize t in
    let* t' := shift_keys_auto X t c pos old_size' new_size' in
    let* new_total := tsize t' in
    Ok (Done t' old_total new_total (c :: cur')).

  Definition opt_cons (o : option nat) (l : list nat) : list nat :=
    match o with Some x => x :: l | None => l end.

  (** `BubbledInsertState::do_upward_step` with a parent (src/tree/insert.rs 1925-2330), preceded by
      the map of `insert_rhs` (`map_shift_lhs` 1046-1059) when the parent holds the left-hand key,
      and followed by `map_cursor` (1142-1146) when the result is an `OpUpdateState` at that node.
      [t] is the parent with `self.lhs` already in place as child [c]. *)
  Definition bubble_step (t : tree) (c : nat) (here : option lhsinfo) (b : bubble) : res upstate :=
    let* lhs_size := tsize (b_lhs b) in
    let* a := ix_add_right X lhs_size (b_key_size b) in
    let* rhs_size := tsize (b_rhs b) in
    let* new_total := ix_add_right X a rhs_size in
    if tlen t <? max_len then
      (* lines 1963-2037: no split, only insert *)
      let* (override_pos, old_size, new_size, lhs_child_pos) :=
        match here with
        | Some k =>
          let* o := ix_add_left X (b_old b) (l_old k) in
          let* n := ix_add_left X new_total (l_new k) in
          let* p := ix_add_right X (l_pos k) (l_new k) in
          Ok (l_pos k, o, n, p)
        | None =>
          let* next := key_pos_or_end t c in
          let* p := ix_sub_right X next (b_old b) in
          Ok (p, b_old b, new_total, p)
        end in
      let* (t1, _) := insert_key_and_child M t c (b_key b) (b_rhs b) in
      let* midpoint_pos := ix_add_right X lhs_child_pos lhs_size in
      let* t2 := set_single_key_pos t1 c midpoint_pos in
      let cur := opt_cons (option_map (fun s => c + side_nat s) (b_side b)) (b_cur b) in
      let cur' := match here with Some l => if l_remap l then [] else cur | None => cur end in
      key_step t2 c (Some override_pos) old_size new_size cur'
    else
      (* lines 2040-2329: split the parent *)
      let* old_parent_size := tsize t in
      let midpoint_idx := if M <? c then M else M - 1 in
      let* (p0, (mid_pos, mid_slice), r0) := split t midpoint_idx in
      let* parent := set_subtree_size p0 mid_pos in
      let* first_key_pos :=
        match try_key_pos r0 0 with
        | Some p => Ok p
        | None => if 1 <? M then UB else tsize r0
        end in
      let* first_child_size :=
        if (c =? M) || (c =? M + 1) then Ok (b_old b) else child_size r0 0 in
      let* rhs_start := ix_sub_right X first_key_pos first_child_size in
      let* midpoint_size0 := ix_sub_left X rhs_start mid_pos in
      if negb (c =? M) then
        (* lines 2111-2224 *)
        let* r1 := shift_keys X false r0 0 (ix_zero X) rhs_start (ix_zero X) in
        let '(midpoint_size, shift) :=
          match here with
          | Some l => if c =? M + 1 then (l_new l, None) else (midpoint_size0, Some l)
          | None => (midpoint_size0, None)
          end in
        let right := M <? c in
        let k := if right then c - (M + 1) else c in
        let* shift' :=
          match shift with
          | None => Ok None
          | Some l =>
            if right then
              let* p := ix_sub_left X (l_pos l) rhs_start in
              Ok (Some (p, l_old l, l_new l))
            else Ok (Some (l_pos l, l_old l, l_new l))
          end in
        let into := if right then r1 else parent in
        let* (lhs_child_pos, shift_pos, old0, new0) :=
          match shift' with
          | None =>
            let* next := key_pos_or_end into k in
            let* p := ix_sub_right X next (b_old b) in
            Ok (p, p, ix_zero X, ix_zero X)
          | Some (lp, lo, ln) =>
            let* p := ix_add_right X lp ln in
            Ok (p, lp, lo, ln)
          end in
        let* key_pos := ix_add_right X lhs_child_pos lhs_size in
        let* old_size := ix_add_right X old0 (b_old b) in
        let* new_size := ix_add_right X new0 new_total in
        let* (i1, _) := insert_key_and_child M into k (b_key b) (b_rhs b) in
        let* i2 := set_single_key_pos i1 k key_pos in
        let* i3 := shift_keys X true i2 (k + 1) shift_pos old_size new_size in
        let cur := opt_cons (option_map (fun s => k + side_nat s) (b_side b)) (b_cur b) in
        Ok (Bubble {| b_lhs := if right then parent else i3;
                      b_key := mid_slice; b_key_size := midpoint_size;
                      b_rhs := if right then i3 else r1;
                      b_old := old_parent_size;
                      b_side := Some (if right then SRight else SLeft);
                      b_cur := cur |})
      else
        (* lines 2225-2329: self.key becomes the midpoint *)
        let midpoint_size := match here with Some l => l_new l | None => midpoint_size0 end in
        let* new_first_child_size := tsize (b_rhs b) in
        let* (r1, old_first_child) := replace_first_child r0 (b_rhs b) in
        let* old_first_child_size := tsize old_first_child in
        let* plhs_size := tsize parent in
        let* q := ix_add_right X plhs_size midpoint_size in
        let* new_lhs_size := ix_add_right X q old_first_child_size in
        let* parent' := push_key_and_child M parent mid_slice old_first_child new_lhs_size in
        let* first_rhs_key_pos := key_pos r1 0 in
        let* r2 := shift_keys_auto X r1 0 (ix_zero X) first_rhs_key_pos new_first_child_size in
        let cur := opt_cons (option_map (fun s => match s with SRight => 0 | SLeft => M end)
                                        (b_side b)) (b_cur b) in
        Ok (Bubble {| b_lhs := parent'; b_key := b_key b; b_key_size := b_key_size b;
                      b_rhs := r2; b_old := old_parent_size;
                      b_side := b_side b; b_cur := cur |}).

  (** `map_cursor_side` and `map_cursor` on a bubble whose left node is the internal node that holds
      the left-hand key (src/tree/insert.rs 1142-1157).  The first inserted slice then sits at index
      0 of a leaf (`insert_rhs` inserts at index 0 and a leaf split with index 0 < M keeps it
      there), a node different from this one, so the side becomes [None]. *)
  Definition remap_bubble (here : option lhsinfo) (st : upstate) : upstate :=
    match here, st with
    | Some l, Bubble b =>
      if l_remap l then
        Bubble {| b_lhs := b_lhs b; b_key := b_key b; b_key_size := b_key_size b; b_rhs := b_rhs b;
                  b_old := b_old b; b_side := None; b_cur := [] |}
      else st
    | _, _ => st
    end.

  (** One level of the upward loops (`OpUpdateState::finish` src/tree/fix.rs 497-516,
      `BubbledInsertState::finish` src/tree/insert.rs 1902-1923). *)
  Definition up_step (t : tree) (c : nat) (here : option lhsinfo) (st : upstate) : res upstate :=
    match st with
    | Done n old new cur =>
      let* t1 := set_child t c n in child_step t1 c here old new cur
    | Bubble b =>
      let* t1 := set_child t c (b_lhs b) in
      let* st' := bubble_step t1 c here b in
      Ok (remap_bubble here st')
    end.

  (** Apply [f] to the node at path [p] and run the upward steps back to the root.  [lhs] gives the
      depth (from here) of the node holding the left-hand key, for `insert_rhs`. *)
  Fixpoint upd (f : tree -> res upstate) (lhs : option (nat * lhsinfo)) (t : tree) (p : list nat)
    : res upstate :=
    match p with
    | [] => f t
    | c :: p' =>
      let* ch := child t c in
      let '(here, below) :=
        match lhs with
        | Some (0, l) => (Some l, None)
        | Some (Datatypes.S d, l) => (None, Some (d, l))
        | None => (None, None)
        end in
      let* st := upd f below ch p' in
      up_step t c here st
    end.

  (** The node at a path. *)
  Fixpoint node_at (t : tree) (p : list nat) : res tree :=
    match p with [] => Ok t | c :: p' => let* ch := child t c in node_at ch p' end.

  (** Replace the slice of the key at a handle, in place. *)
  Fixpoint set_slice_at (t : tree) (p : list nat) (k : nat) (s : S) : res tree :=
    match p with
    | [] => set_slice t k s
    | c :: p' =>
      let* ch := child t c in
      let* ch' := set_slice_at ch p' k s in
      set_child t c ch'
    end.

  (** `do_insert_full_edge_no_join_split_small_m` (src/tree/insert.rs 1774-1881).
      Also returns where `fst` was reported to the updates callback (None: not yet). *)
  Definition split_leaf_small_m (t : tree) (k : nat) (ov : option I) (fst : S * I) (snd : S * I)
    : res (bubble * option (side * nat)) :=
    if negb (M =? 1) || ((match ov with Some _ => true | None => false end) && (k =? 0))
       || negb (tlen t =? 1) || (1 <? k) then UB
    else
      let* old_size := tsize t in
      let* (n0, (_, mid_slice), r0) := split t 0 in
      let* n1 := set_subtree_size n0 (ix_zero X) in
      let* r1 := set_subtree_size r0 (ix_zero X) in
      let midpoint_size := match ov with Some s => s | None => old_size end in
      if k =? 0 then
        let* n2 := push_key M n1 (Datatypes.fst fst) (Datatypes.snd fst) in
        let* r2 := push_key M r1 mid_slice midpoint_size in
        Ok ({| b_lhs := n2; b_key := Datatypes.fst snd; b_key_size := Datatypes.snd snd;
               b_rhs := r2; b_old := old_size; b_side := Some SLeft; b_cur := [] |},
            Some (SLeft, 0))
      else
        let* n2 := push_key M n1 mid_slice midpoint_size in
        let* r2 := push_key M r1 (Datatypes.fst snd) (Datatypes.snd snd) in
        Ok ({| b_lhs := n2; b_key := Datatypes.fst fst; b_key_size := Datatypes.snd fst;
               b_rhs := r2; b_old := old_size; b_side := None; b_cur := [] |},
            None).

  (** Choice of midpoint in `do_insert_full_edge_no_join_split` (src/tree/insert.rs 1468-1519):
      [inl side] is Ok(side), [inr side] is Err(side). *)
  Definition choose_split (k len : nat) (has_snd : bool) : nat * (side + side) :=
    match Nat.compare k M with
    | Lt => if has_snd && (len <? max_len)
            then if k <? M - 1 then (M - 2, inl SLeft) else (M - 2, inr SLeft)
            else (M - 1, inl SLeft)
    | Eq => if has_snd && (len =? max_len) then (M - 1, inr SLeft) else (M - 1, inr SRight)
    | Gt => (M, inl SRight)
    end.

  (** `do_insert_full_edge_no_join_split` (src/tree/insert.rs 1338-1760). *)
  Definition split_leaf (t : tree) (k : nat) (ov : option I) (fst : S * I) (snd : option (S * I))
    : res (bubble * option (side * nat)) :=
    if (M =? 1) && (tlen t =? 1) then
      match snd with
      | Some sn => split_leaf_small_m t k ov fst sn
      | None => UB
      end
    else
      let '(midpoint_idx, insert_at) :=
        choose_split k (tlen t) (match snd with Some _ => true | None => false end) in
      let* (n0, (mid_pos, mid_slice), r0) := split t midpoint_idx in
      let* old_node_size := tsize n0 in
      let rhs_start := match try_key_pos r0 0 with Some p => p | None => old_node_size end in
      let handled :=
        match insert_at with
        | inr _ => true
        | inl SRight => k =? midpoint_idx + 1
        | inl SLeft => false
        end in
      let* (midpoint_size, ov') :=
        match ov with
        | Some s =>
          if handled then Ok (s, None)
          else let* d := ix_sub_left X rhs_start mid_pos in Ok (d, ov)
        | None => let* d := ix_sub_left X rhs_start mid_pos in Ok (d, ov)
        end in
      let* n1 := set_subtree_size n0 mid_pos in
      let* r1 := shift_keys X false r0 0 (ix_zero X) rhs_start (ix_zero X) in
      match insert_at with
      | inr SRight =>
        let* lhs_tot := tsize n1 in
        let* new_lhs := ix_add_right X lhs_tot midpoint_size in
        let* n2 := push_key M n1 mid_slice new_lhs in
        let* r2 :=
          match snd with
          | None => Ok r1
          | Some (s2, size2) =>
            let* (r', pos) := insert_key M r1 0 s2 in
            shift_keys X true r' 1 pos (ix_zero X) size2
          end in
        Ok ({| b_lhs := n2; b_key := Datatypes.fst fst; b_key_size := Datatypes.snd fst;
               b_rhs := r2; b_old := old_node_size; b_side := None; b_cur := [] |}, None)
      | inr SLeft =>
        match snd with
        | None => UB
        | Some (s2, size2) =>
          let* lhs_tot := tsize n1 in
          let* lhs_key_end := ix_add_right X lhs_tot midpoint_size in
          let* fst_key_end := ix_add_right X lhs_key_end (Datatypes.snd fst) in
          let mp_idx := tlen n1 in
          let* n2 := push_key M n1 mid_slice lhs_key_end in
          let* n3 := push_key M n2 (Datatypes.fst fst) fst_key_end in
          Ok ({| b_lhs := n3; b_key := s2; b_key_size := size2;
                 b_rhs := r1; b_old := old_node_size; b_side := Some SLeft; b_cur := [] |},
              Some (SLeft, mp_idx + 1))
        end
      | inl sd =>
        let into := match sd with SLeft => n1 | SRight => r1 end in
        let k' := match sd with SLeft => k | SRight => k - (midpoint_idx + 1) end in
        let* (pos, old_size, new_size0) :=
          match ov' with
          | None => let* p := key_pos_or_end into k' in Ok (p, ix_zero X, ix_zero X)
          | Some s =>
            if k' =? 0 then UB else
            let* p := key_pos into (k' - 1) in
            let* sz := slice_size X 0 into (k' - 1) in
            Ok (p, sz, s)
          end in
        let* (i1, _) := insert_key M into k' (Datatypes.fst fst) in
        let* fst_pos := ix_add_right X pos new_size0 in
        let* i2 := set_single_key_pos i1 k' fst_pos in
        let* new_size1 := ix_add_right X new_size0 (Datatypes.snd fst) in
        let* (i3, new_size2, from) :=
          match snd with
          | None => Ok (i2, new_size1, k' + 1)
          | Some (s2, size2) =>
            let* (j1, _) := insert_key M i2 (k' + 1) s2 in
            let* ns := ix_add_right X new_size1 size2 in
            let* snd_pos := ix_add_right X fst_pos (Datatypes.snd fst) in
            let* j2 := set_single_key_pos j1 (k' + 1) snd_pos in
            Ok (j2, ns, k' + 2)
          end in
        let* i4 := shift_keys X true i3 from pos old_size new_size2 in
        Ok ({| b_lhs := match sd with SLeft => i4 | SRight => n1 end;
               b_key := mid_slice; b_key_size := midpoint_size;
               b_rhs := match sd with SLeft => r1 | SRight => i4 end;
               b_old := old_node_size; b_side := Some sd; b_cur := [] |}, Some (sd, k'))
      end.

  (** `map_cursor_side` when the left-hand key is in the same leaf (src/tree/insert.rs 1148-1157). *)
  Definition remap_leaf (remap : bool) (r : bubble * option (side * nat)) : bubble :=
    let (b, loc) := r in
    if remap then
      let sd := match loc with
                | None => Some SLeft
                | Some (SRight, 0) => None
                | Some _ => b_side b
                end in
      {| b_lhs := b_lhs b; b_key := b_key b; b_key_size := b_key_size b; b_rhs := b_rhs b;
         b_old := b_old b; b_side := sd; b_cur := [] |}
    else b.

  (** `do_insert_full_edge_no_join` (src/tree/insert.rs 844-958) at the leaf [t].
      [remap]: the cursor map of `insert_rhs` applies at this leaf. *)
  Definition no_join_leaf (remap : bool) (k : nat) (ov : option I) (fst : S * I)
             (snd : option (S * I)) (t : tree) : res upstate :=
    if (tlen t <? k) || ((match ov with Some _ => true | None => false end) && (k =? 0)) then UB
    else
      let* added := match snd with
                    | Some (_, size2) => ix_add_right X (Datatypes.snd fst) size2
                    | None => Ok (Datatypes.snd fst)
                    end in
      let one_if_snd := match snd with Some _ => 1 | None => 0 end in
      if max_len - one_if_snd <=? tlen t then
        let* r := split_leaf t k ov fst snd in
        Ok (Bubble (remap_leaf remap r))
      else
        match ov with
        | Some new_lhs_size =>
          let* lhs_pos := key_pos t (k - 1) in
          let* old_lhs_size := slice_size X 0 t (k - 1) in
          let* slice_pos := ix_add_right X lhs_pos new_lhs_size in
          let* (t1, _) := insert_key M t k (Datatypes.fst fst) in
          let* t2 := set_single_key_pos t1 k slice_pos in
          let* t3 :=
            match snd with
            | None => Ok t2
            | Some (s2, _) =>
              let* (u1, _) := insert_key M t2 (k + 1) s2 in
              let* p := ix_add_right X slice_pos (Datatypes.snd fst) in
              set_single_key_pos u1 (k + 1) p
            end in
          let* new_size := ix_add_right X new_lhs_size added in
          key_step t3 (k + one_if_snd) (Some lhs_pos) old_lhs_size new_size []
        | None =>
          let* (t1, slice_pos) := insert_key M t k (Datatypes.fst fst) in
          let* (t2, override_pos) :=
            match snd with
            | None => Ok (t1, None)
            | Some (s2, _) =>
              let* (u1, _) := insert_key M t1 (k + 1) s2 in
              let* p := ix_add_right X slice_pos (Datatypes.snd fst) in
              let* u2 := set_single_key_pos u1 (k + 1) p in
              Ok (u2, Some slice_pos)
            end in
          key_step t2 (k + one_if_snd) override_pos (ix_zero X) added []
        end.

  (** End of `insert_internal` (src/tree/insert.rs 153-171) together with the root case of
      `BubbledInsertState::do_upward_step` (1938-1957): new tree, new height, cursor. *)
  Definition finish_root (h : nat) (st : upstate) : res (tree * nat * list nat) :=
    match st with
    | Done n _ _ cur => Ok (n, h, cur)
    | Bubble b =>
      let* lhs_size := tsize (b_lhs b) in
      let* a := ix_add_right X lhs_size (b_key_size b) in
      let* rhs_size := tsize (b_rhs b) in
      let* _ := ix_add_right X a rhs_size in
      let cur := opt_cons (option_map side_nat (b_side b)) (b_cur b) in
      let* n := make_new_parent X (b_lhs b) (b_key b) (b_key_size b) (b_rhs b) in
      Ok (n, h + 1, cur)
    end.

  (** `insert_rhs` (src/tree/insert.rs 983-1204).  [hk] is the height of the node holding key [k].
      [remap] is `cursor_mode == CursorMode::Lhs && !cursor_builder.is_nop()`. *)
  Definition insert_rhs (h : nat) (t : tree) (p : list nat) (hk : nat) (k : nat) (new_lhs_size : I)
             (remap : bool) (fst : S * I) (snd : option (S * I)) : res (tree * nat * list nat) :=
    let* node := node_at t p in
    let* lhs_pos := key_pos node k in
    let* old_lhs_size := slice_size X hk node k in
    let* st :=
      match hk with
      | 0 => upd (no_join_leaf remap (k + 1) (Some new_lhs_size) fst snd) None t p
      | Datatypes.S hc =>
        let l := {| l_pos := lhs_pos; l_old := old_lhs_size; l_new := new_lhs_size;
                    l_remap := remap |} in
        upd (no_join_leaf false 0 None fst snd) (Some (length p, l)) t
            (p ++ (k + 1) :: repeat 0 hc)
      end in
    finish_root h st.

  (** `do_insert_full_split_key` (src/tree/insert.rs 529-652).  Result: tree, height, cursor and how
      many slices were added. *)
  Definition insert_split_key (nop : bool) (h : nat) (t : tree) (p : list nat) (hk k : nat)
             (pos_in_key : I) (slice : S) (size : I) : res (tree * nat * list nat * nat) :=
    let* node := node_at t p in
    let* key_size := slice_size X hk node k in
    let* s0 := slice_at node k in
    let (lhs, rhs) := sl_split_at Y s0 pos_in_key in
    let* t1 := set_slice_at t p k lhs in
    let* rhs_size := ix_sub_left X key_size pos_in_key in
    let lhs_size := pos_in_key in
    if negb (sl_may_join Y) then
      let* (t', h', cur) := insert_rhs h t1 p hk k lhs_size false (slice, size) (Some (rhs, rhs_size)) in
      Ok (t', h', cur, 2)
    else
      match sl_try_join Y lhs slice with
      | inl mid =>
        let* mid_size := ix_add_right X lhs_size size in
        match sl_try_join Y mid rhs with
        | inl new =>
          let* t2 := set_slice_at t1 p k new in
          let* old := ix_add_right X lhs_size rhs_size in
          let* new' := ix_add_right X mid_size rhs_size in
          let* st := upd (fun n => key_step n k None old new' []) None t2 p in
          let* (t', h', cur) := finish_root h st in
          Ok (t', h', cur, 0)
        | inr (l, r) =>
          let* t2 := set_slice_at t1 p k l in
          let* (t', h', cur) :=
            insert_rhs h t2 p hk k mid_size (negb nop) (r, rhs_size) None in
          Ok (t', h', cur, 1)
        end
      | inr (l, s) =>
        let* t2 := set_slice_at t1 p k l in
        match sl_try_join Y s rhs with
        | inl new =>
          let* size' := ix_add_right X size rhs_size in
          let* (t', h', cur) := insert_rhs h t2 p hk k lhs_size false (new, size') None in
          Ok (t', h', cur, 1)
        | inr (m, r) =>
          let* (t', h', cur) :=
            insert_rhs h t2 p hk k lhs_size false (m, size) (Some (r, rhs_size)) in
          Ok (t', h', cur, 2)
        end
      end.

  (** A key handle's height: path length below the root. *)
  Definition handle_height (h : nat) (a : handle) : nat := h - length (fst a).

  (** slice and size at a handle *)
  Definition handle_slice (t : tree) (a : handle) : res S :=
    let* n := node_at t (fst a) in slice_at n (snd a).
  Definition handle_size (h : nat) (t : tree) (a : handle) : res I :=
    let* n := node_at t (fst a) in slice_size X (handle_height h a) n (snd a).

  (** Outcome of `do_insert_full_edge_try_join` (src/tree/insert.rs 670-824): joined (new tree and
      cursor), or the slice back together with the tree (the neighbours may have been rewritten by a
      failed `try_join`). *)
  Inductive join_result : Type :=
  | Joined (t : tree) (h : nat) (cur : list nat)
  | NotJoined (t : tree) (s : S).

  (** The common tail at lines 806-823. *)
  Definition single_join (h : nat) (t : tree) (a : handle) (old new : I) : res join_result :=
    let* st := upd (fun n => key_step n (snd a) None old new []) None t (fst a) in
    let* (t', h', cur) := finish_root h st in
    Ok (Joined t' h' cur).

  Definition edge_try_join (h : nat) (t : tree) (lhs rhs : option handle) (slice : S) (size : I)
    : res join_result :=
    if negb (sl_may_join Y) then Ok (NotJoined t slice)
    else
      let* lsz := match lhs with
                  | None => Ok None
                  | Some a => let* z := handle_size h t a in Ok (Some (z, a))
                  end in
      let* rsz := match rhs with
                  | None => Ok None
                  | Some a => let* z := handle_size h t a in Ok (Some (z, a))
                  end in
      match lsz, rsz with
      | None, None => Panic PUnreachable
      | Some (lhs_size, la), None =>
        let* ls := handle_slice t la in
        match sl_try_join Y ls slice with
        | inl new =>
          let* t1 := set_slice_at t (fst la) (snd la) new in
          let* ns := ix_add_right X lhs_size size in
          single_join h t1 la lhs_size ns
        | inr (l, s) =>
          let* t1 := set_slice_at t (fst la) (snd la) l in
          Ok (NotJoined t1 s)
        end
      | None, Some (rhs_size, ra) =>
        let* rs := handle_slice t ra in
        match sl_try_join Y slice rs with
        | inl new =>
          let* t1 := set_slice_at t (fst ra) (snd ra) new in
          let* ns := ix_add_left X rhs_size size in
          single_join h t1 ra rhs_size ns
        | inr (s, r) =>
          let* t1 := set_slice_at t (fst ra) (snd ra) r in
          Ok (NotJoined t1 s)
        end
      | Some (lhs_size, la), Some (rhs_size, ra) =>
        let* ls := handle_slice t la in
        match sl_try_join Y ls slice with
        | inl mid =>
          let* mid_size := ix_add_right X lhs_size size in
          let* rs := handle_slice t ra in
          match sl_try_join Y mid rs with
          | inl _ =>
            let* _ := ix_add_right X mid_size rhs_size in
            Panic PTodo (* handle_join_deletion, lines 966-977 *)
          | inr (m, r) =>
            let* t1 := set_slice_at t (fst ra) (snd ra) r in
            let* t2 := set_slice_at t1 (fst la) (snd la) m in
            single_join h t2 la lhs_size mid_size
          end
        | inr (l, s) =>
          let* t1 := set_slice_at t (fst la) (snd la) l in
          let* rs := handle_slice t1 ra in
          match sl_try_join Y s rs with
          | inl new =>
            let* t2 := set_slice_at t1 (fst ra) (snd ra) new in
            let* ns := ix_add_right X size rhs_size in
            single_join h t2 ra rhs_size ns
          | inr (s', r) =>
            let* t2 := set_slice_at t1 (fst ra) (snd ra) r in
            Ok (NotJoined t2 s')
          end
        end
      end.

  (** `do_insert_full_edge` (src/tree/insert.rs 483-523). *)
  Definition insert_edge (h : nat) (t : tree) (p : list nat) (k : nat) (lhs rhs : option handle)
             (slice : S) (size : I) : res (tree * nat * list nat * nat) :=
    let* node := node_at t p in
    if tlen node <? k then UB
    else
      let* jr := edge_try_join h t lhs rhs slice size in
      match jr with
      | Joined t' h' cur => Ok (t', h', cur, 0)
      | NotJoined t1 s =>
        let* st := upd (no_join_leaf false k None (s, size) None) None t1 p in
        let* (t', h', cur) := finish_root h st in
        Ok (t', h', cur, 1)
      end.

  (** `insert_internal` (src/tree/insert.rs 41-197) as called by `insert_with_cursor`
      (src/tree/mod.rs 695-701).  [nop] is the cursor type's IS_NOP; the result cursor of a no-op
      cursor is meaningless.  Not modelled here: COW uniqueness (Cow.v), borrow state and reference
      store (Refs*.v). *)
  Definition insert_with_cursor (nop : bool) (r : rle) (hints : list nat) (idx : I) (slice : S)
             (size : I) : res (rle * list nat) :=
    let* sz := rle_size X r in
    if ix_ltb X sz idx then Panic POutOfBounds
    else if ix_leb X size (ix_zero X) then Panic PBadSize
    else
      match r with
      | None => let* r' := rle_new X slice size in Ok (r', [])
      | Some r =>
        let* ip := find_insertion_point (r_height r) (r_node r) hints idx [] None None in
        let* (t', h', cur, added) :=
          match ip with
          | EdgeInsert p k lhs rhs =>
            insert_edge (r_height r) (r_node r) p k lhs rhs slice size
          | SplitKeyInsert p hk k pos_in_key =>
            insert_split_key nop (r_height r) (r_node r) p hk k pos_in_key slice size
          end in
        Ok (Some {| r_height := h'; r_node := t'; r_len := r_len r + added |}, cur)
      end.

  (** `RleTree::insert` (src/tree/mod.rs 677-679): with `NoCursor`. *)
  Definition insert (r : rle) (idx : I) (slice : S) (size : I) : res rle :=
    let* (r', _) := insert_with_cursor true r [] idx slice size in Ok r'.
End Insert.

Arguments Done {I S}.
Arguments Bubble {I S}.
