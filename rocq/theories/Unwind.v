(** Insertion when the arithmetic (overflow) or a comparison of the index type panics: what is left of the tree, and which slices the
    unwinding drops (src/tree/insert.rs, src/tree/fix.rs).  The same functions as in Insert.v; at every operation that
    may panic they say what is in the tree at that moment, and which slices are in variables with a destructor:
    arguments, `Key`s, and nodes in a `NodeBox` or `SharedNodeBox` (src/tree/mod.rs 925-1047), whose destructor drops
    the subtree.  The order of the drops is not modelled.  Nothing puts anything back: there is no other guard.
    Simplified away as in Insert.v; with AllowSliceRefs the tree stays locked (C47). *)
From Coq Require Import List ZArith Bool Arith.
From Verif Require Import Base Index Slice Tree Insert Crash Wild.
Import ListNotations.

(** A call that returns, unwinds (leaving [left], dropping the slices [lost]), or is undefined. *)
Inductive ures (T S A : Type) : Type :=
| UOk (a : A)
| UPan (w : why) (left : T) (lost : list S)
| UUB.
Arguments UOk {T S A} a.
Arguments UPan {T S A} w left lost.
Arguments UUB {T S A}.

Definition ubind {T S A B} (m : ures T S A) (f : A -> ures T S B) : ures T S B :=
  match m with UOk a => f a | UPan w l d => UPan w l d | UUB => UUB end.
Notation "'let!' x := m 'in' k" := (ubind m (fun x => k)) (at level 200, x pattern, right associativity).

(** [m], run while [left] is in the tree and the slices [lost] are in variables. *)
Definition at_ {T S A} (left : T) (lost : list S) (m : res A) : ures T S A :=
  match m with Ok a => UOk a | Panic w => UPan w left lost | UB => UUB end.

(** Forget what is left: the outcomes of Insert.v. *)
Definition forget {T S A} (m : ures T S A) : res A :=
  match m with UOk a => Ok a | UPan w _ _ => Panic w | UUB => UB end.

(** The same with another description of what is left. *)
Definition umap {T U S A} (f : T -> res U) (m : ures T S A) : ures U S A :=
  match m with
  | UOk a => UOk a
  | UPan w l d => match f l with Ok l' => UPan w l' d | _ => UUB end
  | UUB => UUB
  end.

(** Comparisons of indexes that panic (`Ord` and `PartialOrd` are user code as well).  [cp_search] is for those made
    before anything is changed: `idx > self.size()`, `size <= I::ZERO` (src/tree/insert.rs 57-62; src/tree/mod.rs 342),
    those of the search (src/tree/mod.rs 852-917, src/tree/insert.rs 1247); whichever of them panics, and after how many
    others, the tree is as it was, so which one is not modelled.  [cp_shift] is for `opts.new_size > opts.old_size` in
    `shift_keys_auto` (src/tree/fix.rs 636), the only other one. *)
Record cmp_panics {I : Type} : Type := {
  cp_search : option why;
  cp_shift : I -> I -> option why;
}.
(** No comparison panics. *)
Definition calm {I : Type} : @cmp_panics I := {| cp_search := None; cp_shift := fun _ _ => None |}.
(** What a comparison of which this is known does. *)
Definition cmp_res (o : option why) : res unit := match o with None => Ok tt | Some w => Panic w end.

Section Unwind.
  Context {I S : Type} (X : index_ops I) (B : @cmp_panics I) (Y : slice_ops I S) (M : nat).
  Notation tree := (tree I S).
  Notation entry := (entry_of I S) (only parsing).
  Notation max_len := (max_len M).
  Notation ur := (ures tree S).

  (** The keys while `set_key_poss_with` (src/tree/node.rs 1325-1352) runs, when a call of [f] panics: those before
      it are already moved. *)
  Fixpoint partly (f : I -> res I) (es : list entry) : list entry :=
    match es with
    | [] => []
    | e :: es' =>
      match f (e_pos e) with
      | Ok p => (p, e_slice e, e_child e) :: partly f es'
      | _ => e :: es'
      end
    end.

  (** The node when `shift_keys` (src/tree/fix.rs 686-759) has panicked. *)
  Definition shift_left (increase : bool) (t : tree) (from : nat) (pos old_size new_size : I) : tree :=
    match t with
    | Nil => Nil
    | Node tot c0 es =>
      match (let* old_end := ix_add_right X pos old_size in
             let* new_end := ix_add_right X pos new_size in
             if increase then ix_sub_left X new_end old_end else ix_sub_right X old_end new_end) with
      | Ok diff =>
        Node tot c0 (firstn from es ++
          partly (fun k => if increase then ix_add_left X k diff else ix_sub_left X k diff) (skipn from es))
      | _ => t
      end
    end.

  (** `shift_keys` and `shift_keys_auto` (src/tree/fix.rs 626-642, 686-759) on a node of the tree. *)
  Definition ushift (increase : bool) (t : tree) (from : nat) (pos old_size new_size : I) : ur tree :=
    at_ (shift_left increase t from pos old_size new_size) [] (shift_keys X increase t from pos old_size new_size).
  Definition ushift_auto (t : tree) (from : nat) (pos old_size new_size : I) : ur tree :=
    let! _ := at_ t [] (cmp_res (cp_shift B new_size old_size)) in
    ushift (ix_ltb X old_size new_size) t from pos old_size new_size.

  (** `OpUpdateState::do_upward_step` for `ChildOrKey::Key` (src/tree/fix.rs 522-586): every slice is in the tree. *)
  Definition ukey_step (t : tree) (k : nat) (override_pos : option I) (old_size new_size : I)
             (cur : list nat) : ur (@upstate I S) :=
    let! pos := at_ t [] (match override_pos with Some p => Ok p | None => key_pos t k end) in
    let! old_total := at_ t [] (tsize t) in
    let! t' := ushift_auto t (k + 1) pos old_size new_size in
    let! new_total := at_ t' [] (tsize t') in
    UOk (Done t' old_total new_total cur).

  (** The same for `ChildOrKey::Child`, with `map_sizes` of `insert_rhs` (src/tree/insert.rs 1061-1110). *)
  Definition uchild_step (t : tree) (c : nat) (here : option (@lhsinfo I)) (old_size new_size : I)
             (cur : list nat) : ur (@upstate I S) :=
    let! (override_pos, old_size', new_size', cur') :=
      at_ t [] (match here with
      | None => Ok (None, old_size, new_size, cur)
      | Some l =>
        let* old_lhs_end := ix_add_right X (l_pos l) (l_old l) in
        let* new_lhs_end := ix_add_right X (l_pos l) (l_new l) in
        let* next := key_pos_or_end t c in
        let* pos := ix_sub_left X next old_size in
        let* diff := ix_sub_left X pos old_lhs_end in
        let* o1 := ix_add_left X old_size diff in
        let* o2 := ix_add_left X o1 (l_old l) in
        let* n1 := ix_add_left X new_size diff in
        let* n2 := ix_add_left X n1 (l_new l) in
        Ok (Some (l_pos l), o2, n2, if l_remap l then [] else cur)
      end) in
    let! pos :=
      at_ t [] (match override_pos with
      | Some p => Ok p
      | None => let* next := key_pos_or_end t c in ix_sub_left X next old_size'
      end) in
    let! old_total := at_ t [] (tsize t) in
    let! t' := ushift_auto t c pos old_size' new_size' in
    let! new_total := at_ t' [] (tsize t') in
    UOk (Done t' old_total new_total (c :: cur')).

  (** `BubbledInsertState::do_upward_step` with a parent (src/tree/insert.rs 1925-2330).  `self.key` and `self.rhs`
      (a `NodeBox`) are variables until they are placed; after a split also `midpoint_key` and `rhs` (a `NodeBox`,
      which holds `self.lhs` if that was in the right half), and `old_first_child` (a `SharedNodeBox`, 2261). *)
  Definition ububble_step (t : tree) (c : nat) (here : option (@lhsinfo I)) (b : @bubble I S) : ur (@upstate I S) :=
    let key_rhs := b_key b :: slices (b_rhs b) in
    let! lhs_size := at_ t key_rhs (tsize (b_lhs b)) in
    let! a := at_ t key_rhs (ix_add_right X lhs_size (b_key_size b)) in
    let! rhs_size := at_ t key_rhs (tsize (b_rhs b)) in
    let! new_total := at_ t key_rhs (ix_add_right X a rhs_size) in
    if tlen t <? max_len then
      let! (override_pos, old_size, new_size, lhs_child_pos) :=
        at_ t key_rhs (match here with
        | Some k =>
          let* o := ix_add_left X (b_old b) (l_old k) in
          let* n := ix_add_left X new_total (l_new k) in
          let* p := ix_add_right X (l_pos k) (l_new k) in
          Ok (l_pos k, o, n, p)
        | None =>
          let* next := key_pos_or_end t c in
          let* p := ix_sub_right X next (b_old b) in
          Ok (p, b_old b, new_total, p)
        end) in
      let! (t1, _) := at_ t key_rhs (insert_key_and_child M t c (b_key b) (b_rhs b)) in
      let! midpoint_pos := at_ t1 [] (ix_add_right X lhs_child_pos lhs_size) in
      let! t2 := at_ t1 [] (set_single_key_pos t1 c midpoint_pos) in
      let cur := opt_cons (option_map (fun s => c + side_nat s) (b_side b)) (b_cur b) in
      let cur' := match here with Some l => if l_remap l then [] else cur | None => cur end in
      ukey_step t2 c (Some override_pos) old_size new_size cur'
    else
      let! old_parent_size := at_ t key_rhs (tsize t) in
      let midpoint_idx := if M <? c then M else M - 1 in
      let! (p0, (mid_pos, mid_slice), r0) := at_ t key_rhs (split t midpoint_idx) in
      let lost := mid_slice :: slices r0 ++ key_rhs in
      let! parent := at_ p0 lost (set_subtree_size p0 mid_pos) in
      let! first_key_pos :=
        at_ parent lost (match try_key_pos r0 0 with
        | Some p => Ok p
        | None => if 1 <? M then UB else tsize r0
        end) in
      let! first_child_size :=
        at_ parent lost (if (c =? M) || (c =? M + 1) then Ok (b_old b) else child_size r0 0) in
      let! rhs_start := at_ parent lost (ix_sub_right X first_key_pos first_child_size) in
      let! midpoint_size0 := at_ parent lost (ix_sub_left X rhs_start mid_pos) in
      if negb (c =? M) then
        let! r1 := at_ parent lost (shift_keys X false r0 0 (ix_zero X) rhs_start (ix_zero X)) in
        let '(midpoint_size, shift) :=
          match here with
          | Some l => if c =? M + 1 then (l_new l, None) else (midpoint_size0, Some l)
          | None => (midpoint_size0, None)
          end in
        let right := M <? c in
        let k := if right then c - (M + 1) else c in
        let! shift' :=
          at_ parent lost (match shift with
          | None => Ok None
          | Some l =>
            if right then
              let* p := ix_sub_left X (l_pos l) rhs_start in
              Ok (Some (p, l_old l, l_new l))
            else Ok (Some (l_pos l, l_old l, l_new l))
          end) in
        let into := if right then r1 else parent in
        let! (lhs_child_pos, shift_pos, old0, new0) :=
          at_ parent lost (match shift' with
          | None =>
            let* next := key_pos_or_end into k in
            let* p := ix_sub_right X next (b_old b) in
            Ok (p, p, ix_zero X, ix_zero X)
          | Some (lp, lo, ln) =>
            let* p := ix_add_right X lp ln in
            Ok (p, lp, lo, ln)
          end) in
        let! key_pos := at_ parent lost (ix_add_right X lhs_child_pos lhs_size) in
        let! old_size := at_ parent lost (ix_add_right X old0 (b_old b)) in
        let! new_size := at_ parent lost (ix_add_right X new0 new_total) in
        let! (i1, _) := at_ parent lost (insert_key_and_child M into k (b_key b) (b_rhs b)) in
        let! i2 := at_ parent lost (set_single_key_pos i1 k key_pos) in
        let! i3 := at_ (if right then parent else shift_left true i2 (k + 1) shift_pos old_size new_size)
                       (mid_slice :: slices (if right then i2 else r1))
                       (shift_keys X true i2 (k + 1) shift_pos old_size new_size) in
        let cur := opt_cons (option_map (fun s => k + side_nat s) (b_side b)) (b_cur b) in
        UOk (Bubble {| b_lhs := if right then parent else i3;
                       b_key := mid_slice; b_key_size := midpoint_size;
                       b_rhs := if right then i3 else r1;
                       b_old := old_parent_size;
                       b_side := Some (if right then SRight else SLeft);
                       b_cur := cur |})
      else
        let midpoint_size := match here with Some l => l_new l | None => midpoint_size0 end in
        let! new_first_child_size := at_ parent lost (tsize (b_rhs b)) in
        let! (r1, old_first_child) := at_ parent lost (replace_first_child r0 (b_rhs b)) in
        let lost' := mid_slice :: slices old_first_child ++ b_key b :: slices r1 in
        let! old_first_child_size := at_ parent lost' (tsize old_first_child) in
        let! plhs_size := at_ parent lost' (tsize parent) in
        let! q := at_ parent lost' (ix_add_right X plhs_size midpoint_size) in
        let! new_lhs_size := at_ parent lost' (ix_add_right X q old_first_child_size) in
        let! parent' := at_ parent lost' (push_key_and_child M parent mid_slice old_first_child new_lhs_size) in
        let lost2 := b_key b :: slices r1 in
        let! first_rhs_key_pos := at_ parent' lost2 (key_pos r1 0) in
        let! r2 := at_ parent' lost2 (shift_keys_auto X r1 0 (ix_zero X) first_rhs_key_pos new_first_child_size) in
        let cur := opt_cons (option_map (fun s => match s with SRight => 0 | SLeft => M end)
                                        (b_side b)) (b_cur b) in
        UOk (Bubble {| b_lhs := parent'; b_key := b_key b; b_key_size := b_key_size b;
                       b_rhs := r2; b_old := old_parent_size;
                       b_side := b_side b; b_cur := cur |}).

  (** One level of the upward loops (src/tree/fix.rs 497-516, src/tree/insert.rs 1902-1923). *)
  Definition uup_step (t : tree) (c : nat) (here : option (@lhsinfo I)) (st : @upstate I S) : ur (@upstate I S) :=
    match st with
    | Done n old new cur =>
      let! t1 := at_ t [] (set_child t c n) in uchild_step t1 c here old new cur
    | Bubble b =>
      let! t1 := at_ t [] (set_child t c (b_lhs b)) in
      let! st' := ububble_step t1 c here b in
      UOk (remap_bubble here st')
    end.

  (** [f] at the node at path [p], then the upward steps; a panic in a child leaves the nodes above as they were. *)
  Fixpoint uupd (f : tree -> ur (@upstate I S)) (lhs : option (nat * @lhsinfo I)) (t : tree) (p : list nat)
    : ur (@upstate I S) :=
    match p with
    | [] => f t
    | c :: p' =>
      let! ch := at_ t [] (child t c) in
      let '(here, below) :=
        match lhs with
        | Some (0, l) => (Some l, None)
        | Some (Datatypes.S d, l) => (None, Some (d, l))
        | None => (None, None)
        end in
      let! st := umap (set_child t c) (uupd f below ch p') in
      uup_step t c here st
    end.

  (** `do_insert_full_edge_no_join_split_small_m` (src/tree/insert.rs 1774-1881): no arithmetic. *)
  Definition usplit_leaf_small_m (t : tree) (k : nat) (ov : option I) (fst : S * I) (snd : S * I)
    : ur (@bubble I S * option (side * nat)) :=
    at_ t [Datatypes.fst fst; Datatypes.fst snd] (split_leaf_small_m X M t k ov fst snd).

  (** `do_insert_full_edge_no_join_split` (src/tree/insert.rs 1338-1760): `fst` and `snd` are variables until placed,
      `midpoint_key` and `rhs` (a `NodeBox`) from the split on. *)
  Definition usplit_leaf (t : tree) (k : nat) (ov : option I) (fst : S * I) (snd : option (S * I))
    : ur (@bubble I S * option (side * nat)) :=
    let snds := match snd with Some sn => [Datatypes.fst sn] | None => [] end in
    let args := Datatypes.fst fst :: snds in
    if (M =? 1) && (tlen t =? 1) then
      match snd with
      | Some sn => usplit_leaf_small_m t k ov fst sn
      | None => UUB
      end
    else
      let '(midpoint_idx, insert_at) :=
        choose_split M k (tlen t) (match snd with Some _ => true | None => false end) in
      let! (n0, (mid_pos, mid_slice), r0) := at_ t args (split t midpoint_idx) in
      let lost := mid_slice :: slices r0 ++ args in
      let! old_node_size := at_ n0 lost (tsize n0) in
      let rhs_start := match try_key_pos r0 0 with Some p => p | None => old_node_size end in
      let handled :=
        match insert_at with
        | inr _ => true
        | inl SRight => k =? midpoint_idx + 1
        | inl SLeft => false
        end in
      let! (midpoint_size, ov') :=
        at_ n0 lost (match ov with
        | Some s =>
          if handled then Ok (s, None)
          else let* d := ix_sub_left X rhs_start mid_pos in Ok (d, ov)
        | None => let* d := ix_sub_left X rhs_start mid_pos in Ok (d, ov)
        end) in
      let! n1 := at_ n0 lost (set_subtree_size n0 mid_pos) in
      let! r1 := at_ n1 lost (shift_keys X false r0 0 (ix_zero X) rhs_start (ix_zero X)) in
      match insert_at with
      | inr SRight =>
        let! lhs_tot := at_ n1 lost (tsize n1) in
        let! new_lhs := at_ n1 lost (ix_add_right X lhs_tot midpoint_size) in
        let! n2 := at_ n1 lost (push_key M n1 mid_slice new_lhs) in
        let! r2 :=
          match snd with
          | None => UOk r1
          | Some (s2, size2) =>
            let! (r', pos) := at_ n2 (slices r1 ++ args) (insert_key M r1 0 s2) in
            at_ n2 (slices r' ++ [Datatypes.fst fst]) (shift_keys X true r' 1 pos (ix_zero X) size2)
          end in
        UOk ({| b_lhs := n2; b_key := Datatypes.fst fst; b_key_size := Datatypes.snd fst;
                b_rhs := r2; b_old := old_node_size; b_side := None; b_cur := [] |}, None)
      | inr SLeft =>
        match snd with
        | None => UUB
        | Some (s2, size2) =>
          let! lhs_tot := at_ n1 lost (tsize n1) in
          let! lhs_key_end := at_ n1 lost (ix_add_right X lhs_tot midpoint_size) in
          let! fst_key_end := at_ n1 lost (ix_add_right X lhs_key_end (Datatypes.snd fst)) in
          let mp_idx := tlen n1 in
          let! n2 := at_ n1 lost (push_key M n1 mid_slice lhs_key_end) in
          let! n3 := at_ n2 (slices r1 ++ args) (push_key M n2 (Datatypes.fst fst) fst_key_end) in
          UOk ({| b_lhs := n3; b_key := s2; b_key_size := size2;
                  b_rhs := r1; b_old := old_node_size; b_side := Some SLeft; b_cur := [] |},
               Some (SLeft, mp_idx + 1))
        end
      | inl sd =>
        (* [now i]: what is in the tree and what is not, when the node inserted into is [i] *)
        let left i := match sd with SLeft => i | SRight => n1 end in
        let boxed i := mid_slice :: slices (match sd with SLeft => r1 | SRight => i end) in
        let into := match sd with SLeft => n1 | SRight => r1 end in
        let k' := match sd with SLeft => k | SRight => k - (midpoint_idx + 1) end in
        let! (pos, old_size, new_size0) :=
          at_ n1 lost (match ov' with
          | None => let* p := key_pos_or_end into k' in Ok (p, ix_zero X, ix_zero X)
          | Some s =>
            if k' =? 0 then UB else
            let* p := key_pos into (k' - 1) in
            let* sz := slice_size X 0 into (k' - 1) in
            Ok (p, sz, s)
          end) in
        let! (i1, _) := at_ n1 lost (insert_key M into k' (Datatypes.fst fst)) in
        let! fst_pos := at_ (left i1) (boxed i1 ++ snds) (ix_add_right X pos new_size0) in
        let! i2 := at_ (left i1) (boxed i1 ++ snds) (set_single_key_pos i1 k' fst_pos) in
        let! new_size1 := at_ (left i2) (boxed i2 ++ snds) (ix_add_right X new_size0 (Datatypes.snd fst)) in
        let! (i3, new_size2, from) :=
          match snd with
          | None => UOk (i2, new_size1, k' + 1)
          | Some (s2, size2) =>
            let! (j1, _) := at_ (left i2) (boxed i2 ++ snds) (insert_key M i2 (k' + 1) s2) in
            let! ns := at_ (left j1) (boxed j1) (ix_add_right X new_size1 size2) in
            let! snd_pos := at_ (left j1) (boxed j1) (ix_add_right X fst_pos (Datatypes.snd fst)) in
            let! j2 := at_ (left j1) (boxed j1) (set_single_key_pos j1 (k' + 1) snd_pos) in
            UOk (j2, ns, k' + 2)
          end in
        let! i4 := at_ (left (shift_left true i3 from pos old_size new_size2)) (boxed i3)
                       (shift_keys X true i3 from pos old_size new_size2) in
        UOk ({| b_lhs := match sd with SLeft => i4 | SRight => n1 end;
                b_key := mid_slice; b_key_size := midpoint_size;
                b_rhs := match sd with SLeft => r1 | SRight => i4 end;
                b_old := old_node_size; b_side := Some sd; b_cur := [] |}, Some (sd, k'))
      end.

  (** `do_insert_full_edge_no_join` (src/tree/insert.rs 844-958). *)
  Definition uno_join_leaf (remap : bool) (k : nat) (ov : option I) (fst : S * I)
             (snd : option (S * I)) (t : tree) : ur (@upstate I S) :=
    if (tlen t <? k) || ((match ov with Some _ => true | None => false end) && (k =? 0)) then UUB
    else
      let snds := match snd with Some sn => [Datatypes.fst sn] | None => [] end in
      let args := Datatypes.fst fst :: snds in
      let! added := at_ t args (match snd with
                    | Some (_, size2) => ix_add_right X (Datatypes.snd fst) size2
                    | None => Ok (Datatypes.snd fst)
                    end) in
      let one_if_snd := match snd with Some _ => 1 | None => 0 end in
      if max_len - one_if_snd <=? tlen t then
        let! r := usplit_leaf t k ov fst snd in
        UOk (Bubble (remap_leaf remap r))
      else
        match ov with
        | Some new_lhs_size =>
          let! lhs_pos := at_ t args (key_pos t (k - 1)) in
          let! old_lhs_size := at_ t args (slice_size X 0 t (k - 1)) in
          let! slice_pos := at_ t args (ix_add_right X lhs_pos new_lhs_size) in
          let! (t1, _) := at_ t args (insert_key M t k (Datatypes.fst fst)) in
          let! t2 := at_ t1 snds (set_single_key_pos t1 k slice_pos) in
          let! t3 :=
            match snd with
            | None => UOk t2
            | Some (s2, _) =>
              let! (u1, _) := at_ t2 snds (insert_key M t2 (k + 1) s2) in
              let! p := at_ u1 [] (ix_add_right X slice_pos (Datatypes.snd fst)) in
              at_ u1 [] (set_single_key_pos u1 (k + 1) p)
            end in
          let! new_size := at_ t3 [] (ix_add_right X new_lhs_size added) in
          ukey_step t3 (k + one_if_snd) (Some lhs_pos) old_lhs_size new_size []
        | None =>
          let! (t1, slice_pos) := at_ t args (insert_key M t k (Datatypes.fst fst)) in
          let! (t2, override_pos) :=
            match snd with
            | None => UOk (t1, None)
            | Some (s2, _) =>
              let! (u1, _) := at_ t1 snds (insert_key M t1 (k + 1) s2) in
              let! p := at_ u1 [] (ix_add_right X slice_pos (Datatypes.snd fst)) in
              let! u2 := at_ u1 [] (set_single_key_pos u1 (k + 1) p) in
              UOk (u2, Some slice_pos)
            end in
          ukey_step t2 (k + one_if_snd) override_pos (ix_zero X) added []
        end.

  (** The root case of `BubbledInsertState::do_upward_step` (src/tree/insert.rs 1938-1957) and the end of
      `insert_internal` (153-171).  `make_new_parent` (src/tree/node.rs 1689-1792) gets `rhs` out of its box, so a
      panic in it would leak `rhs`: only the key would be dropped. *)
  Definition ufinish_root (h : nat) (st : @upstate I S) : ur (tree * nat * list nat) :=
    match st with
    | Done n _ _ cur => UOk (n, h, cur)
    | Bubble b =>
      let key_rhs := b_key b :: slices (b_rhs b) in
      let! lhs_size := at_ (b_lhs b) key_rhs (tsize (b_lhs b)) in
      let! a := at_ (b_lhs b) key_rhs (ix_add_right X lhs_size (b_key_size b)) in
      let! rhs_size := at_ (b_lhs b) key_rhs (tsize (b_rhs b)) in
      let! _ := at_ (b_lhs b) key_rhs (ix_add_right X a rhs_size) in
      let cur := opt_cons (option_map side_nat (b_side b)) (b_cur b) in
      let! n := at_ (b_lhs b) [b_key b] (make_new_parent X (b_lhs b) (b_key b) (b_key_size b) (b_rhs b)) in
      UOk (n, h + 1, cur)
    end.

  (** `insert_rhs` (src/tree/insert.rs 983-1204). *)
  Definition uinsert_rhs (h : nat) (t : tree) (p : list nat) (hk : nat) (k : nat) (new_lhs_size : I)
             (remap : bool) (fst : S * I) (snd : option (S * I)) : ur (tree * nat * list nat) :=
    let args := Datatypes.fst fst :: match snd with Some sn => [Datatypes.fst sn] | None => [] end in
    let! node := at_ t args (node_at t p) in
    let! lhs_pos := at_ t args (key_pos node k) in
    let! old_lhs_size := at_ t args (slice_size X hk node k) in
    let! st :=
      match hk with
      | 0 => uupd (uno_join_leaf remap (k + 1) (Some new_lhs_size) fst snd) None t p
      | Datatypes.S hc =>
        let l := {| l_pos := lhs_pos; l_old := old_lhs_size; l_new := new_lhs_size;
                    l_remap := remap |} in
        uupd (uno_join_leaf false 0 None fst snd) (Some (length p, l)) t
             (p ++ (k + 1) :: repeat 0 hc)
      end in
    ufinish_root h st.

  (** What is left in the end: the nodes, from which slices may have been moved out ([None]), and what was added to
      and taken off `root.len`. *)
  Notation otree := (Tree.tree I (option S)).
  Record remains : Type := { m_tree : otree; m_added : nat; m_taken : nat }.
  Notation um := (ures remains S).
  Definition whole (added : nat) (t : tree) : remains := {| m_tree := tmap Some t; m_added := added; m_taken := 0 |}.
  Definition all_in (added : nat) {A} (m : ur A) : um A := umap (fun t => Ok (whole added t)) m.
  Definition holed {A} (t : tree) (a : handle) (taken : nat) (lost : list S) (m : res A) : um A :=
    match m with
    | Ok x => UOk x
    | UB => UUB
    | Panic w =>
      match set_slice_at (tmap Some t) (fst a) (snd a) None with
      | Ok o => UPan w {| m_tree := o; m_added := 0; m_taken := taken |} lost
      | _ => UUB
      end
    end.

  (** `do_insert_full_split_key` (src/tree/insert.rs 529-652).  The key is a hole from 567 until 576, 584 or 619: also
      while `lhs_size.add_right(slice_size)` (573) runs, when [mid] holds both slices. *)
  Definition uinsert_split_key (nop : bool) (h : nat) (t : tree) (p : list nat) (hk k : nat)
             (pos_in_key : I) (slice : S) (size : I) : um (tree * nat * list nat * nat) :=
    let! node := at_ (whole 0 t) [slice] (node_at t p) in
    let! key_size := at_ (whole 0 t) [slice] (slice_size X hk node k) in
    let! s0 := at_ (whole 0 t) [slice] (slice_at node k) in
    let (lhs, rhs) := sl_split_at Y s0 pos_in_key in
    let! t1 := at_ (whole 0 t) [slice] (set_slice_at t p k lhs) in
    let! rhs_size := at_ (whole 0 t1) [slice; rhs] (ix_sub_left X key_size pos_in_key) in
    let lhs_size := pos_in_key in
    if negb (sl_may_join Y) then
      let! (t', h', cur) :=
        all_in 2 (uinsert_rhs h t1 p hk k lhs_size false (slice, size) (Some (rhs, rhs_size))) in
      UOk (t', h', cur, 2)
    else
      match sl_try_join Y lhs slice with
      | inl mid =>
        let! mid_size := holed t1 (p, k) 0 [mid; rhs] (ix_add_right X lhs_size size) in
        match sl_try_join Y mid rhs with
        | inl new =>
          let! t2 := at_ (whole 0 t1) [new] (set_slice_at t1 p k new) in
          let! old := at_ (whole 0 t2) [] (ix_add_right X lhs_size rhs_size) in
          let! new' := at_ (whole 0 t2) [] (ix_add_right X mid_size rhs_size) in
          let! st := all_in 0 (uupd (fun n => ukey_step n k None old new' []) None t2 p) in
          let! (t', h', cur) := all_in 0 (ufinish_root h st) in
          UOk (t', h', cur, 0)
        | inr (l, r) =>
          let! t2 := at_ (whole 0 t1) [l; r] (set_slice_at t1 p k l) in
          let! (t', h', cur) :=
            all_in 1 (uinsert_rhs h t2 p hk k mid_size (negb nop) (r, rhs_size) None) in
          UOk (t', h', cur, 1)
        end
      | inr (l, s) =>
        let! t2 := at_ (whole 0 t1) [l; s; rhs] (set_slice_at t1 p k l) in
        match sl_try_join Y s rhs with
        | inl new =>
          let! size' := at_ (whole 1 t2) [new] (ix_add_right X size rhs_size) in
          let! (t', h', cur) := all_in 1 (uinsert_rhs h t2 p hk k lhs_size false (new, size') None) in
          UOk (t', h', cur, 1)
        | inr (m, r) =>
          let! (t', h', cur) :=
            all_in 2 (uinsert_rhs h t2 p hk k lhs_size false (m, size) (Some (r, rhs_size))) in
          UOk (t', h', cur, 2)
        end
      end.

  (** The common tail of `do_insert_full_edge_try_join` (src/tree/insert.rs 806-823). *)
  Definition usingle_join (h : nat) (t : tree) (a : handle) (old new : I) : um (@join_result I S) :=
    let! st := all_in 0 (uupd (fun n => ukey_step n (snd a) None old new []) None t (fst a)) in
    let! (t', h', cur) := all_in 0 (ufinish_root h st) in
    UOk (Joined t' h' cur).

  (** `do_insert_full_edge_try_join` (src/tree/insert.rs 670-824).  The key on the left is a hole while
      `lhs_size.add_right(slice_size)` (747) runs; the key on the right is one from 755 on when both are joined,
      and `root.len` is one less (769). *)
  Definition uedge_try_join (h : nat) (t : tree) (lhs rhs : option handle) (slice : S) (size : I)
    : um (@join_result I S) :=
    if negb (sl_may_join Y) then UOk (NotJoined t slice)
    else
      let! lsz := at_ (whole 0 t) [slice] (match lhs with
                  | None => Ok None
                  | Some a => let* z := handle_size X h t a in Ok (Some (z, a))
                  end) in
      let! rsz := at_ (whole 0 t) [slice] (match rhs with
                  | None => Ok None
                  | Some a => let* z := handle_size X h t a in Ok (Some (z, a))
                  end) in
      match lsz, rsz with
      | None, None => UPan PUnreachable (whole 0 t) [slice]
      | Some (lhs_size, la), None =>
        let! ls := at_ (whole 0 t) [slice] (handle_slice t la) in
        match sl_try_join Y ls slice with
        | inl new =>
          let! t1 := at_ (whole 0 t) [] (set_slice_at t (fst la) (snd la) new) in
          let! ns := at_ (whole 0 t1) [] (ix_add_right X lhs_size size) in
          usingle_join h t1 la lhs_size ns
        | inr (l, s) =>
          let! t1 := at_ (whole 0 t) [] (set_slice_at t (fst la) (snd la) l) in
          UOk (NotJoined t1 s)
        end
      | None, Some (rhs_size, ra) =>
        let! rs := at_ (whole 0 t) [slice] (handle_slice t ra) in
        match sl_try_join Y slice rs with
        | inl new =>
          let! t1 := at_ (whole 0 t) [] (set_slice_at t (fst ra) (snd ra) new) in
          let! ns := at_ (whole 0 t1) [] (ix_add_left X rhs_size size) in
          usingle_join h t1 ra rhs_size ns
        | inr (s, r) =>
          let! t1 := at_ (whole 0 t) [] (set_slice_at t (fst ra) (snd ra) r) in
          UOk (NotJoined t1 s)
        end
      | Some (lhs_size, la), Some (rhs_size, ra) =>
        let! ls := at_ (whole 0 t) [slice] (handle_slice t la) in
        match sl_try_join Y ls slice with
        | inl mid =>
          let! mid_size := holed t la 0 [mid] (ix_add_right X lhs_size size) in
          let! rs := at_ (whole 0 t) [] (handle_slice t ra) in
          match sl_try_join Y mid rs with
          | inl new =>
            let! t1 := at_ (whole 0 t) [] (set_slice_at t (fst la) (snd la) new) in
            let! _ := holed t1 ra 1 [] (ix_add_right X mid_size rhs_size) in
            holed t1 ra 1 [] (Panic PTodo) (* handle_join_deletion, lines 966-977 *)
          | inr (m, r) =>
            let! t1 := at_ (whole 0 t) [] (set_slice_at t (fst ra) (snd ra) r) in
            let! t2 := at_ (whole 0 t) [] (set_slice_at t1 (fst la) (snd la) m) in
            usingle_join h t2 la lhs_size mid_size
          end
        | inr (l, s) =>
          let! t1 := at_ (whole 0 t) [] (set_slice_at t (fst la) (snd la) l) in
          let! rs := at_ (whole 0 t) [] (handle_slice t1 ra) in
          match sl_try_join Y s rs with
          | inl new =>
            let! t2 := at_ (whole 0 t) [] (set_slice_at t1 (fst ra) (snd ra) new) in
            let! ns := at_ (whole 0 t2) [] (ix_add_right X size rhs_size) in
            usingle_join h t2 ra rhs_size ns
          | inr (s', r) =>
            let! t2 := at_ (whole 0 t) [] (set_slice_at t1 (fst ra) (snd ra) r) in
            UOk (NotJoined t2 s')
          end
        end
      end.

  (** `do_insert_full_edge` (src/tree/insert.rs 483-523): `root.len` is raised before the insertion. *)
  Definition uinsert_edge (h : nat) (t : tree) (p : list nat) (k : nat) (lhs rhs : option handle)
             (slice : S) (size : I) : um (tree * nat * list nat * nat) :=
    let! node := at_ (whole 0 t) [slice] (node_at t p) in
    if tlen node <? k then UUB
    else
      let! jr := uedge_try_join h t lhs rhs slice size in
      match jr with
      | Joined t' h' cur => UOk (t', h', cur, 0)
      | NotJoined t1 s =>
        let! st := all_in 1 (uupd (uno_join_leaf false k None (s, size) None) None t1 p) in
        let! (t', h', cur) := all_in 1 (ufinish_root h st) in
        UOk (t', h', cur, 1)
      end.

  (** The tree of the caller once the call has unwound. *)
  Definition remaining (r : @root I S) (m : remains) : option (@root I (option S)) :=
    Some {| r_height := r_height r; r_node := m_tree m; r_len := r_len r + m_added m - m_taken m |}.
  Definition untouched (r : @rle I S) : option (@root I (option S)) :=
    match r with None => None | Some r => remaining r (whole 0 (r_node r)) end.

  (** `insert_internal` (src/tree/insert.rs 41-197) as called by `insert_with_cursor` (src/tree/mod.rs 695-701). *)
  Definition uinsert_with_cursor (nop : bool) (r : @rle I S) (hints : list nat) (idx : I) (slice : S) (size : I)
    : ures (option (@root I (option S))) S (@rle I S * list nat) :=
    let! sz := at_ (untouched r) [slice] (rle_size X r) in
    let! _ := at_ (untouched r) [slice] (cmp_res (cp_search B)) in
    if ix_ltb X sz idx then UPan POutOfBounds (untouched r) [slice]
    else if ix_leb X size (ix_zero X) then UPan PBadSize (untouched r) [slice]
    else
      match r with
      | None => let! r' := at_ (untouched r) [slice] (rle_new X slice size) in UOk (r', [])
      | Some r0 =>
        let! ip := at_ (untouched r) [slice]
                       (find_insertion_point X Y (r_height r0) (r_node r0) hints idx [] None None) in
        let! (t', h', cur, added) :=
          umap (fun m => Ok (remaining r0 m))
            match ip with
            | EdgeInsert p k lhs rhs =>
              uinsert_edge (r_height r0) (r_node r0) p k lhs rhs slice size
            | SplitKeyInsert p hk k pos_in_key =>
              uinsert_split_key nop (r_height r0) (r_node r0) p hk k pos_in_key slice size
            end in
        UOk (Some {| r_height := h'; r_node := t'; r_len := r_len r0 + added |}, cur)
      end.
End Unwind.
