(** The pointer side of insertion (src/tree/insert.rs, src/tree/fix.rs). *)
From Coq Require Import List Bool Arith.
From Verif Require Import Base Index Slice Tree Insert LTree.
Import ListNotations.

Section LInsert.
  Context (M : nat).
  Notation max_len := (2 * M).

  (** `BubbledInsertState` (src/tree/insert.rs 252-302): `lhs`, `key.ref_id`, `rhs`, `inserted`; and
      the states on the way up as in Insert.v. *)
  Record lbubble : Type := { lb_lhs : ltree; lb_key : option rid; lb_rhs : ltree; lb_ins : bool }.
  Inductive lupstate : Type := LDone (n : ltree) | LBubble (b : lbubble).

  (** `into_parent` (src/tree/node.rs 969-981): following the stored link of [n] must lead to the node
      at [a], of which [n] is child [c].  A wrong link would make the code continue in some other
      node; here this is UB. *)
  Definition into_parent (n : ltree) (a : addr) (c : nat) : sm unit :=
    match l_par n with
    | Some l => if loc_eqb l (a, c) then sret tt else sub
    | None => sub
    end.

  (** `make_update(&handle)` (src/tree/insert.rs 2004-2011, 2200-2209). *)
  Definition put (ins : bool) (l : loc) : tupdate := if ins then UPutBack l else UInsertion l.

  (** `BubbledInsertState::do_upward_step` with a parent (src/tree/insert.rs 1925-2330).  [t] is the
      parent, with `self.lhs` already in place as child [c]. *)
  Definition lbubble_step (t : ltree) (c : nat) (b : lbubble) : sm lupstate :=
    do* a := l_addr t in
    if l_len t <? max_len then
      (* lines 1963-2037 *)
      do* t1 := l_insert_key_and_child M t c (lb_key b) (lb_rhs b) in
      do* _ := notify (put (lb_ins b) (a, c)) in
      sret (LDone t1)
    else
      (* lines 2040-2329 *)
      do* (p0, mid, r0) := l_split t (if M <? c then M else M - 1) in
      if negb (c =? M) then
        if M <? c then
          let k := c - (M + 1) in
          do* i1 := l_insert_key_and_child M r0 k (lb_key b) (lb_rhs b) in
          do* a' := l_addr r0 in
          do* _ := notify (put (lb_ins b) (a', k)) in
          sret (LBubble {| lb_lhs := p0; lb_key := mid; lb_rhs := i1; lb_ins := true |})
        else
          do* i1 := l_insert_key_and_child M p0 c (lb_key b) (lb_rhs b) in
          do* _ := notify (put (lb_ins b) (a, c)) in
          sret (LBubble {| lb_lhs := i1; lb_key := mid; lb_rhs := r0; lb_ins := true |})
      else
        do* (r1, c0) := l_replace_first_child r0 (lb_rhs b) in
        do* p1 := l_push_key_and_child M p0 mid c0 in
        sret (LBubble {| lb_lhs := p1; lb_key := lb_key b; lb_rhs := r1; lb_ins := lb_ins b |}).

  (** One level of the upward loops (`OpUpdateState::finish` src/tree/fix.rs 497-516,
      `BubbledInsertState::finish` src/tree/insert.rs 1902-1923). *)
  Definition lup_step (t : ltree) (c : nat) (st : lupstate) : sm lupstate :=
    do* a := l_addr t in
    match st with
    | LDone n =>
      do* _ := into_parent n a c in
      do* _ := touch a in
      do* t1 := l_set_child t c n in
      sret (LDone t1)
    | LBubble b =>
      do* _ := into_parent (lb_lhs b) a c in
      do* t1 := l_set_child t c (lb_lhs b) in
      lbubble_step t1 c b
    end.

  (** Apply [f] to the node at path [p] and run the upward steps.  Going down (`into_child`,
      src/tree/node.rs 2043-2088) hands out mutable access to each node on the path. *)
  Fixpoint lupd (f : ltree -> sm lupstate) (t : ltree) (p : list nat) : sm lupstate :=
    match p with
    | [] => f t
    | c :: p' =>
      do* a := l_addr t in
      do* _ := touch a in
      do* ch := l_child t c in
      do* st := lupd f ch p' in
      lup_step t c st
    end.

  (** `do_insert_full_edge_no_join_split_small_m` (src/tree/insert.rs 1774-1881). *)
  Definition l_split_leaf_small_m (t : ltree) (k : nat) : sm lbubble :=
    if negb (M =? 1) || negb (l_len t =? 1) || (1 <? k) then sub
    else
      do* (n0, mid, r0) := l_split t 0 in
      do* a := l_addr n0 in
      do* a' := l_addr r0 in
      if k =? 0 then
        do* n1 := l_push_key M n0 None in
        do* r1 := l_push_key M r0 mid in
        do* _ := notify (UMove a 0 1 a' 0) in
        do* _ := notify (UInsertion (a, 0)) in
        sret {| lb_lhs := n1; lb_key := None; lb_rhs := r1; lb_ins := true |}
      else
        do* n1 := l_push_key M n0 mid in
        do* r1 := l_push_key M r0 None in
        sret {| lb_lhs := n1; lb_key := None; lb_rhs := r1; lb_ins := false |}.

  (** `do_insert_full_edge_no_join_split` (src/tree/insert.rs 1338-1760); `TraverseUpdate::split`
      (src/tree/fix.rs 260-272) is the two updates after the split. *)
  Definition l_split_leaf (t : ltree) (k : nat) (has_snd : bool) : sm lbubble :=
    if (M =? 1) && (l_len t =? 1) then
      if has_snd then l_split_leaf_small_m t k else sub
    else
      let '(m, ins) := choose_split M k (l_len t) has_snd in
      do* (n0, mid, r0) := l_split t m in
      do* a := l_addr n0 in
      do* a' := l_addr r0 in
      do* _ := notify (UMove a (m + 1) (l_len r0) a' 0) in
      do* _ := notify (URemove (a, l_len n0)) in
      match ins with
      | inr SRight =>
        do* n1 := l_push_key M n0 mid in
        do* _ := notify (UPutBack (a, l_len n1 - 1)) in
        do* r1 := if has_snd then l_insert_key M r0 0 else sret r0 in
        sret {| lb_lhs := n1; lb_key := None; lb_rhs := r1; lb_ins := false |}
      | inr SLeft =>
        if has_snd then
          let mp := l_len n0 in
          do* n1 := l_push_key M n0 mid in
          do* n2 := l_push_key M n1 None in
          do* _ := notify (UPutBack (a, mp)) in
          do* _ := notify (UInsertion (a, mp + 1)) in
          sret {| lb_lhs := n2; lb_key := None; lb_rhs := r0; lb_ins := true |}
        else sub
      | inl SLeft =>
        do* i1 := l_insert_key M n0 k in
        do* i2 := if has_snd then l_insert_key M i1 (k + 1) else sret i1 in
        do* _ := notify (UInsertion (a, k)) in
        sret {| lb_lhs := i2; lb_key := mid; lb_rhs := r0; lb_ins := true |}
      | inl SRight =>
        let k' := k - (m + 1) in
        do* i1 := l_insert_key M r0 k' in
        do* i2 := if has_snd then l_insert_key M i1 (k' + 1) else sret i1 in
        do* _ := notify (UInsertion (a', k')) in
        sret {| lb_lhs := n0; lb_key := mid; lb_rhs := i2; lb_ins := true |}
      end.

  (** `do_insert_full_edge_no_join` (src/tree/insert.rs 844-958). *)
  Definition l_no_join_leaf (k : nat) (has_snd : bool) (t : ltree) : sm lupstate :=
    if l_len t <? k then sub
    else if max_len - (if has_snd then 1 else 0) <=? l_len t then
      do* b := l_split_leaf t k has_snd in sret (LBubble b)
    else
      do* t1 := l_insert_key M t k in
      do* t2 := if has_snd then l_insert_key M t1 (k + 1) else sret t1 in
      do* a := l_addr t in
      do* _ := notify (UInsertion (a, k)) in
      sret (LDone t2).

  (** A merge into the key [k] of a node: only sizes change (src/tree/insert.rs 583-600, 810-823). *)
  Definition l_join_key (k : nat) (t : ltree) : sm lupstate :=
    if l_len t <=? k then sub
    else
      do* a := l_addr t in
      do* _ := touch a in
      do* _ := notify (UInsertion (a, k)) in
      sret (LDone t).

  (** End of `insert_internal` (src/tree/insert.rs 149-171): the loops stop at a node without parent;
      `make_new_parent`, and the handle when it is still missing. *)
  Definition l_finish_root (st : lupstate) : sm ltree :=
    match st with
    | LDone n => match l_par n with None => sret n | Some _ => sub end
    | LBubble b =>
      do* n := l_make_new_parent (lb_lhs b) (lb_key b) (lb_rhs b) in
      do* a := l_addr n in
      fun s => match p_ho s with
               | None => Ok (n, with_ho s (Some (a, 0)) (p_present s))
               | Some _ => Ok (n, s)
               end
    end.

  (** Path from the root to the leaf that `insert_rhs` inserts into (src/tree/insert.rs 1008-1029),
      and the index there. *)
  Definition rhs_path (p : list nat) (hk k : nat) : list nat * nat :=
    match hk with 0 => (p, k + 1) | S hc => (p ++ (k + 1) :: repeat 0 hc, 0) end.

  (** What an insertion does to the nodes. *)
  Inductive plan : Type :=
  | PNew                                                    (* the tree is empty *)
  | PJoin (p : list nat) (k : nat)                          (* merged into this key *)
  | PEdge (p : list nat) (k : nat)                          (* one new key in a leaf *)
  | PRhs (p : list nat) (hk k : nat) (two lj : bool).     (* new keys behind a key that was cut;
                                                               [lj]: merged with its left part *)

  (** Reads the slice of a key at a handle: node and key index must exist. *)
  Definition l_key_addr (t : ltree) (p : list nat) (k : nat) : sm loc :=
    (fix go (t : ltree) (p : list nat) : sm loc :=
       match p with
       | [] => if k <? l_len t then do* a := l_addr t in sret (a, k) else sub
       | c :: p' => do* ch := l_child t c in go ch p'
       end) t p.

  Definition run_plan (pl : plan) (t : ltree) : sm ltree :=
    match pl with
    | PNew =>
      do* t' := l_new_root in
      do* a := l_addr t' in
      fun s => Ok (t', with_ho s (Some (a, 0)) true)
    | PJoin p k =>
      do* st := lupd (l_join_key k) t p in l_finish_root st
    | PEdge p k =>
      do* st := lupd (l_no_join_leaf k false) t p in l_finish_root st
    | PRhs p hk k two lj =>
      let (q, j) := rhs_path p hk k in
      do* l := l_key_addr t p k in
      do* _ := if lj
               then do* _ := notify (UInsertion l) in fun s => Ok (tt, with_skip s true)
               else sret tt in
      do* st := lupd (l_no_join_leaf j two) t q in l_finish_root st
    end.
End LInsert.

Section Plan.
  Context {I S : Type} (X : index_ops I) (Y : slice_ops I S) (M : nat).

  (** Which key an edge insertion is merged into, if any: the `try_join` calls of
      `do_insert_full_edge_try_join` (src/tree/insert.rs 690-804) in their order. *)
  Definition edge_join (t : tree I S) (lhs rhs : option handle) (slice : S) : res (option handle) :=
    if negb (sl_may_join Y) then Ok None
    else
      match lhs, rhs with
      | None, None => Panic PUnreachable
      | Some la, None =>
        let* ls := handle_slice t la in
        match sl_try_join Y ls slice with inl _ => Ok (Some la) | inr _ => Ok None end
      | None, Some ra =>
        let* rs := handle_slice t ra in
        match sl_try_join Y slice rs with inl _ => Ok (Some ra) | inr _ => Ok None end
      | Some la, Some ra =>
        let* ls := handle_slice t la in
        match sl_try_join Y ls slice with
        | inl mid =>
          let* rs := handle_slice t ra in
          match sl_try_join Y mid rs with inl _ => Panic PTodo | inr _ => Ok (Some la) end
        | inr (l, s) =>
          let* t1 := set_slice_at t (fst la) (snd la) l in
          let* rs := handle_slice t1 ra in
          match sl_try_join Y s rs with inl _ => Ok (Some ra) | inr _ => Ok None end
        end
      end.

  (** The `try_join` calls of `do_insert_full_split_key` (src/tree/insert.rs 546-651). *)
  Definition split_plan (t : tree I S) (p : list nat) (hk k : nat) (q : I) (slice : S) : res plan :=
    let* s0 := handle_slice t (p, k) in
    let (lhs, rhs) := sl_split_at Y s0 q in
    if negb (sl_may_join Y) then Ok (PRhs p hk k true false)
    else
      match sl_try_join Y lhs slice with
      | inl mid =>
        match sl_try_join Y mid rhs with
        | inl _ => Ok (PJoin p k)
        | inr _ => Ok (PRhs p hk k false true)
        end
      | inr (_, s) =>
        match sl_try_join Y s rhs with
        | inl _ => Ok (PRhs p hk k false false)
        | inr _ => Ok (PRhs p hk k true false)
        end
      end.

  (** The decisions of `insert_internal` (src/tree/insert.rs 41-197) on the contents of the tree. *)
  Definition insert_plan (r : @rle I S) (hints : list nat) (idx : I) (slice : S) : res plan :=
    match r with
    | None => Ok PNew
    | Some r =>
      let* ip := find_insertion_point X Y (r_height r) (r_node r) hints idx [] None None in
      match ip with
      | EdgeInsert p k lhs rhs =>
        let* j := edge_join (r_node r) lhs rhs slice in
        Ok (match j with Some a => PJoin (fst a) (snd a) | None => PEdge p k end)
      | SplitKeyInsert p hk k q => split_plan (r_node r) p hk k q slice
      end
    end.

  (** A tree together with its pointers, and the state shared by the nodes and the references. *)
  Record ptree : Type := { pt_rle : @rle I S; pt_nodes : ltree }.
  Record heap : Type := { hp_store : list (option loc); hp_next : addr }.

  (** `insert_internal` (src/tree/insert.rs 41-197): the contents change as in Insert.v, the nodes as
      planned.  Result: the tree, the store and next address, the insertion handle and the nodes that
      were accessed. *)
  Definition p_insert (nop : bool) (t : ptree) (hp : heap) (hints : list nat) (idx : I) (slice : S) (size : I)
    : res (ptree * heap * option loc * list addr) :=
    let* (r', _) := insert_with_cursor X Y M nop (pt_rle t) hints idx slice size in
    let* pl := insert_plan (pt_rle t) hints idx slice in
    let* (lt', s) := run_plan M pl (pt_nodes t)
      {| p_store := hp_store hp; p_next := hp_next hp; p_log := []; p_ho := None; p_present := false; p_skip := false |} in
    Ok ({| pt_rle := r'; pt_nodes := lt' |}, {| hp_store := p_store s; hp_next := p_next s |}, p_ho s, p_log s).
End Plan.
Arguments ptree : clear implicits.
Arguments Build_ptree {I S}.
Arguments pt_rle {I S}.
Arguments pt_nodes {I S}.
