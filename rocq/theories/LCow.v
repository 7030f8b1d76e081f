(** Insertion into trees that share nodes (`AllowCow`), with the pointers: which nodes are copied, which
    parent links are written, and which addresses the nodes have (src/tree/insert.rs, src/tree/node.rs).

    Single-threaded histories of whole calls; interleavings of several threads are in Cow.v.  A tree is
    kept as its contents (Tree.v) beside its pointers (LTree.v, with no references), and two trees share a
    node if both have a node at the same address.  That this is one consistent memory is a theorem.
    The count of a node is not stored: `is_unique` (src/tree/cow.rs 26-30) is only asked of the root and
    of children of nodes that are themselves in no other tree, and such a node has one owner exactly if it
    is in no other tree.  LCount.v is the same with stored counts; that both agree is theorem C52. *)
From Coq Require Import List Bool Arith ZArith.
From Verif Require Import Base Index Slice Tree Insert Range Iter LTree LInsert LRef.
Import ListNotations.

(** [k_al]: the addresses that the allocator will return, in order; [k_i]: how many of them it has
    returned.  [k_log]: the nodes allocated, with their heights; [k_writes]: the nodes written. *)
Record cst : Type := { k_al : nat -> addr; k_i : nat; k_log : list (addr * nat); k_writes : list addr }.
Definition cm (A : Type) : Type := cst -> res (A * cst).
Definition cret {A} (a : A) : cm A := fun s => Ok (a, s).
Definition cbind {A B} (m : cm A) (k : A -> cm B) : cm B :=
  fun s => match m s with Ok (a, s') => k a s' | Panic w => Panic w | UB => UB end.
Definition cub {A} : cm A := fun _ => UB.
Notation "'dc*' x ':=' e1 'in' e2" := (cbind e1 (fun x => e2))
  (at level 200, x pattern, e1 at level 100, e2 at level 200, right associativity).

(** `alloc_aligned` (src/tree/node.rs 2610-2632) of a node of height [h]. *)
Definition c_alloc (h : nat) : cm addr :=
  fun s => let a := k_al s (k_i s) in
           Ok (a, {| k_al := k_al s; k_i := S (k_i s); k_log := (a, h) :: k_log s; k_writes := k_writes s |}).
(** A write to the node at [a], which must be in no other tree to be allowed. *)
Definition c_touch (a : addr) : cm unit :=
  fun s => Ok (tt, {| k_al := k_al s; k_i := k_i s; k_log := k_log s; k_writes := a :: k_writes s |}).

Section CTree.
  Context (M : nat) (others : list addr).
  Notation max_len := (2 * M).

  (** Whether a node is in another tree too. *)
  Definition c_shared (a : addr) : bool := existsb (Nat.eqb a) others.

  Definition c_addr (t : ltree) : cm addr := match t with LNil => cub | LNode a _ _ _ => cret a end.
  Definition c_child (t : ltree) (c : nat) : cm ltree :=
    match nth_error (l_kids t) c with Some ch => cret ch | None => cub end.
  Definition c_set_child (t : ltree) (c : nat) (ch : ltree) : cm ltree :=
    match t with
    | LNil => cub
    | LNode a p rs ks => if c <? length ks then cret (LNode a p rs (replace_at c ch ks)) else cub
    end.

  (** `ensure_unique` (src/tree/node.rs 2583-2608) and `make_unique` (1603-1619): `shallow_clone` (1012-1087)
      copies everything, the parent link too.  The original stays in some other tree, so its count does
      not drop to zero. *)
  Definition c_unique (h : nat) (t : ltree) : cm ltree :=
    match t with
    | LNil => cub
    | LNode a p rs ks =>
      if c_shared a then dc* a' := c_alloc h in cret (LNode a' p rs ks) else cret t
    end.

  (** Writing `parent` and `idx_in_parent`; and writing them only if the node is unique
      (src/tree/node.rs 1541-1551, 2380-2391, 2546-2559). *)
  Definition c_set_par (p : option loc) (t : ltree) : cm ltree :=
    match t with
    | LNil => cret LNil
    | LNode a _ rs ks => dc* _ := c_touch a in cret (LNode a p rs ks)
    end.
  Definition c_fix_par (p : option loc) (t : ltree) : cm ltree :=
    match t with
    | LNil => cret LNil
    | LNode a _ _ _ => if c_shared a then cret t else c_set_par p t
    end.
  Fixpoint c_fix_pars (a : addr) (i : nat) (ts : list ltree) : cm (list ltree) :=
    match ts with
    | [] => cret []
    | t :: ts' => dc* t1 := c_fix_par (Some (a, i)) t in dc* ts1 := c_fix_pars a (S i) ts' in cret (t1 :: ts1)
    end.

  (** The search for the place (src/tree/insert.rs 1229-1326, and 1008-1029 behind a key that is cut): below
      the unique node [t] of height [h], each node on the path is made unique and gets its parent
      (`into_child`, src/tree/node.rs 2043-2088). *)
  Fixpoint c_down (h : nat) (t : ltree) (p : list nat) : cm ltree :=
    match p with
    | [] => cret t
    | c :: p' =>
      dc* a := c_addr t in
      dc* ch := c_child t c in
      dc* ch1 := c_unique (h - 1) ch in
      dc* _ := c_touch a in                           (* the child pointer *)
      dc* ch2 := c_set_par (Some (a, c)) ch1 in
      dc* ch3 := c_down (h - 1) ch2 p' in
      c_set_child t c ch3
    end.
  (** Including the root (src/tree/insert.rs 88-102: `make_unique`, `remove_parent`). *)
  Definition c_find (h : nat) (t : ltree) (p : list nat) : cm ltree :=
    dc* t1 := c_unique h t in
    dc* t2 := c_set_par None t1 in
    c_down h t2 p.

  (** `split` (src/tree/node.rs 1372-1569). *)
  Definition c_split (h : nat) (t : ltree) (m : nat) : cm (ltree * ltree) :=
    match t with
    | LNil => cub
    | LNode a p rs ks =>
      if length rs <=? m then cub
      else
        dc* _ := c_touch a in
        dc* a' := c_alloc h in
        dc* ks' := c_fix_pars a' 0 (skipn (m + 1) ks) in
        cret (LNode a p (firstn m rs) (firstn (m + 1) ks), LNode a' None (skipn (m + 1) rs) ks')
    end.

  (** `insert_key` (src/tree/node.rs 2152-2208). *)
  Definition c_insert_key (t : ltree) (k : nat) : cm ltree :=
    match t with
    | LNil => cub
    | LNode a p rs ks =>
      if (length rs <? k) || (max_len <=? length rs) then cub
      else dc* _ := c_touch a in cret (LNode a p (insert_at k None rs) (insert_at (k + 1) LNil ks))
    end.

  (** `push_key` (src/tree/node.rs 2223-2269). *)
  Definition c_push_key (t : ltree) : cm ltree :=
    match t with
    | LNil => cub
    | LNode a p rs ks =>
      if max_len <=? length rs then cub
      else dc* _ := c_touch a in cret (LNode a p (rs ++ [None]) (ks ++ [LNil]))
    end.

  (** `insert_key_and_child` (src/tree/node.rs 2453-2572) with COW: the new child and those behind it get
      parent and index if they are unique (2532-2559). *)
  Definition c_insert_key_and_child (t : ltree) (k : nat) (ch : ltree) : cm ltree :=
    match t with
    | LNil => cub
    | LNode a p rs ks =>
      if (length rs <? k) || (max_len <=? length rs) then cub
      else
        dc* _ := c_touch a in
        dc* ks' := c_fix_pars a (k + 1) (ch :: skipn (k + 1) ks) in
        cret (LNode a p (insert_at k None rs) (firstn (k + 1) ks ++ ks'))
    end.

  (** `push_key_and_child` (src/tree/node.rs 2361-2425). *)
  Definition c_push_key_and_child (t : ltree) (ch : ltree) : cm ltree :=
    match t with
    | LNil => cub
    | LNode a p rs ks =>
      if max_len <=? length rs then cub
      else
        dc* _ := c_touch a in
        dc* ch' := c_fix_par (Some (a, length rs + 1)) ch in
        cret (LNode a p (rs ++ [None]) (ks ++ [ch']))
    end.

  (** `replace_first_child` (src/tree/node.rs 2308-2345): the new child is `UniqueOwned`. *)
  Definition c_replace_first_child (t : ltree) (ch : ltree) : cm (ltree * ltree) :=
    match t with
    | LNode a p rs (c0 :: ks) =>
      dc* _ := c_touch a in
      dc* ch' := c_set_par (Some (a, 0)) ch in
      cret (LNode a p rs (ch' :: ks), c0)
    | _ => cub
    end.

  (** `make_new_parent` (src/tree/node.rs 1689-1792) for nodes of height [h]. *)
  Definition c_make_new_parent (h : nat) (lhs rhs : ltree) : cm ltree :=
    match l_par lhs, l_par rhs with
    | None, None =>
      dc* a := c_alloc (h + 1) in
      dc* l := c_set_par (Some (a, 0)) lhs in
      dc* r := c_set_par (Some (a, 1)) rhs in
      cret (LNode a None [None] [l; r])
    | _, _ => cub
    end.

  (** `BubbledInsertState` (src/tree/insert.rs 252-302) and the states on the way up, as in LInsert.v but
      without references. *)
  Inductive cupstate : Type := CDone (n : ltree) | CBubble (lhs rhs : ltree).

  (** `into_parent` (src/tree/node.rs 969-981): the stored link of [n] must lead to its parent. *)
  Definition c_into_parent (n : ltree) (a : addr) (c : nat) : cm unit :=
    match l_par n with
    | Some l => if loc_eqb l (a, c) then cret tt else cub
    | None => cub
    end.

  (** `BubbledInsertState::do_upward_step` with a parent (src/tree/insert.rs 1925-2330). *)
  Definition c_bubble_step (h : nat) (t : ltree) (c : nat) (rhs : ltree) : cm cupstate :=
    if l_len t <? max_len then
      dc* t1 := c_insert_key_and_child t c rhs in cret (CDone t1)
    else
      dc* (p0, r0) := c_split h t (if M <? c then M else M - 1) in
      if negb (c =? M) then
        if M <? c then
          dc* i1 := c_insert_key_and_child r0 (c - (M + 1)) rhs in cret (CBubble p0 i1)
        else
          dc* i1 := c_insert_key_and_child p0 c rhs in cret (CBubble i1 r0)
      else
        dc* (r1, c0) := c_replace_first_child r0 rhs in
        dc* p1 := c_push_key_and_child p0 c0 in
        cret (CBubble p1 r1).

  Definition c_up_step (h : nat) (t : ltree) (c : nat) (st : cupstate) : cm cupstate :=
    dc* a := c_addr t in
    match st with
    | CDone n =>
      dc* _ := c_into_parent n a c in
      dc* _ := c_touch a in
      dc* t1 := c_set_child t c n in
      cret (CDone t1)
    | CBubble lhs rhs =>
      dc* _ := c_into_parent lhs a c in
      dc* t1 := c_set_child t c lhs in
      c_bubble_step h t1 c rhs
    end.

  Fixpoint c_upd (f : ltree -> cm cupstate) (h : nat) (t : ltree) (p : list nat) : cm cupstate :=
    match p with
    | [] => f t
    | c :: p' =>
      dc* ch := c_child t c in
      dc* st := c_upd f (h - 1) ch p' in
      c_up_step h t c st
    end.

  (** `do_insert_full_edge_no_join_split_small_m` (src/tree/insert.rs 1774-1881). *)
  Definition c_split_leaf_small_m (t : ltree) (k : nat) : cm cupstate :=
    if negb (M =? 1) || negb (l_len t =? 1) || (1 <? k) then cub
    else
      dc* (n0, r0) := c_split 0 t 0 in
      dc* n1 := c_push_key n0 in
      dc* r1 := c_push_key r0 in
      cret (CBubble n1 r1).

  (** `do_insert_full_edge_no_join_split` (src/tree/insert.rs 1338-1760). *)
  Definition c_split_leaf (t : ltree) (k : nat) (has_snd : bool) : cm cupstate :=
    if (M =? 1) && (l_len t =? 1) then
      if has_snd then c_split_leaf_small_m t k else cub
    else
      let '(m, ins) := choose_split M k (l_len t) has_snd in
      dc* (n0, r0) := c_split 0 t m in
      match ins with
      | inr SRight =>
        dc* n1 := c_push_key n0 in
        dc* r1 := if has_snd then c_insert_key r0 0 else cret r0 in
        cret (CBubble n1 r1)
      | inr SLeft =>
        if has_snd then
          dc* n1 := c_push_key n0 in
          dc* n2 := c_push_key n1 in
          cret (CBubble n2 r0)
        else cub
      | inl SLeft =>
        dc* i1 := c_insert_key n0 k in
        dc* i2 := if has_snd then c_insert_key i1 (k + 1) else cret i1 in
        cret (CBubble i2 r0)
      | inl SRight =>
        let k' := k - (m + 1) in
        dc* i1 := c_insert_key r0 k' in
        dc* i2 := if has_snd then c_insert_key i1 (k' + 1) else cret i1 in
        cret (CBubble n0 i2)
      end.

  (** `do_insert_full_edge_no_join` (src/tree/insert.rs 844-958). *)
  Definition c_no_join_leaf (k : nat) (has_snd : bool) (t : ltree) : cm cupstate :=
    if l_len t <? k then cub
    else if max_len - (if has_snd then 1 else 0) <=? l_len t then c_split_leaf t k has_snd
    else
      dc* t1 := c_insert_key t k in
      dc* t2 := if has_snd then c_insert_key t1 (k + 1) else cret t1 in
      cret (CDone t2).

  (** A merge into the key [k] of a node. *)
  Definition c_join_key (k : nat) (t : ltree) : cm cupstate :=
    if l_len t <=? k then cub
    else dc* a := c_addr t in dc* _ := c_touch a in cret (CDone t).

  (** End of `insert_internal` (src/tree/insert.rs 149-171). *)
  Definition c_finish_root (h : nat) (st : cupstate) : cm ltree :=
    match st with
    | CDone n => match l_par n with None => cret n | Some _ => cub end
    | CBubble lhs rhs => c_make_new_parent h lhs rhs
    end.

  (** The pointer side of an insertion into a tree of height [h].  [fp] is the path of the search. *)
  Definition c_run_plan (h : nat) (pl : plan) (fp : list nat) (t : ltree) : cm ltree :=
    match pl with
    | PNew => dc* a := c_alloc 0 in cret (LNode a None [None] [LNil; LNil])
    | PJoin p k =>
      dc* t1 := c_find h t fp in
      dc* st := c_upd (c_join_key k) h t1 p in c_finish_root h st
    | PEdge p k =>
      dc* t1 := c_find h t fp in
      dc* st := c_upd (c_no_join_leaf k false) h t1 p in c_finish_root h st
    | PRhs p hk k two _ =>
      let (q, j) := rhs_path p hk k in
      dc* t1 := c_find h t q in
      dc* st := c_upd (c_no_join_leaf j two) h t1 q in c_finish_root h st
    end.
End CTree.

(** ** Calls *)
Section Calls.
  Context {I S : Type} (X : index_ops I) (Y : slice_ops I S) (M : nat) (inj : Z -> I).
  Notation ptree := (ptree I S).

  (** The path that `find_insertion_point` walks (src/tree/insert.rs 1229-1326). *)
  Definition find_path (r : @rle I S) (hints : list nat) (idx : I) : res (list nat) :=
    match r with
    | None => Ok []
    | Some r =>
      let* ip := find_insertion_point X Y (r_height r) (r_node r) hints idx [] None None in
      Ok (match ip with EdgeInsert p _ _ _ => p | SplitKeyInsert p _ _ _ => p end)
    end.

  Definition p_height (t : ptree) : nat := match pt_rle t with None => 0 | Some r => r_height r end.

  (** `insert_internal` (src/tree/insert.rs 41-197) into a tree that may share nodes with others. *)
  Definition c_insert (nop : bool) (others : list addr) (al : nat -> addr) (t : ptree) (hints : list nat) (idx : I) (slice : S) (size : I)
    : res (ptree * cst) :=
    let* (r', _) := insert_with_cursor X Y M nop (pt_rle t) hints idx slice size in
    let* pl := insert_plan X Y (pt_rle t) hints idx slice in
    let* fp := find_path (pt_rle t) hints idx in
    let* (lt', s) := c_run_plan M others (p_height t) pl fp (pt_nodes t)
      {| k_al := al; k_i := 0; k_log := []; k_writes := [] |} in
    Ok ({| pt_rle := r'; pt_nodes := lt' |}, s).

  (** Trees by number, [None] once dropped; the nodes allocated so far, with their heights; the nodes
      written by the last call. *)
  Record world : Type := { w_trees : list (option ptree); w_log : list (addr * nat); w_writes : list addr }.
  Definition w_new : world := {| w_trees := []; w_log := []; w_writes := [] |}.

  Definition live (ts : list (option ptree)) : list addr :=
    flat_map (fun o => match o with Some t => laddrs (pt_nodes t) | None => [] end) ts.

  (** [al] is what the allocator returns during an insertion. *)
  Inductive wcall : Type :=
  | WNew
  | WInsert (j : nat) (hints : list nat) (idx : Z) (x : S) (n : Z) (al : nat -> addr)
  | WClone (j : nat)
  | WDrop (j : nat).

  (** A clone has the same root (src/tree/mod.rs 786-806).  Dropping a tree frees the nodes that are in no
      other tree (src/tree/mod.rs 275-294, src/tree/node.rs 1586-1599, 1846-1937; see C21_no_leak), that
      is, their addresses may be used again.  Calls on trees that are not there do nothing. *)
  Definition w_call (nop : bool) (w : world) (c : wcall) : res world :=
    match c with
    | WNew => Ok {| w_trees := w_trees w ++ [Some p_empty]; w_log := w_log w; w_writes := [] |}
    | WInsert j hints idx x n al =>
      match nth_error (w_trees w) j with
      | Some (Some t) =>
        let* (t', s) := c_insert nop (live (replace_at j None (w_trees w))) al t hints (inj idx) x (inj n) in
        Ok {| w_trees := replace_at j (Some t') (w_trees w); w_log := k_log s ++ w_log w; w_writes := k_writes s |}
      | _ => Ok {| w_trees := w_trees w; w_log := w_log w; w_writes := [] |}
      end
    | WClone j =>
      match nth_error (w_trees w) j with
      | Some (Some t) => Ok {| w_trees := w_trees w ++ [Some t]; w_log := w_log w; w_writes := [] |}
      | _ => Ok {| w_trees := w_trees w; w_log := w_log w; w_writes := [] |}
      end
    | WDrop j =>
      match nth_error (w_trees w) j with
      | Some (Some t) => Ok {| w_trees := replace_at j None (w_trees w); w_log := w_log w; w_writes := [] |}
      | _ => Ok {| w_trees := w_trees w; w_log := w_log w; w_writes := [] |}
      end
    end.
  Fixpoint w_run (nop : bool) (w : world) (calls : list wcall) : res world :=
    match calls with
    | [] => Ok w
    | c :: calls' => let* w' := w_call nop w c in w_run nop w' calls'
    end.

  (** The allocator never returns the same address twice during a call, nor one that is in use. *)
  Definition alloc_ok (w : world) (c : wcall) : Prop :=
    match c with
    | WInsert _ _ _ _ _ al => (forall i k, al i = al k -> i = k) /\ (forall i, ~ In (al i) (live (w_trees w)))
    | _ => True
    end.
  Fixpoint allocs_ok (nop : bool) (w : world) (calls : list wcall) : Prop :=
    match calls with
    | [] => True
    | c :: calls' => alloc_ok w c /\ match w_call nop w c with Ok w' => allocs_ok nop w' calls' | _ => True end
    end.
End Calls.
Arguments world : clear implicits.
Arguments wcall : clear implicits.
