(** Trees that share nodes, with the counts that the nodes store (src/tree/cow.rs, src/tree/node.rs,
    src/tree/insert.rs).

    As LCow.v, except that a node is copied, or its parent link is written, as the stored count says; that copies,
    clones and drops change the counts; and that a node is freed when its count reaches zero.  Memory is a map from
    addresses to counts, [None] where nothing is allocated; touching a count there is undefined behaviour.  Whole
    calls of one thread; interleavings are in Cow.v. *)
From Coq Require Import List Bool Arith ZArith.
From Verif Require Import Base Index Slice Tree Insert LTree LInsert LRef LCow.
Import ListNotations.

(** The state of LCow.v, the stored counts, and the nodes freed, latest first. *)
Record nst : Type := { n_c : cst; n_cnt : addr -> option nat; n_freed : list addr }.
Definition nm (A : Type) : Type := nst -> res (A * nst).
Definition nret {A} (a : A) : nm A := fun s => Ok (a, s).
Definition nbind {A B} (m : nm A) (k : A -> nm B) : nm B :=
  fun s => match m s with Ok (a, s') => k a s' | Panic w => Panic w | UB => UB end.
Definition nub {A} : nm A := fun _ => UB.
Notation "'nc*' x ':=' e1 'in' e2" := (nbind e1 (fun x => e2))
  (at level 200, x pattern, e1 at level 100, e2 at level 200, right associativity).

(** What touches no count. *)
Definition lift {A} (m : cm A) : nm A :=
  fun s => match m (n_c s) with
           | Ok (a, c) => Ok (a, {| n_c := c; n_cnt := n_cnt s; n_freed := n_freed s |})
           | Panic w => Panic w
           | UB => UB
           end.

Definition put_cnt (f : addr -> option nat) (a : addr) (v : option nat) : addr -> option nat :=
  fun b => if b =? a then v else f b.
Definition n_set (a : addr) (v : option nat) : nm unit :=
  fun s => Ok (tt, {| n_c := n_c s; n_cnt := put_cnt (n_cnt s) a v; n_freed := n_freed s |}).
Definition n_get (a : addr) : nm nat := fun s => match n_cnt s a with Some k => Ok (k, s) | None => UB end.

(** `is_unique`, `increment` and `decrement` (src/tree/cow.rs 26-30, 32-41, 43-61).  Counts are unbounded: the panic of
    `increment` is left out.  Decrementing zero would wrap around. *)
Definition n_is_unique (a : addr) : nm bool := nc* k := n_get a in nret (k =? 1).
Definition n_increment (a : addr) : nm unit := nc* k := n_get a in n_set a (Some (k + 1)).
Definition n_decrement (a : addr) : nm bool :=
  nc* k := n_get a in
  if k =? 0 then nub else nc* _ := n_set a (Some (k - 1)) in nret (k =? 1).

(** `alloc_aligned` (src/tree/node.rs 2611-2632) of a node whose `strong_count` is `one()` (1050, and wherever a node
    is made); `dealloc_aligned` (2640-2651). *)
Definition n_alloc (h : nat) : nm addr :=
  nc* a := lift (c_alloc h) in nc* _ := n_set a (Some 1) in nret a.
Definition n_dealloc (a : addr) : nm unit :=
  nc* _ := n_get a in
  nc* _ := n_set a None in
  fun s => Ok (tt, {| n_c := n_c s; n_cnt := n_cnt s; n_freed := a :: n_freed s |}).

(** `try_drop` and, for the last reference, `do_drop` (src/tree/node.rs 1587-1599, 1846-1937); slices are in C49. *)
Fixpoint n_drop (t : ltree) : nm unit :=
  match t with
  | LNil => nret tt
  | LNode a _ _ ks =>
    nc* last := n_decrement a in
    if last then
      nc* _ := n_dealloc a in
      (fix go (ks : list ltree) : nm unit :=
         match ks with [] => nret tt | k :: ks' => nc* _ := n_drop k in go ks' end) ks
    else nret tt
  end.

(** The increments in `shallow_clone` (src/tree/node.rs 1068-1073). *)
Fixpoint n_increment_all (ks : list ltree) : nm unit :=
  match ks with
  | [] => nret tt
  | LNil :: ks' => n_increment_all ks'
  | LNode a _ _ _ :: ks' => nc* _ := n_increment a in n_increment_all ks'
  end.

(** `ensure_unique` (src/tree/node.rs 2583-2608), `make_unique` (1603-1619), `shallow_clone` (1012-1087). *)
Definition n_unique (h : nat) (t : ltree) : nm ltree :=
  match t with
  | LNil => nub
  | LNode a p rs ks =>
    nc* u := n_is_unique a in
    if u then nret t
    else
      nc* _ := n_increment_all ks in
      nc* a' := n_alloc h in
      nc* _ := n_drop t in
      nret (LNode a' p rs ks)
  end.

(** Parent links of unique nodes (src/tree/node.rs 1541-1551, 2380-2390, 2546-2563). *)
Definition n_fix_par (p : option loc) (t : ltree) : nm ltree :=
  match t with
  | LNil => nret LNil
  | LNode a _ _ _ => nc* u := n_is_unique a in if u then lift (c_set_par p t) else nret t
  end.
Fixpoint n_fix_pars (a : addr) (i : nat) (ts : list ltree) : nm (list ltree) :=
  match ts with
  | [] => nret []
  | t :: ts' => nc* t1 := n_fix_par (Some (a, i)) t in nc* ts1 := n_fix_pars a (S i) ts' in nret (t1 :: ts1)
  end.

(** The search for the place (src/tree/insert.rs 1229-1326, 1008-1029; `into_child`, src/tree/node.rs 2043-2088). *)
Fixpoint n_down (h : nat) (t : ltree) (p : list nat) : nm ltree :=
  match p with
  | [] => nret t
  | c :: p' =>
    nc* a := lift (c_addr t) in
    nc* ch := lift (c_child t c) in
    nc* ch1 := n_unique (h - 1) ch in
    nc* _ := lift (c_touch a) in
    nc* ch2 := lift (c_set_par (Some (a, c)) ch1) in
    nc* ch3 := n_down (h - 1) ch2 p' in
    lift (c_set_child t c ch3)
  end.
(** Including the root (src/tree/insert.rs 88-102). *)
Definition n_find (h : nat) (t : ltree) (p : list nat) : nm ltree :=
  nc* t1 := n_unique h t in
  nc* t2 := lift (c_set_par None t1) in
  n_down h t2 p.

Section NTree.
  Context (M : nat).
  Notation max_len := (2 * M).

  (** `split` (src/tree/node.rs 1372-1569). *)
  Definition n_split (h : nat) (t : ltree) (m : nat) : nm (ltree * ltree) :=
    match t with
    | LNil => nub
    | LNode a p rs ks =>
      if length rs <=? m then nub
      else
        nc* _ := lift (c_touch a) in
        nc* a' := n_alloc h in
        nc* ks' := n_fix_pars a' 0 (skipn (m + 1) ks) in
        nret (LNode a p (firstn m rs) (firstn (m + 1) ks), LNode a' None (skipn (m + 1) rs) ks')
    end.

  (** `insert_key_and_child` (src/tree/node.rs 2453-2572). *)
  Definition n_insert_key_and_child (t : ltree) (k : nat) (ch : ltree) : nm ltree :=
    match t with
    | LNil => nub
    | LNode a p rs ks =>
      if (length rs <? k) || (max_len <=? length rs) then nub
      else
        nc* _ := lift (c_touch a) in
        nc* ks' := n_fix_pars a (k + 1) (ch :: skipn (k + 1) ks) in
        nret (LNode a p (insert_at k None rs) (firstn (k + 1) ks ++ ks'))
    end.

  (** `push_key_and_child` (src/tree/node.rs 2361-2425). *)
  Definition n_push_key_and_child (t : ltree) (ch : ltree) : nm ltree :=
    match t with
    | LNil => nub
    | LNode a p rs ks =>
      if max_len <=? length rs then nub
      else
        nc* _ := lift (c_touch a) in
        nc* ch' := n_fix_par (Some (a, length rs + 1)) ch in
        nret (LNode a p (rs ++ [None]) (ks ++ [ch']))
    end.

  (** `make_new_parent` (src/tree/node.rs 1689-1792). *)
  Definition n_make_new_parent (h : nat) (lhs rhs : ltree) : nm ltree :=
    match l_par lhs, l_par rhs with
    | None, None =>
      nc* a := n_alloc (h + 1) in
      nc* l := lift (c_set_par (Some (a, 0)) lhs) in
      nc* r := lift (c_set_par (Some (a, 1)) rhs) in
      nret (LNode a None [None] [l; r])
    | _, _ => nub
    end.

  (** `BubbledInsertState::do_upward_step` with a parent (src/tree/insert.rs 1925-2330). *)
  Definition n_bubble_step (h : nat) (t : ltree) (c : nat) (rhs : ltree) : nm cupstate :=
    if l_len t <? max_len then
      nc* t1 := n_insert_key_and_child t c rhs in nret (CDone t1)
    else
      nc* (p0, r0) := n_split h t (if M <? c then M else M - 1) in
      if negb (c =? M) then
        if M <? c then
          nc* i1 := n_insert_key_and_child r0 (c - (M + 1)) rhs in nret (CBubble p0 i1)
        else
          nc* i1 := n_insert_key_and_child p0 c rhs in nret (CBubble i1 r0)
      else
        nc* (r1, c0) := lift (c_replace_first_child r0 rhs) in
        nc* p1 := n_push_key_and_child p0 c0 in
        nret (CBubble p1 r1).

  (** One level of the way up (as [c_up_step] in LCow.v), and the way up. *)
  Definition n_up_step (h : nat) (t : ltree) (c : nat) (st : cupstate) : nm cupstate :=
    nc* a := lift (c_addr t) in
    match st with
    | CDone n =>
      nc* _ := lift (c_into_parent n a c) in
      nc* _ := lift (c_touch a) in
      nc* t1 := lift (c_set_child t c n) in
      nret (CDone t1)
    | CBubble lhs rhs =>
      nc* _ := lift (c_into_parent lhs a c) in
      nc* t1 := lift (c_set_child t c lhs) in
      n_bubble_step h t1 c rhs
    end.
  Fixpoint n_upd (f : ltree -> nm cupstate) (h : nat) (t : ltree) (p : list nat) : nm cupstate :=
    match p with
    | [] => f t
    | c :: p' =>
      nc* ch := lift (c_child t c) in
      nc* st := n_upd f (h - 1) ch p' in
      n_up_step h t c st
    end.

  (** `do_insert_full_edge_no_join_split_small_m` (src/tree/insert.rs 1774-1881). *)
  Definition n_split_leaf_small_m (t : ltree) (k : nat) : nm cupstate :=
    if negb (M =? 1) || negb (l_len t =? 1) || (1 <? k) then nub
    else
      nc* (n0, r0) := n_split 0 t 0 in
      nc* n1 := lift (c_push_key M n0) in
      nc* r1 := lift (c_push_key M r0) in
      nret (CBubble n1 r1).

  (** `do_insert_full_edge_no_join_split` (src/tree/insert.rs 1338-1760). *)
  Definition n_split_leaf (t : ltree) (k : nat) (has_snd : bool) : nm cupstate :=
    if (M =? 1) && (l_len t =? 1) then
      if has_snd then n_split_leaf_small_m t k else nub
    else
      let '(m, ins) := choose_split M k (l_len t) has_snd in
      nc* (n0, r0) := n_split 0 t m in
      match ins with
      | inr SRight =>
        nc* n1 := lift (c_push_key M n0) in
        nc* r1 := if has_snd then lift (c_insert_key M r0 0) else nret r0 in
        nret (CBubble n1 r1)
      | inr SLeft =>
        if has_snd then
          nc* n1 := lift (c_push_key M n0) in
          nc* n2 := lift (c_push_key M n1) in
          nret (CBubble n2 r0)
        else nub
      | inl SLeft =>
        nc* i1 := lift (c_insert_key M n0 k) in
        nc* i2 := if has_snd then lift (c_insert_key M i1 (k + 1)) else nret i1 in
        nret (CBubble i2 r0)
      | inl SRight =>
        let k' := k - (m + 1) in
        nc* i1 := lift (c_insert_key M r0 k') in
        nc* i2 := if has_snd then lift (c_insert_key M i1 (k' + 1)) else nret i1 in
        nret (CBubble n0 i2)
      end.

  (** `do_insert_full_edge_no_join` (src/tree/insert.rs 844-958). *)
  Definition n_no_join_leaf (k : nat) (has_snd : bool) (t : ltree) : nm cupstate :=
    if l_len t <? k then nub
    else if max_len - (if has_snd then 1 else 0) <=? l_len t then n_split_leaf t k has_snd
    else
      nc* t1 := lift (c_insert_key M t k) in
      nc* t2 := if has_snd then lift (c_insert_key M t1 (k + 1)) else nret t1 in
      nret (CDone t2).

  (** A merge into a key; the end of `insert_internal` (src/tree/insert.rs 149-171). *)
  Definition n_join_key (k : nat) (t : ltree) : nm cupstate := lift (c_join_key k t).
  Definition n_finish_root (h : nat) (st : cupstate) : nm ltree :=
    match st with
    | CDone n => match l_par n with None => nret n | Some _ => nub end
    | CBubble lhs rhs => n_make_new_parent h lhs rhs
    end.

  (** The pointer side of an insertion, as in LCow.v. *)
  Definition n_run_plan (h : nat) (pl : plan) (fp : list nat) (t : ltree) : nm ltree :=
    match pl with
    | PNew => nc* a := n_alloc 0 in nret (LNode a None [None] [LNil; LNil])
    | PJoin p k =>
      nc* t1 := n_find h t fp in
      nc* st := n_upd (n_join_key k) h t1 p in n_finish_root h st
    | PEdge p k =>
      nc* t1 := n_find h t fp in
      nc* st := n_upd (n_no_join_leaf k false) h t1 p in n_finish_root h st
    | PRhs p hk k two _ =>
      let (q, j) := rhs_path p hk k in
      nc* t1 := n_find h t q in
      nc* st := n_upd (n_no_join_leaf j two) h t1 q in n_finish_root h st
    end.
End NTree.

(** ** Calls *)
Section Calls.
  Context {I S : Type} (X : index_ops I) (Y : slice_ops I S) (M : nat) (inj : Z -> I).
  Notation ptree := (ptree I S).

  (** A call starts with the counts [cnt] and an allocator. *)
  Definition n_start (al : nat -> addr) (cnt : addr -> option nat) : nst :=
    {| n_c := {| k_al := al; k_i := 0; k_log := []; k_writes := [] |}; n_cnt := cnt; n_freed := [] |}.

  (** `insert_internal` (src/tree/insert.rs 41-197). *)
  Definition n_insert (nop : bool) (cnt : addr -> option nat) (al : nat -> addr) (t : ptree) (hints : list nat) (idx : I) (slice : S) (size : I)
    : res (ptree * nst) :=
    let* (r', _) := insert_with_cursor X Y M nop (pt_rle t) hints idx slice size in
    let* pl := insert_plan X Y (pt_rle t) hints idx slice in
    let* fp := find_path X Y (pt_rle t) hints idx in
    let* (lt', s) := n_run_plan M (p_height t) pl fp (pt_nodes t) (n_start al cnt) in
    Ok ({| pt_rle := r'; pt_nodes := lt' |}, s).

  (** The world of LCow.v with the stored counts and the nodes freed by the last call. *)
  Record nworld : Type := { nw_w : world I S; nw_cnt : addr -> option nat; nw_freed : list addr }.
  Definition nw_new : nworld := {| nw_w := w_new; nw_cnt := fun _ => None; nw_freed := [] |}.

  Definition n_root (t : ptree) : nm unit := match pt_nodes t with LNil => nret tt | LNode a _ _ _ => n_increment a end.

  (** `new_empty` (src/tree/mod.rs 324-328), `insert`, `clone` (786-806; src/tree/node.rs 1089-1106) and drop
      (src/tree/mod.rs 275-294). *)
  Definition n_call (nop : bool) (w : nworld) (c : wcall S) : res nworld :=
    let trees := w_trees (nw_w w) in
    let same ts := {| nw_w := {| w_trees := ts; w_log := w_log (nw_w w); w_writes := [] |}; nw_cnt := nw_cnt w; nw_freed := [] |} in
    match c with
    | WNew => Ok (same (trees ++ [Some p_empty]))
    | WInsert j hints idx x n al =>
      match nth_error trees j with
      | Some (Some t) =>
        let* (t', s) := n_insert nop (nw_cnt w) al t hints (inj idx) x (inj n) in
        Ok {| nw_w := {| w_trees := replace_at j (Some t') trees; w_log := k_log (n_c s) ++ w_log (nw_w w); w_writes := k_writes (n_c s) |};
              nw_cnt := n_cnt s; nw_freed := n_freed s |}
      | _ => Ok (same trees)
      end
    | WClone j =>
      match nth_error trees j with
      | Some (Some t) =>
        let* (_, s) := n_root t (n_start (fun _ => 0) (nw_cnt w)) in
        Ok {| nw_w := nw_w (same (trees ++ [Some t])); nw_cnt := n_cnt s; nw_freed := n_freed s |}
      | _ => Ok (same trees)
      end
    | WDrop j =>
      match nth_error trees j with
      | Some (Some t) =>
        let* (_, s) := n_drop (pt_nodes t) (n_start (fun _ => 0) (nw_cnt w)) in
        Ok {| nw_w := nw_w (same (replace_at j None trees)); nw_cnt := n_cnt s; nw_freed := n_freed s |}
      | _ => Ok (same trees)
      end
    end.
  Fixpoint n_run (nop : bool) (w : nworld) (calls : list (wcall S)) : res nworld :=
    match calls with
    | [] => Ok w
    | c :: calls' => let* w' := n_call nop w c in n_run nop w' calls'
    end.

  (** The allocator never returns the same address twice during a call, nor one that is allocated. *)
  Definition n_alloc_ok (w : nworld) (c : wcall S) : Prop :=
    match c with
    | WInsert _ _ _ _ _ al => (forall i k, al i = al k -> i = k) /\ (forall i, nw_cnt w (al i) = None)
    | _ => True
    end.
  Fixpoint n_allocs_ok (nop : bool) (w : nworld) (calls : list (wcall S)) : Prop :=
    match calls with
    | [] => True
    | c :: calls' => n_alloc_ok w c /\ match n_call nop w c with Ok w' => n_allocs_ok nop w' calls' | _ => True end
    end.
End Calls.
Arguments nworld : clear implicits.
