(** The pointer side of a tree without shared nodes: node addresses, stored parent links, and the
    reference ids stored beside the keys (src/tree/node.rs 435-592, src/tree/slice_ref.rs 79-109). *)
From Coq Require Import List Bool Arith.
From Verif Require Import Base.
Import ListNotations.

(** An address of a node, an index into the reference store, and a key in a node (`SliceHandle`:
    node pointer and key index, src/tree/node.rs 113-126). *)
Notation addr := nat (only parsing).
Notation rid := nat (only parsing).
Notation loc := (prod nat nat) (only parsing).

(** A node as the pointers see it: its address, `parent`/`idx_in_parent`, `refs`, and `child_ptrs`.
    Like in Tree.v a leaf has [LNil] children, one more than keys.  Contents (positions, sizes and
    slices) are in the tree of Tree.v that is kept beside it. *)
Inductive ltree : Type :=
| LNil
| LNode (a : addr) (par : option loc) (refs : list (option rid)) (kids : list ltree).

(** The addresses of all nodes of a tree. *)
Fixpoint laddrs (t : ltree) : list addr :=
  match t with LNil => [] | LNode a _ _ ks => a :: flat_map laddrs ks end.

(** The state an insertion works on.
    [p_store]: the `RecycleVec<StoredSliceRef>` of the tree (src/tree/slice_ref.rs 79-109) as a list
    of handles; [None] is a suspended handle (`Handle(None)`).  `Redirect` and `Removed` are never
    stored (`redirect` is followed by todo!(), src/tree/insert.rs 966-977; `remove` has no caller),
    and for the same reason no entry is ever recycled while the tree lives, so `push` appends.
    [p_next]: the next fresh address.
    [p_log]: the nodes handed out mutably or newly allocated, latest first.
    [p_ho], [p_present]: `slice_ref` and `already_present` of `apply_to_ref` (src/tree/fix.rs 322-393);
    [p_skip]: whether the callback is wrapped by `skip_insertions` (396-404). *)
Record pst : Type := {
  p_store : list (option loc); p_next : addr; p_log : list addr;
  p_ho : option loc; p_present : bool; p_skip : bool;
}.

Definition sm (A : Type) : Type := pst -> res (A * pst).
Definition sret {A} (a : A) : sm A := fun s => Ok (a, s).
Definition sbind {A B} (m : sm A) (k : A -> sm B) : sm B :=
  fun s => match m s with Ok (a, s') => k a s' | Panic w => Panic w | UB => UB end.
Definition sub {A} : sm A := fun _ => UB.
Notation "'do*' x ':=' e1 'in' e2" := (sbind e1 (fun x => e2))
  (at level 200, x pattern, e1 at level 100, e2 at level 200, right associativity).

Definition with_store (s : pst) (v : list (option loc)) : pst :=
  {| p_store := v; p_next := p_next s; p_log := p_log s; p_ho := p_ho s; p_present := p_present s; p_skip := p_skip s |}.
Definition with_ho (s : pst) (h : option loc) (pr : bool) : pst :=
  {| p_store := p_store s; p_next := p_next s; p_log := p_log s; p_ho := h; p_present := pr; p_skip := p_skip s |}.
Definition with_skip (s : pst) (b : bool) : pst :=
  {| p_store := p_store s; p_next := p_next s; p_log := p_log s; p_ho := p_ho s; p_present := p_present s; p_skip := b |}.

(** A mutable access to the node at [a]. *)
Definition touch (a : addr) : sm unit :=
  fun s => Ok (tt, {| p_store := p_store s; p_next := p_next s; p_log := a :: p_log s;
                      p_ho := p_ho s; p_present := p_present s; p_skip := p_skip s |}).

(** `alloc_aligned` (src/tree/node.rs 2611-2632): addresses are never reused, which is no restriction
    as long as no node of the tree is freed. *)
Definition alloc : sm addr :=
  fun s => Ok (p_next s, {| p_store := p_store s; p_next := S (p_next s); p_log := p_next s :: p_log s;
                            p_ho := p_ho s; p_present := p_present s; p_skip := p_skip s |}).

(** `SliceRefStore::update` (src/tree/slice_ref.rs 418-429).  The assertion holds by the choice of
    [p_store]; an id that is not in the store is an out-of-bounds panic of `Vec`. *)
Definition sr_update (r : option rid) (l : loc) : sm unit :=
  fun s => match r with
           | None => Ok (tt, s)
           | Some i =>
             match nth_error (p_store s) i with
             | None => Panic POutOfBounds
             | Some _ => Ok (tt, with_store s (replace_at i (Some l) (p_store s)))
             end
           end.

(** `SliceRefStore::suspend` (src/tree/slice_ref.rs 431-437), with its assertion. *)
Definition sr_suspend (r : option rid) : sm unit :=
  fun s => match r with
           | None => Ok (tt, s)
           | Some i =>
             match nth_error (p_store s) i with
             | None => Panic POutOfBounds
             | Some None => Panic PAssert
             | Some (Some _) => Ok (tt, with_store s (replace_at i None (p_store s)))
             end
           end.

(** `update` for consecutive keys of node [a], from index [i] on. *)
Fixpoint sr_updates (a : addr) (i : nat) (rs : list (option rid)) : sm unit :=
  match rs with
  | [] => sret tt
  | r :: rs' => do* _ := sr_update r (a, i) in sr_updates a (S i) rs'
  end.

(** `TraverseUpdate` (src/tree/fix.rs 150-190). *)
Inductive tupdate : Type :=
| UInsertion (l : loc)
| UMove (old : addr) (from len : nat) (new : addr) (to : nat)
| URemove (l : loc)
| UPutBack (l : loc).

Definition loc_eqb (x y : loc) : bool := (fst x =? fst y) && (snd x =? snd y).

(** The callback: `do_update` of `apply_to_ref` (src/tree/fix.rs 326-387), under `skip_insertions`
    (396-404) when [p_skip] is set. *)
Definition notify (u : tupdate) : sm unit :=
  fun s =>
    match u, p_ho s with
    | UInsertion l, ho =>
      if p_skip s then Ok (tt, s)
      else match ho with
           | Some _ => Panic PUnreachable
           | None => if p_present s then Panic PUnreachable else Ok (tt, with_ho s (Some l) true)
           end
    | UMove _ _ _ _ _, None => Ok (tt, s)
    | UMove old from len new to, Some (a, i) =>
      if (old =? a) && (from <=? i) && (i <? from + len)
      then Ok (tt, with_ho s (Some (new, (i - from) + to)) (p_present s))
      else Ok (tt, s)
    | URemove _, None => if p_present s then Panic PUnreachable else Ok (tt, s)
    | URemove l, Some h => if loc_eqb l h then Ok (tt, with_ho s None (p_present s)) else Ok (tt, s)
    | UPutBack _, Some _ => Ok (tt, s)
    | UPutBack l, None => if p_present s then Ok (tt, with_ho s (Some l) (p_present s)) else Ok (tt, s)
    end.

Section LTree.
  Context (M : nat).
  Notation max_len := (2 * M).

  Definition l_refs (t : ltree) : list (option rid) := match t with LNil => [] | LNode _ _ r _ => r end.
  Definition l_kids (t : ltree) : list ltree := match t with LNil => [] | LNode _ _ _ k => k end.
  Definition l_len (t : ltree) : nat := length (l_refs t).
  Definition l_par (t : ltree) : option loc := match t with LNil => None | LNode _ p _ _ => p end.
  Definition l_addr (t : ltree) : sm addr := match t with LNil => sub | LNode a _ _ _ => sret a end.

  (** Child pointer (src/tree/node.rs 1976-1989), and the effect of mutating the child in place. *)
  Definition l_child (t : ltree) (c : nat) : sm ltree :=
    match nth_error (l_kids t) c with Some ch => sret ch | None => sub end.
  Definition l_set_child (t : ltree) (c : nat) (ch : ltree) : sm ltree :=
    match t with
    | LNil => sub
    | LNode a p rs ks => if c <? length ks then sret (LNode a p rs (replace_at c ch ks)) else sub
    end.

  (** Writing `parent` and `idx_in_parent` of a node; writing only `idx_in_parent`. *)
  Definition set_par (p : option loc) (t : ltree) : sm ltree :=
    match t with
    | LNil => sret LNil
    | LNode a _ rs ks => do* _ := touch a in sret (LNode a p rs ks)
    end.
  Definition set_idx (i : nat) (t : ltree) : sm ltree :=
    match t with
    | LNil => sret LNil
    | LNode a p rs ks => do* _ := touch a in sret (LNode a (option_map (fun q => (fst q, i)) p) rs ks)
    end.
  Fixpoint set_pars (a : addr) (i : nat) (ts : list ltree) : sm (list ltree) :=
    match ts with
    | [] => sret []
    | t :: ts' => do* t1 := set_par (Some (a, i)) t in do* ts1 := set_pars a (S i) ts' in sret (t1 :: ts1)
    end.
  Fixpoint set_idxs (i : nat) (ts : list ltree) : sm (list ltree) :=
    match ts with
    | [] => sret []
    | t :: ts' => do* t1 := set_idx i t in do* ts1 := set_idxs (S i) ts' in sret (t1 :: ts1)
    end.

  (** `split` (src/tree/node.rs 1372-1569): the left node, the id of the midpoint key, the new node. *)
  Definition l_split (t : ltree) (m : nat) : sm (ltree * option rid * ltree) :=
    match t with
    | LNil => sub
    | LNode a p rs ks =>
      match nth_error rs m with
      | None => sub
      | Some mid =>
        do* _ := touch a in
        do* a' := alloc in
        do* _ := sr_updates a' 0 (skipn (m + 1) rs) in
        do* _ := sr_suspend mid in
        do* ks' := set_pars a' 0 (skipn (m + 1) ks) in
        sret (LNode a p (firstn m rs) (firstn (m + 1) ks), mid, LNode a' None (skipn (m + 1) rs) ks')
      end
    end.

  (** `insert_key` (src/tree/node.rs 2152-2208): a leaf gets a new key without a reference. *)
  Definition l_insert_key (t : ltree) (k : nat) : sm ltree :=
    match t with
    | LNil => sub
    | LNode a p rs ks =>
      if (length rs <? k) || (max_len <=? length rs) then sub
      else
        do* _ := touch a in
        do* _ := sr_updates a (k + 1) (skipn k rs) in
        sret (LNode a p (insert_at k None rs) (insert_at (k + 1) LNil ks))
    end.

  (** `push_key` (src/tree/node.rs 2223-2269). *)
  Definition l_push_key (t : ltree) (r : option rid) : sm ltree :=
    match t with
    | LNil => sub
    | LNode a p rs ks =>
      if max_len <=? length rs then sub
      else
        do* _ := touch a in
        do* _ := sr_update r (a, length rs) in
        sret (LNode a p (rs ++ [r]) (ks ++ [LNil]))
    end.

  (** `insert_key_and_child` (src/tree/node.rs 2453-2572), without COW: the new child gets its parent
      and index, the children behind it a new index. *)
  Definition l_insert_key_and_child (t : ltree) (k : nat) (r : option rid) (ch : ltree) : sm ltree :=
    match t with
    | LNil => sub
    | LNode a p rs ks =>
      if (length rs <? k) || (max_len <=? length rs) then sub
      else
        do* _ := touch a in
        do* _ := sr_updates a k (r :: skipn k rs) in
        do* ch' := set_par (Some (a, k + 1)) ch in
        do* ks' := set_idxs (k + 2) (skipn (k + 1) ks) in
        sret (LNode a p (insert_at k r rs) (firstn (k + 1) ks ++ ch' :: ks'))
    end.

  (** `push_key_and_child` (src/tree/node.rs 2361-2425). *)
  Definition l_push_key_and_child (t : ltree) (r : option rid) (ch : ltree) : sm ltree :=
    match t with
    | LNil => sub
    | LNode a p rs ks =>
      if max_len <=? length rs then sub
      else
        do* _ := touch a in
        do* ch' := set_par (Some (a, length rs + 1)) ch in
        do* _ := sr_update r (a, length rs) in
        sret (LNode a p (rs ++ [r]) (ks ++ [ch']))
    end.

  (** `replace_first_child` (src/tree/node.rs 2308-2345). *)
  Definition l_replace_first_child (t : ltree) (ch : ltree) : sm (ltree * ltree) :=
    match t with
    | LNode a p rs (c0 :: ks) =>
      do* _ := touch a in
      do* ch' := set_par (Some (a, 0)) ch in
      sret (LNode a p rs (ch' :: ks), c0)
    | _ => sub
    end.

  (** `make_new_parent` (src/tree/node.rs 1689-1792); both nodes must have no parent (1700-1704). *)
  Definition l_make_new_parent (lhs : ltree) (r : option rid) (rhs : ltree) : sm ltree :=
    match l_par lhs, l_par rhs with
    | None, None =>
      do* a := alloc in
      do* l := set_par (Some (a, 0)) lhs in
      do* r' := set_par (Some (a, 1)) rhs in
      do* _ := sr_update r (a, 0) in
      sret (LNode a None [r] [l; r'])
    | _, _ => sub
    end.

  (** `new_root` (src/tree/node.rs 1802-1829). *)
  Definition l_new_root : sm ltree :=
    do* a := alloc in sret (LNode a None [None] [LNil; LNil]).
End LTree.
