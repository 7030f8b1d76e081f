(** The arrays of a node, slot by slot (`struct Leaf` / `struct Internal`, src/tree/node.rs 435-592, and the
    unsafe functions that move values between their slots).

    Simplified away: `parent`/`idx_in_parent` of the node itself (LTree.v), `holes` (Holes.v, Crash.v: here the
    node has none), `strong_count` (LCow.v), the layout of the arrays in bytes (Layout.v), allocation.  A value
    that has been moved out of a slot leaves the slot empty (in the code its bits stay behind); a slot that
    was never written is empty as well; reading an empty slot is undefined behaviour. *)
From Coq Require Import List Arith Bool.
From Verif Require Import Base Gradual.
Import ListNotations.

Notation slots T := (list (option T)) (only parsing).

Section Prims.
  Context {T : Type}.

  (** `get_unchecked(i).assume_init()` / `assume_init_ref()` (src/const_math_hack.rs 108-119). *)
  Definition rd (l : slots T) (i : nat) : res T :=
    match nth_error l i with Some (Some v) => Ok v | _ => UB end.

  (** `get_unchecked(i).assume_init_read()`: moves the value out. *)
  Definition mv (l : slots T) (i : nat) : res (T * slots T) :=
    match nth_error l i with
    | Some (Some v) => Ok (v, replace_at i None l)
    | _ => UB
    end.

  (** `get_mut_unchecked(i).write(v)` (src/const_math_hack.rs 121-131): overwrites without dropping. *)
  Definition wr (l : slots T) (i : nat) (v : T) : res (slots T) :=
    if i <? length l then Ok (replace_at i (Some v) l) else UB.

  (** `as_mut_slice()[i].write(v)`: the same with a bounds check that panics. *)
  Definition wr_checked (l : slots T) (i : nat) (v : T) : res (slots T) :=
    if i <? length l then Ok (replace_at i (Some v) l) else Panic PAssert.

  (** `ptr::copy` / `ptr::copy_nonoverlapping` of [n] slots from [src + si] to [dst + di]. *)
  Definition copy_slots (src : slots T) (si : nat) (dst : slots T) (di n : nat) : res (slots T) :=
    if (si + n <=? length src) && (di + n <=? length dst)
    then Ok (firstn di dst ++ firstn n (skipn si src) ++ skipn (di + n) dst)
    else UB.

  (** The [n] slots from [i] on have been moved out by a copy. *)
  Definition vacate (l : slots T) (i n : nat) : slots T :=
    firstn i l ++ repeat None (min n (length l - i)) ++ skipn (i + n) l.

  (** `shift` (src/tree/node.rs 2661-2686). *)
  Definition shift (l : slots T) (start end_ : nat) : res (slots T) :=
    if negb (start <=? end_) then UB
    else if negb (end_ <? length l) then UB
    else if start =? end_ then Ok l
    else
      let* l' := copy_slots l start l (start + 1) (end_ - start) in
      Ok (vacate l' start 1).

  (** A loop `for i in from..from + n` that reads slot [i]; the values with their indices. *)
  Fixpoint rd_range (l : slots T) (from n : nat) : res (list (T * nat)) :=
    match n with
    | O => Ok []
    | S n' =>
      let* v := rd l from in
      let* r := rd_range l (S from) n' in
      Ok ((v, from) :: r)
    end.
End Prims.

(** `n as u8` and checked `u8` addition (overflow panics in debug builds). *)
Definition as_u8 (n : nat) : nat := n mod 256.
Definition u8_add (a b : nat) : res nat := if a + b <=? 255 then Ok (a + b) else Panic PArith.

Section Node.
  (** Index, slice, `OptionRefId`, child pointer. *)
  Context {I S R C : Type}.
  (** `I::ZERO` and `OptionRefId::default()`. *)
  Variables (zero : I) (no_ref : R).
  Variable M : nat.

  (** `Leaf` and, with child pointers, `Internal` (src/tree/node.rs 435-592). *)
  Record raw : Type := {
    a_len : nat;
    a_total : I;
    a_keys : slots I;
    a_vals : slots S;
    a_refs : slots R;
    a_childs : option (slots C)
  }.

  (** `KeyArray<MaybeUninit<_>, M>` and `ChildArray<MaybeUninit<_>, M>` (src/tree/node.rs 697-698). *)
  Definition key_array {T} : slots T := repeat None (2 * M).
  Definition child_array {T} : slots T := repeat None (2 * M + 1).

  (** What a call does besides changing the node; nodes are named by numbers. *)
  Inductive event : Type :=
  | EPos (p : I)                       (* position returned *)
  | EKey (p : I) (s : S) (r : R)       (* key handed to the caller *)
  | ETaken (s : S)                     (* slice handed to the caller *)
  | EOldChild (c : C)                  (* child handed back *)
  | EStore (r : R) (node idx : nat)    (* `store.update(r, SliceHandle { idx, node })` *)
  | ESuspend (r : R)                   (* `store.suspend(r)` *)
  | EParent (c : C) (node idx : nat)   (* child [c] now has parent [node], index [idx] (if uniquely owned) *)
  | EDrop (s : S)                      (* slice dropped *)
  | EDropChild (c : C)                 (* child handed to `try_drop` *)
  | EMade (s : S)                      (* slice returned by `S::clone` *)
  | EMadeChild (c : C)                 (* node returned by the recursive `deep_clone` *)
  | EShare (c : C)                     (* strong count of [c] increased *)
  | ELeak (s : S)                      (* slice neither dropped nor reachable any more *)
  | EPanic.                            (* the call panicked (user code); the caller may go on *)

  Definition stores (me : nat) : list (R * nat) -> list event := map (fun p => EStore (fst p) me (snd p)).
  Definition parents (me : nat) : list (C * nat) -> list event := map (fun p => EParent (fst p) me (snd p)).

  (** `max_len` (src/tree/node.rs 2707-2709). *)
  Definition a_max_len (a : raw) : nat := as_u8 (length (a_keys a)).

  (** `key_pos`, `try_key_pos` (src/tree/node.rs 2754-2778), and `try_key_pos(k).unwrap_or(total_size)`. *)
  Definition a_key_pos (a : raw) (k : nat) : res I :=
    if k <? a_len a then rd (a_keys a) k else UB.
  Definition a_key_pos_or_total (a : raw) (k : nat) : res I :=
    if a_len a <=? k then Ok (a_total a) else a_key_pos a k.

  (** `new_root` (src/tree/node.rs 1802-1829). *)
  Definition a_new_root (s : S) (size : I) : res raw :=
    let* ks := wr_checked key_array 0 zero in
    let* rs := wr_checked key_array 0 no_ref in
    let* vs := wr_checked key_array 0 s in
    Ok {| a_len := 1; a_total := size; a_keys := ks; a_vals := vs; a_refs := rs; a_childs := None |}.

  (** `make_new_parent` (src/tree/node.rs 1689-1792).  The position of the key and the total are computed with
      `Index` methods (Tree.v); here they are arguments. *)
  Definition a_make_new_parent (me : nat) (pos total : I) (s : S) (r : R) (lhs rhs : C) : res (raw * list event) :=
    let* ks := wr_checked key_array 0 pos in
    let* vs := wr_checked key_array 0 s in
    let* rs := wr_checked key_array 0 r in
    let* cs := wr_checked child_array 0 lhs in
    let* cs := wr_checked cs 1 rhs in
    let* r0 := rd rs 0 in
    Ok ({| a_len := 1; a_total := total; a_keys := ks; a_vals := vs; a_refs := rs; a_childs := Some cs |},
        [EParent lhs me 0; EParent rhs me 1; EStore r0 me 0]).

  (** `insert_key` (src/tree/node.rs 2152-2208; leaves only). *)
  Definition a_insert_key (me : nat) (a : raw) (key_idx : nat) (s : S) : res (raw * list event) :=
    match a_childs a with
    | Some _ => UB
    | None =>
      if negb (key_idx <=? a_len a) then UB
      else if negb (a_len a <? a_max_len a) then UB
      else
        let* pos := a_key_pos_or_total a key_idx in
        let* ks := shift (a_keys a) key_idx (a_len a) in
        let* vs := shift (a_vals a) key_idx (a_len a) in
        let* rs := shift (a_refs a) key_idx (a_len a) in
        let* ks := wr ks key_idx pos in
        let* vs := wr vs key_idx s in
        let* rs := wr rs key_idx no_ref in
        let* len := u8_add (a_len a) 1 in
        let* from := u8_add key_idx 1 in
        let* moved := rd_range rs from (len - from) in
        Ok ({| a_len := len; a_total := a_total a; a_keys := ks; a_vals := vs; a_refs := rs; a_childs := None |},
            stores me moved ++ [EPos pos])
    end.

  (** `push_key` (src/tree/node.rs 2223-2269; leaves only). *)
  Definition a_push_key (me : nat) (a : raw) (s : S) (r : R) (new_total : I) : res (raw * list event) :=
    match a_childs a with
    | Some _ => UB
    | None =>
      if negb (a_len a <? a_max_len a) then UB
      else
        let k := a_len a in
        let* ks := wr (a_keys a) k (a_total a) in
        let* vs := wr (a_vals a) k s in
        let* rs := wr (a_refs a) k r in
        let* len := u8_add (a_len a) 1 in
        let* r' := rd rs k in
        Ok ({| a_len := len; a_total := new_total; a_keys := ks; a_vals := vs; a_refs := rs; a_childs := None |},
            [EStore r' me k])
    end.

  (** `replace_first_child` (src/tree/node.rs 2308-2345). *)
  Definition a_replace_first_child (me : nat) (a : raw) (c : C) : res (raw * list event) :=
    match a_childs a with
    | None => UB
    | Some cs =>
      let* (old, cs) := mv cs 0 in
      let* cs := wr cs 0 c in
      Ok ({| a_len := a_len a; a_total := a_total a; a_keys := a_keys a; a_vals := a_vals a; a_refs := a_refs a;
             a_childs := Some cs |}, [EParent c me 0; EOldChild old])
    end.

  (** `push_key_and_child` (src/tree/node.rs 2361-2425). *)
  Definition a_push_key_and_child (me : nat) (a : raw) (s : S) (r : R) (c : C) (new_total : I) : res (raw * list event) :=
    match a_childs a with
    | None => UB
    | Some cs =>
      if negb (a_len a <? a_max_len a) then UB
      else
        let ki := a_len a in
        let ci := ki + 1 in
        let* ks := wr (a_keys a) ki (a_total a) in
        let* vs := wr (a_vals a) ki s in
        let* rs := wr (a_refs a) ki r in
        let* cs := wr cs ci c in
        let* len := u8_add (a_len a) 1 in
        Ok ({| a_len := len; a_total := new_total; a_keys := ks; a_vals := vs; a_refs := rs; a_childs := Some cs |},
            [EParent c me (as_u8 ci); EStore r me (as_u8 ki)])
    end.

  (** `insert_key_and_child` (src/tree/node.rs 2453-2572).  With a shared child (AllowCow) the write of its
      parent is skipped; the event stands for the attempt. *)
  Definition a_insert_key_and_child (me : nat) (a : raw) (key_idx : nat) (s : S) (r : R) (c : C) : res (raw * list event) :=
    match a_childs a with
    | None => UB
    | Some cs =>
      if negb (key_idx <=? a_len a) then UB
      else if negb (a_len a <? a_max_len a) then UB
      else
        let* pos := a_key_pos_or_total a key_idx in
        let ki := key_idx in
        let ci := ki + 1 in
        let k_len := a_len a in
        let c_len := k_len + 1 in
        let* ks := shift (a_keys a) ki k_len in
        let* vs := shift (a_vals a) ki k_len in
        let* rs := shift (a_refs a) ki k_len in
        let* cs := shift cs ci c_len in
        let* ks := wr ks ki pos in
        let* vs := wr vs ki s in
        let* rs := wr rs ki r in
        let* cs := wr cs ci c in
        let* len := u8_add (a_len a) 1 in
        let* moved := rd_range rs (as_u8 ki) (len - as_u8 ki) in
        (* for i in ci as u8..=len *)
        let* kids := rd_range cs (as_u8 ci) (len + 1 - as_u8 ci) in
        Ok ({| a_len := len; a_total := a_total a; a_keys := ks; a_vals := vs; a_refs := rs; a_childs := Some cs |},
            stores me moved ++ parents me kids ++ [EPos pos])
    end.

  (** `split` (src/tree/node.rs 1372-1569): the node, the new node, and the key from the middle. *)
  Definition a_split (me new : nat) (a : raw) (mid : nat) : res (raw * raw * list event) :=
    let* src_start := u8_add mid 1 in
    (* `old_len as usize - src_start`, underflow panics in debug builds *)
    if a_len a <? src_start then Panic PArith
    else
      let copy_len := a_len a - src_start in
      let* ks' := copy_slots (a_keys a) src_start key_array 0 copy_len in
      let* vs' := copy_slots (a_vals a) src_start key_array 0 copy_len in
      let* rs' := copy_slots (a_refs a) src_start key_array 0 copy_len in
      let* moved := rd_range rs' 0 (as_u8 copy_len) in
      let* (p, ks) := mv (vacate (a_keys a) src_start copy_len) mid in
      let* (s, vs) := mv (vacate (a_vals a) src_start copy_len) mid in
      let* (r, rs) := mv (vacate (a_refs a) src_start copy_len) mid in
      let evs := stores new moved ++ [ESuspend r] in
      match a_childs a with
      | None =>
        Ok ({| a_len := mid; a_total := a_total a; a_keys := ks; a_vals := vs; a_refs := rs; a_childs := None |},
            {| a_len := as_u8 copy_len; a_total := a_total a; a_keys := ks'; a_vals := vs'; a_refs := rs'; a_childs := None |},
            evs ++ [EKey p s r])
      | Some cs =>
        let* cs' := copy_slots cs src_start child_array 0 (copy_len + 1) in
        let* kids := rd_range cs' 0 (copy_len + 1) in
        Ok ({| a_len := mid; a_total := a_total a; a_keys := ks; a_vals := vs; a_refs := rs;
               a_childs := Some (vacate cs src_start (copy_len + 1)) |},
            {| a_len := as_u8 copy_len; a_total := a_total a; a_keys := ks'; a_vals := vs'; a_refs := rs'; a_childs := Some cs' |},
            evs ++ parents new kids ++ [EKey p s r])
      end.

  (** `set_single_key_pos` (src/tree/node.rs 1303-1315), `set_subtree_size` (1285-1290). *)
  Definition a_set_single_key_pos (a : raw) (k : nat) (p : I) : res raw :=
    if negb (k <? a_len a) then UB
    else
      let* ks := wr (a_keys a) k p in
      Ok {| a_len := a_len a; a_total := a_total a; a_keys := ks; a_vals := a_vals a; a_refs := a_refs a; a_childs := a_childs a |}.
  Definition a_set_subtree_size (a : raw) (size : I) : raw :=
    {| a_len := a_len a; a_total := size; a_keys := a_keys a; a_vals := a_vals a; a_refs := a_refs a; a_childs := a_childs a |}.

  (** `set_key_poss_with` (src/tree/node.rs 1325-1352).  [f] is made of `Index` methods; [None] is a panic of
      [f], which leaves the keys before it updated. *)
  Fixpoint a_set_keys (f : I -> option I) (ks : slots I) (idx n : nat) : res (slots I * bool) :=
    match n with
    | O => Ok (ks, true)
    | Datatypes.S n' =>
      let* old := rd ks idx in
      match f old with
      | None => Ok (ks, false)
      | Some p =>
        let* ks' := wr ks idx p in
        a_set_keys f ks' (Datatypes.S idx) n'
      end
    end.
  Definition a_set_key_poss_with (a : raw) (f : I -> option I) (from : nat) : res (raw * list event) :=
    if negb (from <=? a_len a) then UB
    else
      let* (ks, finished) := a_set_keys f (a_keys a) from (a_len a - from) in
      let a' t := {| a_len := a_len a; a_total := t; a_keys := ks; a_vals := a_vals a; a_refs := a_refs a; a_childs := a_childs a |} in
      if finished then
        match f (a_total a) with
        | Some t => Ok (a' t, [])
        | None => Ok (a' (a_total a), [EPanic])
        end
      else Ok (a' (a_total a), [EPanic]).

  (** `take_value_and_leave_hole` followed by `fill_hole` (src/tree/node.rs 3014-3077) on key [k], without a
      panic in between. *)
  Definition a_swap_slice (a : raw) (k : nat) (s : S) : res (raw * list event) :=
    if negb (k <? a_len a) then UB
    else
      let* (old, vs) := mv (a_vals a) k in
      let* vs := wr vs k s in
      Ok ({| a_len := a_len a; a_total := a_total a; a_keys := a_keys a; a_vals := vs; a_refs := a_refs a; a_childs := a_childs a |},
          [ETaken old]).

  (** The loop that clones the slices (src/tree/node.rs 1034-1043, 1130-1137); [None] is a panic of
      `S::clone`, on which the array is dropped. *)
  Fixpoint clone_vals (cl : S -> option S) (vs : slots S) (i n : nat) (acc : @init_array S) : res (option (@init_array S) * list event) :=
    match n with
    | O => Ok (Some acc, [])
    | Datatypes.S n' =>
      let* v := rd vs i in
      match cl v with
      | None => let* d := ia_drop acc in Ok (None, map EDrop d ++ [EPanic])
      | Some v' =>
        let* acc' := ia_push acc v' in
        let* (o, evs) := clone_vals cl vs (Datatypes.S i) n' acc' in
        Ok (o, EMade v' :: evs)
      end
    end.

  (** The `refs` of a cloned node: left uninitialised (`KeyArray::new()`, src/tree/node.rs 1053-1055,
      1147-1149), which is an initialised array because `OptionRefId` has size zero there. *)
  Definition zst_refs (len : nat) : slots R := repeat (Some no_ref) len ++ repeat None (2 * M - len).

  (** `shallow_clone` (src/tree/node.rs 1012-1085; P = AllowCow). *)
  Definition a_shallow_clone (cl : S -> option S) (a : raw) : res (option raw * list event) :=
    let* (o, evs) := clone_vals cl (a_vals a) 0 (a_len a) (ia_new (2 * M)) in
    match o with
    | None => Ok (None, evs)
    | Some acc =>
      let leaf cs := {| a_len := a_len a; a_total := a_total a; a_keys := a_keys a; a_vals := ia_mem acc;
                        a_refs := zst_refs (a_len a); a_childs := cs |} in
      match a_childs a with
      | None => Ok (Some (leaf None), evs)
      | Some cs =>
        let* kids := rd_range cs 0 (a_len a + 1) in
        Ok (Some (leaf (Some cs)), evs ++ map (fun p => EShare (fst p)) kids)
      end
    end.

  (** The loop of `deep_clone` over the children (src/tree/node.rs 1164-1174); [None] is a panic inside the
      recursive call, on which the finished children are dropped (`NodeBox`). *)
  Fixpoint clone_childs (dc : C -> option C) (cs : slots C) (i n : nat) (acc : @init_array C) : res (option (@init_array C) * list event) :=
    match n with
    | O => Ok (Some acc, [])
    | Datatypes.S n' =>
      let* c := rd cs i in
      match dc c with
      | None => let* d := ia_drop acc in Ok (None, map EDropChild d ++ [EPanic])
      | Some c' =>
        let* acc' := ia_push acc c' in
        let* (o, evs) := clone_childs dc cs (Datatypes.S i) n' acc' in
        Ok (o, EMadeChild c' :: evs)
      end
    end.

  (** The closure given to `map_array_with_index` (src/tree/node.rs 1178-1185): reads the child only if its
      index, as a `u8`, is at most [len]. *)
  Fixpoint unbox (len : nat) (cs : slots C) (i n : nat) : res (slots C) :=
    match n with
    | O => Ok []
    | Datatypes.S n' =>
      let* c := if as_u8 i <=? len then (let* c := rd cs i in Ok (Some c)) else Ok None in
      let* r := unbox len cs (Datatypes.S i) n' in
      Ok (c :: r)
    end.

  (** `deep_clone` (src/tree/node.rs 1117-1220; P = NoFeatures).  The cloned slices sit in a `Leaf`, which has
      no destructor, while the children are cloned: a panic there leaks them. *)
  Definition a_deep_clone (new : nat) (cl : S -> option S) (dc : C -> option C) (a : raw) : res (option raw * list event) :=
    let* (o, evs) := clone_vals cl (a_vals a) 0 (a_len a) (ia_new (2 * M)) in
    match o with
    | None => Ok (None, evs)
    | Some acc =>
      let leaf cs := {| a_len := a_len a; a_total := a_total a; a_keys := a_keys a; a_vals := ia_mem acc;
                        a_refs := zst_refs (a_len a); a_childs := cs |} in
      match a_childs a with
      | None => Ok (Some (leaf None), evs)
      | Some cs =>
        let* (oc, cevs) := clone_childs dc cs 0 (a_len a + 1) (ia_new (2 * M + 1)) in
        match oc with
        | None =>
          let* lost := drop_slots (firstn (ia_len acc) (ia_mem acc)) in
          Ok (None, evs ++ cevs ++ map ELeak lost)
        | Some accc =>
          let* cs' := unbox (a_len a) (ia_mem accc) 0 (2 * M + 1) in
          let* kids := rd_range cs' 0 (a_len a + 1) in
          Ok (Some (leaf (Some cs')), evs ++ cevs ++ parents new kids)
        end
      end
    end.

  (** `do_drop` with `drop_vals` (src/tree/node.rs 1846-1951), for one node. *)
  Definition a_do_drop (a : raw) : res (list event) :=
    if negb (a_len a <=? length (a_vals a)) then UB
    else
      let* d := drop_slots (firstn (a_len a) (a_vals a)) in
      match a_childs a with
      | None => Ok (map EDrop d)
      | Some cs =>
        (* `&ps.as_slice()[..child_len]` *)
        if length cs <? a_len a + 1 then Panic PAssert
        else
          let* kids := rd_range cs 0 (a_len a + 1) in
          Ok (map EDrop d ++ map (fun p => EDropChild (fst p)) kids)
      end.

  (** Histories of calls on a pool of nodes; a dropped node is gone.  An operation on a node that is not
      there is undefined behaviour. *)
  Inductive nop : Type :=
  | NNewRoot (s : S) (size : I)
  | NNewParent (pos total : I) (s : S) (r : R) (lhs rhs : C)
  | NInsertKey (n k : nat) (s : S)
  | NPushKey (n : nat) (s : S) (r : R) (total : I)
  | NReplaceFirst (n : nat) (c : C)
  | NPushBoth (n : nat) (s : S) (r : R) (c : C) (total : I)
  | NInsertBoth (n k : nat) (s : S) (r : R) (c : C)
  | NSplit (n mid : nat)
  | NSetPos (n k : nat) (p : I)
  | NSetTotal (n : nat) (t : I)
  | NSetPoss (n : nat) (f : I -> option I) (from : nat)
  | NSwap (n k : nat) (s : S)
  | NShallow (n : nat) (cl : S -> option S)
  | NDeep (n : nat) (cl : S -> option S) (dc : C -> option C)
  | NDrop (n : nat).

  Definition apool : Type := list (option raw).

  (** One call on node [n]. *)
  Definition a_on (p : apool) (n : nat) (f : raw -> res (raw * list event)) : res (apool * list event) :=
    let* a := rd p n in
    let* (a', evs) := f a in
    Ok (replace_at n (Some a') p, evs).

  Definition a_step (p : apool) (o : nop) : res (apool * list event) :=
    match o with
    | NNewRoot s size => let* a := a_new_root s size in Ok (p ++ [Some a], [])
    | NNewParent pos total s r lhs rhs =>
      let* (a, evs) := a_make_new_parent (length p) pos total s r lhs rhs in Ok (p ++ [Some a], evs)
    | NInsertKey n k s => a_on p n (fun a => a_insert_key n a k s)
    | NPushKey n s r t => a_on p n (fun a => a_push_key n a s r t)
    | NReplaceFirst n c => a_on p n (fun a => a_replace_first_child n a c)
    | NPushBoth n s r c t => a_on p n (fun a => a_push_key_and_child n a s r c t)
    | NInsertBoth n k s r c => a_on p n (fun a => a_insert_key_and_child n a k s r c)
    | NSplit n mid =>
      let* a := rd p n in
      let* (a', b, evs) := a_split n (length p) a mid in
      Ok (replace_at n (Some a') p ++ [Some b], evs)
    | NSetPos n k q => a_on p n (fun a => let* a' := a_set_single_key_pos a k q in Ok (a', []))
    | NSetTotal n t => a_on p n (fun a => Ok (a_set_subtree_size a t, []))
    | NSetPoss n f from => a_on p n (fun a => a_set_key_poss_with a f from)
    | NSwap n k s => a_on p n (fun a => a_swap_slice a k s)
    | NShallow n cl =>
      let* a := rd p n in
      let* (o, evs) := a_shallow_clone cl a in
      Ok (p ++ match o with Some b => [Some b] | None => [] end, evs)
    | NDeep n cl dc =>
      let* a := rd p n in
      let* (o, evs) := a_deep_clone (length p) cl dc a in
      Ok (p ++ match o with Some b => [Some b] | None => [] end, evs)
    | NDrop n =>
      let* (a, p') := mv p n in
      let* evs := a_do_drop a in
      Ok (p', evs)
    end.

  Fixpoint a_run (p : apool) (ops : list nop) : res (apool * list event) :=
    match ops with
    | [] => Ok (p, [])
    | o :: ops' =>
      let* (p', evs) := a_step p o in
      let* (p'', evs') := a_run p' ops' in
      Ok (p'', evs ++ evs')
    end.
End Node.

Arguments raw : clear implicits.
Arguments event : clear implicits.
Arguments nop : clear implicits.
