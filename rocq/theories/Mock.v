(** The reference implementation used for fuzzing (src/mock.rs): a vector of runs.

    Simplification: `binary_search_by_key` on a strictly increasing list of end positions is replaced
    by a linear search with the same contract ([search]); that the ends are strictly increasing is
    proved in MockP.v.  Indexing a vector out of range, `Vec::remove` out of range and a failed
    `assert!` all panic with [PAssert]. *)
From Coq Require Import List ZArith Bool Arith.
From Verif Require Import Base Index Slice Range.
Import ListNotations.

Section Mock.
  Context {I S : Type} (X : index_ops I) (Y : slice_ops I S).

  (** `RefMap` (src/mock.rs 32-39): StableId -> index in `runs`, RefId -> StableId. *)
  Record refmap : Type := { rm_stable : list (option nat); rm_refs : list nat }.

  (** `Mock` (src/mock.rs 11-17): end position, slice, StableId of every run. *)
  Notation mrun := (I * S * nat)%type (only parsing).
  Record mock : Type := { mk_runs : list mrun; mk_map : refmap }.

  (** `Mock::new_empty` (src/mock.rs 55-60). *)
  Definition mock_empty : mock := {| mk_runs := []; mk_map := {| rm_stable := []; rm_refs := [] |} |}.

  (** Vector indexing. *)
  Definition vget {T : Type} (l : list T) (i : nat) : res T :=
    match nth_error l i with Some a => Ok a | None => Panic PAssert end.
  Definition vset {T : Type} (l : list T) (i : nat) (a : T) : res (list T) :=
    if i <? length l then Ok (replace_at i a l) else Panic PAssert.
  Definition vremove {T : Type} (l : list T) (i : nat) : res (T * list T) :=
    let* a := vget l i in Ok (a, firstn i l ++ skipn (i + 1) l).

  (** `RefMap::new_stableid` (src/mock.rs 300-304), `new_refid` (306-310). *)
  Definition new_stableid (m : refmap) (o : option nat) : refmap * nat :=
    ({| rm_stable := rm_stable m ++ [o]; rm_refs := rm_refs m |}, length (rm_stable m)).
  Definition new_refid (m : refmap) (sid : nat) : refmap * nat :=
    ({| rm_stable := rm_stable m; rm_refs := rm_refs m ++ [sid] |}, length (rm_refs m)).

  (** `RefMap::stable_apply` (src/mock.rs 312-318). *)
  Definition stable_apply (m : refmap) (filt : nat -> bool) (f : nat -> nat) : refmap :=
    {| rm_stable := map (option_map (fun i => if filt i then f i else i)) (rm_stable m); rm_refs := rm_refs m |}.

  (** `RefMap::insert` (src/mock.rs 320-323). *)
  Definition rm_insert (m : refmap) (idx : nat) : refmap * nat :=
    new_stableid (stable_apply m (fun i => idx <=? i) (fun i => i + 1)) (Some idx).

  (** `RefMap::reinsert` (src/mock.rs 325-328). *)
  Definition rm_reinsert (m : refmap) (idx sid : nat) : res refmap :=
    let m := stable_apply m (fun i => idx <=? i) (fun i => i + 1) in
    let* st := vset (rm_stable m) sid (Some idx) in
    Ok {| rm_stable := st; rm_refs := rm_refs m |}.

  (** `RefMap::remove` (src/mock.rs 330-333). *)
  Definition rm_remove (m : refmap) (sid idx : nat) : res refmap :=
    let* st := vset (rm_stable m) sid None in
    Ok (stable_apply {| rm_stable := st; rm_refs := rm_refs m |} (fun i => idx <? i) (fun i => i - 1)).

  (** `RefMap::remap` (src/mock.rs 335-337). *)
  Definition rm_remap (m : refmap) (from to : nat) : refmap :=
    {| rm_stable := rm_stable m; rm_refs := map (fun id => if id =? from then to else id) (rm_refs m) |}.

  (** `RefMap::idx` (src/mock.rs 296-298). *)
  Definition rm_idx (m : refmap) (rid : nat) : res (option nat) :=
    let* sid := vget (rm_refs m) rid in vget (rm_stable m) sid.

  (** `binary_search_by_key(&i, |(end, ..)| *end)`: [inl] is `Ok`, [inr] is `Err`. *)
  Fixpoint search (runs : list mrun) (i : I) : nat + nat :=
    match runs with
    | [] => inr 0
    | (e, _, _) :: runs' =>
      if ix_ltb X e i then match search runs' i with inl k => inl (k + 1) | inr k => inr (k + 1) end
      else if ix_eqb X e i then inl 0 else inr 0
    end.

  (** `match binary_search { Ok(i) => i + 1, Err(i) => i }` (src/mock.rs 87-90, 100-103, 116-119). *)
  Definition run_index (runs : list mrun) (i : I) : nat :=
    match search runs i with inl k => k + 1 | inr k => k end.

  (** `idx.checked_sub(1).map(|i| self.runs[i].0).unwrap_or(I::ZERO)`. *)
  Definition start_of (runs : list mrun) (idx : nat) : res I :=
    match idx with
    | 0 => Ok (ix_zero X)
    | Datatypes.S i => let* r := vget runs i in Ok (fst (fst r))
    end.

  (** `Mock::size` (src/mock.rs 81-83). *)
  Definition mock_size (m : mock) : I := match rev (mk_runs m) with [] => ix_zero X | r :: _ => fst (fst r) end.

  (** `Mock::get` (src/mock.rs 85-95). *)
  Definition mock_get (m : mock) (index : I) : res (I * I * S) :=
    if ix_leb X (ix_zero X) index && ix_ltb X index (mock_size m) then
      let idx := run_index (mk_runs m) index in
      let* r := vget (mk_runs m) idx in
      let* start := start_of (mk_runs m) idx in
      Ok (start, fst (fst r), snd (fst r))
    else Panic PAssert.

  (** `Mock::make_ref` (src/mock.rs 97-106). *)
  Definition mock_make_ref (m : mock) (index : I) : res (mock * nat) :=
    if ix_leb X (ix_zero X) index && ix_ltb X index (mock_size m) then
      let* r := vget (mk_runs m) (run_index (mk_runs m) index) in
      let (rm, rid) := new_refid (mk_map m) (snd r) in
      Ok ({| mk_runs := mk_runs m; mk_map := rm |}, rid)
    else Panic PAssert.

  (** Finding the insertion point and splitting the run there if necessary (src/mock.rs 115-142). *)
  Definition mock_split (runs : list mrun) (rm : refmap) (index : I) : res (list mrun * refmap * nat) :=
    let idx := run_index runs index in
    if idx <? length runs then
      let* s := start_of runs idx in
      if ix_ltb X s index then
        let* pos_in_key := ix_sub_left X index s in
        let* r := vget runs idx in
        let (a, b) := sl_split_at Y (snd (fst r)) pos_in_key in
        let* runs1 := vset runs idx (index, a, snd r) in
        let (rm1, sid) := rm_insert rm (idx + 1) in
        Ok (insert_at (idx + 1) (fst (fst r), b, sid) runs1, rm1, idx + 1)
      else Ok (runs, rm, idx)
    else Ok (runs, rm, idx).

  (** The local variables of `insert` after the split: `slice`, `base_pos`, `old_size`, `new_size`,
      `lhs_end_override`, `lhs_stable_id`, `rhs_stable_id` (src/mock.rs 144-152). *)
  Record mloc : Type := {
    ml_runs : list mrun; ml_map : refmap; ml_idx : nat; ml_slice : S; ml_base : I; ml_old : I; ml_new : I;
    ml_override : option I; ml_lhs : option nat; ml_rhs : option nat
  }.

  (** Joining with the left neighbour (src/mock.rs 154-176). *)
  Definition mock_left (q : mloc) (index : I) : res mloc :=
    match ml_idx q with
    | 0 => Ok q
    | Datatypes.S p =>
      let* (r, runs) := vremove (ml_runs q) p in
      let (es, lhs_id) := r in let (lhs_end, lhs) := es in
      let* rm := rm_remove (ml_map q) lhs_id p in
      if ix_eqb X lhs_end index then
        match sl_try_join Y lhs (ml_slice q) with
        | inr (lhs', s) =>
          let* rm := rm_reinsert rm p lhs_id in
          Ok {| ml_runs := insert_at p (lhs_end, lhs', lhs_id) runs; ml_map := rm; ml_idx := ml_idx q; ml_slice := s;
                ml_base := ml_base q; ml_old := ml_old q; ml_new := ml_new q; ml_override := ml_override q;
                ml_lhs := ml_lhs q; ml_rhs := ml_rhs q |}
        | inl new =>
          let* lhs_start := start_of runs p in
          let* lhs_size := ix_sub_left X lhs_end lhs_start in
          let* old := ix_add_left X (ml_old q) lhs_size in
          let* nw := ix_add_left X (ml_new q) lhs_size in
          Ok {| ml_runs := runs; ml_map := rm; ml_idx := p; ml_slice := new; ml_base := lhs_start; ml_old := old;
                ml_new := nw; ml_override := Some lhs_end; ml_lhs := Some lhs_id; ml_rhs := ml_rhs q |}
        end
      else Panic PAssert
    end.

  (** Joining with the right neighbour (src/mock.rs 179-199). *)
  Definition mock_right (q : mloc) : res mloc :=
    if ml_idx q <? length (ml_runs q) then
      let* (r, runs) := vremove (ml_runs q) (ml_idx q) in
      let (es, rhs_id) := r in let (rhs_end, rhs) := es in
      let* rm := rm_remove (ml_map q) rhs_id (ml_idx q) in
      match sl_try_join Y (ml_slice q) rhs with
      | inr (s, rhs') =>
        let* rm := rm_reinsert rm (ml_idx q) rhs_id in
        Ok {| ml_runs := insert_at (ml_idx q) (rhs_end, rhs', rhs_id) runs; ml_map := rm; ml_idx := ml_idx q; ml_slice := s;
              ml_base := ml_base q; ml_old := ml_old q; ml_new := ml_new q; ml_override := ml_override q;
              ml_lhs := ml_lhs q; ml_rhs := ml_rhs q |}
      | inl new =>
        let* rhs_start := match ml_override q with Some e => Ok e | None => start_of runs (ml_idx q) end in
        let* rhs_size := ix_sub_left X rhs_end rhs_start in
        let* old := ix_add_right X (ml_old q) rhs_size in
        let* nw := ix_add_right X (ml_new q) rhs_size in
        Ok {| ml_runs := runs; ml_map := rm; ml_idx := ml_idx q; ml_slice := new; ml_base := ml_base q; ml_old := old;
              ml_new := nw; ml_override := ml_override q; ml_lhs := ml_lhs q; ml_rhs := Some rhs_id |}
      end
    else Ok q.

  (** Placing the result and shifting what follows (src/mock.rs 201-215). *)
  Definition mock_finish (q : mloc) : res (mock * nat) :=
    let (rm, sid) := rm_insert (ml_map q) (ml_idx q) in
    let* e := ix_add_right X (ml_base q) (ml_new q) in
    let runs := insert_at (ml_idx q) (e, ml_slice q, sid) (ml_runs q) in
    let rm := match ml_lhs q with Some id => rm_remap rm id sid | None => rm end in
    let rm := match ml_rhs q with Some id => rm_remap rm id sid | None => rm end in
    let* e1 := ix_add_right X (ml_base q) (ml_new q) in
    let* e2 := ix_add_right X (ml_base q) (ml_old q) in
    let* diff := ix_sub_left X e1 e2 in
    let* tl := mapM (fun r : mrun => let* i := ix_add_left X (fst (fst r)) diff in Ok (i, snd (fst r), snd r)) (skipn (ml_idx q + 1) runs) in
    Ok ({| mk_runs := firstn (ml_idx q + 1) runs ++ tl; mk_map := rm |}, sid).

  (** `Mock::insert` (src/mock.rs 108-222); the result holds the new `Ref` if one was asked for. *)
  Definition mock_insert (m : mock) (index : I) (slice : S) (size : I) (make_ref : bool) : res (mock * option nat) :=
    if ix_eqb X size (ix_zero X) then Panic PBadSize
    else if ix_ltb X (mock_size m) index then Panic POutOfBounds
    else
      let* (rr, idx) := mock_split (mk_runs m) (mk_map m) index in
      let (runs, rm) := rr in
      let* q := mock_left {| ml_runs := runs; ml_map := rm; ml_idx := idx; ml_slice := slice; ml_base := index;
                             ml_old := ix_zero X; ml_new := size; ml_override := None; ml_lhs := None; ml_rhs := None |} index in
      let* q := mock_right q in
      let* (m', sid) := mock_finish q in
      if make_ref then
        let (rm, rid) := new_refid (mk_map m') sid in
        Ok ({| mk_runs := mk_runs m'; mk_map := rm |}, Some rid)
      else Ok (m', None).

  (** `Mock::ref_range` together with `Mock::ref_slice` (src/mock.rs 223-232). *)
  Definition mock_ref (m : mock) (rid : nat) : res (option (I * I * S)) :=
    let* o := rm_idx (mk_map m) rid in
    match o with
    | None => Ok None
    | Some idx =>
      let* r := vget (mk_runs m) idx in
      let* start := start_of (mk_runs m) idx in
      Ok (Some (start, fst (fst r), snd (fst r)))
    end.

  (** `Mock::iter` (src/mock.rs 241-292): `fwd_idx` and `bkwd_idx`. *)
  Definition mock_iter (m : mock) (sb : sbound I) (eb : ebound I) : res (nat * nat) :=
    let size := mock_size m in
    let runs := mk_runs m in
    let '(start_pos, unb) := match sb with SUnb => (ix_zero X, true) | SIncl i => (i, false) end in
    let* fwd := match sb with
                | SUnb => Ok 0
                | SIncl i => if ix_leb X size i then Panic PRange else Ok (run_index runs i)
                end in
    let* bkwd := match eb with
                 | EUnb => Ok (length runs)
                 | EIncl i =>
                   if ix_ltb X i start_pos || ix_leb X size i then Panic PRange
                   else Ok (match search runs i with inl k => k + 2 | inr k => k + 1 end)
                 | EExcl i =>
                   if ix_ltb X i start_pos || (ix_eqb X i start_pos && negb unb) || ix_ltb X size i then Panic PRange
                   else if ix_eqb X i (ix_zero X) then Ok 0
                   else Ok (match search runs i with inl k => k + 1 | inr k => k + 1 end)
                 end in
    Ok (fwd, bkwd).

  (** `MockIter::next` (src/mock.rs 350-361), `next_back` (365-376): the range, the size, the slice. *)
  Definition mock_step (m : mock) (back : bool) (it : nat * nat) : res (option (I * I * I * S) * (nat * nat)) :=
    let (fwd, bkwd) := it in
    if bkwd <=? fwd then Ok (None, it)
    else
      let k := if back then bkwd - 1 else fwd in
      let* start := start_of (mk_runs m) k in
      let* r := vget (mk_runs m) k in
      let* size := ix_sub_left X (fst (fst r)) start in
      Ok (Some (start, fst (fst r), size, snd (fst r)), if back then (fwd, bkwd - 1) else (fwd + 1, bkwd)).

  Fixpoint mock_calls (m : mock) (it : nat * nat) (calls : list bool) : res (list (option (I * I * I * S)) * (nat * nat)) :=
    match calls with
    | [] => Ok ([], it)
    | b :: calls' =>
      let* (o, it1) := mock_step m b it in
      let* (os, it2) := mock_calls m it1 calls' in
      Ok (o :: os, it2)
    end.

  (** A history of inserts (index, slice, size), up to the first panic. *)
  Fixpoint mock_run (m : mock) (ops : list (I * S * I)) : res mock :=
    match ops with
    | [] => Ok m
    | (idx, x, n) :: ops' => let* (m', _) := mock_insert m idx x n false in mock_run m' ops'
    end.

  (** A history of inserts and reference creations; the `Ref`s in the order of their creation. *)
  Inductive mop : Type := MInsert (index : I) (slice : S) (size : I) | MInsertRef (index : I) (slice : S) (size : I) | MMakeRef (index : I).
  Fixpoint mock_ops (m : mock) (ops : list mop) : res (mock * list nat) :=
    match ops with
    | [] => Ok (m, [])
    | o :: ops' =>
      let* (m1, id) := match o with
                       | MInsert i x n => mock_insert m i x n false
                       | MInsertRef i x n => mock_insert m i x n true
                       | MMakeRef i => let* (m', rid) := mock_make_ref m i in Ok (m', Some rid)
                       end in
      let* (m2, ids) := mock_ops m1 ops' in
      Ok (m2, match id with Some i => i :: ids | None => ids end)
    end.
End Mock.
Arguments mloc : clear implicits.
Arguments mock : clear implicits.
