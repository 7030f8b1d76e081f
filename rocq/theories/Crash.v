(** Insertion with a slice type whose methods may panic: what is left of the tree (src/tree/insert.rs). *)
From Coq Require Import List ZArith Bool Arith.
From Verif Require Import Base Index Slice Tree Insert Range Iter.
Import ListNotations.

(** `trait Slice<Idx>` (src/public_traits.rs 48-90) with methods that may panic: [None]. *)
Record fslice_ops (I S : Type) : Type := {
  fs_may_join : bool;
  fs_split_at : S -> I -> option (S * S);
  fs_try_join : S -> S -> option (S + S * S);
}.
Arguments fs_may_join {I S}.
Arguments fs_split_at {I S}.
Arguments fs_try_join {I S}.

(** The same tree with other slices. *)
Fixpoint tmap {I S T : Type} (f : S -> T) (t : tree I S) : tree I T :=
  match t with
  | Nil => Nil
  | Node tot c0 es => Node tot (tmap f c0) (map (fun e => (e_pos e, f (e_slice e), tmap f (snd e))) es)
  end.

Section Crash.
  Context {I S : Type} (X : index_ops I) (F : fslice_ops I S) (M : nat).
  Notation tree := (tree I S).
  (** A tree from which slices may have been moved out: [None] (`holes`, src/tree/node.rs 474-496; the records of
      holes are in Holes.v). *)
  Notation otree := (Tree.tree I (option S)).

  (** [t] with the slices of the given keys moved out (`take_value_and_leave_hole`, node.rs 3014-3048). *)
  Fixpoint hollow (t : otree) (l : list handle) : res otree :=
    match l with
    | [] => Ok t
    | a :: l' => let* t' := set_slice_at t (fst a) (snd a) None in hollow t' l'
    end.

  (** A call that returns, or in which the slice type panics (or `todo!()` is reached).  When it unwinds the nodes
      are as they are at that point: no guard puts anything back.  [len_off] is what was taken off `root.len`. *)
  Inductive fres (A : Type) : Type := FRet (a : A) | FCrash (t : otree) (len_off : nat).
  Arguments FRet {A} a.
  Arguments FCrash {A} t len_off.

  Definition crash {A} (t : tree) (l : list handle) (len_off : nat) : res (fres A) :=
    let* t' := hollow (tmap Some t) l in Ok (FCrash t' len_off).

  (** `do_insert_full_edge_try_join` (src/tree/insert.rs 670-824). *)
  Definition fedge_try_join (h : nat) (t : tree) (lhs rhs : option handle) (slice : S) (size : I)
    : res (fres (@join_result I S)) :=
    if negb (fs_may_join F) then Ok (FRet (NotJoined t slice))
    else
      let* lsz := match lhs with
                  | None => Ok None
                  | Some a => let* z := handle_size X h t a in Ok (Some (z, a))
                  end in
      let* rsz := match rhs with
                  | None => Ok None
                  | Some a => let* z := handle_size X h t a in Ok (Some (z, a))
                  end in
      match lsz, rsz with
      | None, None => Panic PUnreachable
      | Some (lhs_size, la), None =>
        let* ls := handle_slice t la in
        match fs_try_join F ls slice with
        | None => crash t [la] 0
        | Some (inl new) =>
          let* t1 := set_slice_at t (fst la) (snd la) new in
          let* ns := ix_add_right X lhs_size size in
          let* j := single_join X M h t1 la lhs_size ns in Ok (FRet j)
        | Some (inr (l, s)) =>
          let* t1 := set_slice_at t (fst la) (snd la) l in
          Ok (FRet (NotJoined t1 s))
        end
      | None, Some (rhs_size, ra) =>
        let* rs := handle_slice t ra in
        match fs_try_join F slice rs with
        | None => crash t [ra] 0
        | Some (inl new) =>
          let* t1 := set_slice_at t (fst ra) (snd ra) new in
          let* ns := ix_add_left X rhs_size size in
          let* j := single_join X M h t1 ra rhs_size ns in Ok (FRet j)
        | Some (inr (s, r)) =>
          let* t1 := set_slice_at t (fst ra) (snd ra) r in
          Ok (FRet (NotJoined t1 s))
        end
      | Some (lhs_size, la), Some (rhs_size, ra) =>
        let* ls := handle_slice t la in
        match fs_try_join F ls slice with
        | None => crash t [la] 0
        | Some (inl mid) =>
          (* the hole of [la] is still open (743-748) *)
          let* mid_size := ix_add_right X lhs_size size in
          let* rs := handle_slice t ra in
          match fs_try_join F mid rs with
          | None => crash t [la; ra] 0
          | Some (inl new) =>
            (* 769-789: `root.len` is reduced, [la] filled, [ra] left open, then `todo!()` (976) *)
            let* t1 := set_slice_at t (fst la) (snd la) new in
            let* _ := ix_add_right X mid_size rhs_size in
            crash t1 [ra] 1
          | Some (inr (m, r)) =>
            let* t1 := set_slice_at t (fst ra) (snd ra) r in
            let* t2 := set_slice_at t1 (fst la) (snd la) m in
            let* j := single_join X M h t2 la lhs_size mid_size in Ok (FRet j)
          end
        | Some (inr (l, s)) =>
          let* t1 := set_slice_at t (fst la) (snd la) l in
          let* rs := handle_slice t1 ra in
          match fs_try_join F s rs with
          | None => crash t1 [ra] 0
          | Some (inl new) =>
            let* t2 := set_slice_at t1 (fst ra) (snd ra) new in
            let* ns := ix_add_right X size rhs_size in
            let* j := single_join X M h t2 ra rhs_size ns in Ok (FRet j)
          | Some (inr (s', r)) =>
            let* t2 := set_slice_at t1 (fst ra) (snd ra) r in
            Ok (FRet (NotJoined t2 s'))
          end
        end
      end.

  (** `do_insert_full_edge` (src/tree/insert.rs 483-523). *)
  Definition finsert_edge (h : nat) (t : tree) (p : list nat) (k : nat) (lhs rhs : option handle)
             (slice : S) (size : I) : res (fres (tree * nat * list nat * nat)) :=
    let* node := node_at t p in
    if tlen node <? k then UB
    else
      let* jr := fedge_try_join h t lhs rhs slice size in
      match jr with
      | FCrash t' o => Ok (FCrash t' o)
      | FRet (Joined t' h' cur) => Ok (FRet (t', h', cur, 0))
      | FRet (NotJoined t1 s) =>
        let* st := upd X M (no_join_leaf X M false k None (s, size) None) None t1 p in
        let* (t', h', cur) := finish_root X h st in
        Ok (FRet (t', h', cur, 1))
      end.

  (** `do_insert_full_split_key` (src/tree/insert.rs 529-652), with `with_slice` (src/tree/node.rs 3085-3090): the
      key is a hole while `split_at` runs, and from 567 until 576, 584 or 619. *)
  Definition finsert_split_key (nop : bool) (h : nat) (t : tree) (p : list nat) (hk k : nat)
             (pos_in_key : I) (slice : S) (size : I) : res (fres (tree * nat * list nat * nat)) :=
    let* node := node_at t p in
    let* key_size := slice_size X hk node k in
    let* s0 := slice_at node k in
    match fs_split_at F s0 pos_in_key with
    | None => crash t [(p, k)] 0
    | Some (lhs, rhs) =>
      let* t1 := set_slice_at t p k lhs in
      let* rhs_size := ix_sub_left X key_size pos_in_key in
      let lhs_size := pos_in_key in
      if negb (fs_may_join F) then
        let* (t', h', cur) := insert_rhs X M h t1 p hk k lhs_size false (slice, size) (Some (rhs, rhs_size)) in
        Ok (FRet (t', h', cur, 2))
      else
        match fs_try_join F lhs slice with
        | None => crash t1 [(p, k)] 0
        | Some (inl mid) =>
          let* mid_size := ix_add_right X lhs_size size in
          match fs_try_join F mid rhs with
          | None => crash t1 [(p, k)] 0
          | Some (inl new) =>
            let* t2 := set_slice_at t1 p k new in
            let* old := ix_add_right X lhs_size rhs_size in
            let* new' := ix_add_right X mid_size rhs_size in
            let* st := upd X M (fun n => key_step X n k None old new' []) None t2 p in
            let* (t', h', cur) := finish_root X h st in
            Ok (FRet (t', h', cur, 0))
          | Some (inr (l, r)) =>
            let* t2 := set_slice_at t1 p k l in
            let* (t', h', cur) :=
              insert_rhs X M h t2 p hk k mid_size (negb nop) (r, rhs_size) None in
            Ok (FRet (t', h', cur, 1))
          end
        | Some (inr (l, s)) =>
          let* t2 := set_slice_at t1 p k l in
          match fs_try_join F s rhs with
          | None => crash t2 [] 0
          | Some (inl new) =>
            let* size' := ix_add_right X size rhs_size in
            let* (t', h', cur) := insert_rhs X M h t2 p hk k lhs_size false (new, size') None in
            Ok (FRet (t', h', cur, 1))
          | Some (inr (m, r)) =>
            let* (t', h', cur) :=
              insert_rhs X M h t2 p hk k lhs_size false (m, size) (Some (r, rhs_size)) in
            Ok (FRet (t', h', cur, 2))
          end
        end
    end.

  (** `find_insertion_point` (src/tree/insert.rs 1229-1326) uses MAY_JOIN only. *)
  Definition only_may_join : slice_ops I S :=
    {| sl_may_join := fs_may_join F; sl_split_at := fun s _ => (s, s); sl_try_join := fun a b => inr (a, b) |}.

  Inductive foutcome : Type := FReturned (r : @rle I S) (cur : list nat) | FPanicked (r : @root I (option S)).

  (** `insert_internal` (src/tree/insert.rs 41-197); panics before any call of the slice type, and panics of the
      index type, are those of [res]. *)
  Definition finsert_with_cursor (nop : bool) (r : @rle I S) (hints : list nat) (idx : I) (slice : S)
             (size : I) : res foutcome :=
    let* sz := rle_size X r in
    if ix_ltb X sz idx then Panic POutOfBounds
    else if ix_leb X size (ix_zero X) then Panic PBadSize
    else
      match r with
      | None => let* r' := rle_new X slice size in Ok (FReturned r' [])
      | Some r =>
        let* ip := find_insertion_point X only_may_join (r_height r) (r_node r) hints idx [] None None in
        let* o :=
          match ip with
          | EdgeInsert p k lhs rhs =>
            finsert_edge (r_height r) (r_node r) p k lhs rhs slice size
          | SplitKeyInsert p hk k pos_in_key =>
            finsert_split_key nop (r_height r) (r_node r) p hk k pos_in_key slice size
          end in
        match o with
        | FRet (t', h', cur, added) =>
          Ok (FReturned (Some {| r_height := h'; r_node := t'; r_len := r_len r + added |}) cur)
        | FCrash t' o => Ok (FPanicked {| r_height := r_height r; r_node := t'; r_len := r_len r - o |})
        end
      end.
End Crash.
Arguments FRet {I S A} a.
Arguments FCrash {I S A} t len_off.
Arguments FReturned {I S} r cur.
Arguments FPanicked {I S} r.

(** All runs of a tree, by iteration; at most [fuel] calls of `next` ([iter_collect] takes the bound from `root.len`, which may be wrong
    after a panic). *)
Definition walk {I S : Type} (X : index_ops I) (r : @root I S) (fuel : nat) : res (list (@item I S)) :=
  let* it := iter_new X (Some r) [] SUnb EUnb in collect X fuel (Some r) it.
