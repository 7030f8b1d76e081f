(** How often the loops of an iterator go round.  Not code: the same loops as in Iter.v, counted. *)
From Coq Require Import List ZArith Bool Arith.
From Verif Require Import Base Index Slice Tree Insert Range Iter.
Import ListNotations.

Section Cost.
  Context {I S : Type}.
  Notation tree := (tree I S).
  Notation rle := (@rle I S).

  (** Rounds of the loop of `make_stack` (src/tree/iter.rs 258-376), one for each node on the way down. *)
  Fixpoint stack_rounds (X : index_ops I) (h : nat) (t : tree) (hints : list nat) (target : I) (excluded : bool) : nat :=
    1 + match stack_pick X h t (hd_error hints) target excluded, h with
        | Ok (CChild c cp), Datatypes.S h' =>
          match child t c, ix_sub_left X target cp with
          | Ok ch, Ok target' => stack_rounds X h' ch (tl hints) target' excluded
          | _, _ => 0
          end
        | _, _ => 0
        end.

  (** Rounds of the downward loop of `fwd_step` (src/tree/iter.rs 388-424), each of which enters a child. *)
  Fixpoint fwd_downs (h : nat) (t : tree) (c : nat) : nat :=
    match child t c with
    | Ok ch => 1 + match h with 0 => 0 | Datatypes.S h' => fwd_downs h' ch 0 end
    | _ => 0
    end.
  (** Rounds of the upward loop of `fwd_step` (src/tree/iter.rs 433-471), each of which goes to a parent. *)
  Fixpoint fwd_ups (root : tree) (rp : list nat) : nat :=
    match rp with
    | [] => 0
    | c :: rp' =>
      1 + match node_at root (rev rp') with
          | Ok par => if c <? tlen par then 0 else fwd_ups root rp'
          | _ => 0
          end
    end.
  Definition fwd_rounds (H : nat) (root : tree) (a : handle) : nat :=
    let (p, k) := a in
    match node_at root p with
    | Ok n =>
      match H - length p with
      | Datatypes.S h' => fwd_downs h' n (k + 1)
      | 0 => if k + 1 <? tlen n then 0 else fwd_ups root (rev p)
      end
    | _ => 0
    end.

  (** The same for `bkwd_step` (src/tree/iter.rs 479-513, 523-564). *)
  Fixpoint bkwd_downs (h : nat) (t : tree) (c : nat) : nat :=
    match child t c with
    | Ok ch => 1 + match h with 0 => 0 | Datatypes.S h' => bkwd_downs h' ch (tlen ch) end
    | _ => 0
    end.
  Fixpoint bkwd_ups (rp : list nat) : nat :=
    match rp with
    | [] => 0
    | 0 :: rp' => 1 + bkwd_ups rp'
    | Datatypes.S _ :: _ => 1
    end.
  Definition bkwd_rounds (H : nat) (root : tree) (a : handle) : nat :=
    let (p, k) := a in
    match node_at root p with
    | Ok n =>
      match H - length p with
      | Datatypes.S h' => bkwd_downs h' n k
      | 0 => match k with Datatypes.S _ => 0 | 0 => bkwd_ups (rev p) end
      end
    | _ => 0
    end.

  (** Rounds of all loops in one call of `next` or, if [back], `next_back` (src/tree/iter.rs 579-632, 642-677): the
      first call in each direction looks for its place; a call that is past the end of the range does not move. *)
  Definition call_rounds (X : index_ops I) (r : rle) (back : bool) (it : @iter I) : nat :=
    match r, it_state it with
    | Some r, Some st =>
      let H := r_height r in
      let t := r_node r in
      if back then
        match s_bkwd st with
        | Some b =>
          match (let* sz := handle_size X H t (k_head b) in ix_sub_right X (k_end b) sz) with
          | Ok next_end => if ix_leb X next_end (it_start it) then 0 else bkwd_rounds H t (k_head b)
          | _ => 0
          end
        | None => stack_rounds X H t (s_cursor st) (it_end it) (it_excl it)
        end
      else
        match s_fwd st with
        | Some f =>
          if (if it_excl it then ix_leb X (it_end it) (k_end f) else ix_ltb X (it_end it) (k_end f)) then 0
          else fwd_rounds H t (k_head f)
        | None => stack_rounds X H t (s_cursor st) (it_start it) false
        end
    | _, _ => 0
    end.

  (** Rounds of all loops in a sequence of calls, until one panics.  The index operations may be others in every
      call. *)
  Fixpoint rounds (r : rle) (it : @iter I) (cs : list (index_ops I * bool)) : nat :=
    match cs with
    | [] => 0
    | (X, b) :: cs' =>
      call_rounds X r b it +
      match iter_step X r b it with Ok (_, it') => rounds r it' cs' | _ => 0 end
    end.
End Cost.
