(** Calls of any number of threads, some of which panic half-way: the clients of CowCallWeak.v, and beside their calls
    steps that are no part of any call that CowCall.v knows.  A tree that such steps may change is given up: nothing is
    said about it any more.  Insertions that unwind at any place are among these steps, as is all that may be done to
    their trees later. *)
From Coq Require Import List Arith Bool.
From Verif Require Import Base Index Slice Tree Insert Cow CowSpec Weak CowCall CowCallWeak.
Import ListNotations.

Section CowLost.
  Context {I V : Type} (X : index_ops I) (Y : slice_ops I V) (M : nat).

  (** [DLose j]: tree [j] is given up, because a call on it is about to panic (insert_with_cursor, src/tree/mod.rs
      695-701; what user code does when it panics is Unwind.v).
      [DFree t e]: thread [t], which is in no call, does step [e] of Cow.v.  The step need not make sense for the code,
      so whatever part of an insertion is done before the panic is covered, and with [VAbort] the unwinding itself,
      which drops the nodes that the call has in its hands (mod.rs 1011-1047, node.rs 1038-1046). *)
  Inductive deed : Type := DAct (x : @act I V) | DLose (j : nat) | DFree (t : nat) (e : ev (@ndata I V)).

  Record lclient : Type := { l_q : @wclient I V; l_lost : list nat }.
  Definition dstart (threads : nat) : lclient := {| l_q := qstart threads; l_lost := [] |}.

  Definition given_up (lost : list nat) (j : nat) : bool := existsb (Nat.eqb j) lost.
  (** The steps with which a call starts name a tree; that tree must have been given up. *)
  Definition astray (lost : list nat) (e : ev (@ndata I V)) : bool :=
    match e with VNew j _ _ | VClone j | VDrop j | VRead j | VInsert j => given_up lost j | _ => true end.
  Definition makes (e : ev (@ndata I V)) : bool := match e with VEmpty | VClone _ => true | _ => false end.

  Definition dstep (l : lclient) (d : deed) (j : nat) : option lclient :=
    let q := l_q l in
    match d with
    | DAct x => match qstep X Y M q x j with Some q' => Some {| l_q := q'; l_lost := l_lost l |} | None => None end
    | DLose i =>
      (* no other call has borrowed the tree mutably *)
      if (i <? length (q_trees q)) && negb (existsb (writes i) (c_threads (w_s (q_w q)))) then
        Some {| l_q := {| q_w := q_w q; q_todo := q_todo q; q_trees := replace_at i None (q_trees q) |}; l_lost := i :: l_lost l |}
      else None
    | DFree t e =>
      match nth_error (q_todo q) t with
      | Some [] =>
        if astray (l_lost l) e then
          match qmachine q t e j with
          | Some w =>
            Some (if makes e then {| l_q := {| q_w := w; q_todo := q_todo q; q_trees := q_trees q ++ [None] |}; l_lost := length (q_trees q) :: l_lost l |}
                  else {| l_q := {| q_w := w; q_todo := q_todo q; q_trees := q_trees q |}; l_lost := l_lost l |})
          | None => None
          end
        else None
      | _ => None
      end
    end.
  Fixpoint drun (l : lclient) (xs : list (deed * nat)) : option lclient :=
    match xs with
    | [] => Some l
    | (d, j) :: xs' => match dstep l d j with Some l' => drun l' xs' | None => None end
    end.

  (** What is meant to come of it: the calls, one after another; a tree that is given up is gone from then on. *)
  Definition told (ts : list (option (@rle I V))) (d : deed) : option (list (option (@rle I V))) :=
    match d with
    | DAct (KCall _ c _) => seq1 X Y M ts c
    | DLose i => Some (replace_at i None ts)
    | DFree _ e => Some (if makes e then ts ++ [None] else ts)
    | _ => Some ts
    end.
  Fixpoint telling (ts : list (option (@rle I V))) (ds : list deed) : option (list (option (@rle I V))) :=
    match ds with
    | [] => Some ts
    | d :: ds' => match told ts d with Some ts' => telling ts' ds' | None => None end
    end.
End CowLost.
