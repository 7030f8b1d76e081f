(** Calls of any number of threads on trees that may share nodes, with the memory orderings of src/tree/cow.rs: the
    clients of CowCall.v on the machine of Weak.v instead of that of Cow.v. *)
From Coq Require Import List Arith Bool.
From Verif Require Import Base Index Slice Tree Insert LInsert LRef Cow CowSpec Weak CowCall.
Import ListNotations.

Section CowCallWeak.
  Context {I V : Type} (X : index_ops I) (Y : slice_ops I V) (M : nat).

  (** As [client] (CowCall.v), but memory is that of Weak.v. *)
  Record wclient : Type := { q_w : wstate (@ndata I V); q_todo : list (list (ev (@ndata I V))); q_trees : list (option (@rle I V)) }.
  Definition qstart (threads : nat) : wclient := {| q_w := wstart threads; q_todo := repeat [] threads; q_trees := [] |}.

  (** [j]: which value the step reads if it loads a count (cow.rs 26-30), 0 being the newest. *)
  Definition qmachine (q : wclient) (t : nat) (e : ev (@ndata I V)) (j : nat) : option (wstate (@ndata I V)) :=
    match wstep code_ords (q_w q) t e j with WNext w _ => Some w | _ => None end.
  Definition qonly (q : wclient) (t : nat) (e : ev (@ndata I V)) (j : nat) : option wclient :=
    match qmachine q t e j with Some w => Some {| q_w := w; q_todo := q_todo q; q_trees := q_trees q |} | None => None end.

  (** The steps of CowCall.v; there is no [KShared], because a load may read an old count by itself. *)
  Definition qstep (q : wclient) (x : @act I V) (j : nat) : option wclient :=
    match x with
    | KCall t c a =>
      match nth_error (q_todo q) t, steps_of X Y M (q_trees q) c, seq1 X Y M (q_trees q) c with
      | Some [], Some (e, es), Some ts =>
        match qmachine q t (placed a e) j with
        | Some w => Some {| q_w := w; q_todo := replace_at t es (q_todo q); q_trees := ts |}
        | None => None
        end
      | _, _, _ => None
      end
    | KNext t a =>
      match nth_error (q_todo q) t with
      | Some (e :: es) =>
        match qmachine q t (placed a e) j with
        | Some w => Some {| q_w := w; q_todo := replace_at t es (q_todo q); q_trees := q_trees q |}
        | None => None
        end
      | _ => None
      end
    | KShared _ => None
    | KStep t a => qonly q t (VStep a) j
    | KFix t tg i => qonly q t (VFix tg i) j
    | KRead t h => qonly q t (VRead h) j
    | KDown t i => qonly q t (VDown i) j
    | KReadEnd t => qonly q t VReadEnd j
    end.
  Fixpoint qrun (q : wclient) (xs : list (@act I V * nat)) : option wclient :=
    match xs with
    | [] => Some q
    | (x, j) :: xs' => match qstep q x j with Some q' => qrun q' xs' | None => None end
    end.
End CowCallWeak.
