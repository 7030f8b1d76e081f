(** Sample clients with weak memory used by the examples that stand beside the theorems. *)
From Coq Require Import List ZArith Bool Arith.
From Verif Require Import Base Index Slice Tree Insert Spec Hist LRef LSpec Cow CowSpec Weak CowCall CowCallWeak Samples CowCallSamples.
Import ListNotations.
Local Open Scope Z_scope.

Definition qk_run (xs : list (@act Z nat * nat)) : option (@wclient Z nat) := qrun sx sc 1 (qstart 3) xs.
(** The next step of thread [t]; a load reads an old count if it can. *)
Definition qk_next (q : @wclient Z nat) (t : nat) : list (@act Z nat * nat) :=
  let a := length (c_mem (w_s (q_w q))) in
  filter (fun x => match qstep sx sc 1 q (fst x) (snd x) with Some _ => true | None => false end) [(KNext t a, O); (KStep t a, 1%nat); (KStep t a, O)].
(** [f] steps of thread [t]. *)
Fixpoint qk_on (f t : nat) (q : @wclient Z nat) : list (@act Z nat * nat) :=
  match f with
  | O => []
  | S f' =>
    match qk_next q t with
    | x :: _ => match qstep sx sc 1 q (fst x) (snd x) with Some q' => x :: qk_on f' t q' | None => [] end
    | [] => []
    end
  end.
Definition qk_then (xs : list (@act Z nat * nat)) (f t : nat) : list (@act Z nat * nat) :=
  match qk_run xs with Some q => xs ++ qk_on f t q | None => [] end.
Definition qk_call (t : nat) (c : @mcall nat) : @act Z nat * nat := (kk_call t c O, O).

(** Thread 0 makes tree 0 and its clones 1 and 2; thread 2 reads tree 2; thread 1 drops tree 1. *)
Definition qk_drop : list (@act Z nat * nat) :=
  Eval vm_compute in qk_then (map (fun x => (x, O)) kk_base ++ [(KRead 2 2, O); (KReadEnd 2, O); qk_call 1 (MDrop 1)]) 9 1.
(** Thread 1 drops tree 2 as well. *)
Definition qk_alone : list (@act Z nat * nat) := Eval vm_compute in qk_then (qk_drop ++ [qk_call 1 (MDrop 2)]) 9 1.
(** Then thread 0 inserts into tree 0.  It still reads a count from before, and copies the root, which no other tree has any more. *)
Definition qk_mixed : list (@act Z nat * nat) := Eval vm_compute in qk_then (qk_alone ++ [qk_call 0 (kk_ins 0 70 8 10)]) 4 0.
Definition qk_done : list (@act Z nat * nat) := Eval vm_compute in qk_then qk_mixed 200 0.
(** Or it drops tree 0, the last owner of its nodes. *)
Definition qk_last : list (@act Z nat * nat) := Eval vm_compute in qk_then (qk_alone ++ [qk_call 0 (MDrop 0)]) 200 0.
