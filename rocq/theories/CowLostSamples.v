(** Sample clients some of whose calls panic, used by the examples that stand beside the theorems. *)
From Coq Require Import List ZArith Bool Arith.
From Verif Require Import Base Index Slice Tree Insert Spec Hist LRef LSpec Cow CowSpec Weak CowCall CowCallWeak Samples CowCallSamples CowCallWeakSamples CowLost.
Import ListNotations.
Local Open Scope Z_scope.

Definition dk_run (xs : list (@deed Z nat * nat)) : option (@lclient Z nat) := drun sx sc 1 (dstart 3) xs.
(** The next step of thread [t] in its call, or the next of copying or dropping a node. *)
Definition dk_next (l : @lclient Z nat) (t : nat) : list (@deed Z nat) :=
  let a := length (c_mem (w_s (q_w (l_q l)))) in
  filter (fun x => match dstep sx sc 1 l x 0 with Some _ => true | None => false end) [DAct (KNext t a); DFree t (VStep a); DAct (KStep t a)].
(** A step for each thread in [ts]. *)
Fixpoint dk_on (ts : list nat) (l : @lclient Z nat) : list (@deed Z nat * nat) :=
  match ts with
  | [] => []
  | t :: ts' =>
    match dk_next l t with
    | x :: _ => match dstep sx sc 1 l x 0 with Some l' => (x, O) :: dk_on ts' l' | None => [] end
    | [] => dk_on ts' l
    end
  end.
Definition dk_then (xs : list (@deed Z nat * nat)) (ts : list nat) : list (@deed Z nat * nat) :=
  match dk_run xs with Some l => xs ++ dk_on ts l | None => [] end.
Definition dk_free (t : nat) (es : list (ev (@ndata Z nat))) : list (@deed Z nat * nat) := map (fun e => (DFree t e, O)) es.

Definition dk_base : list (@deed Z nat * nat) := map (fun x => (DAct x, O)) kk_base.
(** Thread 1 starts an insertion into tree 1 that will panic; thread 0 inserts into tree 0, which has the same nodes;
    thread 2 reads tree 2. *)
Definition dk_begun : list (@deed Z nat * nat) :=
  Eval vm_compute in dk_then (dk_base ++ [(DLose 1, O); (DFree 1 (VInsert 1), O); (DAct (KRead 2 2), O); (DAct (kk_call 0 (kk_ins 0 70 8 10) 0), O)]%nat) [1; 1; 0; 1; 0; 1; 1; 1; 1]%nat.
(** Thread 1 writes another slice into its copy of the root, goes down to a child, and panics there. *)
Definition dk_panic : list (@deed Z nat * nat) :=
  Eval vm_compute in dk_then (dk_then (dk_begun ++ dk_free 1 [VWrite TAt (None, [(5%Z, 99)]); VChild 0]%nat) [1; 0; 1; 0; 1; 1; 1; 1; 1]%nat ++ dk_free 1 [VWrite TAt (None, []); VAbort]%nat) [0]%nat.
(** Thread 0 goes on to the end of its call. *)
Definition dk_done : list (@deed Z nat * nat) := Eval vm_compute in dk_then (dk_panic ++ [(DAct (KReadEnd 2), O)]%nat) (repeat 0%nat 60).
