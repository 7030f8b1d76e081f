(** Sample clients used by the examples that stand beside the theorems. *)
From Coq Require Import List ZArith Bool Arith.
From Verif Require Import Base Index Slice Tree Insert Spec Hist LRef LSpec Cow CowSpec CowCall Samples.
Import ListNotations.
Local Open Scope Z_scope.

(** The next step of thread [t], whatever it is; a new node comes after all others. *)
Definition kk_next (k : @client Z nat) (t : nat) : list (@act Z nat) :=
  let a := length (c_mem (k_c k)) in
  filter (fun x => match kstep sx sc 1 k x with Some _ => true | None => false end) [KNext t a; KStep t a].
(** The threads take turns for [f] rounds. *)
Fixpoint kk_turns (f : nat) (order ts : list nat) (k : @client Z nat) : list (@act Z nat) :=
  match f with
  | O => []
  | S f' =>
    match ts with
    | [] => kk_turns f' order order k
    | t :: ts' =>
      match kk_next k t with
      | x :: _ => match kstep sx sc 1 k x with Some k' => x :: kk_turns f' order ts' k' | None => [] end
      | [] => kk_turns f' order ts' k
      end
    end
  end.
Definition kk_then (xs : list (@act Z nat)) (f : nat) (order : list nat) : list (@act Z nat) :=
  match krun sx sc 1 (kstart 3) xs with Some k => xs ++ kk_turns f order [] k | None => [] end.
Definition kk_ins (j : nat) (i : Z) (x : nat) (n : Z) : @mcall nat := MInsert j [] i x n.
Definition kk_call (t : nat) (c : @mcall nat) (a : nat) : @act Z nat := KCall t (as_call sid false c) a.
Fixpoint kk_all (t : nat) (cs : list (@mcall nat)) (xs : list (@act Z nat)) : list (@act Z nat) :=
  match cs with
  | [] => xs
  | c :: cs' =>
    let a := match krun sx sc 1 (kstart 3) xs with Some k => length (c_mem (k_c k)) | None => O end in
    kk_all t cs' (kk_then (xs ++ [kk_call t c a]) 100 [t])
  end.

(** Thread 0 makes tree 0, of height 2, and two clones of it. *)
Definition kk_build : list (@mcall nat) :=
  [MNew; kk_ins 0 0 1 10; kk_ins 0 10 2 10; kk_ins 0 20 3 10; kk_ins 0 30 4 10; kk_ins 0 40 5 10; kk_ins 0 50 6 10; kk_ins 0 60 7 10;
   MClone 0; MClone 0]%nat.
Definition kk_base : list (@act Z nat) := Eval vm_compute in kk_all 0 kk_build [].
(** Then thread 0 inserts into tree 0, thread 1 inserts into tree 1 and splits a slice of it, and thread 2, which
    reads tree 2, goes down one node; all three take turns. *)
Definition kk_more : list (@mcall nat) := [kk_ins 0 70 8 10; kk_ins 1 35 9 10]%nat.
Definition kk_mixed : list (@act Z nat) :=
  Eval vm_compute in
    kk_then (kk_base ++ [kk_call 0 (kk_ins 0 70 8 10)%nat 0; kk_call 1 (kk_ins 1 35 9 10)%nat 0; KRead 2 2; KDown 2 1]) 7 [0; 1]%nat.
(** ... until they are done. *)
Definition kk_done : list (@act Z nat) := Eval vm_compute in kk_then kk_mixed 200 [1; 0]%nat.
Definition kk_mid : @client Z nat := Eval vm_compute in match krun sx sc 1 (kstart 3) kk_mixed with Some k => k | None => kstart 0 end.
Definition kk_end : @client Z nat := Eval vm_compute in match krun sx sc 1 (kstart 3) kk_done with Some k => k | None => kstart 0 end.
