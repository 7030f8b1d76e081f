(** How many nodes an iteration visits. *)
From Coq Require Import List ZArith Bool Arith.
From Verif Require Import Base Index Slice Tree Insert Range Spec Iter Hist Wild WildCalls Samples WildR IterCost IterCostPropsP.
Import ListNotations.

(** All loops of a sequence of calls of next and next_back together go round at most twice for every M items, and
    a number of times that depends on the height of the tree alone. *)
Theorem C61_iteration_cost : forall (I V : Type) (M : nat) (nop : bool) (cs : list (@ins_call I V)) r X hints sb eb it calls W,
  (forall c, In c cs -> index_any (ic_x c)) -> (1 <= M)%nat -> run_calls M nop None cs = Ok r ->
  iter_new X r hints sb eb = Ok it -> (rle_len r < 2 ^ W)%nat ->
  (M * rounds r it calls <= 2 * length calls + 7 * M * W)%nat.
Proof. exact C61_iteration_cost_proof. Qed.
Print Assumptions C61_iteration_cost.


(** Forty slices in a tree of height 4.  Going through them all takes 71 rounds, in either direction; from both
    ends it takes 76. *)
Example C61_iteration_cost_ex : exists r it,
  run_calls 1 false None (map (fun i => {| ic_x := sx; ic_y := sc; ic_op := {| o_hints := []; o_idx := 0%Z; o_slice := i; o_size := 1%Z |} |}) (seq 1 40)) = Ok (Some r) /\
  index_any sx /\ iter_new sx (Some r) [] SUnb EUnb = Ok it /\ r_height r = 4 /\ r_len r = 40 /\ 40 < 2 ^ 6 /\
  rounds (Some r) it (repeat (sx, false) 41) = 71 /\ rounds (Some r) it (repeat (sx, true) 41) = 71 /\
  rounds (Some r) it (map (fun i => (sx, Nat.odd i)) (seq 1 41)) = 76.
Proof. eexists. eexists. split; [vm_compute; reflexivity|]. split; [apply checked_any|]. repeat (split; [vm_compute; reflexivity|]). split; [vm_compute; repeat constructor|]. repeat (split; [vm_compute; reflexivity|]). vm_compute. reflexivity. Qed.

(** One call goes round its loops at most once more than the tree is high. *)
Theorem C61_call_cost : forall (I V : Type) (M : nat) (nop : bool) (cs : list (@ins_call I V)) r X hints sb eb it calls outs it' X' back,
  (forall c, In c cs -> index_any (ic_x c)) -> (1 <= M)%nat -> run_calls M nop None cs = Ok (Some r) ->
  iter_new X (Some r) hints sb eb = Ok it -> next_calls (Some r) it calls = Ok (outs, it') ->
  (call_rounds X' (Some r) back it' <= r_height r + 1)%nat.
Proof. exact C61_call_cost_proof. Qed.
Print Assumptions C61_call_cost.


(** The first call takes five rounds, the second none, as it stays in its leaf; the others go
    up or down, by at most three nodes here. *)
Example C61_call_cost_ex : exists r it,
  run_calls 1 false None (map (fun i => {| ic_x := sx; ic_y := sc; ic_op := {| o_hints := []; o_idx := 0%Z; o_slice := i; o_size := 1%Z |} |}) (seq 1 40)) = Ok (Some r) /\
  iter_new sx (Some r) [] SUnb EUnb = Ok it /\
  map (fun n => match next_calls (Some r) it (repeat (sx, false) n) with Ok (_, it') => call_rounds sx (Some r) false it' | _ => 9 end) (seq 0 20)
    = [5; 0; 1; 1; 2; 2; 1; 1; 3; 3; 1; 1; 2; 2; 1; 1; 3; 3; 1; 1].
Proof. eexists. eexists. repeat (split; [vm_compute; reflexivity|]). vm_compute. reflexivity. Qed.

(** What is counted: in a step that finds its place, every round is a move from a node to its parent or to one of
    its children, and the moves go straight; a first call visits as many nodes as are on the path to its place. *)
Theorem C61_rounds_are_moves : forall (I V : Type) (T : tree I V) (H : nat) (a a' : handle),
  (fwd_head H T a = Ok a' -> Z.of_nat (fwd_rounds H T a) = Z.abs (Z.of_nat (length (fst a')) - Z.of_nat (length (fst a)))) /\
  (bkwd_head H T a = Ok a' -> Z.of_nat (bkwd_rounds H T a) = Z.abs (Z.of_nat (length (fst a')) - Z.of_nat (length (fst a)))) /\
  (forall X hints zero target ex s, make_stack X H T [] hints zero target ex = Ok s ->
     stack_rounds X H T hints target ex = length (fst (k_head s)) + 1)%nat.
Proof. exact C61_rounds_are_moves_proof. Qed.
Print Assumptions C61_rounds_are_moves.


Example C61_rounds_are_moves_ex : exists r,
  run_calls 1 false None (map (fun i => {| ic_x := sx; ic_y := sc; ic_op := {| o_hints := []; o_idx := 0%Z; o_slice := i; o_size := 1%Z |} |}) (seq 1 40)) = Ok (Some r) /\
  fwd_head 4 (r_node r) ([], 0) = Ok ([1; 0; 0; 0], 0) /\ fwd_rounds 4 (r_node r) ([], 0) = 4 /\
  bkwd_head 4 (r_node r) ([1; 0; 0; 0], 0) = Ok ([], 0) /\ bkwd_rounds 4 (r_node r) ([1; 0; 0; 0], 0) = 4 /\
  (exists s, make_stack sx 4 (r_node r) [] [] 0%Z 8%Z false = Ok s /\ k_head s = ([0], 0)) /\
  stack_rounds sx 4 (r_node r) [] 8%Z false = 2.
Proof. eexists. repeat (split; [vm_compute; reflexivity|]). split; [eexists; split; vm_compute; reflexivity|]. vm_compute. reflexivity. Qed.
