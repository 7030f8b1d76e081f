(** Properties that hold for any index type. *)
From Coq Require Import List ZArith Bool Arith.
From Verif Require Import Base Index Slice Tree Insert Range Spec Iter Hist Validate Wild WildCalls Samples WildR WildSamples WildPropsP.
Import ListNotations.
Local Open Scope Z_scope.

(** Whatever the index and slice operations do, in every call anew, insertion accesses no key or child that is
    not there, leaves a B-tree and counts its slices; lookups and iterations then access nothing that is not
    there, and every slice they show is one of the tree's. *)
Theorem C40_any_index_memory_safe : forall (I V : Type) (M : nat) (nop : bool) (cs : list (@ins_call I V)),
  (forall c, In c cs -> index_any (ic_x c)) -> (1 <= M)%nat ->
  run_calls M nop None cs <> UB /\
  forall r, run_calls M nop None cs = Ok r ->
    match r with None => True | Some r0 => Validate.shape M 1 (r_height r0) (r_node r0) = true end /\
    rle_len r = length (rle_slices r) /\
    (forall X hints idx, index_any X -> get_with_cursor X r hints idx <> UB /\
       forall a b s, get_with_cursor X r hints idx = Ok (a, b, s) -> In s (rle_slices r)) /\
    (forall X hints sb eb, index_any X -> iter_new X r hints sb eb <> UB /\
       forall it calls, iter_new X r hints sb eb = Ok it -> (forall c, In c calls -> index_any (fst c)) ->
         next_calls r it calls <> UB /\
         forall outs it', next_calls r it calls = Ok (outs, it') -> forall a b s, In (Some (a, b, s)) outs -> In s (rle_slices r)).
Proof. exact C40_any_index_memory_safe_proof. Qed.
Print Assumptions C40_any_index_memory_safe.


(** Twelve insertions make a tree whose positions mean nothing; with one set of operations all along, and
    with operations that change between the calls. *)
Example C40_any_index_memory_safe_ex : index_any mad_ops /\ index_any (wrapping_ops 255) /\
  (exists r, run_calls 1 false None (map (fun o => {| ic_x := mad_ops; ic_y := sc; ic_op := o |}) mad_hist) = Ok (Some r) /\
    r_height r = 2%nat /\ r_len r = 12%nat /\ tsize (r_node r) = Ok 299 /\ slices (r_node r) = [2; 8; 7; 12; 10; 6; 4; 11; 1; 9; 3; 5]%nat) /\
  (exists r, run_calls 1 false None moody_hist = Ok (Some r) /\
    r_len r = 15%nat /\ tsize (r_node r) = Ok 31 /\ slices (r_node r) = [3; 2; 8; 12; 9; 11; 10; 9; 7; 2; 5; 6; 4; 2; 1]%nat /\
    (let* it := iter_new (moody 1) (Some r) [] SUnb EUnb in
     let* (o, _) := next_calls (Some r) it [(moody 1, false); (moody 2, true); (moody 1, false); (moody 3, true)] in
     Ok (map (option_map snd) o)) = Ok [Some 2; Some 1; Some 8; None]%nat).
Proof. split; [exact mad_any|]. split; [apply wrapping_any|]. split; eexists; repeat (split; [vm_compute; reflexivity|]); vm_compute; reflexivity. Qed.

(** An insertion that returns loses and invents no slice: the slices afterwards are what the flat
    specification makes of the slices before at one place.  The place, and the point [q] where a slice is
    cut, are the only things that depend on the index operations. *)
Theorem C40_any_index_no_slice_lost : forall (I V : Type) (X : index_ops I) (Y : slice_ops I V) (M : nat) (nop : bool) (cs : list (@ins_call I V)) r hints idx x n r' cur,
  (forall c, In c cs -> index_any (ic_x c)) -> index_any X -> (1 <= M)%nat -> run_calls M nop None cs = Ok r ->
  insert_with_cursor X Y M nop r hints idx x n = Ok (r', cur) ->
  exists (l l' : list (V * Z)) (i : Z) (q : I),
    map fst l = rle_slices r /\ Forall (fun run => 0 < snd run)%Z l /\ (0 <= i <= rsum l)%Z /\
    insert_runs (cut_at Y q) (fun z => z) l i x 1 = Ok l' /\ map fst l' = rle_slices r'.
Proof. exact C40_any_index_no_slice_lost_proof. Qed.
Print Assumptions C40_any_index_no_slice_lost.


Example C40_any_index_no_slice_lost_ex : exists r r' cur, run_calls 1 false None moody_hist = Ok r /\
  insert_with_cursor mad_ops sc 1 false r [] 21 99%nat 7 = Ok (r', cur) /\
  rle_slices r' = [3; 2; 8; 12; 99; 9; 11; 10; 9; 7; 2; 5; 6; 4; 2; 1]%nat.
Proof. eexists. eexists. eexists. repeat (split; [vm_compute; reflexivity|]). vm_compute. reflexivity. Qed.

(** Whatever the index operations do, a tree of height [h] has at least 2(M+1)^h - 1 slices; so the height is less
    than the number of bits in which the number of slices can be written.  Every node but the top one is at least
    half full: the number of nodes is at most one more than one M-th of the number of slices. *)
Theorem C06_any_index_height : forall (I V : Type) (M : nat) (nop : bool) (cs : list (@ins_call I V)) r,
  (forall c, In c cs -> index_any (ic_x c)) -> (1 <= M)%nat -> run_calls M nop None cs = Ok (Some r) ->
  (2 * (M + 1) ^ r_height r <= r_len r + 1)%nat /\
  (forall W, r_len r < 2 ^ W -> r_height r < W)%nat /\
  (M * (node_count (r_node r) - 1) + 1 <= r_len r)%nat.
Proof. exact C06_any_index_height_proof. Qed.
Print Assumptions C06_any_index_height.


(** Twelve slices in nine nodes, and fifteen in eleven. *)
Example C06_any_index_height_ex : exists r r2, run_calls 1 false None (map (fun o => {| ic_x := mad_ops; ic_y := sc; ic_op := o |}) mad_hist) = Ok (Some r) /\
  r_height r = 2%nat /\ r_len r = 12%nat /\ node_count (r_node r) = 9%nat /\
  run_calls 1 false None moody_hist = Ok (Some r2) /\ r_height r2 = 2%nat /\ r_len r2 = 15%nat /\ node_count (r_node r2) = 11%nat.
Proof. eexists. eexists. repeat (split; [vm_compute; reflexivity|]). vm_compute. reflexivity. Qed.

(** Integers are such index types, also where they overflow. *)
Theorem C40_overflow_memory_safe : forall (V : Type) (Y : slice_ops Z V) (MAX : Z) (M : nat) (nop : bool) (ops : list (@op V Z)),
  (1 <= M)%nat ->
  run_ops (wrapping_ops MAX) Y M nop None ops <> UB /\ run_ops (checked_ops MAX) Y M nop None ops <> UB.
Proof. exact C40_overflow_memory_safe_proof. Qed.
Print Assumptions C40_overflow_memory_safe.


(** Of 530 values the tree says it has 18; a checked byte panics. *)
Example C40_overflow_memory_safe_ex : exists r, run_ops (wrapping_ops 255) sc 1 false None byte_hist = Ok r /\
  rle_size (wrapping_ops 255) r = Ok 18 /\ rle_slices r = [4; 3; 2; 1]%nat /\
  get (wrapping_ops 255) r 5 = Ok (0, 30, 4%nat) /\
  (let* it := iter_new (wrapping_ops 255) r [] SUnb EUnb in let* (o, _) := iter_calls (wrapping_ops 255) r it [true; false] in Ok o) = Ok [Some (74, 18, 1%nat); Some (0, 30, 4%nat)] /\
  run_ops (checked_ops 255) sc 1 false None byte_hist = Panic PArith.
Proof. eexists. repeat (split; [vm_compute; reflexivity|]). vm_compute. reflexivity. Qed.

(** An insertion that returns adds at most two slices and loses none; so after n of them there are fewer than 2n, in
    at most one node more than 2(n-1)/M. *)
Theorem C62_growth : forall (I V : Type) (M : nat) (nop : bool) (cs : list (@ins_call I V)) r,
  (forall c, In c cs -> index_any (ic_x c)) -> (1 <= M)%nat -> run_calls M nop None cs = Ok r ->
  (forall X Y hints idx x n r' cur, index_any X -> insert_with_cursor X Y M nop r hints idx x n = Ok (r', cur) ->
     rle_len r <= rle_len r' <= rle_len r + 2)%nat /\
  (cs <> [] -> 1 <= rle_len r <= 2 * length cs - 1)%nat /\
  (forall r0, r = Some r0 -> M * (node_count (r_node r0) - 1) <= 2 * (length cs - 1))%nat.
Proof. exact C62_growth_proof. Qed.
Print Assumptions C62_growth.


(** Twelve insertions, each but the first in the middle of a slice: 23 slices, in 22 nodes if M is 1 and in 7 if it
    is 3. *)
Example C62_growth_ex :
  let cs := map (fun i => {| ic_x := sx; ic_y := sc; ic_op := {| o_hints := []; o_idx := if (i =? 0)%nat then 0 else Z.of_nat (10 * i); o_slice := i; o_size := if (i =? 0)%nat then 400 else 1 |} |}) (seq 0 12) in
  index_any sx /\
  (exists r, run_calls 1 false None cs = Ok (Some r) /\ r_len r = 23%nat /\ node_count (r_node r) = 22%nat) /\
  (exists r, run_calls 3 false None cs = Ok (Some r) /\ r_len r = 23%nat /\ node_count (r_node r) = 7%nat).
Proof. intros cs. split; [apply checked_any|]. split; eexists; repeat (split; [vm_compute; reflexivity|]); vm_compute; reflexivity. Qed.
