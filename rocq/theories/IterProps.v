(** Properties of iteration. *)
From Coq Require Import List ZArith Bool Arith.
From Verif Require Import Base Index Slice Tree Insert Range Spec Iter Hist IterQ Samples IterPropsP.
Import ListNotations.
Local Open Scope Z_scope.

(** Collecting `iter(range)` gives exactly the overlapping runs. *)
Theorem C14_iter_yields_overlapping : forall (I V : Type) (X : index_ops I) (Y : slice_ops I V) (MAX : Z) (inj : Z -> I)
    (M : nat) (nop : bool) (r : @rle I V) (l : list (V * Z)) (hints : list nat) (sb : sbound Z) (eb : ebound Z),
  index_laws X MAX inj -> (1 <= M)%nat -> reaches MAX inj X Y M nop r l -> sb_in MAX sb -> eb_in MAX eb ->
  range_ok (rsum l) sb eb = true ->
  iter_collect X r hints (inj_sb inj sb) (inj_eb inj eb)
  = Ok (map (inj_item inj) (overlapping l (range_start sb) (range_end (rsum l) eb))).
Proof. exact C14_iter_yields_overlapping_proof. Qed.
Print Assumptions C14_iter_yields_overlapping.


Example C14_iter_yields_overlapping_ex :
  reaches 1000 sid sx sc 1 false s_tree s_runs /\ range_ok (rsum s_runs) (SIncl 9) (EExcl 19) = true /\
  iter_collect sx s_tree [] (SIncl 9) (EExcl 19) = Ok [(8, 12, 1%nat); (12, 18, 3%nat); (18, 24, 1%nat)].
Proof. split; [exact s_reaches|]. vm_compute. auto. Qed.

(** The overlapping runs are consecutive runs, the positions of which are prefix sums, and a run is
    among them exactly when it has a position inside the range. *)
Theorem C14_overlapping_is_a_segment : forall (V : Type) (l : list (V * Z)) (a b : Z),
  Forall (fun r => 0 < snd r) l -> 0 <= a -> a < b -> b <= rsum l ->
  exists A B C, l = A ++ B ++ C /\ overlapping l a b = spans (rsum A) B /\
    rsum A <= a < rsum (A ++ B) /\ b <= rsum (A ++ B) /\
    (forall s z B', B = (s, z) :: B' -> a < rsum A + z) /\
    (forall s z B', B = B' ++ [(s, z)] -> rsum (A ++ B') < b).
Proof. exact C14_overlapping_is_a_segment_proof. Qed.
Print Assumptions C14_overlapping_is_a_segment.


Example C14_overlapping_is_a_segment_ex :
  Forall (fun r : nat * Z => 0 < snd r) s_runs /\ 19 <= rsum s_runs /\
  overlapping s_runs 9 19 = [(8, 12, 1%nat); (12, 18, 3%nat); (18, 24, 1%nat)].
Proof. split; [repeat constructor|]. vm_compute. split; [discriminate|reflexivity]. Qed.

(** Any sequence of `next` and `next_back` calls. *)
Theorem C15_next_and_next_back : forall (I V : Type) (X : index_ops I) (Y : slice_ops I V) (MAX : Z) (inj : Z -> I)
    (M : nat) (nop : bool) (r : @rle I V) (l : list (V * Z)) (hints : list nat) (sb : sbound Z) (eb : ebound Z) (calls : list bool),
  index_laws X MAX inj -> (1 <= M)%nat -> reaches MAX inj X Y M nop r l -> sb_in MAX sb -> eb_in MAX eb ->
  range_ok (rsum l) sb eb = true ->
  exists it it', iter_new X r hints (inj_sb inj sb) (inj_eb inj eb) = Ok it /\
    iter_calls X r it calls
    = Ok (map (option_map (inj_item inj)) (deque (overlapping l (range_start sb) (range_end (rsum l) eb)) calls), it').
Proof. exact C15_next_and_next_back_proof. Qed.
Print Assumptions C15_next_and_next_back.


Example C15_next_and_next_back_ex :
  reaches 1000 sid sx sc 1 false s_tree s_runs /\ range_ok (rsum s_runs) (SIncl 9) (EIncl 28) = true /\
  (exists it it', iter_new sx s_tree [] (SIncl 9) (EIncl 28) = Ok it /\
     iter_calls sx s_tree it [true; false; false; true; true; false; true]
     = Ok ([Some (24, 29, 2%nat); Some (8, 12, 1%nat); Some (12, 18, 3%nat); Some (18, 24, 1%nat); None; None; None], it')).
Proof. split; [exact s_reaches|]. split; [reflexivity|]. eexists. eexists. vm_compute. split; reflexivity. Qed.

(** What the double-ended queue says: the fronts, what is left, and the reversed backs make up the
    original list, each element once; and nothing is left once a call has returned `None`. *)
Theorem C15_deque_loses_nothing : forall (T : Type) (d : list T) (calls : list bool),
  length (deque d calls) = length calls /\
  exists rest, d = fronts calls (deque d calls) ++ rest ++ rev (backs calls (deque d calls)) /\
    (In None (deque d calls) -> rest = []).
Proof. exact C15_deque_loses_nothing_proof. Qed.
Print Assumptions C15_deque_loses_nothing.


Example C15_deque_loses_nothing_ex :
  deque [1; 2; 3; 4; 5] [true; false; false] = [Some 5; Some 1; Some 2] /\
  fronts [true; false; false] [Some 5; Some 1; Some 2] = [1; 2] /\ backs [true; false; false] [Some 5; Some 1; Some 2] = [5].
Proof. vm_compute. auto. Qed.

(** Once a call has returned `None`, all later calls do. *)
Theorem C15_exhausted_stays_exhausted : forall (T : Type) (d : list T) (c1 c2 : list bool),
  In None (deque d c1) -> deque d (c1 ++ c2) = deque d c1 ++ map (fun _ => None) c2.
Proof. exact C15_exhausted_stays_exhausted_proof. Qed.
Print Assumptions C15_exhausted_stays_exhausted.


Example C15_exhausted_stays_exhausted_ex : In None (deque [1] [true; false]) /\ deque [1] [true; false; true] = [Some 1; None; None].
Proof. vm_compute. auto. Qed.

(** Exactly the invalid ranges panic. *)
Theorem C16_iter_panics : forall (I V : Type) (X : index_ops I) (Y : slice_ops I V) (MAX : Z) (inj : Z -> I)
    (M : nat) (nop : bool) (r : @rle I V) (l : list (V * Z)) (hints : list nat) (sb : sbound Z) (eb : ebound Z),
  index_laws X MAX inj -> (1 <= M)%nat -> reaches MAX inj X Y M nop r l -> sb_in MAX sb -> eb_in MAX eb ->
  let call := iter_new X r hints (inj_sb inj sb) (inj_eb inj eb) in
  let bad :=
    (exists a, sb = SIncl a /\ rsum l <= a) \/
    (exists b, eb = EIncl b /\ rsum l <= b) \/ (exists b, eb = EExcl b /\ rsum l < b) \/
    (exists a b, sb = SIncl a /\ eb = EIncl b /\ b < a) \/ (exists a b, sb = SIncl a /\ eb = EExcl b /\ b <= a) in
  (bad -> call = Panic PRange) /\ (~ bad -> exists it, call = Ok it).
Proof. exact C16_iter_panics_proof. Qed.
Print Assumptions C16_iter_panics.


Example C16_iter_panics_ex :
  reaches 1000 sid sx sc 1 false s_tree s_runs /\ rsum s_runs = 35 /\
  iter_new sx s_tree [] (SIncl 35) EUnb = Panic PRange /\ iter_new sx s_tree [] SUnb (EIncl 35) = Panic PRange /\
  iter_new sx s_tree [] SUnb (EExcl 36) = Panic PRange /\ iter_new sx s_tree [] (SIncl 7) (EExcl 7) = Panic PRange /\
  iter_new sx s_tree [] (SIncl 7) (EIncl 6) = Panic PRange /\ (exists it, iter_new sx s_tree [] (SIncl 34) (EExcl 35) = Ok it).
Proof. split; [exact s_reaches|]. do 6 (split; [vm_compute; reflexivity|]). eexists. vm_compute. reflexivity. Qed.
