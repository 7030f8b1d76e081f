(** Properties of serde support, drain and the reference implementation. *)
From Coq Require Import List ZArith Bool Arith.
From Verif Require Import Base Index Slice Tree Insert Range Spec RefSpec Iter Hist IterQ Serde SerdeP Drain DrainP Mock MockPropsP Samples.
Import ListNotations.
Local Open Scope Z_scope.

(** `Constant` slices: the runs are exactly those of the original tree, whatever the branching
    factors of the two trees. *)
Theorem C17_constant_round_trip : forall (I T : Type) (eqb : T -> T -> bool) (X : index_ops I) (MAX : Z) (inj : Z -> I)
    (M M' : nat) (nop : bool) (ops : list (@op T Z)) (r : @rle I T),
  (forall a b, eqb a b = true <-> a = b) -> index_laws X MAX inj -> (1 <= M)%nat -> (1 <= M')%nat -> ops_fit MAX ops ->
  run_ops X (constant_ops eqb) M nop None (map (inj_op inj) ops) = Ok r ->
  exists data r', serialize X r = Ok data /\ deserialize X (constant_ops eqb) M' data = Ok r' /\
    iter_collect X r' [] SUnb EUnb = iter_collect X r [] SUnb EUnb /\
    rle_size X r' = rle_size X r /\ rle_len r' = rle_len r /\ length data = rle_len r.
Proof. exact C17_constant_round_trip_proof. Qed.
Print Assumptions C17_constant_round_trip.


Example C17_constant_round_trip_ex : run_ops sx sc 1 false None (map (inj_op sid) s_ops) = Ok s_tree /\
  serialize sx s_tree = Ok [(8, 7%nat); (4, 1%nat); (6, 3%nat); (6, 1%nat); (5, 2%nat); (1, 4%nat); (2, 6%nat); (2, 4%nat); (1, 5%nat)] /\
  match serialize sx s_tree with Ok d => is_ok (deserialize sx sc 4 d) = true | _ => False end.
Proof. vm_compute. auto. Qed.

(** Any slice type: the runs are kept if no two neighbouring runs accept a join, and never is there
    a panic. *)
Theorem C17_exact_round_trip : forall (I V : Type) (X : index_ops I) (Y : slice_ops I V) (MAX : Z) (inj : Z -> I)
    (M M' : nat) (nop : bool) (r : @rle I V) (l : list (V * Z)),
  index_laws X MAX inj -> (1 <= M)%nat -> (1 <= M')%nat -> reaches MAX inj X Y M nop r l ->
  exists data r', serialize X r = Ok data /\ deserialize X Y M' data = Ok r' /\
    (sl_may_join Y = false \/ (forall A s z s2 z2 B, l = A ++ (s, z) :: (s2, z2) :: B -> sl_try_join Y s s2 = inr (s, s2)) ->
     iter_collect X r' [] SUnb EUnb = iter_collect X r [] SUnb EUnb).
Proof. exact C17_exact_round_trip_proof. Qed.
Print Assumptions C17_exact_round_trip.


Example C17_exact_round_trip_ex : reaches 1000 sid sx interval_ops 1 false i_tree i_runs /\
  match serialize sx i_tree with Ok data => length data = 7%nat /\ is_ok (deserialize sx interval_ops 3 data) = true | _ => False end.
Proof. split; [exact i_reaches|]. vm_compute. auto. Qed.

(** Any slice type that denotes contents: same size, and the same contents at every position. *)
Theorem C17_values_round_trip : forall (I V D : Type) (X : index_ops I) (Y : slice_ops I V) (MAX : Z) (inj : Z -> I)
    (M M' : nat) (nop : bool) (den : V -> Z -> D) (fits : V -> Z -> Prop) (ops : list (@op V Z)) (r : @rle I V),
  index_laws X MAX inj -> (1 <= M)%nat -> (1 <= M')%nat -> denotes Y inj den fits ->
  ops_fit MAX ops -> Forall (fun o => fits (o_slice o) (o_size o)) ops ->
  run_ops X Y M nop None (map (inj_op inj) ops) = Ok r ->
  exists data r', serialize X r = Ok data /\ deserialize X Y M' data = Ok r' /\ rle_size X r' = rle_size X r /\
    forall p, 0 <= p < osum ops -> exists a b s a' b' s',
      get X r (inj p) = Ok (inj a, inj b, s) /\ a <= p < b /\
      get X r' (inj p) = Ok (inj a', inj b', s') /\ a' <= p < b' /\ den s' (p - a') = den s (p - a).
Proof. exact C17_values_round_trip_proof. Qed.
Print Assumptions C17_values_round_trip.


Example C17_values_round_trip_ex : denotes interval_ops sid interval_den interval_fits /\ ops_fit 1000 i_ops /\
  Forall (fun o => interval_fits (o_slice o) (o_size o)) i_ops /\ run_ops sx interval_ops 1 false None (map (inj_op sid) i_ops) = Ok i_tree.
Proof.
  split; [exact interval_denotes|]. split; [exact i_fit|]. split; [|vm_compute; reflexivity].
  repeat (constructor; [vm_compute; reflexivity|]). constructor.
Qed.

(** Any input sequence whose sizes fit the index type: accepted exactly when every size is positive;
    a size of zero panics (it is not reported as a deserialisation error). *)
Theorem C17_deserialize_outcome : forall (I V : Type) (X : index_ops I) (Y : slice_ops I V) (MAX : Z) (inj : Z -> I)
    (M : nat) (data : list (Z * V)),
  index_laws X MAX inj -> (1 <= M)%nat -> Forall (fun e => 0 <= fst e) data -> fold_right Z.add 0 (map fst data) <= MAX ->
  let call := deserialize X Y M (map (fun e => (inj (fst e), snd e)) data) in
  ((exists r, call = Ok r) <-> Forall (fun e => 0 < fst e) data) /\
  (call = Panic PBadSize <-> Exists (fun e => fst e = 0) data) /\
  call <> UB.
Proof. exact C17_deserialize_outcome_proof. Qed.
Print Assumptions C17_deserialize_outcome.


Example C17_deserialize_outcome_ex :
  is_ok (deserialize sx sc 2 [(3, 1%nat); (4, 2%nat); (5, 1%nat)]) = true /\ deserialize sx sc 2 [(3, 1%nat); (0, 2%nat); (5, 1%nat)] = Panic PBadSize.
Proof. vm_compute. auto. Qed.

(** What dropping the iterator leaves: an empty tree, whatever the range; so positions outside the
    range survive only if there are none.  Asking for an item panics, always. *)
Theorem C32_drain_partial : forall (I V : Type) (X : index_ops I) (Y : slice_ops I V) (MAX : Z) (inj : Z -> I)
    (M : nat) (nop : bool) (r : @rle I V) (l : list (V * Z)) (a b : Z) (hints : list nat) (calls : list bool),
  index_laws X MAX inj -> (1 <= M)%nat -> reaches MAX inj X Y M nop r l -> 0 <= a <= b -> b <= rsum l ->
  let d := drain_new r (inj a, inj b) hints in
  (drain_calls d calls = match calls with [] => Ok ([], d) | _ => Panic PTodo end) /\
  iter_collect X (fst (drain_drop d)) [] SUnb EUnb = Ok [] /\
  rle_size X (fst (drain_drop d)) = Ok (inj 0) /\
  (rle_size X (fst (drain_drop d)) = Ok (inj (rsum l - (b - a))) <-> a = 0 /\ b = rsum l) /\
  (exists es, iter_collect X (snd (drain_drop d)) [] SUnb EUnb = Ok es /\ length es = length l).
Proof. exact C32_drain_partial_proof. Qed.
Print Assumptions C32_drain_partial.


Example C32_drain_partial_ex : reaches 1000 sid sx sc 1 false s_tree s_runs /\ rsum s_runs = 35 /\
  rle_size sx (fst (drain_drop (drain_new s_tree (3, 20) []))) = Ok 0.
Proof. split; [exact s_reaches|]. vm_compute. auto. Qed.

(** The property itself fails: draining one position of a tree of 35 leaves nothing, and the drained
    run cannot be obtained. *)
Theorem C32_drain_refuted : exists (r : @rle Z nat) (l : list (nat * Z)) (a b : Z),
  reaches 1000 sid sx sc 1 false r l /\ 0 <= a < b /\ b <= rsum l /\
  rle_size sx r = Ok (rsum l) /\
  rle_size sx (fst (drain_drop (drain_new r (a, b) []))) <> Ok (rsum l - (b - a)) /\
  drain_next (drain_new r (a, b) []) false = Panic PTodo.
Proof. exact C32_drain_refuted_proof. Qed.
Print Assumptions C32_drain_refuted.


(** On every history that the tree survives, the reference implementation survives too and agrees in
    size, in `get` at every index, and in every sequence of `next`/`next_back` calls over every
    range; invalid ranges panic in both. *)
Theorem C34_tree_agrees_with_mock : forall (I V : Type) (X : index_ops I) (Y : slice_ops I V) (MAX : Z) (inj : Z -> I)
    (M : nat) (nop : bool) (ops : list (@op V Z)) (r : @rle I V),
  index_laws X MAX inj -> (1 <= M)%nat -> ops_fit MAX ops ->
  (sl_may_join Y = false -> forall a b, sl_try_join Y a b = inr (a, b)) ->
  run_ops X Y M nop None (map (inj_op inj) ops) = Ok r ->
  exists m, mock_run X Y mock_empty (map (inj_args inj) (map args ops)) = Ok m /\
    rle_size X r = Ok (mock_size X m) /\
    (forall i, 0 <= i <= MAX -> (exists e, get X r (inj i) = Ok e /\ mock_get X m (inj i) = Ok e) \/
                                (get X r (inj i) = Panic POutOfBounds /\ mock_get X m (inj i) = Panic PAssert)) /\
    (forall sb eb, sb_in MAX sb -> eb_in MAX eb ->
      (iter_new X r [] (inj_sb inj sb) (inj_eb inj eb) = Panic PRange /\ mock_iter X m (inj_sb inj sb) (inj_eb inj eb) = Panic PRange) \/
      (exists it jt, iter_new X r [] (inj_sb inj sb) (inj_eb inj eb) = Ok it /\ mock_iter X m (inj_sb inj sb) (inj_eb inj eb) = Ok jt /\
        forall calls, exists outs it' jt',
          iter_calls X r it calls = Ok (map (option_map (fun e => (fst (fst (fst e)), snd (fst (fst e)), snd e))) outs, it') /\
          mock_calls X m jt calls = Ok (outs, jt') /\
          Forall (fun o => match o with Some e => entry_size X (fst (fst (fst e)), snd (fst (fst e)), snd e) = Ok (snd (fst e)) | None => True end) outs)).
Proof. exact C34_tree_agrees_with_mock_proof. Qed.
Print Assumptions C34_tree_agrees_with_mock.


Example C34_tree_agrees_with_mock_ex :
  run_ops sx sc 1 false None (map (inj_op sid) s_ops) = Ok s_tree /\
  match mock_run sx sc mock_empty (map (inj_args sid) (map args s_ops)) with
  | Ok m => mock_size sx m = 35 /\ mock_get sx m 13 = get sx s_tree 13 /\ length (mk_runs m) = 9%nat
  | _ => False
  end.
Proof. vm_compute. auto. Qed.

(** The two disagree about panics in one way only: an insert that merges with both neighbours, which
    the tree does not implement.  (For index and size errors, both panic.) *)
Theorem C34_same_panics : forall (I V : Type) (X : index_ops I) (Y : slice_ops I V) (MAX : Z) (inj : Z -> I)
    (M : nat) (nop : bool) (ops : list (@op V Z)) (r : @rle I V) (m : mock I V) (idx : Z) (x : V) (n : Z) (mr : bool),
  index_laws X MAX inj -> (1 <= M)%nat -> ops_fit MAX ops ->
  (sl_may_join Y = false -> forall a b, sl_try_join Y a b = inr (a, b)) ->
  run_ops X Y M nop None (map (inj_op inj) ops) = Ok r ->
  mock_run X Y mock_empty (map (inj_args inj) (map args ops)) = Ok m ->
  0 <= idx <= MAX -> 0 <= n -> osum ops + n <= MAX ->
  let tree_call := insert_with_cursor X Y M nop r [] (inj idx) x (inj n) in
  let mock_call := mock_insert X Y m (inj idx) x (inj n) mr in
  (is_ok tree_call = true -> is_ok mock_call = true) /\
  (is_ok mock_call = true -> is_ok tree_call = true \/ tree_call = Panic PTodo) /\
  (tree_call = Panic PTodo -> is_ok mock_call = true).
Proof. exact C34_same_panics_proof. Qed.
Print Assumptions C34_same_panics.


(** An insert that could join with both neighbours: the tree gives up, the reference implementation
    goes on. *)
Example C34_same_panics_ex :
  match run_ops sx interval_ops 1 false None [Build_op [] 0 (0, 3) 3; Build_op [] 3 (5, 9) 4],
        mock_run sx interval_ops mock_empty [(0, (0, 3), 3); (3, (5, 9), 4)] with
  | Ok r, Ok m => insert_with_cursor sx interval_ops 1 false r [] 3 (3, 5) 2 = Panic PTodo /\
                  is_ok (mock_insert sx interval_ops m 3 (3, 5) 2 false) = true /\
                  mock_insert sx interval_ops m 8 (3, 5) 2 false = Panic POutOfBounds
  | _, _ => False
  end.
Proof. vm_compute. auto. Qed.

(** The references handed out by the reference implementation follow their runs as the flat
    specification of references says. *)
Theorem C34_mock_references : forall (I V : Type) (X : index_ops I) (Y : slice_ops I V) (MAX : Z) (inj : Z -> I)
    (calls : list (rcall V)) (l : list (V * Z)) (starts : list Z),
  index_laws X MAX inj -> calls_fit MAX calls ->
  (sl_may_join Y = false -> forall a b, sl_try_join Y a b = inr (a, b)) ->
  ref_run Y inj [] [] calls = Ok (l, starts) ->
  exists m ids, mock_ops X Y mock_empty (map (inj_call inj) calls) = Ok (m, ids) /\ length ids = length starts /\
    forall k a id, nth_error starts k = Some a -> nth_error ids k = Some id ->
      exists b s, covering l a = Some (a, b, s) /\ mock_ref X m id = Ok (Some (inj a, inj b, s)).
Proof. exact C34_mock_references_proof. Qed.
Print Assumptions C34_mock_references.


(** Three references: to a run that is then cut and shifted, to the run it is merged into, and to
    the inserted run. *)
Definition r_calls : list (rcall nat) :=
  [CInsert 0 1%nat 10; CMakeRef 4; CInsertRef 5 2%nat 3; CMakeRef 9; CInsert 0 1%nat 2; CInsertRef 12 2%nat 4; CInsert 0 3%nat 1; CInsert 8 2%nat 1].
Example C34_mock_references_ex : calls_fit 1000 r_calls /\
  ref_run sc sid [] [] r_calls = Ok ([(3%nat, 1); (1%nat, 7); (2%nat, 4); (1%nat, 2); (2%nat, 4); (1%nat, 3)], [1; 8; 12; 14]).
Proof.
  split; [|vm_compute; reflexivity]. split; [|vm_compute; discriminate].
  repeat (constructor; [vm_compute; repeat split; discriminate|]). constructor.
Qed.

(** In that specification no reference is ever lost. *)
Theorem C34_references_never_lost : forall (I V : Type) (Y : slice_ops I V) (inj : Z -> I) (MAX : Z) (calls : list (rcall V)),
  calls_fit MAX calls -> ref_run Y inj [] [] calls <> Panic PInvalid.
Proof. exact C34_references_never_lost_proof. Qed.
Print Assumptions C34_references_never_lost.


Example C34_references_never_lost_ex : calls_fit 1000 r_calls /\ is_ok (ref_run sc sid [] [] r_calls) = true.
Proof. split; [exact (proj1 C34_mock_references_ex)|]. vm_compute. reflexivity. Qed.
