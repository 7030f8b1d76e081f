(** Properties of insert, get and the cursors. *)
From Coq Require Import List ZArith Bool Arith.
From Verif Require Import Base Index Slice Tree Insert Range Spec Iter Hist Validate Order IterQ Samples TreePropsP.
Import ListNotations.
Local Open Scope Z_scope.

(** The sequence of runs seen by `iter(..)` is spliced as the flat specification says, and the
    resulting tree is again covered by this theorem. *)
Theorem C01_insert_splices_runs : forall (I V : Type) (X : index_ops I) (Y : slice_ops I V) (MAX : Z) (inj : Z -> I)
    (M : nat) (nop : bool) (r : @rle I V) (l : list (V * Z)) (hints : list nat) (idx : Z) (x : V) (n : Z),
  index_laws X MAX inj -> (1 <= M)%nat -> reaches MAX inj X Y M nop r l ->
  0 <= idx <= rsum l -> 0 < n -> rsum l + n <= MAX ->
  iter_collect X r [] SUnb EUnb = Ok (map (inj_item inj) (spans 0 l)) /\
  match insert_runs Y inj l idx x n with
  | Ok l' => exists r' cur,
      insert_with_cursor X Y M nop r hints (inj idx) x (inj n) = Ok (r', cur) /\
      iter_collect X r' [] SUnb EUnb = Ok (map (inj_item inj) (spans 0 l')) /\
      reaches MAX inj X Y M nop r' l'
  | Panic w => w = PTodo /\ insert_with_cursor X Y M nop r hints (inj idx) x (inj n) = Panic PTodo
  | UB => False
  end.
Proof. exact C01_insert_splices_runs_proof. Qed.
Print Assumptions C01_insert_splices_runs.


(** A boundary insert into a tree of height 2 that splits a leaf. *)
Example C01_insert_splices_runs_ex :
  index_laws sx 1000 sid /\ (1 <= 1)%nat /\ reaches 1000 sid sx sc 1 false s_tree s_runs /\
  insert_runs sc sid s_runs 12 9%nat 3 = Ok (firstn 2 s_runs ++ [(9%nat, 3)] ++ skipn 2 s_runs) /\
  (exists r' cur, insert_with_cursor sx sc 1 false s_tree [] 12 9%nat 3 = Ok (r', cur) /\
     iter_collect sx r' [] SUnb EUnb = Ok (spans 0 (firstn 2 s_runs ++ [(9%nat, 3)] ++ skipn 2 s_runs))).
Proof.
  split; [exact sx_laws|]. split; [apply le_n|]. split; [exact s_reaches|]. split; [vm_compute; reflexivity|].
  eexists. eexists. split; vm_compute; reflexivity.
Qed.

(** The flat specification touches nothing but the run that contains the index, or the two runs
    around it. *)
Theorem C01_splice_is_local : forall (I V : Type) (Y : slice_ops I V) (inj : Z -> I) (A B : list (V * Z)) (x : V) (n : Z),
  Forall (fun r => 0 < snd r) (A ++ B) ->
  (forall s z q, 0 < q < z ->
     insert_runs Y inj (A ++ (s, z) :: B) (rsum A + q) x n = Ok (A ++ place_inside Y inj s z q x n ++ B)) /\
  (forall s z s2 z2, 0 < z ->
     insert_runs Y inj (A ++ (s, z) :: (s2, z2) :: B) (rsum A + z) x n
     = let* r := place Y (Some (s, z)) x n (Some (s2, z2)) in Ok (A ++ r ++ B)) /\
  (forall s z, 0 < z ->
     insert_runs Y inj (A ++ [(s, z)]) (rsum A + z) x n = let* r := place Y (Some (s, z)) x n None in Ok (A ++ r)) /\
  (forall s z, insert_runs Y inj ((s, z) :: B) 0 x n = let* r := place Y None x n (Some (s, z)) in Ok (r ++ B)) /\
  insert_runs Y inj [] 0 x n = Ok [(x, n)].
Proof. exact C01_splice_is_local_proof. Qed.
Print Assumptions C01_splice_is_local.


Example C01_splice_is_local_ex :
  Forall (fun r : nat * Z => 0 < snd r) ([(1%nat, 2); (2%nat, 3)] ++ [(3%nat, 4)]) /\
  insert_runs sc sid [(1%nat, 2); (2%nat, 3); (5%nat, 8); (3%nat, 4)] 9 6%nat 1
  = Ok [(1%nat, 2); (2%nat, 3); (5%nat, 4); (6%nat, 1); (5%nat, 4); (3%nat, 4)].
Proof. split; [repeat constructor|vm_compute; reflexivity]. Qed.

(** A whole history from the empty tree. *)
Theorem C01_history_refines_runs : forall (I V : Type) (X : index_ops I) (Y : slice_ops I V) (MAX : Z) (inj : Z -> I)
    (M : nat) (nop : bool) (ops : list (@op V Z)),
  index_laws X MAX inj -> (1 <= M)%nat -> ops_fit MAX ops ->
  match spec_run Y inj [] (map args ops) with
  | Ok l => exists r, run_ops X Y M nop None (map (inj_op inj) ops) = Ok r /\
                      iter_collect X r [] SUnb EUnb = Ok (map (inj_item inj) (spans 0 l))
  | Panic w => run_ops X Y M nop None (map (inj_op inj) ops) = Panic w
  | UB => False
  end.
Proof. exact C01_history_refines_runs_proof. Qed.
Print Assumptions C01_history_refines_runs.


Example C01_history_refines_runs_ex :
  ops_fit 1000 s_ops /\ spec_run sc sid [] (map args s_ops) = Ok s_runs /\ length s_runs = 9%nat /\
  iter_collect sx s_tree [] SUnb EUnb = Ok (spans 0 s_runs).
Proof. split; [exact s_fit|]. vm_compute. auto. Qed.

(** Contents position by position, read through `get`, for slices that denote a function of the
    offset. *)
Theorem C02_values_after_insert : forall (I V D : Type) (X : index_ops I) (Y : slice_ops I V) (MAX : Z) (inj : Z -> I)
    (M : nat) (nop : bool) (den : V -> Z -> D) (fits : V -> Z -> Prop) (ops : list (@op V Z)) (r r' : @rle I V)
    (hints cur : list nat) (idx : Z) (x : V) (n : Z),
  index_laws X MAX inj -> (1 <= M)%nat -> denotes Y inj den fits ->
  ops_fit MAX ops -> Forall (fun o => fits (o_slice o) (o_size o)) ops ->
  run_ops X Y M nop None (map (inj_op inj) ops) = Ok r ->
  0 <= idx <= MAX -> 0 <= n -> osum ops + n <= MAX -> fits x n ->
  insert_with_cursor X Y M nop r hints (inj idx) x (inj n) = Ok (r', cur) ->
  rle_size X r' = Ok (inj (osum ops + n)) /\
  forall p, 0 <= p < osum ops + n -> exists a b s,
    get X r' (inj p) = Ok (inj a, inj b, s) /\ a <= p < b /\ fits s (b - a) /\
    if (idx <=? p) && (p <? idx + n) then den s (p - a) = den x (p - idx)
    else exists a' b' s', let p' := if p <? idx then p else p - n in
      get X r (inj p') = Ok (inj a', inj b', s') /\ a' <= p' < b' /\ den s (p - a) = den s' (p' - a').
Proof. exact C02_values_after_insert_proof. Qed.
Print Assumptions C02_values_after_insert.


Example C02_values_after_insert_ex :
  denotes interval_ops sid interval_den interval_fits /\ ops_fit 1000 i_ops /\
  Forall (fun o => interval_fits (o_slice o) (o_size o)) i_ops /\
  run_ops sx interval_ops 1 false None i_ops = Ok i_tree /\
  (exists r' cur, insert_with_cursor sx interval_ops 1 false i_tree [] 15 (22, 30) 8 = Ok (r', cur) /\
     get sx r' 16 = Ok (13, 23, (20, 30)) /\ get sx r' 24 = Ok (23, 26, (22, 25)) /\ get sx i_tree 16 = Ok (13, 18, (20, 25))).
Proof.
  split; [exact interval_denotes|]. split; [exact i_fit|]. split; [repeat constructor|]. split; [vm_compute; reflexivity|].
  eexists. eexists. vm_compute. auto.
Qed.

(** `get` on the run that covers the index, and outside. *)
Theorem C03_get_covering_run : forall (I V : Type) (X : index_ops I) (Y : slice_ops I V) (MAX : Z) (inj : Z -> I)
    (M : nat) (nop : bool) (r : @rle I V) (A B : list (V * Z)) (s : V) (z : Z) (i : Z) (hints : list nat),
  index_laws X MAX inj -> (1 <= M)%nat -> reaches MAX inj X Y M nop r (A ++ (s, z) :: B) ->
  rsum A <= i < rsum A + z ->
  get_with_cursor X r hints (inj i) = Ok (inj (rsum A), inj (rsum A + z), s) /\
  get X r (inj i) = Ok (inj (rsum A), inj (rsum A + z), s).
Proof. exact C03_get_covering_run_proof. Qed.
Print Assumptions C03_get_covering_run.


Example C03_get_covering_run_ex :
  reaches 1000 sid sx sc 1 false s_tree (firstn 3 s_runs ++ (1%nat, 6) :: skipn 4 s_runs) /\
  rsum (firstn 3 s_runs) = 18 /\ get sx s_tree 20 = Ok (18, 24, 1%nat).
Proof. split; [exact s_reaches|]. vm_compute. auto. Qed.

Theorem C03_get_panics_outside : forall (I V : Type) (X : index_ops I) (Y : slice_ops I V) (MAX : Z) (inj : Z -> I)
    (M : nat) (nop : bool) (r : @rle I V) (l : list (V * Z)) (i : Z) (hints : list nat),
  index_laws X MAX inj -> (1 <= M)%nat -> reaches MAX inj X Y M nop r l -> 0 <= i <= MAX ->
  (get_with_cursor X r hints (inj i) = Panic POutOfBounds <-> rsum l <= i).
Proof. exact C03_get_panics_outside_proof. Qed.
Print Assumptions C03_get_panics_outside.


Example C03_get_panics_outside_ex :
  rsum s_runs = 35 /\ get sx s_tree 35 = Panic POutOfBounds /\ get sx s_tree 34 = Ok (34, 35, 5%nat).
Proof. vm_compute. auto. Qed.

(** `size()` after a history. *)
Theorem C04_size_is_sum : forall (I V : Type) (X : index_ops I) (Y : slice_ops I V) (MAX : Z) (inj : Z -> I)
    (M : nat) (nop : bool) (ops : list (@op V Z)) (r : @rle I V),
  index_laws X MAX inj -> (1 <= M)%nat -> ops_fit MAX ops ->
  run_ops X Y M nop None (map (inj_op inj) ops) = Ok r ->
  rle_size X r = Ok (inj (osum ops)) /\
  exists l, iter_collect X r [] SUnb EUnb = Ok (map (inj_item inj) (spans 0 l)) /\ rsum l = osum ops.
Proof. exact C04_size_is_sum_proof. Qed.
Print Assumptions C04_size_is_sum.


Example C04_size_is_sum_ex : ops_fit 1000 s_ops /\ run_ops sx sc 1 false None s_ops = Ok s_tree /\ rle_size sx s_tree = Ok 35.
Proof. split; [exact s_fit|]. vm_compute. auto. Qed.

(** `number_of_slices()` after a history. *)
Theorem C05_len_counts_runs : forall (I V : Type) (X : index_ops I) (Y : slice_ops I V) (MAX : Z) (inj : Z -> I)
    (M : nat) (nop : bool) (ops : list (@op V Z)) (r : @rle I V),
  index_laws X MAX inj -> (1 <= M)%nat -> ops_fit MAX ops ->
  run_ops X Y M nop None (map (inj_op inj) ops) = Ok r ->
  exists items, iter_collect X r [] SUnb EUnb = Ok items /\ rle_len r = length items.
Proof. exact C05_len_counts_runs_proof. Qed.
Print Assumptions C05_len_counts_runs.


Example C05_len_counts_runs_ex : ops_fit 1000 s_ops /\ run_ops sx sc 1 false None s_ops = Ok s_tree /\ rle_len s_tree = 9%nat.
Proof. split; [exact s_fit|]. vm_compute. auto. Qed.

(** The shape of every tree, and the bound on its height. *)
Theorem C06_shape_and_height : forall (I V : Type) (X : index_ops I) (Y : slice_ops I V) (MAX : Z) (inj : Z -> I)
    (M : nat) (nop : bool) (ops : list (@op V Z)) (r : @rle I V),
  index_laws X MAX inj -> (1 <= M)%nat -> ops_fit MAX ops ->
  run_ops X Y M nop None (map (inj_op inj) ops) = Ok r ->
  validate X M r = Ok tt /\
  match r with
  | None => ops = []
  | Some t => shape M 1 (r_height t) (r_node t) = true /\ (2 * (M + 1) ^ r_height t - 1 <= r_len t)%nat
  end.
Proof. exact C06_shape_and_height_proof. Qed.
Print Assumptions C06_shape_and_height.


(** A tree of height 2 with 9 runs; and a tree with a node below the minimum fails the check. *)
Example C06_shape_and_height_ex :
  ops_fit 1000 s_ops /\ run_ops sx sc 1 false None s_ops = Ok s_tree /\
  option_map r_height s_tree = Some 2%nat /\ validate sx 1 s_tree = Ok tt /\ validate sx 2 s_tree <> Ok tt.
Proof. split; [exact s_fit|]. vm_compute. repeat split; discriminate. Qed.

(** Exactly when an insert panics, and with what. *)
Theorem C07_insert_outcome : forall (I V : Type) (X : index_ops I) (Y : slice_ops I V) (MAX : Z) (inj : Z -> I)
    (M : nat) (nop : bool) (r : @rle I V) (l : list (V * Z)) (hints : list nat) (idx : Z) (x : V) (n : Z),
  index_laws X MAX inj -> (1 <= M)%nat -> reaches MAX inj X Y M nop r l ->
  0 <= idx <= MAX -> 0 <= n -> rsum l + n <= MAX ->
  let call := insert_with_cursor X Y M nop r hints (inj idx) x (inj n) in
  (call = Panic POutOfBounds <-> rsum l < idx) /\
  (call = Panic PBadSize <-> idx <= rsum l /\ n = 0) /\
  (call = Panic PTodo <-> 0 < n /\ joins_both Y l idx x) /\
  ((exists r' cur, call = Ok (r', cur)) <-> idx <= rsum l /\ 0 < n /\ ~ joins_both Y l idx x) /\
  (forall w, call = Panic w -> w = POutOfBounds \/ w = PBadSize \/ w = PTodo) /\
  call <> UB.
Proof. exact C07_insert_outcome_proof. Qed.
Print Assumptions C07_insert_outcome.


Example C07_insert_outcome_ex :
  reaches 1000 sid sx interval_ops 1 false i_tree i_runs /\ rsum i_runs = 25 /\
  insert sx interval_ops 1 i_tree 26 (0, 1) 1 = Panic POutOfBounds /\
  insert sx interval_ops 1 i_tree 25 (0, 0) 0 = Panic PBadSize /\
  insert sx interval_ops 1 i_tree 13 (10, 20) 10 = Panic PTodo /\
  joins_both interval_ops i_runs 13 (10, 20).
Proof.
  split; [exact i_reaches|]. do 4 (split; [vm_compute; reflexivity|]).
  exists (firstn 3 i_runs), (2, 10), 8, (20, 25), 5, (skipn 5 i_runs), (2, 20), (2, 25). vm_compute. auto 8.
Qed.

(** No addition overflows and no subtraction underflows: with overflow checks on, no arithmetic
    panic, for inserts with any arguments that fit, and for reads afterwards. *)
Theorem C08_no_overflow : forall (V : Type) (Y : slice_ops Z V) (MAX : Z) (M : nat) (nop : bool) (ops : list (@op V Z)),
  (1 <= M)%nat -> ops_fit MAX ops ->
  run_ops (checked_ops MAX) Y M nop None ops <> Panic PArith /\
  forall r, run_ops (checked_ops MAX) Y M nop None ops = Ok r ->
    (forall i hints, 0 <= i <= MAX -> get_with_cursor (checked_ops MAX) r hints i <> Panic PArith) /\
    (forall sb eb hints it calls, sb_in MAX sb -> eb_in MAX eb -> iter_new (checked_ops MAX) r hints sb eb = Ok it ->
       iter_calls (checked_ops MAX) r it calls <> Panic PArith).
Proof. exact C08_no_overflow_proof. Qed.
Print Assumptions C08_no_overflow.


(** The bound is tight: a total of exactly MAX is fine, one more panics. *)
Example C08_no_overflow_ex :
  ops_fit 35 s_ops /\ (exists r, run_ops (checked_ops 35) sc 1 false None s_ops = Ok r) /\
  run_ops (checked_ops 34) sc 1 false None s_ops = Panic PArith.
Proof. split; [fits_now|]. split; [eexists|]; vm_compute; reflexivity. Qed.

(** `Constant` slices: runs stay maximally merged and valid inserts never panic. *)
Theorem C09_constant_merged : forall (I T : Type) (eqb : T -> T -> bool) (X : index_ops I) (MAX : Z) (inj : Z -> I)
    (M : nat) (nop : bool) (ops : list (@op T Z)),
  (forall a b, eqb a b = true <-> a = b) -> index_laws X MAX inj -> (1 <= M)%nat -> ops_fit MAX ops ->
  match run_ops X (constant_ops eqb) M nop None (map (inj_op inj) ops) with
  | Ok r => exists l, iter_collect X r [] SUnb EUnb = Ok (map (inj_item inj) (spans 0 l)) /\ merged eqb l = true
  | Panic w => w = POutOfBounds \/ w = PBadSize
  | UB => False
  end.
Proof. exact C09_constant_merged_proof. Qed.
Print Assumptions C09_constant_merged.


(** An insert that merges with the run to its left and one that lands between two equal values. *)
Example C09_constant_merged_ex :
  (forall a b, Nat.eqb a b = true <-> a = b) /\ ops_fit 1000 (s_ops ++ [Build_op [] 30 6%nat 4; Build_op [] 20 1%nat 2]) /\
  (exists r, run_ops sx sc 1 false None (s_ops ++ [Build_op [] 30 6%nat 4; Build_op [] 20 1%nat 2]) = Ok r /\ rle_len r = 9%nat).
Proof. split; [exact Nat.eqb_eq|]. split; [fits_now|]. eexists. vm_compute. auto. Qed.

(** Cursors are only hints: every result, including the returned cursor, is the same. *)
Theorem C11_cursors_are_hints : forall (I V : Type) (X : index_ops I) (Y : slice_ops I V) (MAX : Z) (inj : Z -> I)
    (M : nat) (nop : bool) (r : @rle I V) (l : list (V * Z)) (c c' : list nat) (i : Z),
  index_laws X MAX inj -> (1 <= M)%nat -> reaches MAX inj X Y M nop r l -> 0 <= i <= MAX ->
  get_with_cursor X r c (inj i) = get_with_cursor X r c' (inj i) /\
  (forall x n, insert_with_cursor X Y M nop r c (inj i) x n = insert_with_cursor X Y M nop r c' (inj i) x n) /\
  (forall sb eb, sb_in MAX sb -> eb_in MAX eb ->
     iter_collect X r c (inj_sb inj sb) (inj_eb inj eb) = iter_collect X r c' (inj_sb inj sb) (inj_eb inj eb)).
Proof. exact C11_cursors_are_hints_proof. Qed.
Print Assumptions C11_cursors_are_hints.


(** A cursor with a wrong path, out of range in the tree. *)
Example C11_cursors_are_hints_ex :
  reaches 1000 sid sx sc 1 false s_tree s_runs /\
  get_with_cursor sx s_tree [1; 7; 0]%nat 5 = get_with_cursor sx s_tree [] 5 /\
  get_with_cursor sx s_tree [1; 7; 0]%nat 5 = Ok (0, 8, 7%nat).
Proof. split; [exact s_reaches|]. vm_compute. auto. Qed.

(** The cursor returned by an insert, except when the new slice merges into the left part of a run
    that it cuts (see the refutation below for that case). *)
Theorem C12_cursor_leads_to_slice_partial : forall (I V : Type) (X : index_ops I) (Y : slice_ops I V) (MAX : Z) (inj : Z -> I)
    (M : nat) (nop : bool) (r : @rle I V) (l : list (V * Z)) (hints : list nat) (idx : Z) (x : V) (n : Z) (r' : @rle I V) (cur : list nat),
  index_laws X MAX inj -> (1 <= M)%nat -> reaches MAX inj X Y M nop r l ->
  0 <= idx <= MAX -> 0 <= n -> rsum l + n <= MAX ->
  insert_with_cursor X Y M nop r hints (inj idx) x (inj n) = Ok (r', cur) ->
  left_join_only Y inj l idx x = false ->
  path_to r' cur (inserted_at Y inj l idx x).
Proof. exact C12_cursor_leads_to_slice_partial_proof. Qed.
Print Assumptions C12_cursor_leads_to_slice_partial.


Example C12_cursor_leads_to_slice_partial_ex :
  reaches 1000 sid sx interval_ops 1 false i_tree i_runs /\ left_join_only interval_ops sid i_runs 15 (50, 58) = false /\
  (exists r' cur, insert_with_cursor sx interval_ops 1 false i_tree [] 15 (50, 58) 8 = Ok (r', cur) /\ cur = [1; 0]%nat /\
     inserted_at interval_ops sid i_runs 15 (50, 58) = 5%nat).
Proof. split; [exact i_reaches|]. split; [vm_compute; reflexivity|]. eexists. eexists. vm_compute. auto. Qed.

(** In that case it depends on the tree. *)
Theorem C12_cursor_exact : forall (I V : Type) (X : index_ops I) (Y : slice_ops I V) (MAX : Z) (inj : Z -> I)
    (M : nat) (r : @rle I V) (l : list (V * Z)) (hints : list nat) (idx : Z) (x : V) (n : Z) (r' : @rle I V) (cur : list nat),
  index_laws X MAX inj -> (1 <= M)%nat -> reaches MAX inj X Y M false r l ->
  0 <= idx <= MAX -> 0 <= n -> rsum l + n <= MAX ->
  insert_with_cursor X Y M false r hints (inj idx) x (inj n) = Ok (r', cur) ->
  (path_to r' cur (inserted_at Y inj l idx x) <->
   left_join_only Y inj l idx x = false \/ cursor_kept M r (inserted_at Y inj l idx x)).
Proof. exact C12_cursor_exact_proof. Qed.
Print Assumptions C12_cursor_exact.


(** The run at 13 is at index 1 of a full root, before a full leaf; the run at 2 is not. *)
Example C12_cursor_exact_ex :
  reaches 1000 sid sx interval_ops 1 false i_tree i_runs /\
  left_join_only interval_ops sid i_runs 15 (22, 24) = true /\ inserted_at interval_ops sid i_runs 15 (22, 24) = 4%nat /\ cursor_kept 1 i_tree 4 /\
  (exists r', insert_with_cursor sx interval_ops 1 false i_tree [] 15 (22, 24) 2 = Ok (r', []) /\ path_to r' [] 4) /\
  left_join_only interval_ops sid i_runs 3 (1, 9) = true /\ inserted_at interval_ops sid i_runs 3 (1, 9) = 1%nat /\ ~ cursor_kept 1 i_tree 1.
Proof.
  split; [exact i_reaches|]. split; [vm_compute; reflexivity|]. split; [vm_compute; reflexivity|].
  split. { exists [], 1%nat. do 4 eexists. split; [vm_compute; reflexivity|]. split; [reflexivity|]. split; [reflexivity|]. right. split; [cbn; repeat constructor|]. right. reflexivity. }
  split. { eexists. split; [vm_compute; reflexivity|]. exists 0%nat. vm_compute. reflexivity. }
  split; [vm_compute; reflexivity|]. split; [vm_compute; reflexivity|].
  intros (p & j & tot & c0 & es & e & H & Hn & He & [Hc|[_ [Hc|Hc]]]); vm_compute in H; injection H as <- <-; vm_compute in Hn; injection Hn as <- <- <-; vm_compute in He; injection He as <-.
  - discriminate.
  - cbn in Hc. inversion Hc as [|? Q]; inversion Q as [|? Q2]; inversion Q2.
  - discriminate.
Qed.

(** With `Constant` slices that case does not occur. *)
Theorem C12_constant_cursor : forall (I T : Type) (eqb : T -> T -> bool) (X : index_ops I) (MAX : Z) (inj : Z -> I)
    (M : nat) (nop : bool) (r : @rle I T) (l : list (T * Z)) (hints : list nat) (idx : Z) (x : T) (n : Z) (r' : @rle I T) (cur : list nat),
  (forall a b, eqb a b = true <-> a = b) ->
  index_laws X MAX inj -> (1 <= M)%nat -> reaches MAX inj X (constant_ops eqb) M nop r l ->
  0 <= idx <= MAX -> 0 <= n -> rsum l + n <= MAX ->
  insert_with_cursor X (constant_ops eqb) M nop r hints (inj idx) x (inj n) = Ok (r', cur) ->
  path_to r' cur (inserted_at (constant_ops eqb) inj l idx x).
Proof. exact C12_constant_cursor_proof. Qed.
Print Assumptions C12_constant_cursor.


Example C12_constant_cursor_ex :
  reaches 1000 sid sx sc 1 false s_tree s_runs /\
  (exists r' cur, insert_with_cursor sx sc 1 false s_tree [] 20 9%nat 2 = Ok (r', cur) /\ cur = [1; 0]%nat /\
     inserted_at sc sid s_runs 20 9%nat = 4%nat).
Proof. split; [exact s_reaches|]. eexists. eexists. vm_compute. auto. Qed.

(** `entry.size()` of entries from `get` and from `iter`. *)
Theorem C35_entry_size : forall (I V : Type) (X : index_ops I) (Y : slice_ops I V) (MAX : Z) (inj : Z -> I)
    (M : nat) (nop : bool) (r : @rle I V) (l : list (V * Z)) (e : I * I * V),
  index_laws X MAX inj -> (1 <= M)%nat -> reaches MAX inj X Y M nop r l ->
  ((exists i hints, 0 <= i <= MAX /\ get_with_cursor X r hints (inj i) = Ok e) \/
   (exists sb eb hints items, sb_in MAX sb /\ eb_in MAX eb /\
      iter_collect X r hints (inj_sb inj sb) (inj_eb inj eb) = Ok items /\ In e items)) ->
  exists A s z B, l = A ++ (s, z) :: B /\ e = (inj (rsum A), inj (rsum A + z), s) /\
    entry_size X e = Ok (inj z) /\ ix_add_right X (fst (fst e)) (inj z) = Ok (snd (fst e)).
Proof. exact C35_entry_size_proof. Qed.
Print Assumptions C35_entry_size.


Example C35_entry_size_ex :
  reaches 1000 sid sx sc 1 false s_tree s_runs /\ get sx s_tree 20 = Ok (18, 24, 1%nat) /\ entry_size sx (18, 24, 1%nat) = Ok 6.
Proof. split; [exact s_reaches|]. vm_compute. auto. Qed.

(** A build with wrapping arithmetic behaves as the build with overflow checks. *)
Theorem C08_release_build_agrees : forall (V : Type) (Y : slice_ops Z V) (MAX : Z) (M : nat) (nop : bool) (ops : list (@op V Z)),
  (1 <= M)%nat -> ops_fit MAX ops ->
  match run_ops (checked_ops MAX) Y M nop None ops with
  | Ok r => exists r', run_ops (wrapping_ops MAX) Y M nop None ops = Ok r' /\
      iter_collect (wrapping_ops MAX) r' [] SUnb EUnb = iter_collect (checked_ops MAX) r [] SUnb EUnb /\
      rle_size (wrapping_ops MAX) r' = rle_size (checked_ops MAX) r /\
      forall i, 0 <= i <= MAX -> get (wrapping_ops MAX) r' i = get (checked_ops MAX) r i
  | Panic w => run_ops (wrapping_ops MAX) Y M nop None ops = Panic w
  | UB => False
  end.
Proof. exact C08_release_build_agrees_proof. Qed.
Print Assumptions C08_release_build_agrees.


Example C08_release_build_agrees_ex :
  ops_fit 35 s_ops /\ (exists r, run_ops (wrapping_ops 35) sc 1 false None s_ops = Ok r /\ rle_size (wrapping_ops 35) r = Ok 35) /\
  (exists r, run_ops (wrapping_ops 30) sc 1 false None s_ops = Ok r /\ rle_size (wrapping_ops 30) r = Ok 4).
Proof. split; [fits_now|]. split; eexists; vm_compute; auto. Qed.

(** Joining with both neighbours is documented but ends in `todo!()`: integer intervals, which obey the
    contract of `Slice`, and a valid insert of the missing piece between two intervals. *)
Theorem C10_join_both_refuted : exists (V D : Type) (Y : slice_ops Z V) (den : V -> Z -> D) (fits : V -> Z -> Prop)
    (r : @rle Z V) (l : list (V * Z)) (idx : Z) (x : V) (n : Z),
  denotes Y (fun z => z) den fits /\ reaches 1000 (fun z => z) (checked_ops 1000) Y 1 false r l /\
  0 <= idx <= rsum l /\ 0 < n /\ rsum l + n <= 1000 /\ fits x n /\
  insert (checked_ops 1000) Y 1 r idx x n = Panic PTodo.
Proof. exact C10_join_both_refuted_proof. Qed.
Print Assumptions C10_join_both_refuted.


(** For every slice type: whenever both joins are accepted, the insert panics and never merges. *)
Theorem C10_join_both_always_panics : forall (I V : Type) (X : index_ops I) (Y : slice_ops I V) (MAX : Z) (inj : Z -> I)
    (M : nat) (nop : bool) (r : @rle I V) (A B : list (V * Z)) (s s2 m j x : V) (z z2 n : Z) (hints : list nat),
  index_laws X MAX inj -> (1 <= M)%nat -> reaches MAX inj X Y M nop r (A ++ (s, z) :: (s2, z2) :: B) ->
  0 < n -> rsum (A ++ (s, z) :: (s2, z2) :: B) + n <= MAX ->
  sl_may_join Y = true -> sl_try_join Y s x = inl m -> sl_try_join Y m s2 = inl j ->
  insert_with_cursor X Y M nop r hints (inj (rsum A + z)) x (inj n) = Panic PTodo.
Proof. exact C10_join_both_always_panics_proof. Qed.
Print Assumptions C10_join_both_always_panics.


Example C10_join_both_always_panics_ex :
  reaches 1000 sid sx interval_ops 1 false i_tree (firstn 3 i_runs ++ ((2, 10), 8) :: ((20, 25), 5) :: skipn 5 i_runs) /\
  sl_try_join interval_ops (2, 10) (10, 20) = inl (2, 20) /\ sl_try_join interval_ops (2, 20) (20, 25) = inl (2, 25).
Proof. split; [exact i_reaches|]. vm_compute. auto. Qed.

(** The returned cursor when the new slice merges into the left part only: here the path is that of
    the node above. *)
Theorem C12_cursor_refuted : exists (V D : Type) (Y : slice_ops Z V) (den : V -> Z -> D) (fits : V -> Z -> Prop)
    (r r' : @rle Z V) (l : list (V * Z)) (idx : Z) (x : V) (n : Z) (cur : list nat),
  denotes Y (fun z => z) den fits /\ reaches 1000 (fun z => z) (checked_ops 1000) Y 1 false r l /\
  0 <= idx <= rsum l /\ 0 < n /\ rsum l + n <= 1000 /\ fits x n /\
  insert_with_cursor (checked_ops 1000) Y 1 false r [] idx x n = Ok (r', cur) /\
  ~ path_to r' cur (inserted_at Y (fun z => z) l idx x).
Proof. exact C12_cursor_refuted_proof. Qed.
Print Assumptions C12_cursor_refuted.

