(** Properties of node pointers: cursors, references, clones and drops. *)
From Coq Require Import List ZArith Bool Arith Permutation.
From Verif Require Import Base Index Slice Tree Insert Range Spec Iter Hist Order IterQ RefSpec LTree LInsert LRef LSpec Samples LSamples LPropsP.
Import ListNotations.
Local Open Scope Z_scope.

(** On every tree without features that can be reached, `cursor_to(i)` and `get(i).cursor()` give the
    path from the root to the node that holds the run that contains [i]; they panic when there is none,
    and `NoCursor` is produced from any index inside. *)
Theorem C13_cursor_path_plain : forall (I V : Type) (X : index_ops I) (Y : slice_ops I V) (MAX : Z) (inj : Z -> I) (M : nat) (nop : bool)
    (m : @mem I V) (st : @values V) (j : nat) (t : ptree I V) (l : list (V * Z)) (hints : list nat) (i : Z),
  index_laws X MAX inj -> (1 <= M)%nat -> mem_reaches X Y MAX inj M nop m st ->
  nth_error (m_trees m) j = Some (Some t) -> nth_error (fst st) j = Some (Some l) -> 0 <= i <= MAX ->
  (i < rsum l -> exists A s z B p h, l = A ++ (s, z) :: B /\ rsum A <= i < rsum A + z /\ path_to (pt_rle t) p (length A) /\
     cursor_to X false t (inj i) = Ok p /\ get_handle X t hints (inj i) = Ok h /\ handle_cursor false t h = Ok p) /\
  (rsum l <= i -> cursor_to X false t (inj i) = Panic POutOfBounds /\ get_handle X t hints (inj i) = Panic POutOfBounds).
Proof. exact C13_cursor_path_plain_proof. Qed.
Print Assumptions C13_cursor_path_plain.


(** Two trees of height 2; the paths to four runs of the first one. *)
Example C13_cursor_path_plain_ex : mem_reaches sx sc 1000 sid 1 false m_mem m_vals /\
  (exists t, nth_error (m_trees m_mem) 0 = Some (Some t) /\
     map (cursor_to sx false t) [5; 11; 20; 30; 36] = [Ok [0; 0]; Ok [0]; Ok [1; 0]; Ok []; Panic POutOfBounds]%nat /\
     map (fun i => let* h := get_handle sx t [] i in handle_cursor false t h) [5; 11; 20; 30; 36] = [Ok [0; 0]; Ok [0]; Ok [1; 0]; Ok []; Panic POutOfBounds]%nat).
Proof. split; [exact m_reaches|]. eexists. split; [reflexivity|]. split; vm_compute; reflexivity. Qed.

(** The same on every tree with references. *)
Theorem C13_cursor_path_refs : forall (I V : Type) (X : index_ops I) (Y : slice_ops I V) (MAX : Z) (inj : Z -> I) (M : nat)
    (t : @rtree I V) (l : list (V * Z)) (starts : list Z) (hints : list nat) (i : Z),
  index_laws X MAX inj -> (1 <= M)%nat -> refs_reach X Y MAX inj M t l starts -> 0 <= i <= MAX ->
  (i < rsum l -> exists A s z B p h, l = A ++ (s, z) :: B /\ rsum A <= i < rsum A + z /\ path_to (pt_rle (rt_tree t)) p (length A) /\
     cursor_to X false (rt_tree t) (inj i) = Ok p /\ get_handle X (rt_tree t) hints (inj i) = Ok h /\ handle_cursor false (rt_tree t) h = Ok p) /\
  (rsum l <= i -> cursor_to X false (rt_tree t) (inj i) = Panic POutOfBounds /\ get_handle X (rt_tree t) hints (inj i) = Panic POutOfBounds).
Proof. exact C13_cursor_path_refs_proof. Qed.
Print Assumptions C13_cursor_path_refs.


Example C13_cursor_path_refs_ex : refs_reach sx interval_ops 1000 sid 1 r_tree r_runs [10; 30] /\
  map (cursor_to sx false (rt_tree r_tree)) [0; 12; 59; 60] = [Ok [0]; Ok []; Ok [2]; Panic POutOfBounds]%nat.
Proof. split; [exact r_reaches|]. vm_compute. reflexivity. Qed.

(** Any number of trees without features, created empty or by `clone`, inserted into and dropped in any
    order, behave as separate values: every one holds the runs of its own history, with the total size
    that belongs to them. *)
Theorem C19_clones_are_values : forall (I V : Type) (X : index_ops I) (Y : slice_ops I V) (MAX : Z) (inj : Z -> I) (M : nat) (nop : bool) (calls : list (@mcall V)),
  index_laws X MAX inj -> (1 <= M)%nat -> mcalls_fit MAX calls ->
  match val_run Y inj ([], []) calls with
  | Ok st => exists m, m_run X Y M inj nop mem_new calls = Ok m /\
      Forall2 (fun t l => match t, l with
                          | Some t, Some l => iter_collect X (pt_rle t) [] SUnb EUnb = Ok (map (inj_item inj) (spans 0 l)) /\ rle_size X (pt_rle t) = Ok (inj (rsum l))
                          | None, None => True
                          | _, _ => False
                          end) (m_trees m) (fst st)
  | Panic w => m_run X Y M inj nop mem_new calls = Panic w
  | UB => False
  end.
Proof. exact C19_clones_are_values_proof. Qed.
Print Assumptions C19_clones_are_values.


(** A clone and its original, both changed afterwards. *)
Example C19_clones_are_values_ex : mcalls_fit 1000 m_ops /\ val_run sc sid ([], []) m_ops = Ok m_vals /\
  (exists l1 l2, m_vals = ([Some l1; Some l2], []) /\ l1 <> l2 /\ length l1 = 11%nat /\ length l2 = 11%nat /\ rsum l1 = 36 /\ rsum l2 = 37) /\
  m_run sx sc 1 sid false mem_new m_ops = Ok m_mem.
Proof.
  split; [exact m_fit|]. split; [vm_compute; reflexivity|]. split; [|vm_compute; reflexivity].
  eexists. eexists. split; [reflexivity|]. split; [discriminate|]. vm_compute. auto.
Qed.

(** No node belongs to two trees or twice to one, and a call on one tree writes to (or frees) no node of
    any other tree, which stays as it is. *)
Theorem C19_no_shared_memory : forall (I V : Type) (X : index_ops I) (Y : slice_ops I V) (MAX : Z) (inj : Z -> I) (M : nat) (nop : bool)
    (calls : list (@mcall V)) (c : @mcall V) (m m' : @mem I V) (j : nat) (t : ptree I V),
  index_laws X MAX inj -> (1 <= M)%nat -> mcalls_fit MAX (calls ++ [c]) ->
  m_run X Y M inj nop mem_new calls = Ok m -> m_call X Y M inj nop m c = Ok m' ->
  nth_error (m_trees m) j = Some (Some t) ->
  NoDup (laddrs (pt_nodes t)) /\
  (forall j2 t2 a, j2 <> j -> nth_error (m_trees m) j2 = Some (Some t2) -> In a (laddrs (pt_nodes t)) -> ~ In a (laddrs (pt_nodes t2))) /\
  (changes c <> Some j -> nth_error (m_trees m') j = Some (Some t) /\ forall a, In a (laddrs (pt_nodes t)) -> ~ In a (m_writes m')).
Proof. exact C19_no_shared_memory_proof. Qed.
Print Assumptions C19_no_shared_memory.


(** Inserting into the clone writes to four of its ten nodes and to a new one; no node of the original is touched. *)
Example C19_no_shared_memory_ex : mcalls_fit 1000 (m_ops ++ [MInsert 1 [] 1 5%nat 2]) /\
  m_run sx sc 1 sid false mem_new m_ops = Ok m_mem /\ m_next m_mem = 20%nat /\
  (exists t m', nth_error (m_trees m_mem) 0 = Some (Some t) /\ laddrs (pt_nodes t) = [6; 2; 0; 7; 19; 1; 18; 5; 3; 4]%nat /\
     m_call sx sc 1 sid false m_mem (MInsert 1 [] 1 5%nat 2) = Ok m' /\ nodup Nat.eq_dec (m_writes m') = [16; 20; 8; 11; 15]%nat).
Proof.
  split; [split; [vm_compute; repeat (constructor; try discriminate)|vm_compute; discriminate]|]. split; [vm_compute; reflexivity|]. split; [reflexivity|].
  eexists. eexists. split; [reflexivity|]. split; [reflexivity|]. split; vm_compute; reflexivity.
Qed.

(** Dropping a tree frees every one of its nodes once and drops every one of its slices once, and frees
    nothing that was freed before. *)
Theorem C37_drop_once : forall (I V : Type) (X : index_ops I) (Y : slice_ops I V) (MAX : Z) (inj : Z -> I) (M : nat) (nop : bool)
    (m m' : @mem I V) (st : @values V) (j : nat) (t : ptree I V) (l : list (V * Z)),
  index_laws X MAX inj -> (1 <= M)%nat -> mem_reaches X Y MAX inj M nop m st ->
  nth_error (m_trees m) j = Some (Some t) -> nth_error (fst st) j = Some (Some l) ->
  m_call X Y M inj nop m (MDrop j) = Ok m' ->
  exists f d, m_freed m' = m_freed m ++ f /\ Permutation f (laddrs (pt_nodes t)) /\ NoDup (m_freed m') /\
    m_dropped m' = m_dropped m ++ d /\ Permutation d (map fst l) /\ nth_error (m_trees m') j = Some None.
Proof. exact C37_drop_once_proof. Qed.
Print Assumptions C37_drop_once.


Example C37_drop_once_ex : mem_reaches sx sc 1000 sid 1 false m_mem m_vals /\
  (exists m', m_call sx sc 1 sid false m_mem (MDrop 1) = Ok m' /\
     m_freed m' = [15; 11; 8; 16; 17; 9; 10; 14; 12; 13]%nat /\ m_dropped m' = [1; 4; 9; 7; 7; 1; 3; 2; 4; 6; 5]%nat).
Proof. split; [exact m_reaches|]. eexists. split; [vm_compute; reflexivity|]. split; vm_compute; reflexivity. Qed.

(** At any time the nodes allocated so far are the nodes of the trees and the freed ones, each of them
    once; when all trees are dropped, every node has been freed once.  The slices dropped are those
    that the dropped trees held. *)
Theorem C37_nothing_leaks : forall (I V : Type) (X : index_ops I) (Y : slice_ops I V) (MAX : Z) (inj : Z -> I) (M : nat) (nop : bool)
    (m : @mem I V) (st : @values V),
  index_laws X MAX inj -> (1 <= M)%nat -> mem_reaches X Y MAX inj M nop m st ->
  Permutation (flat_map (fun t => match t with Some t => laddrs (pt_nodes t) | None => [] end) (m_trees m) ++ m_freed m) (seq 0 (m_next m)) /\
  (Forall (fun t => t = None) (m_trees m) -> Permutation (m_freed m) (seq 0 (m_next m))) /\
  Permutation (m_dropped m) (snd st).
Proof. exact C37_nothing_leaks_proof. Qed.
Print Assumptions C37_nothing_leaks.


Example C37_nothing_leaks_ex : exists m st, mem_reaches sx sc 1000 sid 1 false m st /\ m_trees m = [None; None] /\ m_next m = 20%nat /\
  m_freed m = [6; 2; 0; 7; 19; 1; 18; 5; 3; 4; 15; 11; 8; 16; 17; 9; 10; 14; 12; 13]%nat.
Proof.
  eexists. eexists. split; [|split; [|split]].
  - exists (m_ops ++ [MDrop 0; MDrop 1]). split; [split; [vm_compute; repeat (constructor; try discriminate)|vm_compute; discriminate]|]. split; vm_compute; reflexivity.
  - reflexivity.
  - reflexivity.
  - reflexivity.
Qed.

(** The same destructor on a tree with references. *)
Theorem C37_drop_with_refs : forall (I V : Type) (X : index_ops I) (Y : slice_ops I V) (MAX : Z) (inj : Z -> I) (M : nat)
    (t : @rtree I V) (l : list (V * Z)) (starts : list Z),
  index_laws X MAX inj -> (1 <= M)%nat -> refs_reach X Y MAX inj M t l starts ->
  Permutation (drops (p_drop (rt_tree t))) (map fst l) /\ Permutation (frees (p_drop (rt_tree t))) (laddrs (pt_nodes (rt_tree t))) /\
  NoDup (frees (p_drop (rt_tree t))).
Proof. exact C37_drop_with_refs_proof. Qed.
Print Assumptions C37_drop_with_refs.


Example C37_drop_with_refs_ex : refs_reach sx interval_ops 1000 sid 1 r_tree r_runs [10; 30] /\
  length (drops (p_drop (rt_tree r_tree))) = 6%nat /\ frees (p_drop (rt_tree r_tree)) = laddrs (pt_nodes (rt_tree r_tree)).
Proof. split; [exact r_reaches|]. vm_compute. auto. Qed.

(** After any history of inserts and of references made with `make_ref` and `insert_ref`, either some
    `insert_ref` accessed a key beyond the length of a node (see C27 for when), or the tree behaves as the
    flat specification says and every reference sees the exact range and the slice of the run it should
    refer to. *)
Theorem C26_refs_exact : forall (I V : Type) (X : index_ops I) (Y : slice_ops I V) (MAX : Z) (inj : Z -> I) (M : nat) (calls : list (rcall V)),
  index_laws X MAX inj -> (1 <= M)%nat -> calls_fit MAX calls -> rt_run X Y M inj rt_new calls <> UB ->
  match ref_run Y inj [] [] calls with
  | Ok (l, starts) => exists t vs, rt_run X Y M inj rt_new calls = Ok t /\
      iter_collect X (pt_rle (rt_tree t)) [] SUnb EUnb = Ok (map (inj_item inj) (spans 0 l)) /\
      rt_view X t = Ok vs /\ Forall2 (fun a v => exists b s, In (a, b, s) (spans 0 l) /\ v = (inj a, inj b, s)) starts vs
  | Panic w => rt_run X Y M inj rt_new calls = Panic w
  | UB => False
  end.
Proof. exact C26_refs_exact_proof. Qed.
Print Assumptions C26_refs_exact.


(** The second reference is to a run that is cut, and whose left part the slice merges with. *)
Example C26_refs_exact_ex :
  let calls := r_calls ++ [CInsert 35 (700, 703) 3; CInsertRef 15 (105, 108) 3; CInsert 0 (900, 902) 2] in
  calls_fit 1000 calls /\ refs_safe interval_ops sid [] calls = false /\
  (exists l, ref_run interval_ops sid [] [] calls = Ok (l, [12; 35; 12]) /\ length l = 10%nat) /\
  (exists t, rt_run sx interval_ops 1 sid rt_new calls = Ok t /\
     rt_view sx t = Ok [(12, 20, (100, 108)); (35, 40, (300, 305)); (12, 20, (100, 108))]).
Proof.
  cbv zeta. split; [split; [vm_compute; repeat (constructor; try discriminate)|vm_compute; discriminate]|]. split; [vm_compute; reflexivity|].
  split; [eexists; split; vm_compute; reflexivity|]. eexists. split; vm_compute; reflexivity.
Qed.

(** After any history of inserts and of references made with `make_ref` and `insert_ref` (but see C27 for
    one kind of `insert_ref`), the tree behaves as the flat specification says, and every reference sees
    the exact range and the slice of the run it should refer to. *)
Theorem C26_refs_follow : forall (I V : Type) (X : index_ops I) (Y : slice_ops I V) (MAX : Z) (inj : Z -> I) (M : nat) (calls : list (rcall V)),
  index_laws X MAX inj -> (1 <= M)%nat -> calls_fit MAX calls -> refs_safe Y inj [] calls = true ->
  match ref_run Y inj [] [] calls with
  | Ok (l, starts) => exists t vs, rt_run X Y M inj rt_new calls = Ok t /\
      iter_collect X (pt_rle (rt_tree t)) [] SUnb EUnb = Ok (map (inj_item inj) (spans 0 l)) /\
      rt_view X t = Ok vs /\ Forall2 (fun a v => exists b s, In (a, b, s) (spans 0 l) /\ v = (inj a, inj b, s)) starts vs
  | Panic w => rt_run X Y M inj rt_new calls = Panic w
  | UB => False
  end.
Proof. exact C26_refs_follow_proof. Qed.
Print Assumptions C26_refs_follow.


(** Two references made before the tree grows, one of whose runs is then cut and the other joined. *)
Example C26_refs_follow_ex :
  let calls := r_calls ++ [CInsert 35 (700, 703) 3; CInsertRef 20 (110, 114) 4; CInsert 0 (900, 902) 2] in
  calls_fit 1000 calls /\ refs_safe interval_ops sid [] calls = true /\
  (exists l, ref_run interval_ops sid [] [] calls = Ok (l, [12; 36; 12]) /\ length l = 9%nat) /\
  (exists t, rt_run sx interval_ops 1 sid rt_new calls = Ok t /\
     rt_view sx t = Ok [(12, 26, (100, 114)); (36, 41, (300, 305)); (12, 26, (100, 114))]).
Proof.
  cbv zeta. split; [split; [vm_compute; repeat (constructor; try discriminate)|vm_compute; discriminate]|]. split; [vm_compute; reflexivity|].
  split; [eexists; split; vm_compute; reflexivity|]. eexists. split; vm_compute; reflexivity.
Qed.

(** Histories without `insert_ref` need no condition on the slices. *)
Theorem C26_make_refs_follow : forall (I V : Type) (X : index_ops I) (Y : slice_ops I V) (MAX : Z) (inj : Z -> I) (M : nat) (calls : list (rcall V)),
  index_laws X MAX inj -> (1 <= M)%nat -> calls_fit MAX calls -> (forall i x n, ~ In (CInsertRef i x n) calls) ->
  match ref_run Y inj [] [] calls with
  | Ok (l, starts) => exists t vs, rt_run X Y M inj rt_new calls = Ok t /\
      iter_collect X (pt_rle (rt_tree t)) [] SUnb EUnb = Ok (map (inj_item inj) (spans 0 l)) /\
      rt_view X t = Ok vs /\ Forall2 (fun a v => exists b s, In (a, b, s) (spans 0 l) /\ v = (inj a, inj b, s)) starts vs
  | Panic w => rt_run X Y M inj rt_new calls = Panic w
  | UB => False
  end.
Proof. exact C26_make_refs_follow_proof. Qed.
Print Assumptions C26_make_refs_follow.


Example C26_make_refs_follow_ex :
  let calls := r_calls ++ [CInsert 35 (305, 308) 3; CMakeRef 39; CInsert 0 (900, 902) 2] in
  calls_fit 1000 calls /\ (forall i x n, ~ In (CInsertRef i x n) calls) /\
  (exists t, rt_run sx interval_ops 1 sid rt_new calls = Ok t /\
     rt_view sx t = Ok [(12, 22, (100, 110)); (32, 40, (300, 308)); (40, 45, (305, 310))]).
Proof.
  cbv zeta. split; [split; [vm_compute; repeat (constructor; try discriminate)|vm_compute; discriminate]|].
  split; [intros i x n H; vm_compute in H; intuition discriminate|]. eexists. split; vm_compute; reflexivity.
Qed.

(** `insert_ref` accesses a key beyond the length of a node exactly when the insertion cuts a run in the
    right half of a full internal node, all nodes on the left edge of the child behind it are full, and the
    new slice merges with the left part only.  In all other cases it returns a reference to the run that
    holds the inserted slice. *)
Theorem C27_insert_ref_exact : forall (I V : Type) (X : index_ops I) (Y : slice_ops I V) (MAX : Z) (inj : Z -> I) (M : nat)
    (t : @rtree I V) (l : list (V * Z)) (starts : list Z) (i : Z) (x : V) (n : Z) (l' : list (V * Z)),
  index_laws X MAX inj -> (1 <= M)%nat -> refs_reach X Y MAX inj M t l starts ->
  0 <= i -> rsum l + n <= MAX -> spec_insert Y inj l i x n = Ok l' ->
  (passed_over Y inj M (pt_rle (rt_tree t)) l i x -> rt_call X Y M inj t (CInsertRef i x n) = UB) /\
  (~ passed_over Y inj M (pt_rle (rt_tree t)) l i x ->
   exists t' r a b s, rt_call X Y M inj t (CInsertRef i x n) = Ok t' /\ rt_refs t' = rt_refs t ++ [r] /\
     ref_view X (rt_tree t') (rt_heap t') r = Ok (inj a, inj b, s) /\ In (a, b, s) (spans 0 l') /\ a <= i /\ i + n <= b).
Proof. exact C27_insert_ref_exact_proof. Qed.
Print Assumptions C27_insert_ref_exact.


(** Two cuts of a run in the full root, in both of which the slice merges with the left part only: of the
    second run, which is in the left half, and of the fourth, which is in the right half. *)
Example C27_insert_ref_exact_ex : refs_reach sx interval_ops 1000 sid 1 r_tree r_runs [10; 30] /\
  (left_join_only interval_ops sid r_runs 15 (105, 108) = true /\ ~ passed_over interval_ops sid 1 (pt_rle (rt_tree r_tree)) r_runs 15 (105, 108) /\
   exists t', rt_call sx interval_ops 1 sid r_tree (CInsertRef 15 (105, 108) 3) = Ok t' /\ rt_refs t' = [0; 1; 0]%nat /\
     ref_view sx (rt_tree t') (rt_heap t') 0 = Ok (10, 18, (100, 108))) /\
  passed_over interval_ops sid 1 (pt_rle (rt_tree r_tree)) r_runs 35 (305, 308) /\
  rt_call sx interval_ops 1 sid r_tree (CInsertRef 35 (305, 308) 3) = UB.
Proof.
  split; [exact r_reaches|]. split.
  - split; [vm_compute; reflexivity|]. split; [|eexists; split; [|split]; vm_compute; reflexivity].
    intros [_ (p & j & tot & c0 & es & e & H & _ & _ & Hj & _)]. vm_compute in H. injection H as <- <-. inversion Hj.
  - split; [|vm_compute; reflexivity]. split; [vm_compute; reflexivity|]. exists [], 1%nat. eexists. eexists. eexists. eexists.
    split; [vm_compute; reflexivity|]. split; [vm_compute; reflexivity|]. cbn. repeat split; auto; discriminate.
Qed.

(** So it does when the insertion does not cut a run and merge the new slice with the left part only,
    whatever the tree looks like. *)
Theorem C27_insert_ref_partial : forall (I V : Type) (X : index_ops I) (Y : slice_ops I V) (MAX : Z) (inj : Z -> I) (M : nat)
    (t : @rtree I V) (l : list (V * Z)) (starts : list Z) (i : Z) (x : V) (n : Z) (l' : list (V * Z)),
  index_laws X MAX inj -> (1 <= M)%nat -> refs_reach X Y MAX inj M t l starts ->
  0 <= i -> rsum l + n <= MAX -> spec_insert Y inj l i x n = Ok l' -> left_join_only Y inj l i x = false ->
  exists t' r a b s, rt_call X Y M inj t (CInsertRef i x n) = Ok t' /\ rt_refs t' = rt_refs t ++ [r] /\
    ref_view X (rt_tree t') (rt_heap t') r = Ok (inj a, inj b, s) /\ In (a, b, s) (spans 0 l') /\ a <= i /\ i + n <= b.
Proof. exact C27_insert_ref_partial_proof. Qed.
Print Assumptions C27_insert_ref_partial.


(** A cut in an internal node; the reference is to the middle part in a new leaf. *)
Example C27_insert_ref_partial_ex : refs_reach sx interval_ops 1000 sid 1 r_tree r_runs [10; 30] /\
  left_join_only interval_ops sid r_runs 35 (700, 703) = false /\
  (exists t', rt_call sx interval_ops 1 sid r_tree (CInsertRef 35 (700, 703) 3) = Ok t' /\ rt_refs t' = [0; 1; 2]%nat /\
     ref_view sx (rt_tree t') (rt_heap t') 2 = Ok (35, 38, (700, 703))).
Proof. split; [exact r_reaches|]. split; [vm_compute; reflexivity|]. eexists. split; [|split]; vm_compute; reflexivity. Qed.

(** With `Constant` slices this is always so. *)
Theorem C27_constant_insert_ref : forall (I T : Type) (eqb : T -> T -> bool) (X : index_ops I) (MAX : Z) (inj : Z -> I) (M : nat)
    (calls : list (rcall T)) (l : list (T * Z)) (starts : list Z) (i : Z) (x : T) (n : Z) (l' : list (T * Z)),
  (forall a b, eqb a b = true <-> a = b) ->
  index_laws X MAX inj -> (1 <= M)%nat -> calls_fit MAX calls -> ref_run (constant_ops eqb) inj [] [] calls = Ok (l, starts) ->
  0 <= i -> rsum l + n <= MAX -> spec_insert (constant_ops eqb) inj l i x n = Ok l' ->
  exists t t' r a b s, rt_run X (constant_ops eqb) M inj rt_new calls = Ok t /\
    rt_call X (constant_ops eqb) M inj t (CInsertRef i x n) = Ok t' /\ rt_refs t' = rt_refs t ++ [r] /\
    ref_view X (rt_tree t') (rt_heap t') r = Ok (inj a, inj b, s) /\ In (a, b, s) (spans 0 l') /\ a <= i /\ i + n <= b.
Proof. exact C27_constant_insert_ref_proof. Qed.
Print Assumptions C27_constant_insert_ref.


Example C27_constant_insert_ref_ex :
  let calls := map (fun j => CInsert (10 * Z.of_nat j) j 10) (seq 0 6) in
  (forall a b, Nat.eqb a b = true <-> a = b) /\ calls_fit 1000 calls /\
  (exists l t t', ref_run sc sid [] [] calls = Ok (l, []) /\ length l = 6%nat /\ rt_run sx sc 1 sid rt_new calls = Ok t /\
     rt_call sx sc 1 sid t (CInsertRef 35 3%nat 7) = Ok t' /\ rt_view sx t' = Ok [(30, 47, 3%nat)]).
Proof.
  cbv zeta. split; [apply Nat.eqb_eq|]. split; [split; [vm_compute; repeat (constructor; try discriminate)|vm_compute; discriminate]|].
  eexists. eexists. eexists. split; [vm_compute; reflexivity|]. split; [reflexivity|]. split; [vm_compute; reflexivity|]. split; vm_compute; reflexivity.
Qed.

(** In the remaining case the handle that the insertion reports may be stale, so that `insert_ref`
    accesses a key beyond the length of a node.  The slices are lawful; with the default [M]. *)
Theorem C27_insert_ref_refuted : exists (V D : Type) (Y : slice_ops Z V) (den : V -> Z -> D) (fits : V -> Z -> Prop)
    (t : @rtree Z V) (l : list (V * Z)) (i : Z) (x : V) (n : Z) (l' : list (V * Z)),
  denotes Y (fun z => z) den fits /\ refs_reach (checked_ops 1000) Y 1000 (fun z => z) 3 t l [] /\
  0 <= i <= rsum l /\ rsum l + n <= 1000 /\ fits x n /\ spec_insert Y (fun z => z) l i x n = Ok l' /\
  rt_call (checked_ops 1000) Y 3 (fun z => z) t (CInsertRef i x n) = UB.
Proof. exact C27_insert_ref_refuted_proof. Qed.
Print Assumptions C27_insert_ref_refuted.


(** Two references compare as the same slot if and only if they refer to the same run. *)
Theorem C36_same_slot : forall (I V : Type) (X : index_ops I) (Y : slice_ops I V) (MAX : Z) (inj : Z -> I) (M : nat)
    (t : @rtree I V) (l : list (V * Z)) (starts : list Z) (j1 j2 r1 r2 : nat) (a1 a2 : Z),
  index_laws X MAX inj -> (1 <= M)%nat -> refs_reach X Y MAX inj M t l starts ->
  nth_error (rt_refs t) j1 = Some r1 -> nth_error (rt_refs t) j2 = Some r2 ->
  nth_error starts j1 = Some a1 -> nth_error starts j2 = Some a2 -> (r1 = r2 <-> a1 = a2).
Proof. exact C36_same_slot_proof. Qed.
Print Assumptions C36_same_slot.


Example C36_same_slot_ex : exists t l, refs_reach sx interval_ops 1000 sid 1 t l [10; 34; 10; 34] /\ rt_refs t = [0; 1; 0; 1]%nat.
Proof.
  eexists. eexists. split.
  - exists (r_calls ++ [CInsertRef 20 (110, 114) 4; CMakeRef 40]). split; [split; [vm_compute; repeat (constructor; try discriminate)|vm_compute; discriminate]|].
    split; vm_compute; reflexivity.
  - reflexivity.
Qed.

(** When the slice given to `insert_ref` is merged into a run that has a reference, that reference and
    the new one are the same slot and see the same run, which holds the first position of the old run
    and all inserted positions. *)
Theorem C36_merged_refs_partial : forall (I V : Type) (X : index_ops I) (Y : slice_ops I V) (MAX : Z) (inj : Z -> I) (M : nat)
    (t : @rtree I V) (l : list (V * Z)) (starts : list Z) (i : Z) (x : V) (n : Z) (l' : list (V * Z)) (j r0 : nat) (a0 a b : Z) (s : V),
  index_laws X MAX inj -> (1 <= M)%nat -> refs_reach X Y MAX inj M t l starts ->
  0 <= i -> rsum l + n <= MAX -> spec_insert Y inj l i x n = Ok l' -> ~ passed_over Y inj M (pt_rle (rt_tree t)) l i x ->
  nth_error (rt_refs t) j = Some r0 -> nth_error starts j = Some a0 ->
  In (a, b, s) (spans 0 l') -> a <= i -> i + n <= b -> a <= (if a0 <? i then a0 else a0 + n) < b ->
  exists t', rt_call X Y M inj t (CInsertRef i x n) = Ok t' /\ rt_refs t' = rt_refs t ++ [r0] /\
    ref_view X (rt_tree t') (rt_heap t') r0 = Ok (inj a, inj b, s).
Proof. exact C36_merged_refs_partial_proof. Qed.
Print Assumptions C36_merged_refs_partial.


Example C36_merged_refs_partial_ex : refs_reach sx interval_ops 1000 sid 1 r_tree r_runs [10; 30] /\
  ~ passed_over interval_ops sid 1 (pt_rle (rt_tree r_tree)) r_runs 15 (105, 108) /\
  (exists l', spec_insert interval_ops sid r_runs 15 (105, 108) 3 = Ok l' /\ In (10, 18, (100, 108)) (spans 0 l')) /\
  (exists t', rt_call sx interval_ops 1 sid r_tree (CInsertRef 15 (105, 108) 3) = Ok t' /\ rt_refs t' = [0; 1; 0]%nat /\
     ref_view sx (rt_tree t') (rt_heap t') 0 = Ok (10, 18, (100, 108))).
Proof.
  split; [exact r_reaches|]. split.
  { intros [_ (p & j & tot & c0 & es & e & H & _ & _ & Hj & _)]. vm_compute in H. injection H as <- <-. inversion Hj. }
  split; [eexists; split; [vm_compute; reflexivity|vm_compute; auto]|].
  eexists. split; [|split]; vm_compute; reflexivity.
Qed.

(** In that case there may be no such pair: the old reference [r_tree] holds is to the run that the slice
    is merged into, and `insert_ref` accesses a key beyond the length of a node. *)
Theorem C36_merged_refs_refuted : exists (V D : Type) (Y : slice_ops Z V) (den : V -> Z -> D) (fits : V -> Z -> Prop)
    (t : @rtree Z V) (l : list (V * Z)) (starts : list Z) (i : Z) (x : V) (n : Z) (l' : list (V * Z)) (a0 a b : Z) (s : V),
  denotes Y (fun z => z) den fits /\ refs_reach (checked_ops 1000) Y 1000 (fun z => z) 1 t l starts /\
  0 <= i <= rsum l /\ rsum l + n <= 1000 /\ fits x n /\ spec_insert Y (fun z => z) l i x n = Ok l' /\
  In a0 starts /\ In (a, b, s) (spans 0 l') /\ a <= i /\ i + n <= b /\ a <= (if a0 <? i then a0 else a0 + n) < b /\
  rt_call (checked_ops 1000) Y 1 (fun z => z) t (CInsertRef i x n) = UB.
Proof. exact C36_merged_refs_refuted_proof. Qed.
Print Assumptions C36_merged_refs_refuted.

