(** Properties of the arrays of a node. *)
From Coq Require Import List Arith Bool Lia Permutation ZArith.
From Verif Require Import Base Index Slice Tree Slots SlotSpec SlotPropsP.
Import ListNotations.

(** For every M that the tree accepts, in every history of node operations that keeps their documented safety
    conditions, the arrays hold exactly the lists: no empty slot is read, none outside is touched, no length
    overflows a `u8`, and what is returned and reported is what the list operation says. *)
Theorem C45_slots_refine : forall (I S R C : Type) (zero : I) (no_ref : R) (M : nat) (ops : list (nop I S R C)), 1 <= M <= 127 ->
  match v_run zero no_ref M [] ops with
  | Ok (p, evs) => a_run zero no_ref M [] ops = Ok (map (option_map (encode M)) p, evs) /\
                   forall n v, nth_error p n = Some (Some v) -> v_ok M v
  | UB => True
  | Panic _ => False
  end.
Proof. exact C45_slots_refine_proof. Qed.
Print Assumptions C45_slots_refine.


(** A history of leaves, an inner node, a split, both kinds of clone, one of which panics, and drops; with M = 1 a leaf has two slots. *)
Definition s_hist : list (nop nat nat nat nat) :=
  [NNewRoot 10 8; NInsertKey 0 1 11; NSplit 0 1; NPushKey 1 12 5 9; NNewParent 4 20 13 7 0 1; NInsertBoth 2 0 14 6 30;
   NSetPoss 2 (fun x => Some (x + 2)) 1; NShallow 2 (fun s => Some (s + 100)); NDeep 2 (fun s => if s =? 13 then None else Some (s + 200)) (fun c => Some (c + 500));
   NReplaceFirst 2 40; NSwap 0 0 15; NDrop 2; NDrop 0].
Example C45_slots_refine_ex : 1 <= 1 <= 127 /\ exists evs, length evs = 29 /\
  v_run 0 9 1 [] s_hist = Ok ([None; Some {| v_total := 9; v_keys := [(8, 12, 5)]; v_childs := None |}; None;
    Some {| v_total := 22; v_keys := [(4, 114, 9); (6, 113, 9)]; v_childs := Some [0; 30; 1] |}], evs).
Proof. split; [lia|]. eexists. split; [|vm_compute; reflexivity]. reflexivity. Qed.

(** Every slice given to an operation or made by `S::clone` is in exactly one slot, or has left exactly once:
    handed back, dropped or leaked. *)
Theorem C45_slices_conserved : forall (I S R C : Type) (zero : I) (no_ref : R) (M : nat) (ops : list (nop I S R C)) p evs, 1 <= M <= 127 ->
  v_run zero no_ref M [] ops <> UB -> a_run zero no_ref M [] ops = Ok (p, evs) ->
  Permutation (concat (map slices_given ops) ++ slices_made evs) (slices_in p ++ slices_out evs).
Proof. exact C45_slices_conserved_proof. Qed.
Print Assumptions C45_slices_conserved.


(** The history above: six slices were given and three cloned, of which three are still there. *)
Example C45_slices_conserved_ex : v_run 0 9 1 [] s_hist <> UB /\
  match a_run 0 9 1 [] s_hist with
  | Ok (p, evs) => concat (map slices_given s_hist) = [10; 11; 12; 13; 14; 15] /\ slices_made evs = [114; 113; 214] /\
                   slices_in p = [12; 114; 113] /\ slices_out evs = [11; 214; 10; 14; 13; 15]
  | _ => False
  end.
Proof. split; [vm_compute; discriminate|vm_compute; repeat split]. Qed.

(** The same for child pointers. *)
Theorem C45_childs_conserved : forall (I S R C : Type) (zero : I) (no_ref : R) (M : nat) (ops : list (nop I S R C)) p evs, 1 <= M <= 127 ->
  v_run zero no_ref M [] ops <> UB -> a_run zero no_ref M [] ops = Ok (p, evs) ->
  Permutation (concat (map childs_given ops) ++ childs_made evs) (childs_in p ++ childs_out evs).
Proof. exact C45_childs_conserved_proof. Qed.
Print Assumptions C45_childs_conserved.


(** The history above: four children were given and three shared. *)
Example C45_childs_conserved_ex : v_run 0 9 1 [] s_hist <> UB /\
  match a_run 0 9 1 [] s_hist with
  | Ok (p, evs) => concat (map childs_given s_hist) = [0; 1; 30; 40] /\ childs_made evs = [0; 30; 1] /\ childs_in p = [0; 30; 1] /\ childs_out evs = [0; 40; 30; 1]
  | _ => False
  end.
Proof. split; [vm_compute; discriminate|vm_compute; repeat split]. Qed.

(** A slice is leaked only if cloning a child panicked inside `deep_clone`. *)
Theorem C45_leaks_only_in_deep_clone : forall (I S R C : Type) (zero : I) (no_ref : R) (M : nat) (ops : list (nop I S R C)) p evs s, 1 <= M <= 127 ->
  v_run zero no_ref M [] ops <> UB -> a_run zero no_ref M [] ops = Ok (p, evs) -> In (ELeak s) evs ->
  exists n cl dc c, In (NDeep n cl dc) ops /\ dc c = None.
Proof. exact C45_leaks_only_in_deep_clone_proof. Qed.
Print Assumptions C45_leaks_only_in_deep_clone.


(** The clone of the second child panics after the slice has been cloned. *)
Example C45_leaks_only_in_deep_clone_ex :
  let ops := [NNewParent 3 9 7 tt 100 101; NDeep 0 (fun s => Some (s + 50)) (fun c => if c =? 101 then None else Some (c + 50))] in
  v_run 0 tt 2 [] ops <> UB /\
  match a_run 0 tt 2 [] ops with Ok (_, evs) => In (ELeak 57) evs | _ => False end.
Proof. split; [vm_compute; discriminate|vm_compute; auto 10]. Qed.

(** It does happen: the claim that a panicking clone leaks nothing is false of `deep_clone`. *)
Theorem C45_no_leak_refuted : exists (ops : list (nop nat nat unit nat)) p evs s,
  v_run 0 tt 2 [] ops <> UB /\ a_run 0 tt 2 [] ops = Ok (p, evs) /\ In (ELeak s) evs.
Proof. exact C45_no_leak_refuted_proof. Qed.
Print Assumptions C45_no_leak_refuted.

(** The node operations of the tree model (Tree.v) are what the slot-level code does. *)
Theorem C45_tree_insert : forall (I S : Type) (M h me : nat) (a : raw I S unit (tree I S)) (t : tree I S) (k : nat) (s : S) (ch t' : tree I S) (pos : I),
  1 <= M <= 127 -> holds M h a t -> insert_key_and_child M t k s ch = Ok (t', pos) ->
  exists a' evs, holds M h a' t' /\ In (EPos pos) evs /\
  match h with
  | O => a_insert_key tt me a k s
  | Datatypes.S _ => a_insert_key_and_child me a k s tt ch
  end = Ok (a', evs).
Proof. exact C45_tree_insert_proof. Qed.
Print Assumptions C45_tree_insert.


(** A leaf with room for one more key, and an inner node. *)
Definition t_leaf : tree nat nat := Node 9 Nil [(0, 10, Nil)].
Definition t_inner : tree nat nat := Node 20 t_leaf [(9, 11, t_leaf)].
Example C45_tree_insert_ex : holds 1 0 (encode 1 (node_view 0 9 Nil [(0, 10, Nil)])) t_leaf /\
  holds 1 1 (encode 1 (node_view 1 20 t_leaf [(9, 11, t_leaf)])) t_inner /\
  insert_key_and_child 1 t_leaf 0 12 Nil = Ok (Node 9 Nil [(0, 12, Nil); (0, 10, Nil)], 0) /\
  insert_key_and_child 1 t_inner 1 12 Nil = Ok (Node 20 t_leaf [(9, 11, t_leaf); (20, 12, Nil)], 20).
Proof. vm_compute. repeat split; lia. Qed.

Theorem C45_tree_push : forall (I S : Type) (M h me : nat) (a : raw I S unit (tree I S)) (t : tree I S) (s : S) (ch t' : tree I S) (total : I),
  1 <= M <= 127 -> holds M h a t -> push_key_and_child M t s ch total = Ok t' ->
  exists a' evs, holds M h a' t' /\
  match h with
  | O => a_push_key me a s tt total
  | Datatypes.S _ => a_push_key_and_child me a s tt ch total
  end = Ok (a', evs).
Proof. exact C45_tree_push_proof. Qed.
Print Assumptions C45_tree_push.


Example C45_tree_push_ex : holds 1 1 (encode 1 (node_view 1 20 t_leaf [(9, 11, t_leaf)])) t_inner /\
  push_key_and_child 1 t_inner 12 t_leaf 30 = Ok (Node 30 t_leaf [(9, 11, t_leaf); (20, 12, t_leaf)]).
Proof. vm_compute. repeat split; lia. Qed.

Theorem C45_tree_split : forall (I S : Type) (M h me new : nat) (a : raw I S unit (tree I S)) (t : tree I S) (mid : nat) (l : tree I S) (pos : I) (s : S) (r : tree I S),
  1 <= M <= 127 -> holds M h a t -> split t mid = Ok (l, (pos, s), r) ->
  exists a1 a2 evs, holds M h a1 l /\ holds M h a2 r /\ In (EKey pos s tt) evs /\ a_split M me new a mid = Ok (a1, a2, evs).
Proof. exact C45_tree_split_proof. Qed.
Print Assumptions C45_tree_split.


Example C45_tree_split_ex : holds 1 1 (encode 1 (node_view 1 30 t_leaf [(9, 11, t_leaf); (20, 12, Nil)])) (Node 30 t_leaf [(9, 11, t_leaf); (20, 12, Nil)]) /\
  split (Node 30 t_leaf [(9, 11, t_leaf); (20, 12, Nil)]) 1 = Ok (Node 30 t_leaf [(9, 11, t_leaf)], (20, 12), Node 30 Nil []).
Proof. vm_compute. repeat split; lia. Qed.

Theorem C45_tree_replace_first : forall (I S : Type) (M h me : nat) (a : raw I S unit (tree I S)) (t ch t' old : tree I S),
  1 <= M <= 127 -> holds M (Datatypes.S h) a t -> replace_first_child t ch = Ok (t', old) ->
  exists a', holds M (Datatypes.S h) a' t' /\ a_replace_first_child me a ch = Ok (a', [EParent ch me 0; EOldChild old]).
Proof. exact C45_tree_replace_first_proof. Qed.
Print Assumptions C45_tree_replace_first.


Example C45_tree_replace_first_ex : holds 1 1 (encode 1 (node_view 1 20 t_leaf [(9, 11, t_leaf)])) t_inner /\
  replace_first_child t_inner Nil = Ok (Node 20 Nil [(9, 11, t_leaf)], t_leaf).
Proof. vm_compute. repeat split; lia. Qed.

Theorem C45_tree_positions : forall (I S : Type) (M h : nat) (a : raw I S unit (tree I S)) (t : tree I S),
  1 <= M <= 127 -> holds M h a t ->
  (forall k p t', set_single_key_pos t k p = Ok t' -> exists a', holds M h a' t' /\ a_set_single_key_pos a k p = Ok a') /\
  (forall total t', set_subtree_size t total = Ok t' -> holds M h (a_set_subtree_size a total) t') /\
  (forall f from t', set_key_poss_with t f from = Ok t' ->
     exists a', holds M h a' t' /\ a_set_key_poss_with a (fun x => match f x with Ok y => Some y | _ => None end) from = Ok (a', [])) /\
  (forall k s t', set_slice t k s = Ok t' ->
     exists a' old, holds M h a' t' /\ slice_at t k = Ok old /\ a_swap_slice a k s = Ok (a', [ETaken old])).
Proof. exact C45_tree_positions_proof. Qed.
Print Assumptions C45_tree_positions.


Example C45_tree_positions_ex : holds 1 1 (encode 1 (node_view 1 20 t_leaf [(9, 11, t_leaf)])) t_inner /\
  set_single_key_pos t_inner 0 5 = Ok (Node 20 t_leaf [(5, 11, t_leaf)]) /\
  set_subtree_size t_inner 25 = Ok (Node 25 t_leaf [(9, 11, t_leaf)]) /\
  set_key_poss_with t_inner (fun x => Ok (x + 3)) 0 = Ok (Node 23 t_leaf [(12, 11, t_leaf)]) /\
  set_slice t_inner 0 8 = Ok (Node 20 t_leaf [(9, 8, t_leaf)]).
Proof. vm_compute. repeat split; lia. Qed.

Theorem C45_tree_new_parent : forall (I S : Type) (X : index_ops I) (M h me : nat) (lhs rhs : tree I S) (s : S) (key_size : I) (t : tree I S),
  1 <= M <= 127 -> make_new_parent X lhs s key_size rhs = Ok t ->
  exists pos total a, tsize lhs = Ok pos /\ tsize t = Ok total /\ holds M (Datatypes.S h) a t /\
  a_make_new_parent M me pos total s tt lhs rhs = Ok (a, [EParent lhs me 0; EParent rhs me 1; EStore tt me 0]).
Proof. exact C45_tree_new_parent_proof. Qed.
Print Assumptions C45_tree_new_parent.


Example C45_tree_new_parent_ex : (make_new_parent (checked_ops 1000) (Node 9 Nil [(0, 10, Nil)]) 11 2 (Node 7 Nil [(0, 12, Nil)]) =
  Ok (Node 18 (Node 9 Nil [(0, 10, Nil)]) [(9, 11, Node 7 Nil [(0, 12, Nil)])]))%Z.
Proof. vm_compute. reflexivity. Qed.
