(** References in trees with any index type. *)
From Coq Require Import List ZArith Bool Arith Permutation.
From Verif Require Import Base Index Slice Tree Insert Hist Wild WildCalls LTree LInsert LRef WildRef Samples WildR WildSamples WildRefSamples WildRefPropsP.
Import ListNotations.

(** Whatever the index and slice operations do, in every call anew: neither an insertion nor making a reference
    follows a dangling pointer or accesses a key or child that is not there.  Afterwards every reference belongs to one
    slice of the tree, each slice has at most one slot of the store, borrowing a reference gives that slice, and
    computing its range follows no dangling pointer.  The destructor frees every node once and drops every slice once. *)
Theorem C63_any_index_references_safe : forall (I V : Type) (M : nat) (nop : bool) (cs : list (@ref_call I V)),
  (forall c, In c cs -> index_any (ref_ops c)) -> 1 <= M ->
  run_refs M nop rt_new cs <> UB /\
  forall t, run_refs M nop rt_new cs = Ok t ->
    (forall r, In r (rt_refs t) -> exists j l s, ref_at t r j /\ nth_error (hp_store (rt_heap t)) r = Some (Some l) /\
       handle_value (rt_tree t) l = Ok s /\ nth_error (rle_slices (pt_rle (rt_tree t))) j = Some s /\
       forall X, index_any X -> handle_range X (rt_tree t) l <> UB) /\
    (forall r r' j j', ref_at t r j -> ref_at t r' j' -> (r = r' <-> j = j')) /\
    Permutation (drops (p_drop (rt_tree t))) (rle_slices (pt_rle (rt_tree t))) /\
    NoDup (frees (p_drop (rt_tree t))) /\
    (forall a, In a (frees (p_drop (rt_tree t))) <-> deref (rt_tree t) a <> UB).
Proof. exact C63_any_index_references_safe_proof. Qed.
Print Assumptions C63_any_index_references_safe.


(** Fifteen slices in nodes of one or two keys, and twelve references with nine slots.  The first still belongs to the
    slice that was inserted first; what its range would be depends on the operations. *)
Example C63_any_index_references_safe_ex : (forall c, In c moody_refs -> index_any (ref_ops c)) /\
  exists t, run_refs 1 false rt_new moody_refs = Ok t /\
    rle_slices (pt_rle (rt_tree t)) = [3; 2; 8; 12; 9; 11; 10; 9; 7; 2; 5; 6; 4; 2; 1] /\
    rt_refs t = [0; 1; 1; 2; 3; 1; 4; 5; 6; 7; 8; 1] /\
    hp_store (rt_heap t) = [Some (3, 0); Some (2, 0); Some (4, 0); Some (7, 0); Some (10, 0); Some (1, 0); Some (6, 0); Some (8, 1); Some (8, 0)] /\
    ref_at t 0 14 /\ handle_value (rt_tree t) (3, 0) = Ok 1 /\
    handle_range mad_ops (rt_tree t) (3, 0) = Ok ((-172)%Z, 175%Z) /\ handle_range (wrapping_ops 255) (rt_tree t) (3, 0) = Ok (18%Z, 31%Z) /\
    frees (p_drop (rt_tree t)) = [6; 2; 0; 1; 9; 8; 10; 7; 5; 4; 3] /\
    drops (p_drop (rt_tree t)) = [9; 6; 2; 3; 8; 12; 9; 2; 11; 10; 7; 5; 2; 4; 1].
Proof.
  split.
  - intros c H. apply in_flat_map in H. destruct H as (c' & H & [<-|[<-|[]]]); [|apply wrapping_any]. apply in_map_iff in H. destruct H as (i & <- & _).
    cbn [ref_ops ic_x]. unfold moody. destruct (i mod 3); [apply mad_any|apply wrapping_any].
  - eexists. do 4 (split; [vm_compute; reflexivity|]). split; [|repeat (split; [vm_compute; reflexivity|]); vm_compute; reflexivity].
    do 4 eexists. repeat (split; [vm_compute; reflexivity|]). vm_compute. reflexivity.
Qed.

(** After an insertion every reference belongs to the slice it belonged to: the slices behind the place [e] of the
    insertion, and their references, are [d] further, and the slices but those on either side of [e] are the same. *)
Theorem C63_any_index_references_follow : forall (I V : Type) (M : nat) (nop : bool) (cs : list (@ref_call I V)) (c : @ins_call I V) t t',
  (forall c, In c cs -> index_any (ref_ops c)) -> index_any (ic_x c) -> 1 <= M ->
  run_refs M nop rt_new cs = Ok t -> do_ref_call M nop t (RIns c) = Ok t' ->
  let old := rle_slices (pt_rle (rt_tree t)) in let new := rle_slices (pt_rle (rt_tree t')) in
  rt_refs t' = rt_refs t /\
  exists e d, e <= length old /\ d <= 2 /\ length new = length old + d /\
    (forall m, m + 1 < e -> nth_error new m = nth_error old m) /\
    (forall m, e < m -> nth_error new (m + d) = nth_error old m) /\
    (forall r j, ref_at t r j -> ref_at t' r (if j <? e then j else j + d)).
Proof. exact C63_any_index_references_follow_proof. Qed.
Print Assumptions C63_any_index_references_follow.


(** Another insertion, with the senseless operations, in front of slice number 4; the slot of slice number 14 moves
    with it. *)
Example C63_any_index_references_follow_ex : exists t t', run_refs 1 false rt_new moody_refs = Ok t /\
  do_ref_call 1 false t (RIns {| ic_x := mad_ops; ic_y := sc; ic_op := Build_op [] 21%Z 99 7%Z |}) = Ok t' /\
  rle_slices (pt_rle (rt_tree t')) = [3; 2; 8; 12; 99; 9; 11; 10; 9; 7; 2; 5; 6; 4; 2; 1] /\ ref_at t 0 14 /\ ref_at t' 0 15 /\ ref_at t 1 1 /\ ref_at t' 1 1.
Proof.
  eexists. eexists. do 3 (split; [vm_compute; reflexivity|]).
  repeat (split; [do 4 eexists; repeat (split; [vm_compute; reflexivity|]); vm_compute; reflexivity|]). do 4 eexists. repeat (split; [vm_compute; reflexivity|]). vm_compute. reflexivity.
Qed.

(** The reference of `get(..).make_ref()` belongs to the slice that `get` shows; the tree and the other references
    stay as they are. *)
Theorem C63_any_index_make_ref : forall (I V : Type) (M : nat) (nop : bool) (cs : list (@ref_call I V)) X hints idx t t',
  (forall c, In c cs -> index_any (ref_ops c)) -> index_any X -> 1 <= M ->
  run_refs M nop rt_new cs = Ok t -> do_ref_call M nop t (RRef X hints idx) = Ok t' ->
  pt_rle (rt_tree t') = pt_rle (rt_tree t) /\
  exists r a b s j, get_with_cursor X (pt_rle (rt_tree t)) hints idx = Ok (a, b, s) /\ rt_refs t' = rt_refs t ++ [r] /\
    ref_at t' r j /\ nth_error (rle_slices (pt_rle (rt_tree t))) j = Some s /\ (forall r0 j0, ref_at t r0 j0 -> ref_at t' r0 j0).
Proof. exact C63_any_index_make_ref_proof. Qed.
Print Assumptions C63_any_index_make_ref.


(** At index 9 is slice number 3, which had no slot yet. *)
Example C63_any_index_make_ref_ex : exists t t' a b, run_refs 1 false rt_new moody_refs = Ok t /\
  do_ref_call 1 false t (RRef (wrapping_ops 255) [] 9%Z) = Ok t' /\
  get_with_cursor (wrapping_ops 255) (pt_rle (rt_tree t)) [] 9%Z = Ok (a, b, 12) /\ ref_at t' 9 3 /\ rt_refs t' = rt_refs t ++ [9].
Proof.
  do 4 eexists. do 3 (split; [vm_compute; reflexivity|]). split; [|vm_compute; reflexivity].
  do 4 eexists. repeat (split; [vm_compute; reflexivity|]). vm_compute. reflexivity.
Qed.
