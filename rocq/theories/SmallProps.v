(** Properties of RecycleVec, ranges, BoundedCursor and the gradual arrays. *)
From Coq Require Import List ZArith Bool Arith.
From Verif Require Import Base Index Range Bounded Gradual Recycle SmallSpec RecycleP SmallP.
Import ListNotations.

(** Every call of every history returns what the specification with never-reused cells says; nothing is
    read from a freed slot; two live ids share a slot exactly when they come from the same push. *)
Theorem C22_recycle_vec_refines : forall (T : Type) (CMAX : nat) (ops : list (@rop T)),
  match rspec_run CMAX ([], []) ops with
  | None => rv_run CMAX (rv_new, []) ops = None
  | Some (Ok (outs, (cells, shs))) => exists r hs, rv_run CMAX (rv_new, []) ops = Some (Ok (outs, (r, hs))) /\
      length hs = length shs /\
      forall h h' c c', var shs h = Some c -> var shs h' = Some c' ->
        exists id id', var hs h = Some id /\ var hs h' = Some id' /\ (id = id' <-> c = c')
  | Some (Panic w) => rv_run CMAX (rv_new, []) ops = Some (Panic w)
  | Some UB => False
  end.
Proof. exact C22_recycle_vec_refines_proof. Qed.
Print Assumptions C22_recycle_vec_refines.


(** A slot is reused after its last id is recycled, and the ids of the two pushes are kept apart. *)
Example C22_recycle_vec_refines_ex :
  exists r hs, rv_run 10 (rv_new, []) [RPush 7; RPush 8; RClone 0; RRecycle 0; RGet 2; RRecycle 2; RPush 9; RReplace 3 5; RGet 3; RGet 1]
    = Some (Ok ([OId; OId; OId; OTaken None; OVal 7; OTaken (Some 7); OId; OVal 9; OVal 5; OVal 8], (r, hs))) /\ length (rv_vals r) = 2.
Proof. eexists. eexists. vm_compute. split; reflexivity. Qed.

(** Freed slots are reused: the vector never has more entries than the most values alive at one time. *)
Theorem C22_recycle_vec_space : forall (T : Type) (CMAX : nat) (ops : list (@rop T)) outs r hs,
  rv_run CMAX (rv_new, []) ops = Some (Ok (outs, (r, hs))) ->
  length (rv_vals r) <= peak CMAX ([], []) ops.
Proof. exact C22_recycle_vec_space_proof. Qed.
Print Assumptions C22_recycle_vec_space.


Example C22_recycle_vec_space_ex :
  peak 10 ([], []) [RPush 7; RRecycle 0; RPush 8; RRecycle 1; RPush 9; RPush 6] = 2.
Proof. vm_compute. reflexivity. Qed.

(** What a `BoundedCursor` really yields: the last LEN components of the sequence with one extra component
    0xFF after the first LEN-1 ones. *)
Theorem C31_bounded_cursor_exact : forall (len : nat) (cs : list nat), 1 <= len <= 255 ->
  bc_path_after len cs = Ok (last_components len (firstn (len - 1) cs ++ absent :: skipn (len - 1) cs)).
Proof. exact C31_bounded_cursor_exact_proof. Qed.
Print Assumptions C31_bounded_cursor_exact.


Example C31_bounded_cursor_exact_ex :
  bc_path_after 4 [1; 2] = Ok [absent; 2; 1] /\ bc_path_after 4 [1; 2; 3; 5; 7] = Ok [7; 5; absent; 3].
Proof. vm_compute. auto. Qed.

(** A path long enough to push the extra component out again is exact. *)
Theorem C31_bounded_cursor_partial : forall (len : nat) (cs : list nat), len <= 255 -> 2 * len <= length cs + 1 ->
  bc_path_after len cs = Ok (last_components len cs).
Proof. exact C31_bounded_cursor_partial_proof. Qed.
Print Assumptions C31_bounded_cursor_partial.


Example C31_bounded_cursor_partial_ex : bc_path_after 4 [1; 2; 3; 5; 7; 8; 9] = Ok [9; 8; 7; 5].
Proof. vm_compute. auto. Qed.

(** For short paths, which are all paths in practice, the first component yielded is the filler. *)
Theorem C31_bounded_cursor_refuted : exists (len : nat) (cs : list nat), len <= 255 /\
  bc_path_after len cs = Ok (absent :: rev cs) /\ bc_path_after len cs <> Ok (last_components len cs).
Proof. exact C31_bounded_cursor_refuted_proof. Qed.
Print Assumptions C31_bounded_cursor_refuted.


(** Every element is passed to the mapping function or dropped, and every mapped value is returned or
    dropped, exactly once and in order; no slot is read or dropped while empty. *)
Theorem C33_map_array_accounts : forall (E F : Type) (f : nat -> E -> option F) (xs : list E),
  exists o log, map_array_with_index f xs = Ok (o, log) /\ map fst log = seq 0 (length log) /\
    match o with
    | Mapped out => map snd log = xs /\ map Some out = map (fun p => f (fst p) (snd p)) log
    | Unwound dropped_new dropped_old => map snd log ++ dropped_old = xs /\
        exists done last, log = done ++ [last] /\ f (fst last) (snd last) = None /\
          map Some dropped_new = map (fun p => f (fst p) (snd p)) done
    end.
Proof. exact C33_map_array_accounts_proof. Qed.
Print Assumptions C33_map_array_accounts.


Example C33_map_array_accounts_ex :
  map_array_with_index (fun i x => if i =? 2 then None else Some (x * 10)) [4; 5; 6; 7; 8] = Ok (Unwound [40; 50] [7; 8], [(0, 4); (1, 5); (2, 6)]) /\
  map_array_with_index (fun i x => Some (x + i)) [4; 5; 6] = Ok (Mapped [4; 6; 8], [(0, 4); (1, 5); (2, 6)]).
Proof. vm_compute. auto. Qed.

(** `contains` is membership. *)
Theorem C30_contains : forall (I : Type) (X : index_ops I) (r : sbound I * ebound I) (i : I), total_order X ->
  (contains X r i = true <-> above (fun a b => ix_ltb X a b = true) (fst r) i /\ below (fun a b => ix_ltb X a b = true) (snd r) i).
Proof. exact C30_contains_proof. Qed.
Print Assumptions C30_contains.


Lemma Z_order : total_order (checked_ops 1000).
Proof.
  split; cbn [checked_ops ix_ltb].
  - intros. apply Z.ltb_irrefl.
  - intros a b c Ha Hb. apply Z.ltb_lt in Ha, Hb. apply Z.ltb_lt. eapply Z.lt_trans; eauto.
  - intros a b. destruct (Z.lt_trichotomy a b) as [L|[L|L]]; auto; [left|right; right]; apply Z.ltb_lt; auto.
Qed.
Example C30_contains_ex : total_order (checked_ops 1000) /\ contains (checked_ops 1000) (SIncl 3, EExcl 5)%Z 4%Z = true /\ contains (checked_ops 1000) (SIncl 3, EExcl 5)%Z 5%Z = false.
Proof. split; [exact Z_order|]. vm_compute. auto. Qed.

(** `is_empty_naive`, and with it `starts_after_end`, tells exactly whether anything is contained, for all
    ranges except `..b` with an excluded bound. *)
Theorem C30_is_empty : forall (I : Type) (X : index_ops I) (s : sbound I) (e : ebound I), total_order X -> inhabited I ->
  (forall b, (s, e) <> (SUnb, EExcl b)) ->
  starts_after_end X (s, e) = is_empty_naive X (s, e) /\
  (is_empty_naive X (s, e) = true <-> forall i, contains X (s, e) i = false).
Proof. exact C30_is_empty_proof. Qed.
Print Assumptions C30_is_empty.


Example C30_is_empty_ex : is_empty_naive (checked_ops 1000) (SIncl 5, EExcl 5)%Z = true /\ is_empty_naive (checked_ops 1000) (SIncl 5, EIncl 5)%Z = false.
Proof. vm_compute. auto. Qed.

(** `overlaps_naive` tells exactly whether there is a common element, unless both ranges are unbounded at
    the start (a shared unbounded end does no harm). *)
Theorem C30_overlaps : forall (I : Type) (X : index_ops I) (r o : sbound I * ebound I), total_order X ->
  ~ (fst r = SUnb /\ fst o = SUnb) ->
  (overlaps_naive X r o = true <-> exists i, contains X r i = true /\ contains X o i = true).
Proof. exact C30_overlaps_proof. Qed.
Print Assumptions C30_overlaps.


Example C30_overlaps_ex :
  overlaps_naive (checked_ops 1000) (SUnb, EExcl 5)%Z (SIncl 5, EUnb)%Z = false /\
  overlaps_naive (checked_ops 1000) (SIncl 3, EUnb)%Z (SIncl 9, EUnb)%Z = true.
Proof. vm_compute. auto. Qed.

(** The exceptions: below an excluded bound there may be nothing, which the predicates cannot see. *)
Theorem C30_unbounded_start : forall (I : Type) (X : index_ops I) (r : sbound I * ebound I) (e : ebound I) (b : I), total_order X ->
  is_empty_naive X (SUnb, e) = false /\
  ((forall i, ix_ltb X i b = false) -> (forall i, contains X (SUnb, EExcl b) i = false) /\ overlaps_naive X (SUnb, EExcl b) (SUnb, e) = true).
Proof. exact C30_unbounded_start_proof. Qed.
Print Assumptions C30_unbounded_start.


(** With natural numbers as the order (the unsigned types), nothing lies below zero. *)
Definition nat_ops : index_ops nat :=
  {| ix_zero := 0; ix_add_left := fun a b => Ok (b + a); ix_add_right := fun a b => Ok (a + b);
     ix_sub_left := fun a b => Ok (a - b); ix_sub_right := fun a b => Ok (a - b); ix_ltb := Nat.ltb; ix_eqb := Nat.eqb;
     ix_search := std_search Nat.ltb Nat.eqb; ix_debug := true |}.
Example C30_unbounded_start_ex : (forall i, ix_ltb nat_ops i 0 = false) /\ is_empty_naive nat_ops (SUnb, EExcl 0) = false.
Proof. split; [intros []; reflexivity|reflexivity]. Qed.
