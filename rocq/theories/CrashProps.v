(** Properties of a tree after a panic of the slice type. *)
From Coq Require Import List ZArith Lia Bool Arith.
From Verif Require Import Base Index Slice Tree Insert Range Spec Iter IterQ Hist Validate Crash CrashSpec Samples CrashPropsP.
Import ListNotations.
Local Open Scope Z_scope.

(** Exactly what is left of a tree when the slice type panics in an insertion, and that nothing else panics: without a
    panic of the slice type, the insertion is the one of the other theorems. *)
Theorem C44_panic_state_partial : forall (I V : Type) (X : index_ops I) (Y : slice_ops I V) (F : fslice_ops I V) (MAX : Z)
    (inj : Z -> I) (M : nat) (nop : bool) (r : @rle I V) (l : list (V * Z)) (hints : list nat) (idx : Z) (x : V) (n : Z),
  index_laws X MAX inj -> (1 <= M)%nat -> reaches MAX inj X Y M nop r l -> 0 <= idx <= rsum l -> 0 < n -> rsum l + n <= MAX ->
  let call := finsert_with_cursor X F M nop r hints (inj idx) x (inj n) in
  match lost F inj l idx x with
  | None => call = let* (r', cur) := insert_with_cursor X (unfailing F) M nop r hints (inj idx) x (inj n) in Ok (FReturned r' cur)
  | Some (l', todo) => exists r', call = Ok (FPanicked r') /\
      walk X r' (S (length l)) = Ok (map (inj_item inj) (spans 0 l')) /\
      rle_size X (Some r') = Ok (inj (rsum l)) /\ r_len r' = (length l - (if todo then 1 else 0))%nat /\
      shape M 1 (r_height r') (r_node r') = true
  end.
Proof. exact C44_panic_state_partial_proof. Qed.
Print Assumptions C44_panic_state_partial.


(** A tree of seven runs of intervals, and a type whose `try_join` panics when the left one starts at 50.  Inserting the interval from 50
    to 52 at 8, inside a run, leaves the cut-off left part in the place of the whole run; at the front it leaves a hole; and an interval
    that starts elsewhere is inserted as usual. *)
Example C44_panic_state_partial_ex : reaches 1000 sid sx interval_ops 1 false i_tree i_runs /\ length i_runs = 7%nat /\
  lost fifty sid i_runs 8 (50, 52) = Some (firstn 3 (map keep i_runs) ++ (Some (2, 5), 8) :: skipn 4 (map keep i_runs), false) /\
  lost fifty sid i_runs 0 (50, 52) = Some ((None, 2) :: skipn 1 (map keep i_runs), false) /\
  lost fifty sid i_runs 8 (51, 52) = None /\
  match finsert_with_cursor sx fifty 1 false i_tree [] 8 (50, 52) 2, finsert_with_cursor sx fifty 1 false i_tree [] 8 (51, 52) 1 with
  | Ok (FPanicked r), Ok (FReturned r' _) => r_len r = 7%nat /\ rle_len r' = 9%nat
  | _, _ => False
  end.
Proof. split; [exact i_reaches|]. vm_compute. repeat split. Qed.

(** The damage is local: all runs keep their places, and at most the two runs that touch the index change. *)
Theorem C44_panic_is_local : forall (I V : Type) (X : index_ops I) (Y : slice_ops I V) (F : fslice_ops I V) (MAX : Z)
    (inj : Z -> I) (M : nat) (nop : bool) (r : @rle I V) (l : list (V * Z)) (hints : list nat) (idx : Z) (x : V) (n : Z) r',
  index_laws X MAX inj -> (1 <= M)%nat -> reaches MAX inj X Y M nop r l -> 0 <= idx <= rsum l -> 0 < n -> rsum l + n <= MAX ->
  finsert_with_cursor X F M nop r hints (inj idx) x (inj n) = Ok (FPanicked r') ->
  exists A T T' B, l = A ++ T ++ B /\
    walk X r' (S (length l)) = Ok (map (inj_item inj) (spans 0 (map keep A ++ T' ++ map keep B))) /\
    map snd T' = map snd T /\ (1 <= length T <= 2)%nat /\ rsum A <= idx <= rsum A + rsum T /\
    (r_len r' <= length l <= r_len r' + 1)%nat.
Proof. exact C44_panic_is_local_proof. Qed.
Print Assumptions C44_panic_is_local.


(** The panic at the front of the tree: the other runs are untouched. *)
Example C44_panic_is_local_ex : reaches 1000 sid sx interval_ops 1 false i_tree i_runs /\
  match finsert_with_cursor sx fifty 1 false i_tree [] 0 (50, 52) 2 with
  | Ok (FPanicked r) => r_len r = 7%nat /\ walk sx r 8 = Ok (spans 0 ((None, 2) :: skipn 1 (map keep i_runs)))
  | _ => False
  end.
Proof. split; [exact i_reaches|]. vm_compute. repeat split. Qed.

(** The property itself fails.  First, when the second `try_join` for the parts of a cut run panics, the left part stays with the length
    of the whole run: a slice that does not fit its range.  Second, when the new slice joins both neighbours, the count of slices is one
    too small and a slice is missing. *)
Theorem C44_panic_state_refuted :
  (exists (F : fslice_ops Z (Z * Z)) (r : @rle Z (Z * Z)) l idx x n r' a b s,
    reaches 1000 sid sx (unfailing F) 1 false r l /\ Forall (fun e => interval_fits (fst e) (snd e)) l /\
    denotes (unfailing F) sid interval_den interval_fits /\
    finsert_with_cursor sx F 1 false r [] idx x n = Ok (FPanicked r') /\
    exists is, walk sx r' (S (length l)) = Ok is /\ In (a, b, Some s) is /\ ~ interval_fits s (b - a)) /\
  (exists (F : fslice_ops Z (Z * Z)) (r : @rle Z (Z * Z)) l idx x n r',
    reaches 1000 sid sx (unfailing F) 1 false r l /\
    finsert_with_cursor sx F 1 false r [] idx x n = Ok (FPanicked r') /\
    (forall a b, fs_try_join F a b <> None) /\ (forall s q, fs_split_at F s q <> None) /\
    exists is, walk sx r' (S (length l)) = Ok is /\ length is = S (r_len r')).
Proof. exact C44_panic_state_refuted_proof. Qed.
Print Assumptions C44_panic_state_refuted.
