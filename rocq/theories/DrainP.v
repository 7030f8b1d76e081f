(** Proofs about the destructive iterator. *)
From Coq Require Import List ZArith Lia Bool.
From Verif Require Import Base Index Slice Tree Insert Range Spec Rep Iter Hist HistP IterQ Samples Drain.
Import ListNotations.
Local Open Scope Z_scope.

(** What dropping the iterator leaves: an empty tree, whatever the range; so positions outside the
    range survive only if there are none.  Asking for an item panics, always. *)
Lemma C32_drain_partial_proof : forall (I V : Type) (X : index_ops I) (Y : slice_ops I V) (MAX : Z) (inj : Z -> I)
    (M : nat) (nop : bool) (r : @rle I V) (l : list (V * Z)) (a b : Z) (hints : list nat) (calls : list bool),
  index_laws X MAX inj -> (1 <= M)%nat -> reaches MAX inj X Y M nop r l -> 0 <= a <= b -> b <= rsum l ->
  let d := drain_new r (inj a, inj b) hints in
  (drain_calls d calls = match calls with [] => Ok ([], d) | _ => Panic PTodo end) /\
  iter_collect X (fst (drain_drop d)) [] SUnb EUnb = Ok [] /\
  rle_size X (fst (drain_drop d)) = Ok (inj 0) /\
  (rle_size X (fst (drain_drop d)) = Ok (inj (rsum l - (b - a))) <-> a = 0 /\ b = rsum l) /\
  (exists es, iter_collect X (snd (drain_drop d)) [] SUnb EUnb = Ok es /\ length es = length l).
Proof.
  intros I V X Y MAX inj M nop r l a b hints calls L HM Hr Hab Hb d.
  destruct (reaches_rep X Y MAX inj M L HM _ _ _ Hr) as [R Hl].
  assert (Hinj : forall x y, 0 <= x <= MAX -> 0 <= y <= MAX -> inj x = inj y -> x = y).
  { intros x y Hx Hy E. pose proof (il_eqb _ _ _ L x y Hx Hy) as H. rewrite E, (il_eqb _ _ _ L y y Hy Hy), Z.eqb_refl in H. symmetry in H. apply Z.eqb_eq. auto. }
  split; [destruct calls as [|c calls]; reflexivity|]. split.
  - pose proof (iter_all_ok X MAX inj M L HM (None : @rle I V) ([] : list (V * Z)) [] eq_refl) as E. cbn [rsum] in E. apply E; lia.
  - cbn [d drain_drop drain_new dr_tree dr_root fst snd rle_size]. rewrite (il_zero _ _ _ L). split; auto. split.
    + split; [|intros [-> ->]; f_equal; f_equal; lia]. intros E. inversion E as [E']. apply Hinj in E'; lia.
    + rewrite (iter_all_ok X MAX inj M L HM r l [] R ltac:(lia)). eexists. split; [reflexivity|].
      rewrite map_length. clear. assert (G : forall off (l : list (V * Z)), length (spans off l) = length l).
      { intros off l0. revert off. induction l0 as [|[s z] l0 IH]; intros off; cbn [spans length]; auto. }
      apply G.
Qed.

(** The property itself fails: draining one position of a tree of 35 leaves nothing, and the drained
    run cannot be obtained. *)
Lemma C32_drain_refuted_proof : exists (r : @rle Z nat) (l : list (nat * Z)) (a b : Z),
  reaches 1000 sid sx sc 1 false r l /\ 0 <= a < b /\ b <= rsum l /\
  rle_size sx r = Ok (rsum l) /\
  rle_size sx (fst (drain_drop (drain_new r (a, b) []))) <> Ok (rsum l - (b - a)) /\
  drain_next (drain_new r (a, b) []) false = Panic PTodo.
Proof.
  exists s_tree, s_runs, 3, 4. split; [exact s_reaches|]. vm_compute. repeat split; congruence.
Qed.
