(** What goes wrong with an index type that is not commutative. *)
From Coq Require Import ZArith Bool List Lia.
From Verif Require Import Base Index Slice Tree Insert Iter Hist Samples Directional.
Import ListNotations.
Local Open Scope Z_scope.

Lemma heis_eq : forall a b c a' b' c' : Z, a = a' -> b = b' -> c = c' -> (a, b, c) = (a', b', c').
Proof. intros. subst. reflexivity. Qed.

Lemma hltb_spec : forall a b c a' b' c', hltb (a, b, c) (a', b', c') = true <-> a < a' \/ (a = a' /\ (b < b' \/ (b = b' /\ c < c'))).
Proof.
  intros. unfold hltb. rewrite !orb_true_iff, !andb_true_iff, !orb_true_iff, !andb_true_iff, !Z.ltb_lt, !Z.eqb_eq. tauto.
Qed.

Lemma heis_lawful : directional_laws hz hmul (fun x y => hmul y x) (fun x y => hmul x (hinv y)) (fun x y => hmul (hinv y) x) hltb.
Proof.
  constructor.
  1-13: intros; repeat match goal with x : heis |- _ => destruct x as [[? ?] ?] end; cbn [hmul hinv hz]; repeat split; apply heis_eq; ring.
  - intros [[a b] c]. apply not_true_is_false. rewrite hltb_spec. lia.
  - intros [[a b] c] [[a' b'] c'] [[a2 b2] c2]. rewrite !hltb_spec. lia.
  - intros [[a b] c] [[a' b'] c']. rewrite !hltb_spec. destruct (Z.lt_trichotomy a a') as [|[|]]; destruct (Z.lt_trichotomy b b') as [|[|]];
      destruct (Z.lt_trichotomy c c') as [|[|]]; try lia. right. right. subst. reflexivity.
  - intros [[a b] c] [[a' b'] c'] [[a2 b2] c2] H. cbn [hmul]. rewrite hltb_spec in *. rewrite hltb_spec.
    destruct H as [H|[-> [H|[-> H]]]]; split; lia.
Qed.

Lemma Z_lawful : directional_laws 0 Z.add (fun x y => y + x) Z.sub Z.sub Z.ltb.
Proof. constructor; intros; rewrite ?Z.ltb_lt in *; try lia. Qed.

(** Moving a key position [k] from behind [old] to behind [new] (comment at fix.rs 703-725): the formula for
    decreasing positions is right in every lawful index type; the one for increasing positions, marked
    "FIXME: prove this?", is right exactly in the commutative ones; with `sub_right` it would be right in all. *)
Lemma C18_shift_formulas_proof : forall I (zero : I) addr addl subr subl ltb, directional_laws zero addr addl subr subl ltb ->
  (forall k old new, subl k (subr old new) = addl (subl k old) new) /\
  (forall k old new, addl k (subr new old) = addl (subl k old) new) /\
  ((forall k old new, addl k (subl new old) = addl (subl k old) new) <-> (forall x y, addr x y = addr y x)).
Proof.
  intros I zero addr addl subr subl ltb L. pose proof (dl_comm _ _ _ _ _ _ L) as CM.
  assert (R : forall k old new, addl k (subr new old) = addl (subl k old) new).
  { intros k old new. rewrite <- !CM. rewrite <- (dl_inv4 _ _ _ _ _ _ L k old) at 1. rewrite <- CM, <- (dl_assoc _ _ _ _ _ _ L), (dl_inv3 _ _ _ _ _ _ L). reflexivity. }
  split; [intros; apply (dl_dist6 _ _ _ _ _ _ L)|]. split; [exact R|].
  assert (Z1 : forall x, addl zero x = x).
  { intros x. rewrite <- CM. apply (dl_zero _ _ _ _ _ _ L). }
  split.
  - intros H x y.
    assert (E : forall old new, subl new old = subr new old).
    { intros old new. rewrite <- (Z1 (subl new old)), <- (Z1 (subr new old)). rewrite H, R. reflexivity. }
    (* from y^-1 (x y) = x y y^-1 *)
    pose proof (E y (addr x y)) as Q. rewrite (dl_inv1 _ _ _ _ _ _ L) in Q.
    rewrite <- (dl_inv4 _ _ _ _ _ _ L (addr x y) y), Q, <- CM. reflexivity.
  - intros H k old new. rewrite <- R. f_equal.
    rewrite <- (dl_inv3 _ _ _ _ _ _ L new old) at 1. rewrite H, CM. apply (dl_inv2 _ _ _ _ _ _ L).
Qed.

(** An index type that satisfies the documented laws, and two inserts into an empty tree after which the size of
    the tree is not the sum of the sizes in order; and two other inserts after which `SliceEntry::size` of the
    second run is not the size it was inserted with. *)
Lemma C18_noncommutative_refuted_proof : exists (I : Type) (X : index_ops I) (addr addl subr subl : I -> I -> I) (a b : I),
  directional_laws (ix_zero X) addr addl subr subl (ix_ltb X) /\
  (forall x y, ix_add_right X x y = Ok (addr x y) /\ ix_add_left X x y = Ok (addl x y) /\
               ix_sub_right X x y = Ok (subr x y) /\ ix_sub_left X x y = Ok (subl x y)) /\
  ix_ltb X (ix_zero X) a = true /\ ix_ltb X (ix_zero X) b = true /\
  (exists r, run_ops X (constant_ops Nat.eqb) 2 true None [Build_op [] (ix_zero X) 1%nat a; Build_op [] a 2%nat b] = Ok r /\
    rle_size X r <> Ok (addr a b)) /\
  (exists r e, run_ops X (constant_ops Nat.eqb) 2 true None [Build_op [] (ix_zero X) 1%nat a; Build_op [] (ix_zero X) 2%nat b] = Ok r /\
    rle_size X r = Ok (addr b a) /\ get X r b = Ok e /\ snd e = 1%nat /\ entry_size X e <> Ok a).
Proof.
  exists heis, heis_ops. do 4 eexists. exists (1, 0, 0), (0, 1, 0). split; [exact heis_lawful|]. split; [intros; cbn; auto|].
  split; [reflexivity|]. split; [reflexivity|]. split.
  - eexists. split; [vm_compute; reflexivity|]. vm_compute. discriminate.
  - eexists. eexists. split; [vm_compute; reflexivity|]. split; [vm_compute; reflexivity|]. split; [vm_compute; reflexivity|].
    split; [reflexivity|]. vm_compute. discriminate.
Qed.
