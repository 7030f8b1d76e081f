(** Proofs of the properties in WildRefProps.v. *)
From Coq Require Import List ZArith Bool Arith Lia Permutation.
From Verif Require Import Base Index Slice Tree Insert Hist Wild WildCalls WildQ LTree LInsert LTreeP LShape LRef LMemP WildRef WildRefP.
Import ListNotations.

Lemma nth_moved : forall {A} (R : list (option A)) e d j x, e <= length R -> nth_error R j = Some (Some x) ->
  nth_error (firstn e R ++ repeat None d ++ skipn e R) (if j <? e then j else j + d) = Some (Some x).
Proof.
  intros A R e d j x He H. assert (L : length (firstn e R) = e) by (rewrite firstn_length; lia). destruct (Nat.ltb_spec j e) as [Hj|Hj].
  - rewrite nth_error_app1 by lia. rewrite <- (firstn_skipn e R), nth_error_app1 in H by lia. exact H.
  - rewrite nth_error_app2 by lia. rewrite nth_error_app2 by (rewrite repeat_length; lia). rewrite repeat_length, L.
    rewrite <- (firstn_skipn e R), nth_error_app2 in H by lia. rewrite L in H. replace (j + d - e - d) with (j - e) by lia. exact H.
Qed.

(** Whatever the index and slice operations do, in every call anew: neither an insertion nor making a reference
    follows a dangling pointer or accesses a key or child that is not there.  Afterwards every reference belongs to one
    slice of the tree, each slice has at most one slot of the store, borrowing a reference gives that slice, and
    computing its range follows no dangling pointer.  The destructor frees every node once and drops every slice once. *)
Lemma C63_any_index_references_safe_proof : forall (I V : Type) (M : nat) (nop : bool) (cs : list (@ref_call I V)),
  (forall c, In c cs -> index_any (ref_ops c)) -> 1 <= M ->
  run_refs M nop rt_new cs <> UB /\
  forall t, run_refs M nop rt_new cs = Ok t ->
    (forall r, In r (rt_refs t) -> exists j l s, ref_at t r j /\ nth_error (hp_store (rt_heap t)) r = Some (Some l) /\
       handle_value (rt_tree t) l = Ok s /\ nth_error (rle_slices (pt_rle (rt_tree t))) j = Some s /\
       forall X, index_any X -> handle_range X (rt_tree t) l <> UB) /\
    (forall r r' j j', ref_at t r j -> ref_at t r' j' -> (r = r' <-> j = j')) /\
    Permutation (drops (p_drop (rt_tree t))) (rle_slices (pt_rle (rt_tree t))) /\
    NoDup (frees (p_drop (rt_tree t))) /\
    (forall a, In a (frees (p_drop (rt_tree t))) <-> deref (rt_tree t) a <> UB).
Proof.
  intros I V M nop cs HX HM. pose proof (rinv_run M HM nop cs rt_new HX (rinv_new M HM)) as R. split; [exact (post_nub _ _ R)|].
  intros t E. rewrite E in R. cbn [post] in R. destruct R as [P Q]. destruct (wild_drop M _ _ P) as (D1 & D2 & D3).
  split; [|split; [|split; [exact D1|split; [exact D2|]]]].
  - intros r Hr. rewrite Forall_forall in Q. pose proof (wi_all _ _ _ P _ (Q _ Hr)) as Hin. apply in_rids in Hin. apply In_nth_error in Hin. destruct Hin as [j Hj].
    destruct (ref_place M HM _ _ _ P Hj) as (A & l & s & B & C & D & F). exists j, l, s. auto.
  - intros r r' j j' Hr Hr'. apply (ref_at_inv M HM _ _ _ P) in Hr. apply (ref_at_inv M HM _ _ _ P) in Hr'. split; [intros <-|intros <-; congruence].
    pose proof (wi_rids _ _ _ P) as Hn. revert j j' Hr Hr' Hn. generalize (lrefs (pt_nodes (rt_tree t))). clear.
    induction l as [|o l IH]; intros [|j] [|j'] Hr Hr' Hn; try discriminate; cbn [nth_error] in *; auto.
    + exfalso. injection Hr as ->. change (rids (Some r :: l)) with (r :: rids l) in Hn. apply NoDup_cons_iff in Hn. apply (proj1 Hn), in_rids, nth_error_In with j', Hr'.
    + exfalso. injection Hr' as ->. change (rids (Some r :: l)) with (r :: rids l) in Hn. apply NoDup_cons_iff in Hn. apply (proj1 Hn), in_rids, nth_error_In with j, Hr.
    + f_equal. apply IH; auto. destruct o as [o|]; [change (rids (Some o :: l)) with (o :: rids l) in Hn; apply NoDup_cons_iff in Hn; tauto|exact Hn].
  - intros a. pose proof (wi_shape _ _ _ P) as Es. unfold deref.
    assert (F : In a (frees (p_drop (rt_tree t))) <-> In a (laddrs (pt_nodes (rt_tree t)))) by (split; intros H; [exact (Permutation_in _ D3 H)|exact (Permutation_in _ (Permutation_sym D3) H)]).
    rewrite F. destruct (pt_rle (rt_tree t)) as [r|]; cbn [rshape] in Es.
    + rewrite <- (cells_addrs _ _ (r_height r) Es). rewrite in_map_iff. split.
      * intros ([a' v] & <- & Hin). destruct (find _ _) eqn:Ef; [discriminate|]. exfalso. pose proof (find_none _ _ Ef _ Hin) as N. cbn in N. rewrite Nat.eqb_refl in N. discriminate.
      * intros H. destruct (find _ _) as [c|] eqn:Ef; [|congruence]. apply find_some in Ef. destruct Ef as [Hin Eq]. apply Nat.eqb_eq in Eq. exists c. auto.
    + symmetry in Es. destruct (pt_nodes (rt_tree t)); [|discriminate]. cbn. split; [intros []|congruence].
Qed.

(** After an insertion every reference belongs to the slice it belonged to: the slices behind the place [e] of the
    insertion, and their references, are [d] further, and the slices but those on either side of [e] are the same. *)
Lemma C63_any_index_references_follow_proof : forall (I V : Type) (M : nat) (nop : bool) (cs : list (@ref_call I V)) (c : @ins_call I V) t t',
  (forall c, In c cs -> index_any (ref_ops c)) -> index_any (ic_x c) -> 1 <= M ->
  run_refs M nop rt_new cs = Ok t -> do_ref_call M nop t (RIns c) = Ok t' ->
  let old := rle_slices (pt_rle (rt_tree t)) in let new := rle_slices (pt_rle (rt_tree t')) in
  rt_refs t' = rt_refs t /\
  exists e d, e <= length old /\ d <= 2 /\ length new = length old + d /\
    (forall m, m + 1 < e -> nth_error new m = nth_error old m) /\
    (forall m, e < m -> nth_error new (m + d) = nth_error old m) /\
    (forall r j, ref_at t r j -> ref_at t' r (if j <? e then j else j + d)).
Proof.
  intros I V M nop cs c t t' HC HX HM E Ec old new. pose proof (rinv_run M HM nop cs rt_new HC (rinv_new M HM)) as R. rewrite E in R. cbn [post] in R.
  pose proof (rinv_call M HM nop t (RIns c) HX R) as W. rewrite Ec in W. cbn [post] in W. destruct W as [R' [Hr (e & d & H1 & H2 & H3 & H4 & H5)]].
  split; [exact Hr|]. exists e, d. split; [exact H1|]. split; [exact H2|]. split; [exact H3|]. split; [intros m; apply H5|]. split; [intros m; apply H5|].
  intros r j Hj. destruct R as [P _]. destruct R' as [P' _]. apply (ref_at_inv M HM _ _ _ P) in Hj. apply (ref_place M HM _ _ _ P'). rewrite H4. apply nth_moved; [|exact Hj].
  rewrite (winv_len M HM _ _ P). exact H1.
Qed.

(** The reference of `get(..).make_ref()` belongs to the slice that `get` shows; the tree and the other references
    stay as they are. *)
Lemma C63_any_index_make_ref_proof : forall (I V : Type) (M : nat) (nop : bool) (cs : list (@ref_call I V)) X hints idx t t',
  (forall c, In c cs -> index_any (ref_ops c)) -> index_any X -> 1 <= M ->
  run_refs M nop rt_new cs = Ok t -> do_ref_call M nop t (RRef X hints idx) = Ok t' ->
  pt_rle (rt_tree t') = pt_rle (rt_tree t) /\
  exists r a b s j, get_with_cursor X (pt_rle (rt_tree t)) hints idx = Ok (a, b, s) /\ rt_refs t' = rt_refs t ++ [r] /\
    ref_at t' r j /\ nth_error (rle_slices (pt_rle (rt_tree t))) j = Some s /\ (forall r0 j0, ref_at t r0 j0 -> ref_at t' r0 j0).
Proof.
  intros I V M nop cs X hints idx t t' HC HX HM E Ec. pose proof (rinv_run M HM nop cs rt_new HC (rinv_new M HM)) as R. rewrite E in R. cbn [post] in R.
  pose proof (rinv_call M HM nop t (RRef X hints idx) HX R) as W. rewrite Ec in W. cbn [post] in W. destruct W as [R' (r & s & i & a & b & H1 & H2 & H3 & H4 & H5 & H6)].
  destruct R as [P _]. destruct R' as [P' _]. split; [exact H4|]. exists r, a, b, s, i. split; [exact H2|]. split; [exact H1|]. split; [apply (ref_place M HM _ _ _ P' H5)|]. split; [exact H3|].
  intros r0 j0 H0. apply (ref_at_inv M HM _ _ _ P) in H0. apply (ref_place M HM _ _ _ P'). auto.
Qed.
