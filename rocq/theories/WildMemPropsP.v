(** Proofs of the properties in WildMemProps.v. *)
From Coq Require Import List ZArith Bool Arith Lia Permutation.
From Verif Require Import Base Index Slice Tree Insert Hist Order Wild WildCalls WildQ LTree LInsert LTreeP LShape LLenP LRef LMemP LMemHistP OrderP WildRefP WildMem WildMemP WildR LUpP.
Import ListNotations.

(** Whatever the index operations do, in every call anew: trees that are made, cloned, inserted into and dropped in any
    order follow no dangling pointer.  Every node that was ever allocated either has been freed, once, or belongs to one
    tree that is still there. *)
Lemma C64_any_index_trees_safe_proof : forall (I V : Type) (M : nat) (nop : bool) (cs : list (@mem_op I V)),
  Forall any_op cs -> 1 <= M ->
  run_mem M nop mem_new cs <> UB /\
  forall m, run_mem M nop mem_new cs = Ok m ->
    NoDup (m_freed m) /\
    (forall a, a < m_next m <-> In a (m_freed m) \/ exists j t, tree_is m j t /\ has_node t a) /\
    (forall a j t, tree_is m j t -> has_node t a -> ~ In a (m_freed m)) /\
    (forall a j t j' t', tree_is m j t -> has_node t a -> tree_is m j' t' -> has_node t' a -> j = j').
Proof.
  intros I V M nop cs HX HM. pose proof (wm_run M HM nop cs mem_new HX (wm_new M)) as R. split; [exact (post_nub _ _ R)|].
  intros m E. rewrite E in R. cbn [post] in R. pose proof (wm_nodup M _ R) as Hn. apply nodup_app_iff in Hn. destruct Hn as (_ & N1 & N2). pose proof R as [_ Hm].
  split; [exact N1|]. split; [|split].
  - intros a. split.
    + intros Ha. assert (Hin : In a (live m ++ m_freed m)) by (apply (Permutation_in _ (Permutation_sym Hm)); apply in_seq; lia).
      apply in_app_or in Hin. destruct Hin as [Hin|Hin]; [|left; exact Hin]. right. apply in_flat_map in Hin. destruct Hin as ([t|] & Ht & Hin); [|destruct Hin].
      apply In_nth_error in Ht. destruct Ht as [j Ht]. exists j, t. split; [exact Ht|]. apply (has_addr M _ _ _ (wm_at M _ _ _ R Ht)). exact Hin.
    + intros H. assert (Hin : In a (seq 0 (m_next m))); [|apply in_seq in Hin; lia]. apply (Permutation_in _ Hm). apply in_or_app.
      destruct H as [H|(j & t & Ht & H)]; [right; exact H|left]. apply (has_addr M _ _ _ (wm_at M _ _ _ R Ht)) in H. exact (in_live _ _ _ _ Ht H).
  - intros a j t Ht H. apply (has_addr M _ _ _ (wm_at M _ _ _ R Ht)) in H. apply N2. exact (in_live _ _ _ _ Ht H).
  - intros a j t j' t' Ht H Ht' H'. apply (has_addr M _ _ _ (wm_at M _ _ _ R Ht)) in H. apply (has_addr M _ _ _ (wm_at M _ _ _ R Ht')) in H'.
    exact (wm_apart M _ _ _ _ _ _ R Ht Ht' H H').
Qed.

(** A call leaves every other tree as it is and writes to none of its nodes.  A clone has the slices of the original,
    an insertion frees nothing, and dropping a tree frees exactly its nodes and drops exactly its slices, each once. *)
Lemma C64_any_index_trees_apart_proof : forall (I V : Type) (M : nat) (nop : bool) (cs : list (@mem_op I V)) (c : @mem_op I V) m m',
  Forall any_op cs -> any_op c -> 1 <= M ->
  run_mem M nop mem_new cs = Ok m -> do_mem_op M nop m c = Ok m' ->
  (forall j t, changed c <> Some j -> tree_is m j t -> tree_is m' j t /\ forall a, has_node t a -> ~ In a (m_writes m')) /\
  (forall j, c = AClone j -> forall t, tree_is m j t -> exists t', tree_is m' (length (m_trees m)) t' /\ rle_slices (pt_rle t') = rle_slices (pt_rle t)) /\
  (forall j, c = ADrop j -> forall t, tree_is m j t -> nth_error (m_trees m') j = Some None /\
     exists f d, m_freed m' = m_freed m ++ f /\ m_dropped m' = m_dropped m ++ d /\ NoDup f /\ (forall a, In a f <-> has_node t a) /\ Permutation d (rle_slices (pt_rle t))) /\
  ((forall j, c <> ADrop j) -> m_freed m' = m_freed m /\ m_dropped m' = m_dropped m).
Proof.
  intros I V M nop cs c m m' HX Hc HM E Ec. pose proof (wm_run M HM nop cs mem_new HX (wm_new M)) as R. rewrite E in R. cbn [post] in R.
  pose proof (wm_call M HM nop m c Hc R) as W. rewrite Ec in W. cbn [post] in W. destruct W as [R' [Ha Hb]].
  split; [|split; [|split]].
  - intros j t Hj Ht. destruct (Ha j t Hj Ht) as [H1 H2]. split; [exact H1|]. intros a H. apply H2. apply (has_addr M _ _ _ (wm_at M _ _ _ R Ht)). exact H.
  - intros j -> t Ht. destruct Hb as [Hb _]. destruct (Hb t Ht) as (t' & H1 & H2). exists t'. split; [exact H1|]. rewrite H2. reflexivity.
  - intros j -> t Ht. destruct (Hb t Ht) as (H0 & f & d & H1 & H2 & H3 & H4). split; [exact H0|]. exists f, d. split; [exact H1|]. split; [exact H2|].
    split; [apply (Permutation_NoDup (Permutation_sym H3)); exact (wi_nodup _ _ _ (wm_at M _ _ _ R Ht))|]. split; [|exact H4].
    intros a. rewrite (has_addr M _ _ a (wm_at M _ _ _ R Ht)). split; intros H; [exact (Permutation_in _ H3 H)|exact (Permutation_in _ (Permutation_sym H3) H)].
  - intros H. destruct c as [|j c|j|j]; try (destruct Hb as (_ & A & B); split; assumption). destruct (H j eq_refl).
Qed.

(** In every tree, also one that was made by `clone`, following the stored pointers from a key up to the root gives the
    path of that key; borrowing it gives its slice, and computing its range follows no dangling pointer. *)
Lemma C64_any_index_trees_climb_proof : forall (I V : Type) (M : nat) (nop : bool) (cs : list (@mem_op I V)) m j t root i p k,
  Forall any_op cs -> 1 <= M -> run_mem M nop mem_new cs = Ok m -> tree_is m j t ->
  pt_rle t = Some root -> nth_error (handles (r_node root) []) i = Some (p, k) ->
  exists a s, handle_cursor false t (a, k) = Ok p /\ handle_value t (a, k) = Ok s /\ nth_error (rle_slices (pt_rle t)) i = Some s /\
    forall X, index_any X -> handle_range X t (a, k) <> UB.
Proof.
  intros I V M nop cs m j t root i p k HX HM E Ht Er Hi. pose proof (wm_run M HM nop cs mem_new HX (wm_new M)) as R. rewrite E in R. cbn [post] in R.
  pose proof (wm_at M _ _ _ R Ht) as P.
  assert (L : i < length (linord (pt_nodes t))).
  { pose proof (winv_len M HM _ _ P) as L. unfold lrefs in L. rewrite map_length in L. rewrite L, Er. cbn [rle_slices]. rewrite slices_count, <- (handles_length (r_node root) []). apply nth_error_Some. congruence. }
  destruct (nth_error (linord (pt_nodes t)) i) as [[ol o]|] eqn:El; [|apply nth_error_None in El; lia].
  destruct ol as [[a k']|]; [|exfalso; exact (linord_some _ _ _ _ El eq_refl)].
  destruct (wild_place M HM _ _ _ _ _ _ P El) as (r' & h & n & ln & s & p' & Er' & _ & _ & Hv & Hs & Hc & Hh & Hx).
  rewrite Er in Er'. injection Er' as <-. rewrite Hi in Hh. injection Hh as <- <-. exists a, s. auto.
Qed.
