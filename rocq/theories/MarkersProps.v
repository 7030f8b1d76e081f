(** Properties of the threads that may use a slice. *)
From Coq Require Import List Arith Bool.
From Verif Require Import Base Markers MarkersPropsP.
Import ListNotations.

(** The bounds are enough, except that with AllowCow sharing a tree must also need `S: Send`. *)
Theorem C54_markers_sound_partial : forall c b l es w,
  (c = AllowCow -> i_sync b = true -> s_sync b = true -> s_send b = true) ->
  mrun c b mstart l = Some (es, w) ->
  (s_send b = false -> forall e, In e es -> a_excl e = true -> nth_error (m_home w) (a_slice e) = Some (a_thread e)) /\
  (s_sync b = false -> forall i t t', reaches w t i -> reaches w t' i -> t = t') /\
  (forall a es' w' e, mstep c b w a = Some (es', w') -> In e es' ->
     reaches w (a_thread e) (a_slice e) /\ (a_excl e = true -> forall t, reaches w t (a_slice e) -> t = a_thread e)).
Proof. exact C54_markers_sound_partial_proof. Qed.
Print Assumptions C54_markers_sound_partial.


(** A tree of slices that are `Send` and not `Sync` moves to another thread, which splits and drops a slice; a tree with
    shared nodes of slices that are both is lent, cloned by another thread and changed by both; references to a tree
    of slices that are neither outlive it. *)
Example C54_markers_sound_partial_ex :
  (exists w, mrun NoFeatures (mkB true true true false) mstart
     [ANew 0; AAdd 0 0; AView KIter 0 0; AViewOf KEntry 0 0; AReadView 0 1 0; AViewEnd 0 0; AViewEnd 0 1; AClone 0 0; ASend 0 1 0; AMut 1 0 0; AMut 0 1 1; ARelease 1 0 0; ADrop 1 0] =
     Some ([mkA 0 0 false; mkA 0 0 false; mkA 1 0 true; mkA 0 1 true; mkA 1 0 true], w)) /\
  (exists w, mrun AllowCow (mkB true true true true) mstart
     [ANew 0; AAdd 0 0; AView KRef 0 0; AViewSend 0 1 0; ACloneView 1 0; AViewEnd 1 0; ACopy 1 1 0; ARelease 0 0 0; AMut 1 1 1; ARelease 1 1 0; AReadView 1 0 1] = None /\
   mrun AllowCow (mkB true true true true) mstart
     [ANew 0; AAdd 0 0; AView KRef 0 0; AViewSend 0 1 0; ACloneView 1 0; AViewEnd 1 0; ACopy 1 1 0; ARelease 0 0 0; AMut 1 1 1; ARelease 1 1 0; ARead 1 1 1] =
     Some ([mkA 1 0 false; mkA 1 1 true; mkA 1 0 true; mkA 1 1 false], w)) /\
  (exists w, mrun AllowSliceRefs (mkB false false false false) mstart
     [ANew 0; AAdd 0 0; AView KEntry 0 0; AMakeRefView 0 0; AViewEnd 0 0; AMut 0 0 0; AReadRef 0 0 0; ADrop 0 0; ARefRelease 0 0 0; ARefDrop 0 0] =
     Some ([mkA 0 0 true; mkA 0 0 false; mkA 0 0 true], w)).
Proof. repeat split; eexists; vm_compute; repeat split; reflexivity. Qed.

(** With AllowCow the bounds of `Sync` let a slice that is not `Send` be dropped by another thread. *)
Theorem C54_cow_sync_refuted : exists b l es w e,
  tree_sync AllowCow b = true /\ s_send b = false /\ mrun AllowCow b mstart l = Some (es, w) /\
  In e es /\ a_excl e = true /\ nth_error (m_home w) (a_slice e) = Some 0 /\ a_thread e = 1.
Proof. exact C54_cow_sync_refuted_proof. Qed.
Print Assumptions C54_cow_sync_refuted.

(** The missing bound is exactly `S: Send`. *)
Theorem C54_missing_bound : forall c b,
  (forall l es w e, mrun c b mstart l = Some (es, w) -> s_send b = false -> In e es -> a_excl e = true ->
     nth_error (m_home w) (a_slice e) = Some (a_thread e)) <->
  (c = AllowCow -> i_sync b = true -> s_sync b = true -> s_send b = true).
Proof. exact C54_missing_bound_proof. Qed.
Print Assumptions C54_missing_bound.


(** Both sides hold of slices that are `Send`, and neither of slices that are not. *)
Example C54_missing_bound_ex :
  (AllowCow = AllowCow -> i_sync (mkB true true true true) = true -> s_sync (mkB true true true true) = true -> s_send (mkB true true true true) = true) /\
  (exists w, mrun AllowCow (mkB true true true true) mstart lend_and_drop = Some ([mkA 1 0 true], w)) /\
  ~ (AllowCow = AllowCow -> i_sync (mkB true true false true) = true -> s_sync (mkB true true false true) = true -> s_send (mkB true true false true) = true).
Proof. split; [reflexivity|]. split; [eexists; vm_compute; reflexivity|]. intros H. specialize (H eq_refl eq_refl eq_refl). discriminate. Qed.
