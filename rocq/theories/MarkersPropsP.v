(** Proofs of the properties of the threads that may use a slice. *)
From Coq Require Import List Arith Bool Lia.
From Verif Require Import Base Markers MarkersP.
Import ListNotations.

(** Every access is made by a thread that reaches the slice, and an exclusive one by a thread that is alone with it; if
    `S` is not `Send`, by the thread that made the slice. *)
Lemma step_access : forall c b w a es w' e, minv c b w -> mstep c b w a = Some (es, w') -> In e es ->
  reaches w (a_thread e) (a_slice e) /\
  (a_excl e = true -> (forall t, reaches w t (a_slice e) -> t = a_thread e) /\ (s_send b = false -> home w (a_slice e) (a_thread e))).
Proof.
  intros c b w a es w' e I H E.
  assert (RO : forall j x i t, nth_error (m_trees w) j = Some x -> In i (t_slices x) -> t_owner x = Some t -> reaches w t i).
  { intros j x i t A B C. exists j, x. auto. }
  assert (SH : forall t i, In e [mkA t i false] -> reaches w t i -> reaches w (a_thread e) (a_slice e) /\
    (a_excl e = true -> (forall t, reaches w t (a_slice e) -> t = a_thread e) /\ (s_send b = false -> home w (a_slice e) (a_thread e)))).
  { intros t i [<-|[]] R. split; [exact R|]. cbn. discriminate. }
  assert (EX : forall t j x i, nth_error (m_trees w) j = Some x -> In i (t_slices x) -> viewed w j = false -> holders w i = 1 ->
     (t_owner x = Some t \/ (t_owner x = None /\ exists r, ref_of w r = Some (t, j))) -> In e [mkA t i true] ->
     reaches w (a_thread e) (a_slice e) /\
     (a_excl e = true -> (forall t, reaches w t (a_slice e) -> t = a_thread e) /\ (s_send b = false -> home w (a_slice e) (a_thread e)))).
  { intros t j x i N M V O T [<-|[]]. cbn [a_thread a_slice a_excl]. split; [|intros _; split].
    - exists j, x. split; [exact N|]. split; [exact M|]. destruct T as [T|[_ T]]; auto.
    - intros t' (j' & x' & N' & M' & R). assert (j' = j) as -> by (eapply holders_one; eauto; [exists x'; auto|exists x; auto]).
      assert (x' = x) as -> by congruence. destruct R as [R|[(v & k & R)|(r & R)]].
      + destruct T as [T|[T _]]; congruence.
      + exfalso. eapply viewed_false; eauto.
      + destruct T as [T|(T & r' & T')]; [|eapply i_ref2; eauto]. destruct (i_ref _ _ _ I _ _ _ R) as (_ & o & (y & Q1 & Q2) & Q3). symmetry. apply Q3. congruence.
    - intros S. destruct T as [T|(T & r' & T')].
      + eapply (i_home _ _ _ I S j); exists x; auto.
      + eapply (i_homer _ _ _ I S r' j); eauto. exists x. auto. }
  destruct a; cbn [mstep] in H.
  - injection H as <- <-. destruct E.
  - destruct (owned_mut w t j) as [x|] eqn:O; [|discriminate]. injection H as <- <-. destruct E.
  - destruct (owned_mut w t j) as [x|] eqn:O; [|discriminate]. destruct (owned_mut_spec _ _ _ _ O) as (N & T & V).
    destruct (_ && _) eqn:Q; [|discriminate]. apply andb_prop in Q. destruct Q as [_ Q]. apply holds_in in Q. injection H as <- <-. eapply SH; eauto.
  - destruct (owned_mut w t j) as [x|] eqn:O; [|discriminate]. destruct (owned_mut_spec _ _ _ _ O) as (N & T & V).
    destruct (_ && _) eqn:Q; [|discriminate]. apply andb_prop in Q. destruct Q as [Q Q']. apply holds_in in Q. apply Nat.eqb_eq in Q'. injection H as <- <-. eapply EX; eauto.
  - destruct (owned_mut w t j) as [x|] eqn:O; [|discriminate]. destruct (owned_mut_spec _ _ _ _ O) as (N & T & V).
    destruct (holds i x) eqn:Q; [|discriminate]. apply holds_in in Q. unfold give_up in H. injection H as <- <-.
    destruct (holders w i =? 1) eqn:Q'; [|destruct E]. apply Nat.eqb_eq in Q'. eapply EX; eauto.
  - destruct (owned_mut w t j) as [x|] eqn:O; [|discriminate]. injection H as <- <-. destruct E.
  - destruct (owned w t j) as [x|] eqn:O; [|discriminate]. destruct (owned_spec _ _ _ _ O) as [N T]. unfold clone_tree in H.
    destruct c; try discriminate; injection H as <- <-; [|destruct E]. apply in_map_iff in E. destruct E as (i & <- & M). eapply (SH t i); [left; reflexivity|eauto].
  - destruct (view_of w v) as [[[k t'] j]|] eqn:O; [|discriminate]. destruct k; try discriminate. destruct (t' =? t) eqn:Q; [|discriminate].
    apply Nat.eqb_eq in Q. subst t'. destruct (nth_error (m_trees w) j) as [x|] eqn:N; [|discriminate]. unfold clone_tree in H.
    destruct c; try discriminate; injection H as <- <-; [|destruct E]. apply in_map_iff in E. destruct E as (i & <- & M). eapply (SH t i); [left; reflexivity|].
    exists j, x. split; [exact N|]. split; [exact M|]. right. left. eauto.
  - destruct (owned w t j) as [x|] eqn:O; [|discriminate]. destruct (owned_spec _ _ _ _ O) as [N T]. destruct (holds i x) eqn:Q; [|discriminate].
    apply holds_in in Q. injection H as <- <-. eapply SH; eauto.
  - destruct (view_of w v) as [[[k t'] j]|] eqn:O; [|discriminate]. destruct (t' =? t) eqn:Q; [|discriminate].
    apply Nat.eqb_eq in Q. subst t'. destruct (nth_error (m_trees w) j) as [x|] eqn:N; [|discriminate]. destruct (holds i x) eqn:Q; [|discriminate].
    apply holds_in in Q. injection H as <- <-. eapply SH; eauto. exists j, x. split; [exact N|]. split; [exact Q|]. right. left. eauto.
  - destruct (ref_of w r) as [[t' j]|] eqn:O; [|discriminate]. destruct (t' =? t) eqn:Q; [|discriminate].
    apply Nat.eqb_eq in Q. subst t'. destruct (nth_error (m_trees w) j) as [x|] eqn:N; [|discriminate]. destruct (holds i x) eqn:Q; [|discriminate].
    apply holds_in in Q. injection H as <- <-. eapply SH; eauto. exists j, x. split; [exact N|]. split; [exact Q|]. right. right. eauto.
  - destruct (owned_mut w t j) as [x|] eqn:O; [|discriminate]. destruct (tree_send c b); [|discriminate]. injection H as <- <-. destruct E.
  - destruct (owned w t j) as [x|] eqn:O; [|discriminate]. injection H as <- <-. destruct E.
  - destruct (view_of w v) as [[[k0 t'] j]|] eqn:O; [|discriminate]. destruct (_ && _); [|discriminate]. injection H as <- <-. destruct E.
  - destruct (view_of w v) as [[[k0 t0] j]|] eqn:O; [|discriminate]. destruct (_ && _); [|discriminate]. injection H as <- <-. destruct E.
  - destruct (view_of w v) as [[[k0 t0] j]|] eqn:O; [|discriminate]. destruct k0; try discriminate. destruct (_ && _); [|discriminate]. injection H as <- <-. destruct E.
  - destruct (view_of w v) as [[[k0 t0] j]|] eqn:O; [|discriminate]. destruct (_ =? _); [|discriminate]. injection H as <- <-. destruct E.
  - destruct (owned w t j) as [x|] eqn:O; [|discriminate]. destruct (is_refs c); [|discriminate]. injection H as <- <-. destruct E.
  - destruct (view_of w v) as [[[k0 t0] j]|] eqn:O; [|discriminate]. destruct k0; try discriminate. destruct (_ && _); [|discriminate]. injection H as <- <-. destruct E.
  - destruct (ref_of w r) as [[t' j]|] eqn:O; [|discriminate]. destruct (_ =? _); [|discriminate]. injection H as <- <-. destruct E.
  - destruct (ref_of w r) as [[t' j]|] eqn:O; [|discriminate]. destruct (_ =? _); [|discriminate]. injection H as <- <-. destruct E.
  - destruct (ref_of w r) as [[t' j]|] eqn:O; [|discriminate]. destruct (t' =? t) eqn:Q; [|discriminate].
    apply Nat.eqb_eq in Q. subst t'. destruct (nth_error (m_trees w) j) as [x|] eqn:N; [|discriminate].
    destruct (_ && _) eqn:Q; [|discriminate]. apply andb_prop in Q. destruct Q as [Q Q0]. apply holds_in in Q. unfold give_up in H. injection H as <- <-.
    destruct (holders w i =? 1) eqn:Q'; [|destruct E]. apply Nat.eqb_eq in Q'.
    assert (P : t_owner x = None) by (destruct (t_owner x); [discriminate|reflexivity]).
    eapply EX; eauto. unfold viewed. apply not_true_iff_false. intros V. apply existsb_exists in V. destruct V as (y & V1 & V2).
    destruct y as [[[k t1] j1]|]; [|discriminate]. apply Nat.eqb_eq in V2. subst j1. apply In_nth_error in V1. destruct V1 as (v & V1).
    destruct (i_view _ _ _ I v k t1 j) as (t0 & (z & Z1 & Z2) & _); [unfold view_of; rewrite V1; reflexivity|]. congruence.
Qed.

Lemma home_step : forall c b w a es w' i t, mstep c b w a = Some (es, w') -> home w i t -> home w' i t.
Proof.
  intros c b w a es w' i t H K.
  assert (G : forall hs, nth_error (m_home w ++ hs) i = Some t) by (intros hs; rewrite nth_error_app1; [exact K|]; apply nth_error_Some; unfold home in K; congruence).
  unfold home. destruct a; cbn [mstep] in H; unfold clone_tree, new_slice, give_up in H;
    repeat match type of H with
           | context [match ?y with _ => _ end] => destruct y; try discriminate
           end; injection H as <- <-; cbn [put_tree add_view add_ref m_home]; auto; apply G.
Qed.

(** The bounds are enough, except that with AllowCow sharing a tree must also need `S: Send`. *)
Lemma C54_markers_sound_partial_proof : forall c b l es w,
  (c = AllowCow -> i_sync b = true -> s_sync b = true -> s_send b = true) ->
  mrun c b mstart l = Some (es, w) ->
  (s_send b = false -> forall e, In e es -> a_excl e = true -> nth_error (m_home w) (a_slice e) = Some (a_thread e)) /\
  (s_sync b = false -> forall i t t', reaches w t i -> reaches w t' i -> t = t') /\
  (forall a es' w' e, mstep c b w a = Some (es', w') -> In e es' ->
     reaches w (a_thread e) (a_slice e) /\ (a_excl e = true -> forall t, reaches w t (a_slice e) -> t = a_thread e)).
Proof.
  intros c b l es w C H.
  assert (CS : c = AllowCow -> tree_sync c b = true -> s_send b = true).
  { intros E T. unfold tree_sync in T. apply andb_prop in T. destruct T as [T _]. apply andb_prop in T. apply C; tauto. }
  assert (I : minv c b w) by (apply (mrun_minv c b CS l mstart (es, w)); [apply minv_start|exact H]).
  split; [|split].
  - intros S. assert (G : forall l w0 es w, minv c b w0 -> mrun c b w0 l = Some (es, w) -> (forall i t, home w0 i t -> home w i t) /\
      forall e, In e es -> a_excl e = true -> home w (a_slice e) (a_thread e)).
    { clear - CS S. induction l as [|a l IH]; intros w0 es w I H; cbn [mrun] in H.
      - injection H as <- <-. split; [auto|intros e []].
      - destruct (mstep c b w0 a) as [[e1 w1]|] eqn:ST; [|discriminate]. destruct (mrun c b w1 l) as [[e2 w2]|] eqn:R; [|discriminate]. injection H as <- <-.
        pose proof (mstep_minv c b CS _ _ _ I ST) as I1. cbn [snd] in I1. destruct (IH _ _ _ I1 R) as [A B].
        assert (M : forall i t, home w0 i t -> home w2 i t) by (intros i t Q; apply A; eapply home_step; eauto).
        split; [exact M|]. intros e Q X. apply in_app_or in Q. destruct Q as [Q|Q]; [|auto].
        destruct (step_access _ _ _ _ _ _ _ I ST Q) as [_ Z]. destruct (Z X) as [_ Y]. auto. }
    apply (G l mstart es w (minv_start c b) H).
  - intros S i t t' (j & x & N & M & R) (j' & x' & N' & M' & R').
    assert (TS : tree_sync c b = false) by (unfold tree_sync; rewrite S, andb_false_r; reflexivity).
    assert (HJ : has w j i) by (exists x; auto). assert (HJ' : has w j' i) by (exists x'; auto).
    assert (K : forall j x t, nth_error (m_trees w) j = Some x -> (t_owner x = Some t \/ (exists v k, view_of w v = Some (k, t, j)) \/ (exists r, ref_of w r = Some (t, j))) ->
      own w j (Some t) \/ (exists r, ref_of w r = Some (t, j))).
    { intros j0 x0 t0 A [B|[(v & k & B)|B]]; [left; exists x0; auto| |auto]. left.
      destruct (i_view _ _ _ I _ _ _ _ B) as (t1 & B1 & [B2|B2]); [subst; exact B1|congruence]. }
    destruct (K _ _ _ N R) as [A|(r & A)], (K _ _ _ N' R') as [B|(r' & B)].
    + eapply (i_cow _ _ _ I S j j'); eauto.
    + destruct (i_ref _ _ _ I _ _ _ B) as (E & o & Q1 & Q2). assert (j = j') as <- by (eapply i_one; eauto; congruence).
      apply Q2. eapply own_fun; eauto.
    + destruct (i_ref _ _ _ I _ _ _ A) as (E & o & Q1 & Q2). assert (j = j') as <- by (eapply i_one; eauto; congruence).
      symmetry. apply Q2. eapply own_fun; eauto.
    + destruct (i_ref _ _ _ I _ _ _ B) as (E & _). assert (j = j') as <- by (eapply i_one; eauto; congruence). eapply i_ref2; eauto.
  - intros a es' w' e ST Q. destruct (step_access _ _ _ _ _ _ _ I ST Q) as [A B]. split; [exact A|]. intros X. apply (B X).
Qed.

(** One thread makes a tree and lends it; another clones it; the first drops its tree; the second drops the clone, and
    with it the slice of the first. *)
Definition lend_and_drop : list mact :=
  [ANew 0; AAdd 0 0; AView KRef 0 0; AViewSend 0 1 0; ACloneView 1 0; AViewEnd 1 0; ARelease 0 0 0; ADrop 0 0; ARelease 1 1 0; ADrop 1 1].

(** With AllowCow the bounds of `Sync` let a slice that is not `Send` be dropped by another thread. *)
Lemma C54_cow_sync_refuted_proof : exists b l es w e,
  tree_sync AllowCow b = true /\ s_send b = false /\ mrun AllowCow b mstart l = Some (es, w) /\
  In e es /\ a_excl e = true /\ nth_error (m_home w) (a_slice e) = Some 0 /\ a_thread e = 1.
Proof.
  exists (mkB true true false true), lend_and_drop. do 3 eexists. split; [reflexivity|]. split; [reflexivity|].
  split; [vm_compute; reflexivity|]. split; [left; reflexivity|]. vm_compute. auto.
Qed.

(** The missing bound is exactly `S: Send`. *)
Lemma C54_missing_bound_proof : forall c b,
  (forall l es w e, mrun c b mstart l = Some (es, w) -> s_send b = false -> In e es -> a_excl e = true ->
     nth_error (m_home w) (a_slice e) = Some (a_thread e)) <->
  (c = AllowCow -> i_sync b = true -> s_sync b = true -> s_send b = true).
Proof.
  intros c b. split.
  - intros H -> I S. destruct (s_send b) eqn:E; [reflexivity|]. exfalso.
    assert (R : mrun AllowCow b mstart lend_and_drop = Some ([mkA 1 0 true], mkM [0] [mkT None []; mkT None []] [None] [])).
    { destruct b as [x y z u]. cbn [i_sync s_sync] in I, S. subst y u. vm_compute. reflexivity. }
    specialize (H _ _ _ _ R eq_refl (or_introl eq_refl) eq_refl). discriminate.
  - intros C l es w e H S. apply (C54_markers_sound_partial_proof c b l es w C H). exact S.
Qed.
