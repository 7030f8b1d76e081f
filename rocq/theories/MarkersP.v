(** Proofs about the threads that may use a slice. *)
From Coq Require Import List Arith Bool Lia.
From Verif Require Import Base Markers.
Import ListNotations.

Lemma nth_set : forall (A : Type) (l : list A) n m x,
  nth_error (set_nth n x l) m = if n =? m then match nth_error l n with Some _ => Some x | None => None end else nth_error l m.
Proof.
  induction l as [|y l IH]; intros n m x.
  - destruct n; cbn [set_nth]; destruct m; cbn [Nat.eqb nth_error]; try reflexivity. destruct (n =? m); reflexivity.
  - destruct n, m; cbn [set_nth Nat.eqb nth_error]; try reflexivity. apply IH.
Qed.

Definition has (w : mworld) (j i : nat) : Prop := exists x, nth_error (m_trees w) j = Some x /\ In i (t_slices x).
Definition own (w : mworld) (j : nat) (o : option nat) : Prop := exists x, nth_error (m_trees w) j = Some x /\ t_owner x = o.
Definition home (w : mworld) (i t : nat) : Prop := nth_error (m_home w) i = Some t.

Record minv (c : param) (b : bounds) (w : mworld) : Prop := mkMI {
  i_lt : forall j i, has w j i -> i < length (m_home w);
  i_view : forall v k t j, view_of w v = Some (k, t, j) -> exists t0, own w j (Some t0) /\ (t0 = t \/ tree_sync c b = true);
  i_ref : forall r t j, ref_of w r = Some (t, j) -> c = AllowSliceRefs /\ exists o, own w j o /\ (forall t0, o = Some t0 -> t0 = t);
  i_ref2 : forall r r' t t' j, ref_of w r = Some (t, j) -> ref_of w r' = Some (t', j) -> t = t';
  i_one : c <> AllowCow -> forall i j j', has w j i -> has w j' i -> j = j';
  i_home : s_send b = false -> forall j i t, has w j i -> own w j (Some t) -> home w i t;
  i_homer : s_send b = false -> forall r j i t, has w j i -> ref_of w r = Some (t, j) -> home w i t;
  i_cow : s_sync b = false -> forall j j' i t t', has w j i -> has w j' i -> own w j (Some t) -> own w j' (Some t') -> t = t' }.

Lemma holds_in : forall i x, holds i x = true <-> In i (t_slices x).
Proof.
  intros i x. unfold holds. rewrite existsb_exists. split.
  - intros (k & H & E). apply Nat.eqb_eq in E. subst. exact H.
  - intros H. exists i. split; [exact H|apply Nat.eqb_refl].
Qed.

Lemma owned_spec : forall w t j x, owned w t j = Some x -> nth_error (m_trees w) j = Some x /\ t_owner x = Some t.
Proof.
  intros w t j x H. unfold owned in H. destruct (nth_error (m_trees w) j) as [y|]; [|discriminate].
  destruct (t_owner y) as [t'|] eqn:O; [|discriminate]. destruct (t' =? t) eqn:E; [|discriminate]. apply Nat.eqb_eq in E.
  injection H as <-. subst. auto.
Qed.
Lemma owned_mut_spec : forall w t j x, owned_mut w t j = Some x ->
  nth_error (m_trees w) j = Some x /\ t_owner x = Some t /\ viewed w j = false.
Proof.
  intros w t j x H. unfold owned_mut in H. destruct (viewed w j) eqn:V; [discriminate|].
  apply owned_spec in H. tauto.
Qed.
Lemma viewed_false : forall w j v k t, viewed w j = false -> view_of w v = Some (k, t, j) -> False.
Proof.
  intros w j v k t V H. unfold viewed in V. unfold view_of in H. destruct (nth_error (m_views w) v) as [y|] eqn:E; [|discriminate]. subst y.
  apply nth_error_In in E. rewrite <- not_true_iff_false in V. apply V. apply existsb_exists. eexists. split; [exact E|]. apply Nat.eqb_refl.
Qed.
Lemma own_fun : forall w j o o', own w j o -> own w j o' -> o = o'.
Proof. intros w j o o' (x & A & B) (y & C & D). congruence. Qed.

Lemma minv_start : forall c b, minv c b mstart.
Proof.
  intros c b. assert (N : forall (A : Type) n, nth_error (@nil A) n = None) by (intros A [|n]; reflexivity).
  split; unfold has, own, view_of, ref_of, mstart; cbn [m_trees m_views m_refs]; intros; rewrite ?N in *; try discriminate;
    repeat match goal with H : exists _, _ |- _ => destruct H as (? & ? & ?) end; rewrite ?N in *; discriminate.
Qed.

(** The tree with number [j] is replaced. *)
Definition put (w : mworld) (hs : list nat) (j : nat) (x : mtree) : mworld :=
  mkM (m_home w ++ hs) (set_nth j x (m_trees w)) (m_views w) (m_refs w).

Lemma has_put : forall w hs j x y j' i, nth_error (m_trees w) j = Some y ->
  has (put w hs j x) j' i -> (j' = j /\ In i (t_slices x)) \/ (j' <> j /\ has w j' i).
Proof.
  intros w hs j x y j' i N (z & A & B). cbn [put m_trees] in A. rewrite nth_set, N in A. destruct (j =? j') eqn:E.
  - apply Nat.eqb_eq in E. injection A as <-. auto.
  - apply Nat.eqb_neq in E. right. split; [congruence|]. exists z. auto.
Qed.
Lemma own_put : forall w hs j x y j' o, nth_error (m_trees w) j = Some y ->
  own (put w hs j x) j' o <-> (j' = j /\ t_owner x = o) \/ (j' <> j /\ own w j' o).
Proof.
  intros w hs j x y j' o N. unfold own. cbn [put m_trees]. rewrite nth_set, N. destruct (j =? j') eqn:E.
  - apply Nat.eqb_eq in E. subst j'. split; [intros (z & A & B); injection A as <-; auto|].
    intros [[_ A]|[A _]]; [|congruence]. exists x. auto.
  - apply Nat.eqb_neq in E. split; [intros (z & A & B); right; split; [congruence|exists z; auto]|].
    intros [[A _]|[_ A]]; [congruence|exact A].
Qed.
Lemma home_put : forall w hs j x i t, home w i t -> home (put w hs j x) i t.
Proof.
  intros w hs j x i t H. unfold home in *. cbn [put m_home]. rewrite nth_error_app1; [exact H|]. apply nth_error_Some. congruence.
Qed.

(** Contents change: slices go, new slices of the owner come. *)
Lemma minv_contents : forall c b w j y hs l,
  minv c b w -> nth_error (m_trees w) j = Some y ->
  (forall i, In i l -> In i (t_slices y) \/ (length (m_home w) <= i < length (m_home w) + length hs /\
     exists t, t_owner y = Some t /\ nth_error (m_home w ++ hs) i = Some t)) ->
  minv c b (put w hs j (mkT (t_owner y) l)).
Proof.
  intros c b w j y hs l I N L.
  set (w' := put w hs j (mkT (t_owner y) l)).
  assert (O : forall j' o, own w' j' o <-> own w j' o).
  { intros j' o. unfold w'. rewrite (own_put _ _ _ _ _ _ _ N). cbn [t_owner]. split.
    - intros [[-> <-]|[_ A]]; [exists y; auto|exact A].
    - intros A. destruct (Nat.eq_dec j' j) as [->|D]; [left|right; auto]. split; [reflexivity|]. destruct A as (z & A & B). congruence. }
  assert (K : forall j' i, has w' j' i -> has w j' i \/ (j' = j /\ length (m_home w) <= i < length (m_home w) + length hs /\
     exists t, own w j (Some t) /\ home w' i t)).
  { intros j' i A. destruct (has_put _ _ _ _ _ _ _ N A) as [[-> B]|[_ B]]; [|auto].
    destruct (L _ B) as [Q|(Q1 & t & Q2 & Q3)]; [left; exists y; auto|]. right. split; [reflexivity|]. split; [exact Q1|]. exists t. split; [exists y; auto|exact Q3]. }
  assert (LT : forall j' i, has w j' i -> i < length (m_home w)) by apply I.
  split.
  - intros j' i A. unfold w'. cbn [put m_home]. rewrite app_length. destruct (K _ _ A) as [B|(_ & B & _)]; [specialize (LT _ _ B); lia|lia].
  - intros v k t j' V. destruct (i_view _ _ _ I v k t j' V) as (t0 & A & B). exists t0. rewrite O. auto.
  - intros r t j' R. destruct (i_ref _ _ _ I r t j' R) as (E & o & A & B). split; [exact E|]. exists o. rewrite O. auto.
  - apply I.
  - intros NC i j1 j2 A B. destruct (K _ _ A) as [A'|(-> & A' & _)], (K _ _ B) as [B'|(-> & B' & _)]; auto.
    + eapply i_one; eauto.
    + specialize (LT _ _ A'). lia.
    + specialize (LT _ _ B'). lia.
  - intros S j' i t A B. rewrite O in B. destruct (K _ _ A) as [A'|(-> & A' & t1 & Q1 & Q2)].
    + apply home_put. eapply i_home; eauto.
    + pose proof (own_fun _ _ _ _ B Q1) as E. injection E as ->. exact Q2.
  - intros S r j' i t A B. destruct (K _ _ A) as [A'|(-> & A' & t1 & Q1 & Q2)].
    + apply home_put. eapply i_homer; eauto.
    + destruct (i_ref _ _ _ I r t j B) as (_ & o & E1 & E2). pose proof (own_fun _ _ _ _ E1 Q1). subst o. rewrite <- (E2 t1 eq_refl). exact Q2.
  - intros S j1 j2 i t t' A B C D. rewrite O in C, D. destruct (K _ _ A) as [A'|(-> & A' & _)], (K _ _ B) as [B'|(-> & B' & _)].
    + eapply (i_cow _ _ _ I S j1 j2); eauto.
    + specialize (LT _ _ A'). lia.
    + specialize (LT _ _ B'). lia.
    + pose proof (own_fun _ _ _ _ C D). congruence.
Qed.

(** The owner changes; nothing borrows the tree. *)
Lemma minv_owner : forall c b w j y o,
  minv c b w -> nth_error (m_trees w) j = Some y -> viewed w j = false ->
  (o = None \/ tree_send c b = true) -> minv c b (put w [] j (mkT o (t_slices y))).
Proof.
  intros c b w j y o I N V D.
  set (w' := put w [] j (mkT o (t_slices y))).
  assert (S0 : o <> None -> s_send b = true /\ c <> AllowSliceRefs /\ (c = AllowCow -> s_sync b = true)).
  { intros Q. destruct D as [D|D]; [congruence|]. unfold tree_send in D. destruct c; try discriminate.
    - apply andb_prop in D. intuition discriminate.
    - apply andb_prop in D. destruct D as [_ D]. apply andb_prop in D. intuition discriminate. }
  assert (K : forall j' i, has w' j' i <-> has w j' i).
  { intros j' i. split.
    - intros A. destruct (has_put _ _ _ _ _ _ _ N A) as [[-> B]|[_ B]]; [exists y; auto|auto].
    - intros (x & A & B). unfold has, w', put. cbn [m_trees]. rewrite nth_set, N. destruct (j =? j') eqn:E; [|exists x; auto].
      apply Nat.eqb_eq in E. subst j'. exists (mkT o (t_slices y)). split; [reflexivity|]. cbn [t_slices]. congruence. }
  assert (O : forall j' p, own w' j' p -> (j' = j /\ p = o) \/ (j' <> j /\ own w j' p)).
  { intros j' p. unfold w'. rewrite (own_put _ _ _ _ _ _ _ N). cbn [t_owner]. intuition. }
  assert (O2 : forall j' p, j' <> j -> own w j' p -> own w' j' p) by (intros j' p A B; unfold w'; rewrite (own_put _ _ _ _ _ _ _ N); auto).
  assert (O3 : own w' j o) by (unfold w'; rewrite (own_put _ _ _ _ _ _ _ N); auto).
  split.
  - intros j' i A. rewrite K in A. unfold w'. cbn [put m_home]. rewrite app_nil_r. eapply i_lt; eauto.
  - intros v k t j' Q. assert (j' <> j) by (intros ->; eapply viewed_false; eauto).
    destruct (i_view _ _ _ I v k t j' Q) as (t0 & A & B). exists t0. auto.
  - intros r t j' R. destruct (i_ref _ _ _ I r t j' R) as (E & p & A & B). split; [exact E|].
    destruct (Nat.eq_dec j' j) as [->|D']; [|exists p; auto]. exists o. split; [exact O3|]. intros t0 ->. destruct S0 as (_ & Q & _); [discriminate|congruence].
  - apply I.
  - intros NC i j1 j2 A B. rewrite K in A, B. eapply i_one; eauto.
  - intros S j' i t A B. rewrite K in A. apply home_put. destruct (O _ _ B) as [[-> <-]|[_ B']]; [|eapply i_home; eauto].
    destruct S0 as (Q & _); [discriminate|congruence].
  - intros S r j' i t A B. rewrite K in A. apply home_put. eapply i_homer; eauto.
  - intros S j1 j2 i t t' A B C D'. rewrite K in A, B.
    destruct (O _ _ C) as [[-> C1]|[C0 C1]], (O _ _ D') as [[-> D1]|[D0 D1]].
    + congruence.
    + destruct (S0 ltac:(congruence)) as (_ & _ & Q). destruct c; [|rewrite Q in S; [discriminate|reflexivity]|]; exfalso; apply D0; symmetry; eapply i_one; eauto; discriminate.
    + destruct (S0 ltac:(congruence)) as (_ & _ & Q). destruct c; [|rewrite Q in S; [discriminate|reflexivity]|]; exfalso; apply C0; eapply i_one; eauto; discriminate.
    + eapply (i_cow _ _ _ I S j1 j2); eauto.
Qed.

(** A tree is added. *)
Lemma minv_new : forall c b w hs t l,
  minv c b w ->
  ((exists n, l = seq (length (m_home w)) n /\ hs = repeat t n) \/
   (c = AllowCow /\ hs = [] /\ exists j y, nth_error (m_trees w) j = Some y /\ l = t_slices y /\
      exists t0, t_owner y = Some t0 /\ (t0 = t \/ (s_send b = true /\ s_sync b = true)))) ->
  minv c b (mkM (m_home w ++ hs) (m_trees w ++ [mkT (Some t) l]) (m_views w) (m_refs w)).
Proof.
  intros c b w hs t l I L.
  set (w' := mkM (m_home w ++ hs) (m_trees w ++ [mkT (Some t) l]) (m_views w) (m_refs w)).
  set (n0 := length (m_trees w)).
  assert (NT : forall j' x, nth_error (m_trees w') j' = Some x -> nth_error (m_trees w) j' = Some x \/ (j' = n0 /\ x = mkT (Some t) l)).
  { intros j' x A. unfold w' in A. cbn [m_trees] in A. destruct (Nat.lt_ge_cases j' n0) as [Q|Q].
    - rewrite nth_error_app1 in A by exact Q. auto.
    - rewrite nth_error_app2 in A by exact Q. fold n0 in A. destruct (j' - n0) as [|m] eqn:E; [|destruct m; discriminate].
      injection A as <-. right. split; [lia|reflexivity]. }
  assert (LTN : forall j' x, nth_error (m_trees w) j' = Some x -> j' < n0) by (intros j' x A; apply nth_error_Some; congruence).
  assert (OK : forall j' x, nth_error (m_trees w) j' = Some x -> nth_error (m_trees w') j' = Some x).
  { intros j' x A. unfold w'. cbn [m_trees]. rewrite nth_error_app1; [exact A|eapply LTN; eauto]. }
  assert (K : forall j' i, has w' j' i -> has w j' i \/ (j' = n0 /\ In i l)).
  { intros j' i (x & A & B). destruct (NT _ _ A) as [Q|[-> ->]]; [left; exists x; auto|right; auto]. }
  assert (O : forall j' p, own w' j' p -> own w j' p \/ (j' = n0 /\ p = Some t)).
  { intros j' p (x & A & B). destruct (NT _ _ A) as [Q|[-> ->]]; [left; exists x; auto|right; auto]. }
  assert (O2 : forall j' p, own w j' p -> own w' j' p) by (intros j' p (x & A & B); exists x; auto).
  assert (LH : forall j', has w n0 j' -> False) by (intros j' (x & A & _); specialize (LTN _ _ A); lia).
  assert (LO : forall p, own w n0 p -> False) by (intros p (x & A & _); specialize (LTN _ _ A); lia).
  assert (LT : forall j' i, has w j' i -> i < length (m_home w)) by apply I.
  assert (HW : forall i u, home w i u -> home w' i u).
  { intros i u H. unfold home, w' in *. cbn [m_home]. rewrite nth_error_app1; [exact H|]. apply nth_error_Some. congruence. }
  assert (LI : forall i, In i l -> i < length (m_home w) + length hs).
  { intros i A. destruct L as [(n & -> & ->)|(_ & -> & j & y & N & -> & _)].
    - apply in_seq in A. rewrite repeat_length. lia.
    - assert (has w j i) as Q by (exists y; auto). specialize (LT _ _ Q). cbn. lia. }
  split.
  - intros j' i A. unfold w'. cbn [m_home]. rewrite app_length. destruct (K _ _ A) as [B|[_ B]]; [specialize (LT _ _ B); lia|auto].
  - intros v k u j' V. destruct (i_view _ _ _ I v k u j' V) as (t0 & A & B). exists t0. auto.
  - intros r u j' R. destruct (i_ref _ _ _ I r u j' R) as (E & o & A & B). split; [exact E|]. exists o. auto.
  - apply I.
  - intros NC i j1 j2 A B. destruct L as [(n & EL & _)|(E & _)]; [|congruence].
    destruct (K _ _ A) as [A'|[-> A']], (K _ _ B) as [B'|[-> B']]; auto.
    + eapply i_one; eauto.
    + rewrite EL in B'. apply in_seq in B'. specialize (LT _ _ A'). lia.
    + rewrite EL in A'. apply in_seq in A'. specialize (LT _ _ B'). lia.
  - intros S j' i u A B. destruct (K _ _ A) as [A'|[E1 A']], (O _ _ B) as [B'|[E2 B']].
    + apply HW. eapply i_home; eauto.
    + exfalso. subst j'. eapply LH; eauto.
    + exfalso. subst j'. eapply LO; eauto.
    + injection B' as ->. destruct L as [(n & EL & EH)|(E & _ & j & y & N & EL & t0 & Q1 & [Q2|[Q2 _]])]; [| |congruence].
      * unfold home, w'. cbn [m_home]. rewrite EL in A'. apply in_seq in A'. rewrite nth_error_app2 by lia. rewrite EH.
        apply nth_error_repeat. lia.
      * subst t0. apply HW. eapply (i_home _ _ _ I S j); exists y; auto. split; [exact N|]. congruence.
  - intros S r j' i u A B. destruct (K _ _ A) as [A'|[-> A']].
    + apply HW. eapply i_homer; eauto.
    + destruct (i_ref _ _ _ I r u n0 B) as (_ & o & E1 & _). exfalso. eapply LO; eauto.
  - intros S j1 j2 i u u' A B C D. destruct (O _ _ C) as [C'|[-> C']], (O _ _ D) as [D'|[-> D']].
    + destruct (K _ _ A) as [A'|[-> A']]; [|exfalso; eapply LO; eauto]. destruct (K _ _ B) as [B'|[-> B']]; [|exfalso; eapply LO; eauto].
      eapply (i_cow _ _ _ I S j1 j2); eauto.
    + injection D' as ->. destruct (K _ _ A) as [A'|[-> A']]; [|exfalso; eapply LO; eauto]. destruct (K _ _ B) as [B'|[_ B']]; [exfalso; eapply LH; eauto|].
      destruct L as [(n & EL & _)|(E & _ & j & y & N & EL & t0 & Q1 & [Q2|[_ Q2]])]; [| |congruence].
      * rewrite EL in B'. apply in_seq in B'. specialize (LT _ _ A'). lia.
      * subst t0 l. eapply (i_cow _ _ _ I S j1 j i); eauto; exists y; auto.
    + injection C' as ->. destruct (K _ _ B) as [B'|[-> B']]; [|exfalso; eapply LO; eauto]. destruct (K _ _ A) as [A'|[_ A']]; [exfalso; eapply LH; eauto|].
      destruct L as [(n & EL & _)|(E & _ & j & y & N & EL & t0 & Q1 & [Q2|[_ Q2]])]; [| |congruence].
      * rewrite EL in A'. apply in_seq in A'. specialize (LT _ _ B'). lia.
      * subst t0 l. eapply (i_cow _ _ _ I S j j2 i); eauto; exists y; auto.
    + congruence.
Qed.

(** Views come, go and move; references come and go. *)
Lemma minv_views : forall c b w vs rs,
  minv c b w ->
  (forall v k t j, match nth_error vs v with Some x => x | None => None end = Some (k, t, j) ->
     exists t0, own w j (Some t0) /\ (t0 = t \/ tree_sync c b = true)) ->
  (forall r t j, match nth_error rs r with Some x => x | None => None end = Some (t, j) ->
     (exists r', ref_of w r' = Some (t, j)) \/ (c = AllowSliceRefs /\ own w j (Some t))) ->
  minv c b (mkM (m_home w) (m_trees w) vs rs).
Proof.
  intros c b w vs rs I V R. set (w' := mkM (m_home w) (m_trees w) vs rs).
  assert (O : forall r t j t0, ref_of w' r = Some (t, j) -> own w j (Some t0) -> t0 = t).
  { intros r t j t0 A B. destruct (R r t j A) as [(r' & Q)|[_ Q]].
    - destruct (i_ref _ _ _ I _ _ _ Q) as (_ & o & E1 & E2). apply E2. apply (own_fun _ _ _ _ E1 B).
    - pose proof (own_fun _ _ _ _ Q B). congruence. }
  split.
  - apply I.
  - intros v k t j A. apply (V v k t j A).
  - intros r t j A. destruct (R r t j A) as [(r' & Q)|[Q1 Q]]; [apply (i_ref _ _ _ I _ _ _ Q)|].
    split; [exact Q1|]. exists (Some t). split; [exact Q|]. intros t0 E. congruence.
  - intros r r' t t' j A B. destruct (R r t j A) as [(s & Q)|[_ Q]].
    + destruct (R r' t' j B) as [(s' & Q')|[_ Q']]; [eapply i_ref2; eauto|]. symmetry. eapply O; eauto.
    + eapply O; eauto.
  - apply (i_one _ _ _ I).
  - apply (i_home _ _ _ I).
  - intros S r j i t A B. destruct (R r t j B) as [(s & Q)|[_ Q]]; [eapply (i_homer _ _ _ I S s j i t); eauto|eapply (i_home _ _ _ I S j i t); eauto].
  - apply (i_cow _ _ _ I).
Qed.

Lemma view_lookup : forall w v, match nth_error (m_views w) v with Some x => x | None => None end = view_of w v.
Proof. reflexivity. Qed.

Lemma app1 : forall (A : Type) (l : list (option A)) x n, match nth_error (l ++ [x]) n with Some y => y | None => None end =
  if n =? length l then x else match nth_error l n with Some y => y | None => None end.
Proof.
  intros A l x n. destruct (Nat.lt_trichotomy n (length l)) as [Q|[Q|Q]].
  - rewrite nth_error_app1 by lia. destruct (n =? length l) eqn:E; [apply Nat.eqb_eq in E; lia|reflexivity].
  - subst n. rewrite nth_error_app2, Nat.sub_diag by lia. rewrite Nat.eqb_refl. reflexivity.
  - rewrite nth_error_app2 by lia. destruct (n =? length l) eqn:E; [apply Nat.eqb_eq in E; lia|].
    assert (nth_error l n = None) as -> by (apply nth_error_None; lia). destruct (n - length l) as [|m] eqn:E2; [lia|]. destruct m; reflexivity.
Qed.

Lemma minv_add_view : forall c b w k t j t0, minv c b w -> own w j (Some t0) -> (t0 = t \/ tree_sync c b = true) -> minv c b (add_view w (k, t, j)).
Proof.
  intros c b w k t j t0 I A B. unfold add_view. apply minv_views; auto.
  - intros v k' t' j' H. rewrite app1 in H. destruct (v =? _); [injection H as <- <- <-; eauto|]. eapply i_view; eauto.
  - intros r t' j' H. left. exists r. exact H.
Qed.

Lemma minv_add_ref : forall c b w t j, minv c b w -> ((exists r', ref_of w r' = Some (t, j)) \/ (c = AllowSliceRefs /\ own w j (Some t))) ->
  minv c b (add_ref w (t, j)).
Proof.
  intros c b w t j I A. unfold add_ref. apply minv_views; auto.
  - intros v k' t' j' H. eapply i_view; eauto.
  - intros r t' j' H. rewrite app1 in H. destruct (r =? _); [injection H as <- <-; exact A|]. left. exists r. exact H.
Qed.

Lemma put_contents : forall w j x, put_tree w j x = put w [] j x.
Proof. intros w j x. unfold put_tree, put. rewrite app_nil_r. reflexivity. Qed.

Section Step.
  Variables (c : param) (b : bounds).
  (** What the implementation of `Sync` lacks. *)
  Hypothesis CS : c = AllowCow -> tree_sync c b = true -> s_send b = true.

  Lemma clone_minv : forall w t j y t0 p, minv c b w -> nth_error (m_trees w) j = Some y -> t_owner y = Some t0 ->
    (t0 = t \/ tree_sync c b = true) -> clone_tree c t (t_slices y) w = Some p -> minv c b (snd p).
  Proof.
    intros w t j y t0 p I N O T H. unfold clone_tree in H. destruct c eqn:E; [| |discriminate]; injection H as <-; cbn [snd].
    - apply minv_new; [exact I|]. left. exists (length (t_slices y)). auto.
    - rewrite <- (app_nil_r (m_home w)) at 1. apply minv_new; [exact I|]. right. split; [reflexivity|]. split; [reflexivity|].
      exists j, y. split; [exact N|]. split; [reflexivity|]. exists t0. split; [exact O|]. destruct T as [T|T]; [auto|]. right. split; [auto|].
      unfold tree_sync in T. apply andb_prop in T. destruct T as [T _]. apply andb_prop in T. apply T.
  Qed.

  Lemma give_up_minv : forall w t j i y, minv c b w -> nth_error (m_trees w) j = Some y -> minv c b (snd (give_up w t j i y)).
  Proof.
    intros w t j i y I N. unfold give_up. cbn [snd]. rewrite put_contents. apply minv_contents; auto.
    intros k Q. apply filter_In in Q. left. apply Q.
  Qed.

  Lemma add_minv : forall w t j y, minv c b w -> nth_error (m_trees w) j = Some y -> t_owner y = Some t ->
    minv c b (put_tree (snd (new_slice t w)) j (mkT (t_owner y) (fst (new_slice t w) :: t_slices y))).
  Proof.
    intros w t j y I N O. change (minv c b (put w [t] j (mkT (t_owner y) (length (m_home w) :: t_slices y)))).
    apply minv_contents; auto. intros i [<-|Q]; [right|left; exact Q]. cbn [length]. split; [lia|]. exists t. split; [exact O|].
    rewrite nth_error_app2, Nat.sub_diag by lia. reflexivity.
  Qed.

  Lemma sends : forall k, match k with KRef => tree_sync c b | KEntry => entry_send c b | KIter => iter_send c b end = true -> tree_sync c b = true.
  Proof.
    intros k H. unfold entry_send, iter_send, tree_sync in *. destruct k; [exact H| |]; rewrite <- !andb_assoc in H; apply andb_prop in H;
      destruct H as [_ H]; rewrite <- andb_assoc; exact H.
  Qed.

  Ltac own_of H := let N := fresh "N" in let O := fresh "O" in destruct (owned_spec _ _ _ _ H) as [N O].
  Ltac muts H := let N := fresh "N" in let O := fresh "O" in let V := fresh "V" in destruct (owned_mut_spec _ _ _ _ H) as (N & O & V).

  Lemma mstep_minv : forall w a p, minv c b w -> mstep c b w a = Some p -> minv c b (snd p).
  Proof.
    intros w a p I H. destruct a; cbn [mstep] in H.
    - injection H as <-. cbn [snd]. rewrite <- (app_nil_r (m_home w)) at 1. apply minv_new; [exact I|]. left. exists 0. auto.
    - destruct (owned_mut w t j) as [x|] eqn:E; [|discriminate]. muts E. injection H as <-. apply add_minv; auto.
    - destruct (owned_mut w t j) as [x|] eqn:E; [|discriminate]. muts E. destruct (_ && _); [|discriminate]. injection H as <-. apply add_minv; auto.
    - destruct (owned_mut w t j) as [x|] eqn:E; [|discriminate]. destruct (_ && _); [|discriminate]. injection H as <-. exact I.
    - destruct (owned_mut w t j) as [x|] eqn:E; [|discriminate]. muts E. destruct (holds i x); [|discriminate]. injection H as <-. apply give_up_minv; auto.
    - destruct (owned_mut w t j) as [x|] eqn:E; [|discriminate]. muts E. injection H as <-. cbn [snd]. rewrite put_contents. apply minv_owner; auto.
    - destruct (owned w t j) as [x|] eqn:E; [|discriminate]. own_of E. eapply clone_minv; eauto.
    - destruct (view_of w v) as [[[k t'] j]|] eqn:E; [|discriminate]. destruct k; try discriminate. destruct (t' =? t) eqn:T; [|discriminate].
      apply Nat.eqb_eq in T. subst t'. destruct (i_view _ _ _ I _ _ _ _ E) as (t0 & (x & N & O) & Q). rewrite N in H. eapply clone_minv; eauto.
    - destruct (owned w t j) as [x|]; [|discriminate]. destruct (holds i x); [|discriminate]. injection H as <-. exact I.
    - destruct (view_of w v) as [[[k t'] j]|]; [|discriminate]. destruct (t' =? t); [|discriminate]. destruct (nth_error (m_trees w) j) as [x|]; [|discriminate].
      destruct (holds i x); [|discriminate]. injection H as <-. exact I.
    - destruct (ref_of w r) as [[t' j]|]; [|discriminate]. destruct (t' =? t); [|discriminate]. destruct (nth_error (m_trees w) j) as [x|]; [|discriminate].
      destruct (holds i x); [|discriminate]. injection H as <-. exact I.
    - destruct (owned_mut w t j) as [x|] eqn:E; [|discriminate]. muts E. destruct (tree_send c b) eqn:TS; [|discriminate]. injection H as <-. cbn [snd].
      rewrite put_contents. apply minv_owner; auto.
    - destruct (owned w t j) as [x|] eqn:E; [|discriminate]. own_of E. injection H as <-. apply minv_add_view with (t0 := t); auto. exists x. auto.
    - destruct (view_of w v) as [[[k0 t'] j]|] eqn:E; [|discriminate]. destruct (_ && _) eqn:T; [|discriminate]. apply andb_prop in T. destruct T as [T _].
      apply Nat.eqb_eq in T. subst t'. injection H as <-. destruct (i_view _ _ _ I _ _ _ _ E) as (t0 & Q1 & Q2). apply minv_add_view with (t0 := t0); auto.
    - destruct (view_of w v) as [[[k t0] j]|] eqn:E; [|discriminate]. destruct (_ && _) eqn:T; [|discriminate]. apply andb_prop in T. destruct T as [_ T].
      apply sends in T. injection H as <-. cbn [snd]. destruct (i_view _ _ _ I _ _ _ _ E) as (t1 & Q1 & Q2). apply minv_views; auto.
      + intros v' k' t2 j' A. rewrite nth_set in A. destruct (v =? v').
        * destruct (nth_error (m_views w) v); [|discriminate]. injection A as <- <- <-. eauto.
        * eapply i_view; eauto.
      + intros r t2 j' A. left. exists r. exact A.
    - destruct (view_of w v) as [[[k t0] j]|] eqn:E; [|discriminate]. destruct k; try discriminate. destruct (_ && _) eqn:T; [|discriminate]. apply andb_prop in T. destruct T as [_ T].
      injection H as <-. destruct (i_view _ _ _ I _ _ _ _ E) as (t1 & Q1 & Q2). apply minv_add_view with (t0 := t1); auto.
    - destruct (view_of w v) as [[[k t0] j]|] eqn:E; [|discriminate]. destruct (t0 =? t); [|discriminate]. injection H as <-. cbn [snd]. apply minv_views; auto.
      + intros v' k' t2 j' A. rewrite nth_set in A. destruct (v =? v').
        * destruct (nth_error (m_views w) v); discriminate.
        * eapply i_view; eauto.
      + intros r t2 j' A. left. exists r. exact A.
    - destruct (owned w t j) as [x|] eqn:E; [|discriminate]. own_of E. destruct (is_refs c) eqn:R; [|discriminate]. injection H as <-. apply minv_add_ref; auto.
      right. split; [destruct c; discriminate || reflexivity|]. exists x. auto.
    - destruct (view_of w v) as [[[k t0] j]|] eqn:E; [|discriminate]. destruct k; try discriminate. destruct (_ && _) eqn:T; [|discriminate]. apply andb_prop in T. destruct T as [T R].
      apply Nat.eqb_eq in T. subst t0. injection H as <-. destruct (i_view _ _ _ I _ _ _ _ E) as (t1 & Q1 & Q2). apply minv_add_ref; auto. right.
      assert (c = AllowSliceRefs) as -> by (destruct c; discriminate || reflexivity). split; [reflexivity|]. destruct Q2 as [<-|Q2]; [exact Q1|].
      unfold tree_sync in Q2. cbn [p_both] in Q2. rewrite andb_false_r in Q2. discriminate.
    - destruct (ref_of w r) as [[t' j]|] eqn:E; [|discriminate]. destruct (t' =? t) eqn:T; [|discriminate]. apply Nat.eqb_eq in T. subst t'. injection H as <-.
      apply minv_add_ref; auto. left. exists r. exact E.
    - destruct (ref_of w r) as [[t' j]|] eqn:E; [|discriminate]. destruct (t' =? t); [|discriminate]. injection H as <-. cbn [snd]. apply minv_views; auto.
      + intros v' k' t2 j' A. eapply i_view; eauto.
      + intros r' t2 j' A. rewrite nth_set in A. destruct (r =? r'); [destruct (nth_error (m_refs w) r); discriminate|]. left. exists r'. exact A.
    - destruct (ref_of w r) as [[t' j]|] eqn:E; [|discriminate]. destruct (t' =? t); [|discriminate]. destruct (nth_error (m_trees w) j) as [x|] eqn:N; [|discriminate].
      destruct (_ && _); [|discriminate]. injection H as <-. apply give_up_minv; auto.
  Qed.

  Lemma mrun_minv : forall l w p, minv c b w -> mrun c b w l = Some p -> minv c b (snd p).
  Proof.
    induction l as [|a l IH]; intros w p I H; cbn [mrun] in H.
    - injection H as <-. exact I.
    - destruct (mstep c b w a) as [[e w1]|] eqn:S; [|discriminate]. destruct (mrun c b w1 l) as [[e' w2]|] eqn:R; [|discriminate].
      injection H as <-. cbn [snd]. apply (IH w1 (e', w2)); [|exact R]. apply (mstep_minv _ _ _ I S).
  Qed.
End Step.

(** Only one tree holds a slice with one holder. *)
Lemma holders_one : forall w i j j', holders w i = 1 -> has w j i -> has w j' i -> j = j'.
Proof.
  intros w i j j' H (x & A & B) (y & C & D). unfold holders in H. revert j j' H A C. induction (m_trees w) as [|z l IH]; intros j j' H A C; [destruct j; discriminate|].
  cbn [filter] in H. destruct (holds i z) eqn:Z.
  - cbn [length] in H. assert (Q : forall n u, nth_error l n = Some u -> In i (t_slices u) -> False).
    { intros n u E F. assert (M : In u (filter (holds i) l)) by (apply filter_In; split; [eapply nth_error_In; eauto|apply holds_in; exact F]).
      destruct (filter (holds i) l); [destruct M|cbn [length] in H; lia]. }
    destruct j, j'; cbn [nth_error] in A, C; auto; exfalso; eauto.
  - rewrite <- not_true_iff_false, holds_in in Z. destruct j, j'; cbn [nth_error] in A, C; auto.
    + injection A as <-. contradiction.
    + injection C as <-. contradiction.
Qed.
