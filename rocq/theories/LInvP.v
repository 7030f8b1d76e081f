(** The invariant of a tree with its pointers and references.  Proof support only. *)
From Coq Require Import List ZArith Lia Bool Arith Permutation.
From Verif Require Import Base Index Slice Tree Insert Spec Zip Rep Upd Leaf Path Ops Find Ins IterP LTree LInsert LTreeP LUpP LLeafP LShape LShapeP LLenP LUpdP LPlanP LEffP HistP LRef LMemP LClimbP.
Import ListNotations.


(** ** Writing a reference id *)
Definition put_id (l : loc) (r : rid) (e : option loc * option rid) : option loc * option rid :=
  match fst e with Some l' => if loc_eqb l' l then (fst e, Some r) else e | None => e end.

Lemma put_id_fst : forall l r e, fst (put_id l r e) = fst e.
Proof. intros l r [[l'|] o]; unfold put_id; cbn [fst]; [destruct (loc_eqb l' l)|]; reflexivity. Qed.
Lemma loc_eqb_refl : forall l, loc_eqb l l = true.
Proof. intros [a k]. unfold loc_eqb. cbn. rewrite !Nat.eqb_refl. reflexivity. Qed.
Lemma loc_eqb_eq : forall l l', loc_eqb l l' = true <-> l = l'.
Proof.
  intros [a k] [a' k']. unfold loc_eqb. cbn. rewrite andb_true_iff, !Nat.eqb_eq. split; [intros [-> ->]; reflexivity|intros H; injection H; auto].
Qed.

Lemma replace_at_nil : forall {A} i (x : A), replace_at i x [] = [].
Proof. intros A [|i] x; reflexivity. Qed.
Lemma replace_at_0 : forall {A} (x y : A) l, replace_at 0 x (y :: l) = x :: l.
Proof. reflexivity. Qed.

Lemma set_refid_weave : forall l r a ks, Forall (fun t => linord (set_refid l r t) = map (put_id l r) (linord t)) ks ->
  forall j rs,
  weave linord a j (if a =? fst l then if j <=? snd l then replace_at (snd l - j) (Some r) rs else rs else rs) (map (set_refid l r) ks) =
  map (put_id l r) (weave linord a j rs ks).
Proof.
  intros l r a ks H. induction H as [|k ks Hk H IH]; intros j rs; [reflexivity|].
  cbn [map weave]. rewrite map_app, Hk. f_equal. destruct rs as [|o rs].
  - rewrite replace_at_nil. destruct (a =? fst l); [destruct (j <=? snd l)|]; reflexivity.
  - specialize (IH (S j) rs). destruct l as [a0 k0]. cbn [fst snd map put_id] in *. unfold loc_eqb. cbn [fst snd].
    destruct (Nat.eqb_spec a a0) as [->|Ha]; cbn [andb]; [|f_equal; exact IH].
    destruct (Nat.leb_spec j k0) as [Hj|Hj].
    + destruct (Nat.eqb_spec j k0) as [->|Hn].
      * rewrite Nat.sub_diag, replace_at_0. destruct (Nat.leb_spec (S k0) k0); [lia|]. f_equal. exact IH.
      * destruct (Nat.leb_spec (S j) k0); [|lia]. replace (k0 - j) with (S (k0 - S j)) by lia. rewrite replace_at_S. f_equal. exact IH.
    + destruct (Nat.eqb_spec j k0); [lia|]. destruct (Nat.leb_spec (S j) k0); [lia|]. f_equal. exact IH.
Qed.

Lemma set_refid_linord : forall l r t, linord (set_refid l r t) = map (put_id l r) (linord t).
Proof.
  intros l r. induction t as [|a p rs ks IH] using ltree_ind2; [reflexivity|].
  cbn [set_refid linord]. rewrite <- (set_refid_weave l r a ks IH 0 rs). rewrite Nat.sub_0_r. reflexivity.
Qed.

Lemma set_refid_laddrs : forall l r t, laddrs (set_refid l r t) = laddrs t.
Proof.
  intros l r. induction t as [|a p rs ks IH] using ltree_ind2; [reflexivity|]. cbn [set_refid laddrs]. f_equal.
  induction IH as [|k ks Hk H IH]; [reflexivity|]. cbn [map flat_map]. rewrite Hk, IH. reflexivity.
Qed.
Lemma set_refid_lshape : forall l r t, lshape (set_refid l r t) = lshape t.
Proof.
  intros l r. induction t as [|a p rs ks IH] using ltree_ind2; [reflexivity|]. cbn [set_refid lshape]. f_equal.
  rewrite map_map. induction IH as [|k ks Hk H IH]; [reflexivity|]. cbn [map]. rewrite Hk, IH. reflexivity.
Qed.
Lemma set_refid_lok : forall M l r t par, lok M par t -> lok M par (set_refid l r t).
Proof.
  intros M l r. induction t as [|a p rs ks IH] using ltree_ind2; intros par H; [exact H|]. cbn [set_refid lok] in *.
  destruct H as (H1 & H2 & H3 & H4). split; [exact H1|].
  assert (E : length (if a =? fst l then replace_at (snd l) (Some r) rs else rs) = length rs) by (destruct (a =? fst l); [apply replace_at_length|reflexivity]).
  rewrite E, map_length. split; [exact H2|]. split; [exact H3|]. clear - IH H4. revert H4. generalize 0.
  induction IH as [|k ks Hk H IH]; intros j H4; [exact H4|]. cbn [map alli] in *. destruct H4. split; auto.
Qed.

(** ** Places are distinct *)
Lemma nodup_fst_weave : forall a ks, Forall (fun t => NoDup (laddrs t) -> NoDup (map fst (linord t))) ks ->
  NoDup (flat_map laddrs ks) -> ~ In a (flat_map laddrs ks) -> forall j rs,
  NoDup (map fst (weave linord a j rs ks)) /\
  forall l, In (Some l) (map fst (weave linord a j rs ks)) -> (fst l = a /\ j <= snd l) \/ In (fst l) (flat_map laddrs ks).
Proof.
  assert (E1 : forall t ol, In ol (map fst (linord t)) -> exists l, ol = Some l /\ In (fst l) (laddrs t)).
  { intros t ol H. apply in_map_iff in H. destruct H as ([ol' r] & <- & H). destruct (linord_addr _ _ _ H) as (a & i & -> & Hin). exists (a, i). auto. }
  intros a ks H. induction H as [|k ks Hk H IH]; intros Hnd Ha j rs; [cbn; split; [constructor|intros l []]|].
  cbn [flat_map weave] in *. rewrite in_app_iff in Ha. apply nodup_app_iff in Hnd. destruct Hnd as (N1 & N2 & N3).
  specialize (Hk N1). specialize (IH N2 ltac:(tauto)). rewrite map_app.
  destruct rs as [|r rs].
  - cbn [map]. rewrite app_nil_r. split; [exact Hk|]. intros l Hl. destruct (E1 _ _ Hl) as (l' & E & Hin). injection E as <-. right. apply in_or_app. auto.
  - cbn [map fst]. destruct (IH (S j) rs) as [I1 I2]. split.
    + apply nodup_app_iff. split; [exact Hk|split].
      * constructor; [|exact I1]. intros Hi. destruct (I2 _ Hi) as [[_ Hs]|Hs]; cbn in Hs; [lia|tauto].
      * intros ol Hol. destruct (E1 _ _ Hol) as (l & -> & Hin). intros [E|Hi].
        -- injection E as <-. cbn in Hin. tauto.
        -- destruct (I2 _ Hi) as [[Hs _]|Hs]; [subst a; tauto|]. exact (N3 _ Hin Hs).
    + intros l Hl. apply in_app_or in Hl. destruct Hl as [Hl|[Hl|Hl]].
      * destruct (E1 _ _ Hl) as (l' & E & Hin). injection E as <-. right. apply in_or_app. auto.
      * injection Hl as <-. left. cbn. auto.
      * destruct (I2 _ Hl) as [[Hs Hs2]|Hs]; [left; split; [auto|lia]|right; apply in_or_app; auto].
Qed.
Lemma linord_nodup : forall t, NoDup (laddrs t) -> NoDup (map fst (linord t)).
Proof.
  induction t as [|a p rs ks IH] using ltree_ind2; intros H; [constructor|]. cbn [laddrs linord] in *.
  apply NoDup_cons_iff in H. destruct H as [Ha Hn]. exact (proj1 (nodup_fst_weave a ks IH Hn Ha 0 rs)).
Qed.

Lemma put_id_at : forall (E : list (option loc * option rid)) i l o r, NoDup (map fst E) -> nth_error E i = Some (Some l, o) ->
  map (put_id l r) E = replace_at i (Some l, Some r) E.
Proof.
  induction E as [|e E IH]; intros [|i] l o r Hn Hi; try discriminate; cbn [nth_error map] in *; apply NoDup_cons_iff in Hn; destruct Hn as [Hx Hn].
  - injection Hi as ->. rewrite replace_at_0. f_equal; [unfold put_id; cbn [fst]; rewrite loc_eqb_refl; reflexivity|].
    clear - Hx. cbn [fst] in Hx. induction E as [|[ol o'] E IH]; [reflexivity|]. cbn [map fst] in *. rewrite IH by (intros H; apply Hx; right; exact H). f_equal.
    unfold put_id. cbn [fst]. destruct ol as [l'|]; [|reflexivity]. destruct (loc_eqb l' l) eqn:E1; [|reflexivity].
    apply loc_eqb_eq in E1. subst l'. destruct Hx. left. reflexivity.
  - rewrite replace_at_S. rewrite (IH i l o r Hn Hi). f_equal. destruct e as [ol o']. unfold put_id. cbn [fst] in *. destruct ol as [l'|]; [|reflexivity].
    destruct (loc_eqb l' l) eqn:E1; [|reflexivity]. apply loc_eqb_eq in E1. subst l'. exfalso. apply Hx. apply nth_error_In in Hi.
    apply in_map_iff. exists (Some l, o). auto.
Qed.

Lemma nth_split3 : forall {T} (l : list T) i y, nth_error l i = Some y -> l = firstn i l ++ y :: skipn (S i) l.
Proof.
  induction l as [|z l IH]; intros [|i] y H; try discriminate; cbn [nth_error firstn skipn app] in *; [congruence|]. f_equal. eauto.
Qed.

(** ** The invariant *)
Section Inv.
  Context {I V : Type} (X : index_ops I) (MAX : Z) (inj : Z -> I) (M : nat) (L : index_laws X MAX inj) (HM : 1 <= M).
  Notation run := (prod V Z) (only parsing).
  Notation rle_rep := (rle_rep inj M).

  Record pinv (t : ptree I V) (hp : heap) (l : list run) : Prop := {
    pi_rep : rle_rep (pt_rle t) l;
    pi_max : (rsum l <= MAX)%Z;
    pi_shape : rshape (pt_rle t) = lshape (pt_nodes t);
    pi_lok : lok M None (pt_nodes t);
    pi_nodup : NoDup (laddrs (pt_nodes t));
    pi_next : Forall (fun a => a < hp_next hp) (laddrs (pt_nodes t));
    pi_sok : Sok (hp_store hp) (linord (pt_nodes t));
    pi_rids : NoDup (rids (lrefs (pt_nodes t)));
    pi_all : forall r, r < length (hp_store hp) -> In r (rids (lrefs (pt_nodes t)));
  }.

  Lemma rle_rep_pos : forall (r : @rle I V) (l : list run), rle_rep r l -> pos_runs l.
  Proof. intros [r|] l H; cbn in H; [destruct H as [H _]; exact (rep_pos _ _ _ _ _ _ H)|subst; constructor]. Qed.
  Lemma rle_rep_count : forall (r : @rle I V) (l : list run), rle_rep r l -> scount (rshape r) = length l.
  Proof.
    intros [r|] l H; cbn [Ins.rle_rep rshape] in *; [|subst; reflexivity]. destruct H as [H _]. rewrite <- count_shape.
    exact (rep_count inj M _ _ _ _ H).
  Qed.
  Lemma pinv_len : forall t hp l, pinv t hp l -> length (lrefs (pt_nodes t)) = length l.
  Proof.
    intros t hp l P. unfold lrefs. rewrite map_length, (linord_len M HM _ _ (pi_lok _ _ _ P)), <- (pi_shape _ _ _ P). exact (rle_rep_count _ _ (pi_rep _ _ _ P)).
  Qed.
  Lemma pinv_empty : forall n, (0 <= MAX)%Z -> pinv (@p_empty I V) {| hp_store := []; hp_next := n |} [].
  Proof.
    intros n H. constructor; cbn; auto; try constructor. intros r Hr. lia.
  Qed.

  Lemma plan_rids : forall pl t R R' i, plan_at pl t R R' i -> (t = SX -> R = []) -> rids R' = rids R.
  Proof.
    intros [|p k|p k|p hk k two lj] t R R' i H H0; cbn [plan_at] in H.
    - destruct H as (Ht & -> & _). rewrite (H0 Ht). reflexivity.
    - destruct H as (_ & ->). reflexivity.
    - destruct H as (_ & _ & ->). rewrite <- (firstn_skipn i R) at 3. rewrite !rids_app. reflexivity.
    - destruct H as (e & _ & _ & -> & _). rewrite <- (firstn_skipn (S e) R) at 3. rewrite !rids_app. destruct two; reflexivity.
  Qed.

  Lemma p_insert_ok : forall (Y : slice_ops I V) nop t hp l hints idx x n l', pinv t hp l -> (0 <= idx <= rsum l)%Z -> (0 < n)%Z -> (rsum l + n <= MAX)%Z ->
    insert_runs Y inj l idx x n = Ok l' ->
    exists t' hp' lc log i, p_insert X Y M nop t hp hints (inj idx) x (inj n) = Ok (t', hp', Some lc, log) /\
      pinv t' hp' l' /\ shift idx n (dec l (lrefs (pt_nodes t))) (dec l' (lrefs (pt_nodes t'))) i /\ i = inserted_at Y inj l idx x /\
      length (hp_store hp') = length (hp_store hp) /\
      (exists b : bool, (b = true <-> left_join_only Y inj l idx x = true /\ exists p k, srank (rshape (pt_rle t)) p k = Some i /\ scond M (rshape (pt_rle t)) p k) /\
        if b then forall k, In (fst lc, k) (lens (pt_nodes t')) -> k <= snd lc else exists o, nth_error (linord (pt_nodes t')) i = Some (Some lc, o)) /\
      (exists m, hp_next hp' = m + hp_next hp /\ Permutation (laddrs (pt_nodes t')) (laddrs (pt_nodes t) ++ seq (hp_next hp) m)) /\
      Forall (fun a => In a (laddrs (pt_nodes t)) \/ hp_next hp <= a < hp_next hp') log.
  Proof.
    intros Y nop t hp l hints idx x n l' P Hi Hn Hm Hl.
    pose proof (insert_with_cursor_ok X Y MAX inj M L HM nop _ _ hints idx x n (pi_rep _ _ _ P) Hi Hn Hm) as E. rewrite Hl in E.
    destruct E as (r' & cur & E & Hr' & _).
    destruct (insert_shape X Y M nop _ _ _ _ _ _ _ E) as (pl & Ep & Es).
    destruct (plan_effect X MAX inj M L HM Y (pt_rle t) l hints idx x n l' (lrefs (pt_nodes t)) (pi_rep _ _ _ P) Hi Hn Hm (pinv_len _ _ _ P) Hl) as (pl' & Ep' & i & R' & Hat & Hlen & Hsh & Hie & Hst).
    rewrite Ep in Ep'. injection Ep' as <-. rewrite (pi_shape _ _ _ P) in Hat, Es. rewrite (pi_shape _ _ _ P) in Hst |- *.
    set (s0 := {| p_store := hp_store hp; p_next := hp_next hp; p_log := []; p_ho := None; p_present := false; p_skip := false |}).
    destruct (run_plan_ok M HM pl (pt_nodes t) s0 R' i (pi_lok _ _ _ P) Hat (pi_sok _ _ _ P) (pi_rids _ _ _ P) (pi_nodup _ _ _ P) (pi_next _ _ _ P) eq_refl eq_refl eq_refl)
      as (lt' & s' & w & Er & Q & Hw).
    destruct Q as [Q1 Q2 Q3 Q4 (m & Qm & Qp) [Q5 Q6] (lg & Qlg & Qlg') Q7].
    assert (Hrids : rids R' = rids (lrefs (pt_nodes t))).
    { apply (plan_rids _ _ _ _ _ Hat). intros H0. apply lshape_SX in H0. rewrite H0. reflexivity. }
    assert (Hho : exists lc, p_ho s' = Some lc /\
      if plan_stale M pl (lshape (pt_nodes t)) then forall k, In (fst lc, k) (lens lt') -> k <= snd lc else exists o, nth_error (linord lt') i = Some (Some lc, o)).
    { destruct (plan_stale M pl (lshape (pt_nodes t))).
      - destruct Hw as (lc & o & -> & _). exists lc. exact Q7.
      - subst w. destruct Q7 as (lc & o & E1 & E2). exists lc. split; [exact E1|]. exists o. exact E2. }
    destruct Hho as (lc & Hho & Hhl).
    exists {| pt_rle := r'; pt_nodes := lt' |}, {| hp_store := p_store s'; hp_next := p_next s' |}, lc, (p_log s'), i.
    cbn [pt_nodes pt_rle hp_store hp_next].
    split.
    { unfold p_insert. rewrite E. cbn [bind]. rewrite Ep. cbn [bind]. fold s0. rewrite Er. cbn [bind]. rewrite Hho. reflexivity. }
    split.
    { constructor; cbn [pt_nodes pt_rle hp_store hp_next].
      - exact Hr'.
      - pose proof (insert_runs_sum Y inj l idx x n l' Hl). lia.
      - rewrite Es. symmetry. exact (run_plan_shape M _ _ _ _ _ (pi_lok _ _ _ P) Er).
      - exact Q5.
      - apply (Permutation_NoDup (Permutation_sym Qp)). cbn [s0 p_next].
        apply nodup_app_iff. split; [exact (pi_nodup _ _ _ P)|]. split; [apply seq_NoDup|]. intros y Hy Hs. apply in_seq in Hs.
        pose proof (pi_next _ _ _ P) as Hf. rewrite Forall_forall in Hf. specialize (Hf _ Hy). lia.
      - rewrite Forall_forall. intros y Hy. apply (Permutation_in _ Qp) in Hy. apply in_app_or in Hy. cbn [s0 p_next] in *. destruct Hy as [Hy|Hy].
        + pose proof (pi_next _ _ _ P) as Hf. rewrite Forall_forall in Hf. specialize (Hf _ Hy). lia.
        + apply in_seq in Hy. lia.
      - exact Q1.
      - rewrite Q2, Hrids. exact (pi_rids _ _ _ P).
      - intros r Hr. rewrite Q2, Hrids. apply (pi_all _ _ _ P). cbn [s0 p_store] in Q3. lia. }
    split; [rewrite Q2; exact Hsh|]. split; [exact Hie|]. split; [exact Q3|]. split; [exists (plan_stale M pl (lshape (pt_nodes t))); split; [exact Hst|exact Hhl]|]. split; [exists m; split; [exact Qm|exact Qp]|].
    rewrite Qlg. cbn [s0 p_log]. rewrite app_nil_r, Forall_forall. intros y Hy. exact (Qlg' _ Hy).
  Qed.

  (** ** Making a reference *)
  Lemma deref_key : forall t hp l a k o i, pinv t hp l -> nth_error (linord (pt_nodes t)) i = Some (Some (a, k), o) ->
    exists h n ln, deref t a = Ok (h, n, ln) /\ nth_error (l_refs ln) k = Some o.
  Proof.
    intros t hp l a k o i P Hi.
    assert (Hl : i < length l).
    { rewrite <- (pinv_len _ _ _ P). unfold lrefs. rewrite map_length. apply nth_error_Some. rewrite Hi. discriminate. }
    destruct (nth_error l i) as [[s z]|] eqn:El; [|apply nth_error_None in El; lia].
    pose proof (nth_split3 _ _ _ El) as E. pose proof (pi_rep _ _ _ P) as Hr. pose proof (pi_shape _ _ _ P) as Hs.
    destruct (pt_rle t) as [r|] eqn:Er; cbn [Ins.rle_rep rshape] in *; [|subst l; cbn in Hl; lia]. destruct Hr as [Hr _].
    assert (Hf : length (firstn i l) = i) by (rewrite firstn_length; lia).
    rewrite <- Hf in Hi.
    destruct (handle_view_ok X MAX inj M L HM t r Er l Hr (pi_max _ _ _ P) Hs (pi_lok _ _ _ P) (pi_nodup _ _ _ P) _ _ _ _ _ _ _ E Hi)
      as (p & h' & n & q & rs & ks & _ & Ho & _ & Ed & _). exists h', n, (LNode a q rs ks). split; [exact Ed|exact Ho].
  Qed.

  Lemma make_ref_ok : forall t hp l lc o i, pinv t hp l -> nth_error (linord (pt_nodes t)) i = Some (Some lc, o) ->
    exists t' hp' r, make_ref t hp lc = Ok (t', hp', r) /\ pinv t' hp' l /\ pt_rle t' = pt_rle t /\
      lrefs (pt_nodes t') = replace_at i (Some r) (lrefs (pt_nodes t)) /\
      (forall r', o = Some r' -> r = r') /\ (o = None -> r = length (hp_store hp)) /\
      map fst (linord (pt_nodes t')) = map fst (linord (pt_nodes t)) /\ length (hp_store hp) <= length (hp_store hp').
  Proof.
    intros t hp l [a k] o i P Hi. destruct (deref_key _ _ _ _ _ _ _ P Hi) as (h & n & ln & Ed & Ho).
    unfold make_ref. cbn [fst snd]. rewrite Ed. cbn [bind]. unfold nth_ub. rewrite Ho. cbn [bind].
    assert (Hlr : nth_error (lrefs (pt_nodes t)) i = Some o) by (unfold lrefs; rewrite nth_error_map, Hi; reflexivity).
    destruct o as [r|].
    - exists t, hp, r. split; [reflexivity|]. split; [exact P|]. split; [reflexivity|]. split; [symmetry; apply replace_at_same; exact Hlr|].
      split; [intros r' E; injection E; auto|]. split; [discriminate|]. split; [reflexivity|lia].
    - set (r := length (hp_store hp)).
      assert (Hlin : linord (set_refid (a, k) r (pt_nodes t)) = replace_at i (Some (a, k), Some r) (linord (pt_nodes t))).
      { rewrite set_refid_linord. exact (put_id_at _ _ _ _ r (linord_nodup _ (pi_nodup _ _ _ P)) Hi). }
      assert (Hrf : lrefs (set_refid (a, k) r (pt_nodes t)) = replace_at i (Some r) (lrefs (pt_nodes t))).
      { unfold lrefs. rewrite Hlin, map_replace_at. reflexivity. }
      assert (Hlt : forall r0, In r0 (rids (lrefs (pt_nodes t))) -> r0 < r) by (intros r0 Hr0; exact (Sok_lt _ _ _ (pi_sok _ _ _ P) Hr0)).
      do 2 eexists. exists r. split; [reflexivity|]. cbn [pt_nodes pt_rle hp_store].
      assert (Hri : rids (lrefs (set_refid (a, k) r (pt_nodes t))) = rids (firstn i (lrefs (pt_nodes t))) ++ r :: rids (skipn (S i) (lrefs (pt_nodes t)))).
      { rewrite Hrf, (replace_at_split _ _ _ _ Hlr), rids_app. reflexivity. }
      assert (Hri0 : rids (lrefs (pt_nodes t)) = rids (firstn i (lrefs (pt_nodes t))) ++ rids (skipn (S i) (lrefs (pt_nodes t)))).
      { rewrite (nth_split3 _ _ _ Hlr) at 1. rewrite rids_app. reflexivity. }
      split; [|split; [reflexivity|split; [exact Hrf|split; [discriminate|split; [reflexivity|split]]]]].
      + constructor; cbn [pt_nodes pt_rle hp_store hp_next].
        * exact (pi_rep _ _ _ P).
        * exact (pi_max _ _ _ P).
        * rewrite set_refid_lshape. exact (pi_shape _ _ _ P).
        * apply set_refid_lok. exact (pi_lok _ _ _ P).
        * rewrite set_refid_laddrs. exact (pi_nodup _ _ _ P).
        * rewrite set_refid_laddrs. exact (pi_next _ _ _ P).
        * rewrite Hlin, (replace_at_split _ _ _ _ Hi).
          pose proof (pi_sok _ _ _ P) as Hs. rewrite (nth_split3 _ _ _ Hi) in Hs.
          assert (Hx : forall E, Sok (hp_store hp) E -> Sok (hp_store hp ++ [Some (a, k)]) E).
          { clear. intros E H. unfold Sok in *. rewrite Forall_forall in *. intros [l0 [r0|]] Hin; [|exact Logic.I]. specialize (H _ Hin). cbn [fst snd] in *.
            rewrite nth_error_app1; [exact H|]. apply nth_error_Some. rewrite H. discriminate. }
          apply Sok_app in Hs. destruct Hs as [Hs1 Hs2]. apply Sok_app. split; [apply Hx; exact Hs1|]. constructor.
          -- cbn [fst snd]. unfold r. rewrite nth_error_app2, Nat.sub_diag by lia. reflexivity.
          -- apply Hx. exact (Forall_inv_tail Hs2).
        * rewrite Hri. apply NoDup_Add with (a := r) (l := rids (lrefs (pt_nodes t))).
          -- rewrite Hri0. apply Add_app.
          -- split; [exact (pi_rids _ _ _ P)|]. intros Hin. specialize (Hlt _ Hin). lia.
        * intros r0 Hr0. rewrite app_length in Hr0. cbn [length] in Hr0. rewrite Hri. apply in_app_iff.
          destruct (Nat.eq_dec r0 r) as [->|Hne]; [right; left; reflexivity|].
          pose proof (pi_all _ _ _ P r0 ltac:(unfold r in Hne; lia)) as Hin. rewrite Hri0 in Hin. apply in_app_iff in Hin. cbn [In]. tauto.
      + rewrite Hlin, map_replace_at. apply replace_at_same. rewrite nth_error_map, Hi. reflexivity.
      + rewrite app_length. lia.
  Qed.
End Inv.
