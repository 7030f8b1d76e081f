(** Proofs about the in-order enumeration, the shape of the tree and `validate`. *)
From Coq Require Import List ZArith Lia Bool Arith.
From Verif Require Import Base Index Slice Tree Insert Spec Order Validate Zip Rep Upd Leaf Path Ops Find Ins IterP IterQ.
Import ListNotations.

Section Order.
  Context {I V : Type}.
  Notation tree := (tree I V).

  Fixpoint hgo (p : list nat) (es : list (I * V * tree)) (k : nat) : list handle :=
    match es with
    | [] => []
    | (_, ch) :: es' => (p, k) :: handles ch (p ++ [S k]) ++ hgo p es' (S k)
    end.

  Lemma handles_Node : forall tot (c0 : tree) es p, handles (Node tot c0 es) p = handles c0 (p ++ [0]) ++ hgo p es 0.
  Proof.
    intros. cbn [handles]. f_equal. generalize 0 as k. induction es as [|[e ch] es IH]; intros k; cbn [hgo]; [reflexivity|].
    rewrite <- IH. reflexivity.
  Qed.

  Lemma handles_length : forall (t : tree) p, length (handles t p) = count t.
  Proof.
    fix IH 1. intros [|tot c0 es] p; [reflexivity|].
    rewrite handles_Node, count_Node, app_length, (IH c0). f_equal. generalize 0 as k.
    induction es as [|[e ch] es IHes]; intros k; cbn [hgo length ecount]; [reflexivity|].
    rewrite app_length, (IH ch), IHes. reflexivity.
  Qed.

  Lemma hgo_child : forall c (c0 : tree) es p k ch, child_of c0 es c = Ok ch -> exists pre post,
    handles c0 (p ++ [k]) ++ hgo p es k = pre ++ handles ch (p ++ [k + c]) ++ post /\ length pre = before c0 es c /\
    (c < length es -> exists post', post = (p, k + c) :: post').
  Proof.
    induction c as [|c IH]; intros c0 es p k ch H; cbn [child_of] in H.
    - inversion H; subst ch. exists [], (hgo p es k). rewrite Nat.add_0_r. split; auto. split; auto.
      intros Hl. destruct es as [|[e ch] es]; [cbn in Hl; lia|]. cbn [hgo]. eauto.
    - destruct es as [|[e c1] es]; [destruct c; discriminate|].
      assert (H' : child_of c1 es c = Ok ch).
      { unfold child_of. destruct c; cbn in *; exact H. }
      destruct (IH c1 es p (S k) ch H') as (pre & post & E & Hl & Hp).
      exists (handles c0 (p ++ [k]) ++ (p, k) :: pre), post. cbn [hgo]. rewrite E. replace (S k + c) with (k + S c) by lia.
      split; [rewrite <- app_assoc; reflexivity|]. split.
      + rewrite app_length, handles_length. cbn [length before]. lia.
      + cbn [length]. intros Hc. destruct (Hp ltac:(lia)) as [post' ->]. replace (S k + c) with (k + S c) by lia. eauto.
  Qed.

  Lemma rank_handles : forall q (t : tree) p k r, rank t q k = Some r -> nth_error (handles t p) r = Some (p ++ q, k).
  Proof.
    induction q as [|c q IH]; intros t p k r H; (destruct t as [|tot c0 es]; [discriminate|]); cbn [rank] in H; rewrite handles_Node.
    - destruct (Nat.ltb_spec k (length es)) as [Hk|]; [|discriminate].
      destruct (child_of c0 es k) as [ch| |] eqn:E; try discriminate. inversion H; subst r.
      destruct (hgo_child _ _ _ p 0 _ E) as (pre & post & -> & Hl & Hp). destruct (Hp Hk) as [post' ->].
      rewrite nth_error_app2 by lia. rewrite nth_error_app2 by (rewrite handles_length; lia).
      rewrite handles_length. replace (before c0 es k + count ch - length pre - count ch) with 0 by lia.
      rewrite app_nil_r. reflexivity.
    - destruct (child_of c0 es c) as [ch| |] eqn:E; try discriminate.
      destruct (rank ch q k) as [r'|] eqn:E2; [|discriminate]. inversion H; subst r.
      destruct (hgo_child _ _ _ p 0 _ E) as (pre & post & -> & Hl & _). cbn [Nat.add].
      rewrite nth_error_app2 by lia. replace (before c0 es c + r' - length pre) with r' by lia.
      pose proof (IH ch (p ++ [c]) k r' E2) as Hn. rewrite nth_error_app1.
      + rewrite Hn, <- app_assoc. reflexivity.
      + apply nth_error_Some. rewrite Hn. discriminate.
  Qed.

  Lemma tracks_path_to : forall (r : @rle I V) cur k, rle_tracks r cur k -> path_to r cur k.
  Proof.
    intros [r|] cur k; cbn; [|tauto]. intros [key H]. exists key. exact (rank_handles _ _ [] _ _ H).
  Qed.
End Order.

Section Shape.
  Context {I V : Type} (X : index_ops I) (MAX : Z) (inj : Z -> I) (M : nat).
  Hypothesis L : index_laws X MAX inj.
  Hypothesis HM : 1 <= M.
  Notation tree := (tree I V).
  Notation run := (prod V Z) (only parsing).
  Notation rep := (@rep I V inj M).
  Notation seg := (@seg I V inj).
  Notation rle_rep := (@rle_rep I V inj M).

  Lemma seg_forallb : forall (R : tree -> list run -> Prop) f off es l, (forall t l, R t l -> f t = true) ->
    seg R off es l -> forallb f (map e_child es) = true.
  Proof.
    intros R f off es l HR H. induction H; cbn [map forallb e_child snd]; auto.
    rewrite (HR _ _ H0), IHseg. reflexivity.
  Qed.

  Lemma rep_shape : forall h lo t l, rep lo h t l -> shape M lo h t = true.
  Proof.
    induction h as [|h IH]; intros lo t l; rewrite rep_nrep; intros (c0 & es & lc & l' & -> & [H1 H2] & H0 & Hs & ->);
      cbn [shape]; destruct (Nat.leb_spec lo (length es)); try lia; destruct (Nat.leb_spec (length es) (2 * M)); try lia; cbn [andb forallb].
    - destruct H0 as [-> ->]. cbn [andb]. eapply seg_forallb; [|exact Hs]. intros t l [-> ->]. reflexivity.
    - cbn [childR] in *. rewrite (IH _ _ _ H0). cbn [andb]. eapply seg_forallb; [|exact Hs]. cbn beta. intros. eapply IH; eauto.
  Qed.

  Lemma seg_min : forall (R : tree -> list run -> Prop) m off es l, (forall t l, R t l -> m <= length l) ->
    seg R off es l -> length es * (m + 1) <= length l.
  Proof.
    intros R m off es l HR H. induction H; cbn [length Nat.mul]; auto.
    rewrite app_length. pose proof (HR _ _ H0). lia.
  Qed.

  Lemma rep_min : forall h lo t l, rep lo h t l -> (lo + 1) * (M + 1) ^ h <= length l + 1.
  Proof.
    induction h as [|h IH]; intros lo t l; rewrite rep_nrep; intros (c0 & es & lc & l' & -> & [H1 H2] & H0 & Hs & ->); rewrite app_length.
    - cbn [Nat.pow]. pose proof (seg_min _ 0 _ _ _ (fun _ _ _ => Nat.le_0_l _) Hs). lia.
    - cbn [childR] in *. set (m := (M + 1) ^ S h - 1).
      assert (Hm : forall t l, rep M h t l -> m <= length l).
      { intros t l Hr. pose proof (IH _ _ _ Hr). unfold m. cbn [Nat.pow]. lia. }
      pose proof (seg_min _ m _ _ _ Hm Hs). pose proof (Hm _ _ H0).
      assert (1 <= (M + 1) ^ S h). { apply Nat.neq_0_lt_0, Nat.pow_nonzero. lia. }
      assert (Em : m + 1 = (M + 1) ^ S h) by (unfold m; lia). rewrite Em in *. nia.
  Qed.

  Lemma rep_height : forall r l, rle_rep (Some r) l -> 2 * (M + 1) ^ r_height r <= r_len r + 1.
  Proof. intros r l [R ->]. apply (rep_min _ _ _ _ R). Qed.

  Local Open Scope Z_scope.

  Lemma check_true : forall b, b = true -> check b = Ok tt.
  Proof. intros b ->. reflexivity. Qed.

  Ltac ck := repeat (rewrite check_true; [cbn [bind]|]).

  Lemma validate_poss_ok : forall es l off p z, seg leafR off es l -> 0 <= p -> 0 < z -> off = p + z -> off + rsum l <= MAX ->
    validate_poss X (inj p) es (inj (off + rsum l)) = Ok tt.
  Proof.
    induction es as [|e es IH]; intros l off p z H Hp Hz Eo Hm; inversion H; subst; cbn [validate_poss rsum].
    - apply check_true. cbn [rsum] in Hm. rewrite (il_ltb _ _ _ L) by lia. lia.
    - match goal with H : leafR _ _ |- _ => destruct H as [-> ->] end.
      cbn [rsum app e_pos fst] in *.
      assert (0 <= rsum l0).
      { apply pos_runs_nonneg. eapply (seg_pos inj); [|eassumption]. intros ? ? [-> ->]. constructor. }
      rewrite check_true by (rewrite (il_ltb _ _ _ L) by lia; lia). cbn [bind].
      replace (p + z + (z0 + rsum l0)) with (p + z + z0 + rsum l0) by lia.
      eapply IH; [match goal with H : Rep.seg _ _ _ es _ |- _ => replace (p + z + z0) with (p + z + z0 + 0) by lia; exact H end|lia|eassumption|lia|lia].
  Qed.

  Lemma rep_size' : forall lo h t l, rep lo h t l -> tsize t = Ok (inj (rsum l)).
  Proof. intros. eapply rep_size; eauto. Qed.

  Lemma validate_keys_ok : forall h (V0 : tree -> res nat), (forall t l, rep M h t l -> rsum l <= MAX -> V0 t = Ok (length l)) ->
    forall es l ch lc p z, seg (rep M h) (p + z + rsum lc) es l -> rep M h ch lc -> 0 <= p -> 0 < z ->
    p + z + rsum lc + rsum l <= MAX ->
    validate_keys X V0 (inj p) ch es (inj (p + z + rsum lc + rsum l)) = Ok (length l).
  Proof.
    intros h V0 HV. induction es as [|e es IH]; intros l ch lc p z H Hc Hp Hz Hm; pose proof (rep_nonneg _ _ _ _ _ _ Hc); inversion H; subst;
      cbn [validate_keys]; rewrite (rep_size' _ _ _ _ Hc); cbn [bind rsum length e_pos fst e_child snd] in *.
    - rewrite check_true by (rewrite (il_ltb _ _ _ L) by lia; lia). cbn [bind].
      rewrite (il_subr _ _ _ L) by lia. cbn [bind]. rewrite check_true by (rewrite (il_ltb _ _ _ L) by lia; lia). reflexivity.
    - rewrite rsum_app in *.
      match goal with H : rep M h ch0 lc0 |- _ => rename H into Hc0; pose proof (rep_nonneg _ _ _ _ _ _ Hc0) end.
      match goal with H : Rep.seg _ _ _ es l0 |- _ => rename H into Hs; pose proof (seg_nonneg _ _ (S h) _ _ _ Hs) end.
      rewrite check_true by (rewrite (il_ltb _ _ _ L) by lia; lia). cbn [bind].
      rewrite (il_subr _ _ _ L) by lia. cbn [bind]. rewrite check_true by (rewrite (il_ltb _ _ _ L) by lia; lia). cbn [bind].
      rewrite (HV _ _ Hc0) by lia. cbn [bind].
      replace (p + z + rsum lc + (z0 + (rsum lc0 + rsum l0))) with (p + z + rsum lc + z0 + rsum lc0 + rsum l0) by lia.
      rewrite (IH l0 ch0 lc0 (p + z + rsum lc) z0); auto; try lia. cbn [bind]. f_equal. rewrite app_length. lia.
  Qed.

  Lemma validate_node_ok : forall h lo t l (root : bool), rep lo h t l -> (1 <= lo)%nat -> (root = false -> lo = M) -> rsum l <= MAX ->
    validate_node X M h root t = Ok (length l).
  Proof.
    induction h as [|h IH]; intros lo t l root R Hlo Hr Hm; pose proof R as R0; rewrite rep_nrep in R;
      destruct R as (c0 & es & lc & l' & Et & [H1 H2] & H0 & Hs & El).
    all: assert (Hlen : tlen t = length es) by (rewrite Et; reflexivity).
    all: cbn [validate_node]; rewrite Hlen.
    all: rewrite check_true by (apply Nat.leb_le; lia); cbn [bind].
    all: rewrite check_true by (destruct root; auto; cbn [orb]; apply Nat.leb_le; rewrite <- Hr by auto; lia); cbn [bind].
    - destruct H0 as [-> ->]. cbn [app rsum] in *. subst l'. unfold validate_leaf. rewrite Et. cbn [tsize bind keys].
      inversion Hs as [|off z s ch lc2 es' l2 Hz Hc H]; subst; [cbn [length] in *; lia|].
      destruct Hc as [-> ->]. cbn [app e_pos fst rsum] in *.
      assert (0 <= rsum l2).
      { apply pos_runs_nonneg. eapply (seg_pos inj); [|eassumption]. intros ? ? [-> ->]. constructor. }
      rewrite check_true by (rewrite (il_zero _ _ _ L), (il_eqb _ _ _ L) by lia; lia). cbn [bind].
      replace (z + rsum l2) with ((0 + z) + rsum l2) by lia.
      rewrite (validate_poss_ok _ l2 (0 + z) 0 z); try lia.
      + cbn [bind]. f_equal. unfold tlen. cbn [keys]. cbn [length]. f_equal. rewrite <- (seg_count inj leafR _ _ _ (childR_count inj M 0) H).
        clear - H. induction H; cbn [ecount length]; auto. destruct H0 as [-> _]. cbn [count]. lia.
      + replace (0 + z) with (0 + z + 0) by lia. exact H.
    - cbn [childR] in *. unfold validate_internal. rewrite Et.
      assert (HV : forall t l, rep M h t l -> rsum l <= MAX -> validate_node X M h false t = Ok (length l)).
      { intros t' l2 R2 Hm2. eapply IH; eauto. }
      assert (Hnn : 0 <= rsum l') by (exact (seg_nonneg _ _ (S h) _ _ _ Hs)). pose proof (rep_nonneg _ _ _ _ _ _ H0).
      rewrite El, rsum_app in Hm. rewrite (HV _ _ H0) by lia. cbn [bind].
      inversion Hs as [|off z s ch lc2 es' l2 Hz Hc H3]; subst es l'; [cbn [length] in *; lia|]. subst off.
      cbn [rsum] in *. rewrite rsum_app in *.
      pose proof (rep_nonneg _ _ _ _ _ _ Hc). assert (0 <= rsum l2) by (exact (seg_nonneg _ _ (S h) _ _ _ H3)).
      rewrite (rep_size' _ _ _ _ H0). cbn [bind e_pos e_child fst snd].
      rewrite check_true by (rewrite (il_eqb _ _ _ L) by lia; lia). cbn [bind].
      rewrite (HV _ _ Hc) by lia. cbn [bind].
      rewrite El. rewrite rsum_app. cbn [rsum]. rewrite rsum_app.
      replace (rsum lc + (z + (rsum lc2 + rsum l2))) with (rsum lc + z + rsum lc2 + rsum l2) by lia.
      rewrite (validate_keys_ok h _ HV es' l2 ch lc2 (rsum lc) z); auto; try lia. cbn [bind]. f_equal.
      rewrite app_length. cbn [length]. rewrite app_length. lia.
  Qed.

  Theorem validate_ok : forall r l, rle_rep r l -> rsum l <= MAX -> validate X M r = Ok tt.
  Proof.
    intros [r|] l H Hm; cbn in *; auto. destruct H as [R Hl].
    rewrite (validate_node_ok _ _ _ _ true R) by (auto; discriminate). cbn [bind]. rewrite Hl, Nat.eqb_refl. reflexivity.
  Qed.
End Shape.
