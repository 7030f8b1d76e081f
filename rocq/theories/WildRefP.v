(** Pointers and references with any index type.  Proof support only. *)
From Coq Require Import List ZArith Lia Bool Arith Permutation.
From Verif Require Import Base Index Slice Tree Insert Range Hist Order Validate Spec Zip Rep Path Find Ins OrderP LTree LInsert LTreeP LUpP LLeafP LShape LShapeP LLenP LUpdP LPlanP LRef LMemP LClimbP LInvP LMemHistP Wild WildP WildQ WildR WildCalls WildPropsP WildRef.
Import ListNotations.

Section EraseSlice.
  Context {I V : Type}.
  Notation tree := (tree I V).
  Lemma shape_erase : forall t : tree, LShape.shape (erase t) = LShape.shape t.
  Proof.
    induction t as [|tot c0 es IH H] using tree_ind4; [reflexivity|]. rewrite erase_node. cbn [LShape.shape]. rewrite IH. do 2 f_equal.
    rewrite map_map. induction H as [|e es He H IHe]; [reflexivity|]. cbn [map]. unfold ere at 1. cbn [snd]. rewrite He, IHe. reflexivity.
  Qed.
  Lemma handles_rank : forall (t : tree) j p k, nth_error (handles t []) j = Some (p, k) -> rank t p k = Some j.
  Proof.
    intros t j p k H. assert (L : j < scount (LShape.shape t)) by (rewrite <- count_shape, <- (handles_length t []); apply nth_error_Some; congruence).
    destruct (srank_surj _ _ L) as (p' & k' & E). rewrite <- rank_shape in E. pose proof (rank_handles _ _ [] _ _ E) as E2. rewrite H in E2. cbn [app] in E2. injection E2 as -> ->. exact E.
  Qed.
  Lemma erase_child_of : forall (t : tree) c, child (erase t) c = match child t c with Ok ch => Ok (erase ch) | Panic y => Panic y | UB => UB end.
  Proof.
    intros [|tot c0 es] [|c]; try reflexivity. rewrite erase_node. cbn [child child_of]. unfold nth_ub. rewrite nth_error_map.
    destruct (nth_error es c); reflexivity.
  Qed.
  Lemma erase_hslice : forall (t : tree) a, handle_slice (erase t) a = handle_slice t a.
  Proof.
    intros t [p k]. unfold handle_slice. cbn [fst snd]. revert t. induction p as [|c p IH]; intros t; cbn [node_at].
    - cbn [bind]. unfold slice_at. destruct t as [|tot c0 es]; [cbn; destruct k; reflexivity|]. rewrite erase_node. cbn [keys]. unfold nth_ub. rewrite nth_error_map.
      destruct (nth_error es k); reflexivity.
    - rewrite erase_child_of. destruct (child t c); try reflexivity. cbn [bind]. apply IH.
  Qed.
End EraseSlice.

(** ** Slices away from the place of an insertion *)
Lemma runs_outside : forall {I V : Type} (Y : slice_ops I V) (inj : Z -> I) x (sl : list V) e i l',
  insert_runs Y inj (map two sl) i x 1 = Ok l' -> e <= length sl ->
  (i = (2 * Z.of_nat e)%Z \/ exists j, e = S j /\ i = (2 * Z.of_nat j + 1)%Z) ->
  length sl <= length l' /\ forall m, (m + 1 < e -> nth_error l' m = nth_error (map two sl) m) /\
    (e < m -> nth_error l' (m + (length l' - length sl)) = nth_error (map two sl) m).
Proof.
  intros I V Y inj x.
  assert (T : forall (P T : list (V * Z)) m c n, n = c + length T -> c <= length P -> c <= m -> nth_error (P ++ T) (m + (length (P ++ T) - n)) = nth_error T (m - c)).
  { intros P T m c n -> H Hm. rewrite app_length. replace (m + (length P + length T - (c + length T))) with (length P + (m - c)) by lia.
    rewrite nth_error_app2 by lia. f_equal. lia. }
  induction sl as [|s sl IH]; intros e i l' E He Hi; pose proof (runs_growth _ _ _ _ _ _ _ E) as (G & _); rewrite map_length in G; split; try lia; cbn [map insert_runs] in E.
  - intros m. cbn [length] in *. split; [lia|]. intros H. rewrite (proj2 (nth_error_None l' _)) by lia. symmetry. apply nth_error_None. cbn. lia.
  - intros m. cbn [fst snd length map] in *. change (two s) with (s, 2%Z) in E. cbn [insert_runs] in E.
    destruct (Z.eqb_spec i 0) as [->|N0].
    { destruct (place Y None x 1 (Some (s, 2%Z))) as [r| |] eqn:Er; try discriminate. cbn [bind] in E. injection E as <-.
      assert (e = 0) by (destruct Hi as [Hi|(j & -> & Hi)]; lia). subst e. split; [lia|]. intros Hm. rewrite app_length, map_length in G.
      rewrite (T r (map two sl) m 1 (S (length sl))) by (rewrite ?map_length; lia).
      destruct m as [|m]; [lia|]. cbn [nth_error]. f_equal. lia. }
    destruct (Z.ltb_spec i 2) as [L2|L2].
    { injection E as <-. assert (e = 1) by (destruct Hi as [Hi|(j & -> & Hi)]; lia). subst e. split; [lia|]. intros Hm. rewrite app_length, map_length in G.
      rewrite (T _ (map two sl) m 1 (S (length sl))) by (rewrite ?map_length; lia).
      destruct m as [|m]; [lia|]. cbn [nth_error]. f_equal. lia. }
    destruct (Z.eqb_spec i 2) as [->|N2].
    { assert (e = 1) by (destruct Hi as [Hi|(j & -> & Hi)]; lia). subst e. split; [lia|]. intros Hm. destruct sl as [|c sl]; cbn [map] in *.
      - rewrite (proj2 (nth_error_None l' _)) by (cbn [length] in *; lia). symmetry. apply nth_error_None. cbn. lia.
      - destruct (place Y (Some (s, 2%Z)) x 1 (Some (two c))) as [r| |] eqn:Er; try discriminate. cbn [bind] in E. injection E as <-.
        rewrite app_length, map_length in G. cbn [length] in *. rewrite (T r (map two sl) m 2 (S (S (length sl)))) by (rewrite ?map_length; lia).
        destruct m as [|[|m]]; try lia. cbn [nth_error]. f_equal. lia. }
    destruct (insert_runs Y inj (map two sl) (i - 2) x 1) as [r| |] eqn:Er; try discriminate. cbn [bind] in E. injection E as <-.
    destruct e as [|e]; [exfalso; destruct Hi as [Hi|(j & Hj & Hi)]; lia|].
    destruct (IH e (i - 2)%Z r Er ltac:(lia)) as [Gl IHm].
    { destruct Hi as [Hi|(j & Hj & Hi)]; [left; lia|]. destruct j as [|j]; [lia|]. right. exists j. lia. }
    cbn [length] in *. split; intros Hm.
    + destruct m as [|m]; [reflexivity|]. cbn [nth_error]. apply IHm. lia.
    + destruct m as [|m]; [lia|]. cbn [Nat.sub plus nth_error]. apply IHm. lia.
Qed.

Section WildRef.
  Context {I V : Type} (M : nat) (HM : 1 <= M).
  Notation tree := (tree I V).
  Notation vshape := (@Validate.shape I V M).

  Lemma vshape_hsh : forall h lo (t : tree), vshape lo h t = true -> hsh h (LShape.shape t).
  Proof.
    intros h lo t H. destruct (good_tree M h lo t H) as (g & Eg & Rg). pose proof (rep_hsh _ _ _ _ _ _ Rg) as Hg.
    rewrite <- shape_erase, <- Eg. clear - Hg. revert Hg. generalize (hsh h). intros P.
    rewrite shape_erase. auto.
  Qed.

  Lemma rank_vh : forall p (t : tree) k r, rank t p k = Some r -> exists n, node_at t p = Ok n /\ k < tlen n.
  Proof.
    induction p as [|c p IH]; intros [|tot c0 es] k r H; try discriminate; cbn [rank] in H.
    - exists (Node tot c0 es). split; [reflexivity|]. unfold tlen. cbn [keys]. destruct (Nat.ltb_spec k (length es)); [assumption|discriminate].
    - cbn [node_at child]. destruct (child_of c0 es c) as [ch| |]; try discriminate. cbn [bind].
      destruct (rank ch p k) as [r'|] eqn:E; [|discriminate]. exact (IH _ _ _ E).
  Qed.

  Section Plan.
    Context (X : index_ops I) (Y : slice_ops I V) (HX : index_any X).

    (** The plan of an insertion fits the tree. *)
    Lemma wild_plan : forall r hints idx x pl (R : list (option rid)) e0 z0, rle_shape M r -> insert_plan X Y r hints idx x = Ok pl ->
      at_place X Y r hints idx e0 z0 -> (rshape r = SX -> R = []) ->
      exists R' i d, plan_at pl (rshape r) R R' i /\ d <= 2 /\ R' = firstn e0 R ++ repeat None d ++ skipn e0 R.
    Proof.
      intros r hints idx x pl R e0 z0 Hr E Hpl HR.
      assert (J0 : R = firstn e0 R ++ repeat None 0 ++ skipn e0 R) by (cbn [repeat app]; symmetry; apply firstn_skipn).
      destruct r as [[h t len]|]; cbn [insert_plan rshape r_height r_node] in *.
      2: { injection E as <-. destruct Hpl as [-> _]. rewrite (HR eq_refl). exists [None], 0, 1. cbn. auto. }
      cbn [at_place r_height r_node] in Hpl.
      destruct Hr as [Hs _]. cbn [r_height r_node] in Hs. pose proof (vshape_hsh _ _ _ Hs) as Hh.
      pose proof (p_find_root X M M HX Y 1 h t hints idx) as Hip. rewrite shape_wshape in Hip. specialize (Hip Hs).
      destruct (find_insertion_point X Y h t hints idx [] None None) as [ip| |]; try discriminate. cbn [bind post] in *.
      destruct ip as [p k a b|p hk k q]; cbn [wpoint] in Hip.
      - destruct Hip as (e & E1 & E2 & E3 & E4).
        destruct (edge_join Y t a b x) as [j| |] eqn:Ej; try discriminate. cbn [bind] in E. injection E as <-.
        destruct j as [j|].
        + assert (Hk : exists i, srank (LShape.shape t) (fst j) (snd j) = Some i); [|destruct Hk as [i Hk]; exists R, i, 0; cbn [plan_at]; auto].
          rewrite <- rank_shape. unfold edge_join in Ej. destruct (sl_may_join Y); [|discriminate]. cbn [negb] in Ej.
          destruct (E4 eq_refl) as [Ha Hb].
          assert (Fa : forall la, a = Some la -> exists i, rank t (fst la) (snd la) = Some i).
          { intros [pa ka] ->. cbn [lhs_ok] in Ha. destruct Ha as (i & _ & Ha). exists i. exact Ha. }
          assert (Fb : forall la, b = Some la -> exists i, rank t (fst la) (snd la) = Some i).
          { intros [pa ka] ->. cbn [rhs_ok] in Hb. exists e. exact Hb. }
          destruct a as [la|]; destruct b as [ra|]; try discriminate.
          all: repeat match type of Ej with (bind ?m _) = _ => destruct m; try discriminate; cbn [bind] in Ej | (match ?m with _ => _ end) = _ => destruct m as [?|[? ?]]; try discriminate end.
          all: injection Ej as <-; auto.
        + destruct Hpl as [Hpl _]. rewrite E1 in Hpl. injection Hpl as <-.
          exists (firstn e R ++ [None] ++ skipn e R), e, 1. cbn [plan_at]. rewrite E2, <- erank_shape. split; [auto|]. split; [lia|reflexivity].
      - destruct Hip as (i & E1 & E2 & E3). unfold split_plan in E. destruct Hpl as (i' & -> & Hpl & _). rewrite E1 in Hpl. injection Hpl as <-.
        assert (Hp : length p <= h).
        { destruct (rank_vh _ _ _ _ E1) as (n & N1 & N2). rewrite <- shape_wshape in Hs. exact (proj1 (vh_shape M M _ _ _ _ _ _ Hs N1 N2)). }
        assert (G : forall two lj, (lj = true -> two = false) -> exists R' i0 d, plan_at (PRhs p hk k two lj) (LShape.shape t) R R' i0 /\ d <= 2 /\ R' = firstn (S i) R ++ repeat None d ++ skipn (S i) R).
        { intros two lj Hlj. exists (firstn (S i) R ++ news two ++ skipn (S i) R). eexists. exists (if two then 2 else 1). split; [|split; [destruct two; lia|destruct two; reflexivity]]. cbn [plan_at]. exists i. rewrite <- rank_shape. split; [exact E1|]. split; [|split; [reflexivity|split; [reflexivity|exact Hlj]]].
          rewrite E2. replace (length p + (h - length p)) with h by lia. exact Hh. }
        destruct (handle_slice t (p, k)); try discriminate. cbn [bind] in E. destruct (sl_split_at Y a q) as [lhs rhs].
        assert (J : exists R' i0 d, plan_at (PJoin p k) (LShape.shape t) R R' i0 /\ d <= 2 /\ R' = firstn (S i) R ++ repeat None d ++ skipn (S i) R)
          by (exists R, i, 0; cbn [plan_at]; rewrite <- rank_shape; auto).
        destruct (negb (sl_may_join Y)); [injection E as <-; apply G; discriminate|].
        destruct (sl_try_join Y lhs x) as [mid|[l s]].
        + destruct (sl_try_join Y mid rhs); injection E as <-; [exact J|apply G; reflexivity].
        + destruct (sl_try_join Y s rhs); injection E as <-; apply G; discriminate.
    Qed.
  End Plan.

  (** ** The invariant, without the positions *)
  Record winv (t : ptree I V) (hp : heap) : Prop := {
    wi_tree : rle_shape M (pt_rle t);
    wi_shape : rshape (pt_rle t) = lshape (pt_nodes t);
    wi_lok : lok M None (pt_nodes t);
    wi_nodup : NoDup (laddrs (pt_nodes t));
    wi_next : Forall (fun a => a < hp_next hp) (laddrs (pt_nodes t));
    wi_sok : Sok (hp_store hp) (linord (pt_nodes t));
    wi_rids : NoDup (rids (lrefs (pt_nodes t)));
    wi_all : forall r, r < length (hp_store hp) -> In r (rids (lrefs (pt_nodes t)));
  }.

  Lemma winv_empty : forall n, winv (@p_empty I V) {| hp_store := []; hp_next := n |}.
  Proof. intros n. constructor; cbn; auto; try constructor. intros r Hr. lia. Qed.

  Lemma winv_len : forall t hp, winv t hp -> length (lrefs (pt_nodes t)) = length (rle_slices (pt_rle t)).
  Proof.
    intros t hp P. unfold lrefs. rewrite map_length, (linord_len M HM _ _ (wi_lok _ _ P)), <- (wi_shape _ _ P).
    destruct (pt_rle t) as [r|]; [|reflexivity]. cbn [rshape rle_slices]. rewrite <- count_shape. symmetry. apply slices_count.
  Qed.

  (** What an insertion does to references and slices away from the place of the insertion. *)
  Definition moved (old new : @rle I V) (R R' : list (option rid)) : Prop :=
    exists e d, e <= length (rle_slices old) /\ d <= 2 /\ length (rle_slices new) = length (rle_slices old) + d /\
      R' = firstn e R ++ repeat None d ++ skipn e R /\
      forall m, (m + 1 < e -> nth_error (rle_slices new) m = nth_error (rle_slices old) m) /\
        (e < m -> nth_error (rle_slices new) (m + d) = nth_error (rle_slices old) m).

  Lemma winv_insert : forall X Y nop t hp hints idx x n, index_any X -> winv t hp ->
    post (fun q => let '(t', hp', _, _) := q in winv t' hp' /\ length (hp_store hp') = length (hp_store hp) /\
      moved (pt_rle t) (pt_rle t') (lrefs (pt_nodes t)) (lrefs (pt_nodes t')))
      (p_insert X Y M nop t hp hints idx x n).
  Proof.
    intros X Y nop t hp hints idx x n HX P. unfold p_insert.
    eapply post_bind; [apply (wild_insert_at M X Y HX HM), (wi_tree _ _ P)|]. intros [r' cur] E (Hr' & _ & e & z & q & l' & Hpl & He & Hins & Hsl). cbn [fst] in Hr', Hsl.
    destruct (insert_shape X Y M nop _ _ _ _ _ _ _ E) as (pl & Ep & Es). rewrite Ep. cbn [bind].
    assert (H00 : rshape (pt_rle t) = SX -> lrefs (pt_nodes t) = []) by (rewrite (wi_shape _ _ P); intros H0; apply lshape_SX in H0; rewrite H0; reflexivity).
    destruct (wild_plan X Y HX _ _ _ _ _ (lrefs (pt_nodes t)) _ _ (wi_tree _ _ P) Ep Hpl H00) as (R' & i & d & Hat & Hd & HR').
    rewrite (wi_shape _ _ P) in Hat, Es.
    set (s0 := {| p_store := hp_store hp; p_next := hp_next hp; p_log := []; p_ho := None; p_present := false; p_skip := false |}).
    destruct (run_plan_ok M HM pl (pt_nodes t) s0 R' i (wi_lok _ _ P) Hat (wi_sok _ _ P) (wi_rids _ _ P) (wi_nodup _ _ P) (wi_next _ _ P) eq_refl eq_refl eq_refl)
      as (lt' & s' & w & Er & Q & _).
    destruct Q as [Q1 Q2 Q3 Q4 (m & Qm & Qp) [Q5 Q6] _ _]. rewrite Er. cbn [bind post].
    assert (H0 : lshape (pt_nodes t) = SX -> lrefs (pt_nodes t) = []) by (intros H0; apply lshape_SX in H0; rewrite H0; reflexivity).
    pose proof (plan_rids _ _ _ _ _ Hat H0) as Hrids.
    assert (W : winv {| pt_rle := r'; pt_nodes := lt' |} {| hp_store := p_store s'; hp_next := p_next s' |}).
    2: { split; [exact W|]. split; [exact Q3|].
         assert (Hz : z = (2 * Z.of_nat e)%Z \/ exists j, e = S j /\ z = (2 * Z.of_nat j + 1)%Z).
         { destruct (pt_rle t) as [r0|]; cbn [at_place] in Hpl; [|destruct Hpl as [-> ->]; left; reflexivity].
           destruct (find_insertion_point X Y (r_height r0) (r_node r0) hints idx [] None None) as [[? ? ? ?|? ? ? ?]| |]; try contradiction; [left; tauto|].
           destruct Hpl as (j & A & _ & B). right. exists j. auto. }
         destruct (runs_outside _ _ _ _ _ _ _ Hins He Hz) as [Gl Hm]. pose proof (winv_len _ _ P) as L1. pose proof (winv_len _ _ W) as L2. cbn [pt_nodes pt_rle] in *.
         assert (Ed : length l' = length (rle_slices (pt_rle t)) + d).
         { rewrite Hsl, map_length in L2. rewrite <- L2, <- L1, Q2, HR', !app_length, repeat_length, firstn_length, skipn_length. lia. }
         exists e, d. split; [exact He|]. split; [exact Hd|]. split; [rewrite Hsl, map_length; exact Ed|]. split; [rewrite Q2; exact HR'|].
         intros m0. destruct (Hm m0) as [M1 M2]. rewrite Hsl, !nth_error_map. split; intros Hlt.
         - rewrite (M1 Hlt), nth_error_map. destruct (nth_error (rle_slices (pt_rle t)) m0); reflexivity.
         - specialize (M2 Hlt). replace (m0 + (length l' - length (rle_slices (pt_rle t)))) with (m0 + d) in M2 by lia. rewrite M2, nth_error_map. destruct (nth_error (rle_slices (pt_rle t)) m0); reflexivity. }
    constructor; cbn [pt_nodes pt_rle hp_store hp_next].
    - exact Hr'.
    - rewrite Es. symmetry. exact (run_plan_shape M _ _ _ _ _ (wi_lok _ _ P) Er).
    - exact Q5.
    - apply (Permutation_NoDup (Permutation_sym Qp)). cbn [s0 p_next].
      apply nodup_app_iff. split; [exact (wi_nodup _ _ P)|]. split; [apply seq_NoDup|]. intros y Hy Hs. apply in_seq in Hs.
      pose proof (wi_next _ _ P) as Hf. rewrite Forall_forall in Hf. specialize (Hf _ Hy). lia.
    - rewrite Forall_forall. intros y Hy. apply (Permutation_in _ Qp) in Hy. apply in_app_or in Hy. cbn [s0 p_next] in *. destruct Hy as [Hy|Hy].
      + pose proof (wi_next _ _ P) as Hf. rewrite Forall_forall in Hf. specialize (Hf _ Hy). lia.
      + apply in_seq in Hy. lia.
    - exact Q1.
    - rewrite Q2, Hrids. exact (wi_rids _ _ P).
    - intros r Hr. rewrite Q2, Hrids. apply (wi_all _ _ P). cbn [s0 p_store] in Q3. lia.
  Qed.

  (** ** Places *)
  Lemma rank_slice : forall h lo (t : tree) p k i, vshape lo h t = true -> rank t p k = Some i ->
    exists s, handle_slice t (p, k) = Ok s /\ nth_error (slices t) i = Some s.
  Proof.
    intros h lo t p k i Hs Hr. destruct (good_tree M h lo t Hs) as (g & Eg & Rg).
    assert (Rk : rank g p k = Some i) by (rewrite <- (erase_rank p g), Eg, erase_rank; exact Hr).
    destruct (handle_view (fun z => z) M HM _ _ _ _ _ _ _ Rg Rk) as (lo' & h' & n' & ln & la & lb & A & s & z & B & F & K & El & El3 & Hz).
    exists s. split.
    - destruct (focus_facts (fun z => z) M HM _ _ _ _ _ _ _ _ _ _ _ F) as (_ & Rn & _ & _ & En).
      assert (Eh : handle_slice g (p, k) = Ok s).
      { unfold handle_slice. cbn [fst snd]. rewrite En. cbn [bind].
        pose proof (rep_nonneg _ _ _ _ _ _ Rn) as N0.
        exact (proj1 (proj2 (keyat_size (wrapping_ops (rsum ln)) (rsum ln) (fun z => z) M (wrapping_laws _ N0) HM _ _ _ _ _ _ _ _ _ K ltac:(lia)))). }
      rewrite <- erase_hslice, <- Eg, erase_hslice. exact Eh.
    - assert (Es : map fst (map (@two V) (slices t)) = slices t) by apply two_fst.
      rewrite <- Es, El3. rewrite map_app, nth_error_app2 by (rewrite map_length, app_length; lia). rewrite map_length, app_length.
      replace (i - (length la + length A)) with 0 by lia. reflexivity.
  Qed.

  Lemma child_kid : forall (t : tree) c ch, child t c = Ok ch -> c <= tlen t.
  Proof.
    intros [|tot c0 es] c ch E; [discriminate|]. unfold tlen. cbn [keys].
    destruct c as [|c]; [lia|]. cbn [child child_of] in E. unfold nth_ub in E. destruct (nth_error es c) eqn:En; [|discriminate].
    assert (c < length es) by (apply nth_error_Some; congruence). lia.
  Qed.
  Lemma lshape_node : forall (n : tree) a q rs ks, LShape.shape n = lshape (LNode a q rs ks) -> exists tot c0 es, n = Node tot c0 es.
  Proof. intros [|tot c0 es] a q rs ks H; [discriminate|eauto]. Qed.

  Lemma wild_climb : forall X (t : ptree I V) r, index_any X -> pt_rle t = Some r -> LShape.shape (r_node r) = lshape (pt_nodes t) ->
    lok M None (pt_nodes t) -> NoDup (laddrs (pt_nodes t)) ->
    forall p fuel h' n a q rs ks pos, at_path (r_height r) (pt_nodes t) (r_node r) p = Some (h', n, LNode a q rs ks) -> length p < fuel ->
    post (fun _ => True) (climb_pos X fuel t a pos).
  Proof.
    intros X t r HX Er Es Hok Hnd. induction p as [|c p IH] using rev_ind; intros fuel h' n a q rs ks pos H Hf.
    - destruct fuel as [|fuel]; [cbn in Hf; lia|]. cbn [climb_pos]. rewrite (deref_at _ _ _ _ _ _ _ _ _ Er Es Hnd H). cbn [bind l_par].
      rewrite (at_path_root M _ _ _ _ _ _ _ _ _ _ Hok H). exact Logic.I.
    - destruct fuel as [|fuel]; [cbn in Hf; lia|]. cbn [climb_pos]. rewrite (deref_at _ _ _ _ _ _ _ _ _ Er Es Hnd H). cbn [bind l_par].
      destruct (at_path_par M HM _ _ _ _ _ _ _ _ _ _ _ _ Hok Es H) as (h2 & n2 & a2 & q2 & rs2 & ks2 & H2 & -> & Hc).
      rewrite (deref_at _ _ _ _ _ _ _ _ _ Er Es Hnd H2). cbn [bind].
      destruct (at_path_lok M HM _ _ _ _ _ _ _ _ _ _ _ Hok Es H) as (_ & S1 & _). destruct (lshape_node _ _ _ _ _ S1) as (tot & c0 & es & ->).
      destruct (at_path_lok M HM _ _ _ _ _ _ _ _ _ _ _ Hok Es H2) as (_ & S2 & _). destruct (lshape_node _ _ _ _ _ S2) as (tot2 & c2 & es2 & ->).
      eapply post_bind with (P := fun _ => True).
      { unfold child_pos, child_size. rewrite Hc. cbn [bind tsize]. eapply post_bind with (P := fun _ => True).
        - unfold key_pos_or_end. destruct (try_key_pos _ _); exact Logic.I.
        - intros nk _ _. apply (p_subr X HX). }
      intros cp _ _. eapply post_bind; [apply (p_addl X HX)|]. intros pos' _ _.
      apply (IH _ _ _ _ _ _ _ _ H2). rewrite app_length in Hf. cbn [length] in Hf. lia.
  Qed.

  Lemma wild_place : forall (t : ptree I V) hp a k o i, winv t hp -> nth_error (linord (pt_nodes t)) i = Some (Some (a, k), o) ->
    exists r h' n ln s p, pt_rle t = Some r /\ deref t a = Ok (h', n, ln) /\ nth_error (l_refs ln) k = Some o /\
      handle_value t (a, k) = Ok s /\ nth_error (rle_slices (pt_rle t)) i = Some s /\
      handle_cursor false t (a, k) = Ok p /\ nth_error (handles (r_node r) []) i = Some (p, k) /\
      forall X, index_any X -> handle_range X t (a, k) <> UB.
  Proof.
    intros t hp a k o i P Hi.
    assert (Hlen : i < scount (lshape (pt_nodes t))).
    { rewrite <- (linord_len M HM _ _ (wi_lok _ _ P)). apply nth_error_Some. rewrite Hi. discriminate. }
    pose proof (wi_shape _ _ P) as Es. pose proof (wi_tree _ _ P) as Ht. pose proof (wi_lok _ _ P) as Hok. pose proof (wi_nodup _ _ P) as Hnd.
    destruct (pt_rle t) as [r|] eqn:Er; cbn [rshape] in Es; [|rewrite <- Es in Hlen; cbn in Hlen; lia].
    destruct Ht as [Ht _].
    destruct (srank_surj _ _ Hlen) as (p & k' & Ep).
    destruct (rank_at M HM p (r_height r) _ (r_node r) _ _ _ Hok Es Ep) as (n & a' & q & rs & ks & o' & H & Ho & Hl & Hna).
    rewrite Hi in Hl. injection Hl as <- <- <-.
    assert (Er' : rank (r_node r) p k = Some i) by (rewrite rank_shape, Es; exact Ep).
    pose proof (deref_at _ _ _ _ _ _ _ _ _ Er Es Hnd H) as Ed.
    destruct (rank_slice _ _ _ _ _ _ Ht Er') as (s & Hs1 & Hs2).
    destruct (rank_vh _ _ _ _ Er') as (n' & N1 & N2). rewrite Hna in N1. injection N1 as <-.
    rewrite <- shape_wshape in Ht. destruct (vh_shape M M _ _ _ _ _ _ Ht Hna N2) as (Hp & lo' & Hn).
    assert (Hlv : length p < levels t) by (unfold levels; rewrite Er; lia).
    exists r, (r_height r - length p), n, (LNode a q rs ks), s, p. split; [reflexivity|]. split; [exact Ed|]. split; [exact Ho|].
    split; [|split; [exact Hs2|split; [|split]]].
    - unfold handle_value. cbn [fst snd]. rewrite Ed. cbn [bind]. unfold handle_slice in Hs1. cbn [fst snd] in Hs1. rewrite Hna in Hs1. exact Hs1.
    - unfold handle_cursor. cbn [fst]. rewrite (climb_path_ok M HM t r Er Es Hok Hnd _ _ _ _ _ _ _ _ [] H Hlv), app_nil_r. reflexivity.
    - exact (rank_handles _ _ [] _ _ Er').
    - intros X HX. eapply post_nub with (P := fun _ => True). unfold handle_range. cbn [fst snd]. rewrite Ed. cbn [bind].
      eapply post_bind; [apply p_key_pos, N2|]. intros pos _ _. eapply post_bind; [eapply (p_slice_size X M M HX), N2; exact Hn|]. intros sz _ _.
      eapply post_bind; [eapply (wild_climb X t r HX Er Es Hok Hnd), Hlv; exact H|]. intros pos' _ _.
      eapply post_bind; [apply (p_addr X HX)|]. intros. exact Logic.I.
  Qed.

  (** ** Making a reference *)
  Lemma winv_ref : forall t hp lc o i, winv t hp -> nth_error (linord (pt_nodes t)) i = Some (Some lc, o) ->
    exists t' hp' r, make_ref t hp lc = Ok (t', hp', r) /\ winv t' hp' /\ pt_rle t' = pt_rle t /\
      lrefs (pt_nodes t') = replace_at i (Some r) (lrefs (pt_nodes t)) /\
      (forall r', o = Some r' -> r = r') /\ r < length (hp_store hp') /\ length (hp_store hp) <= length (hp_store hp') /\
      (forall r' j, nth_error (lrefs (pt_nodes t)) j = Some (Some r') -> nth_error (lrefs (pt_nodes t')) j = Some (Some r')).
  Proof.
    intros t hp [a k] o i P Hi. destruct (wild_place _ _ _ _ _ _ P Hi) as (_ & h & n & ln & _ & _ & _ & Ed & Ho & _).
    unfold make_ref. cbn [fst snd]. rewrite Ed. cbn [bind]. unfold nth_ub. rewrite Ho. cbn [bind].
    assert (Hlr : nth_error (lrefs (pt_nodes t)) i = Some o) by (unfold lrefs; rewrite nth_error_map, Hi; reflexivity).
    destruct o as [r|].
    - exists t, hp, r. split; [reflexivity|]. split; [exact P|]. split; [reflexivity|]. split; [symmetry; apply replace_at_same; exact Hlr|].
      split; [intros r' E; injection E; auto|]. split; [|split; [lia|auto]].
      refine (Sok_lt _ _ _ (wi_sok _ _ P) _). apply in_rids. apply nth_error_In with i. exact Hlr.
    - set (r := length (hp_store hp)).
      assert (Hlin : linord (set_refid (a, k) r (pt_nodes t)) = replace_at i (Some (a, k), Some r) (linord (pt_nodes t))).
      { rewrite set_refid_linord. exact (put_id_at _ _ _ _ r (linord_nodup _ (wi_nodup _ _ P)) Hi). }
      assert (Hrf : lrefs (set_refid (a, k) r (pt_nodes t)) = replace_at i (Some r) (lrefs (pt_nodes t))).
      { unfold lrefs. rewrite Hlin, map_replace_at. reflexivity. }
      assert (Hlt : forall r0, In r0 (rids (lrefs (pt_nodes t))) -> r0 < r) by (intros r0 Hr0; exact (Sok_lt _ _ _ (wi_sok _ _ P) Hr0)).
      do 2 eexists. exists r. split; [reflexivity|]. cbn [pt_nodes pt_rle hp_store].
      assert (Hri : rids (lrefs (set_refid (a, k) r (pt_nodes t))) = rids (firstn i (lrefs (pt_nodes t))) ++ r :: rids (skipn (S i) (lrefs (pt_nodes t)))).
      { rewrite Hrf, (replace_at_split _ _ _ _ Hlr), rids_app. reflexivity. }
      assert (Hri0 : rids (lrefs (pt_nodes t)) = rids (firstn i (lrefs (pt_nodes t))) ++ rids (skipn (S i) (lrefs (pt_nodes t)))).
      { rewrite (nth_split3 _ _ _ Hlr) at 1. rewrite rids_app. reflexivity. }
      split; [|split; [reflexivity|split; [exact Hrf|split; [discriminate|split; [|split]]]]].
      + constructor; cbn [pt_nodes pt_rle hp_store hp_next].
        * exact (wi_tree _ _ P).
        * rewrite set_refid_lshape. exact (wi_shape _ _ P).
        * apply set_refid_lok. exact (wi_lok _ _ P).
        * rewrite set_refid_laddrs. exact (wi_nodup _ _ P).
        * rewrite set_refid_laddrs. exact (wi_next _ _ P).
        * rewrite Hlin, (replace_at_split _ _ _ _ Hi).
          pose proof (wi_sok _ _ P) as Hs. rewrite (nth_split3 _ _ _ Hi) in Hs.
          assert (Hx : forall E, Sok (hp_store hp) E -> Sok (hp_store hp ++ [Some (a, k)]) E).
          { clear. intros E H. unfold Sok in *. rewrite Forall_forall in *. intros [l0 [r0|]] Hin; [|exact Logic.I]. specialize (H _ Hin). cbn [fst snd] in *.
            rewrite nth_error_app1; [exact H|]. apply nth_error_Some. rewrite H. discriminate. }
          apply Sok_app in Hs. destruct Hs as [Hs1 Hs2]. apply Sok_app. split; [apply Hx; exact Hs1|]. constructor.
          -- cbn [fst snd]. unfold r. rewrite nth_error_app2, Nat.sub_diag by lia. reflexivity.
          -- apply Hx. exact (Forall_inv_tail Hs2).
        * rewrite Hri. apply NoDup_Add with (a := r) (l := rids (lrefs (pt_nodes t))).
          -- rewrite Hri0. apply Add_app.
          -- split; [exact (wi_rids _ _ P)|]. intros Hin. specialize (Hlt _ Hin). lia.
        * intros r0 Hr0. rewrite app_length in Hr0. cbn [length] in Hr0. rewrite Hri. apply in_app_iff.
          destruct (Nat.eq_dec r0 r) as [->|Hne]; [right; left; reflexivity|].
          pose proof (wi_all _ _ P r0 ltac:(unfold r in Hne; lia)) as Hin. rewrite Hri0 in Hin. apply in_app_iff in Hin. cbn [In]. tauto.
      + rewrite app_length. cbn [length]. unfold r. lia.
      + rewrite app_length. lia.
      + intros r' j Hj. rewrite Hrf, (replace_at_split _ _ _ _ Hlr). rewrite (nth_split3 _ _ _ Hlr) in Hj.
        assert (Hfl : length (firstn i (lrefs (pt_nodes t))) = i) by (rewrite firstn_length; assert (i < length (lrefs (pt_nodes t))) by (apply nth_error_Some; congruence); lia).
        destruct (Nat.lt_trichotomy j i) as [L|[->|L]].
        * rewrite nth_error_app1 in Hj |- * by lia. exact Hj.
        * rewrite nth_error_app2, Hfl, Nat.sub_diag in Hj by lia. discriminate.
        * rewrite nth_error_app2 in Hj |- * by lia. rewrite Hfl in *. destruct (j - i) as [|d] eqn:Ed2; [lia|]. exact Hj.
  Qed.

  (** ** Finding a slice *)
  Lemma in_weave_kid : forall a c ks j rs k x, nth_error ks c = Some k -> c <= length rs -> In x (linord k) -> In x (weave linord a j rs ks).
  Proof.
    intros a. induction c as [|c IH]; intros [|k0 ks] j rs k x E L Hx; try discriminate; cbn [nth_error weave] in *.
    - injection E as ->. apply in_or_app. auto.
    - destruct rs as [|r rs]; [cbn in L; lia|]. apply in_or_app. right. right. apply (IH ks (S j) rs k x E); [cbn in L; lia|exact Hx].
  Qed.
  Lemma in_weave_key : forall a c ks j rs r, nth_error rs c = Some r -> c < length ks -> In (Some (a, j + c), r) (weave linord a j rs ks).
  Proof.
    intros a. induction c as [|c IH]; intros [|k0 ks] j [|r0 rs] r E L; try discriminate; cbn [nth_error weave length] in *; try lia; apply in_or_app; right.
    - injection E as ->. left. rewrite Nat.add_0_r. reflexivity.
    - right. replace (j + S c) with (S j + c) by lia. apply IH; [exact E|lia].
  Qed.

  Lemma wild_find : forall X, index_any X -> forall h lo (t : tree) lt par hints tau, vshape lo h t = true -> lok M par lt -> LShape.shape t = lshape lt ->
    post (fun l => exists o, In (Some l, o) (linord lt) /\
      exists p h' n q rs ks, at_path h lt t p = Some (h', n, LNode (fst l) q rs ks) /\
        forall idx a b s, get_loop X h t hints tau idx = Ok (a, b, s) -> slice_at n (snd l) = Ok s) (find_handle X h t lt hints tau).
  Proof.
    intros X HX. induction h as [|h IH]; intros lo t lt par hints tau Hs Hok Es.
    all: pose proof Hs as Hs'; rewrite <- shape_wshape in Hs'; destruct (shape_node M M _ _ _ Hs') as (tot & c0 & es & Et).
    all: destruct lt as [|a q rs ks]; [subst t; discriminate|].
    all: assert (Lk : length ks = S (length rs)) by (destruct Hok as (_ & _ & H & _); exact H).
    all: assert (Le : tlen t = length rs) by (pose proof (shape_kids _ _ _ _ _ Es) as Ek; apply (f_equal (@length _)) in Ek; rewrite !map_length in Ek; subst t; unfold tlen; cbn [keys kids_of length] in *; rewrite map_length in Ek; lia).
    all: cbn [find_handle]; eapply post_bind; [eapply (p_search_step X M M HX), Hs'|]; intros r Est Hk.
    all: cbn [get_loop]; rewrite Est; cbn [bind]; clear Est.
    all: destruct r as [c cp|k kp]; cbn [pick_ok] in Hk.
    2, 4: cbn [post linord]; destruct (nth_error rs k) as [o|] eqn:Eo; [|apply nth_error_None in Eo; lia];
      exists o; split; [apply (in_weave_key a k ks 0 rs o Eo); lia|]; exists []; do 5 eexists; split; [reflexivity|];
      intros idx a0 b0 s E; cbn [snd]; repeat match type of E with bind ?m _ = _ => destruct m eqn:?; try discriminate; cbn [bind] in E end; congruence.
    all: eapply post_bind; [apply (p_subl X HX)|]; intros tau' Etau _; rewrite Etau; cbn [bind].
    - exact Logic.I.
    - destruct (shape_child M M _ _ _ _ Hs' Hk) as (ch & Ec & Hch). rewrite Ec. cbn [bind]. rewrite shape_wshape in Hch.
      destruct (kid_at M _ _ _ _ _ Hok Es Ec) as (a' & q' & rs' & ks' & lch & El & Ek & Hokc & Esc). injection El as <- <- <- <-.
      unfold nth_ub. rewrite Ek. cbn [bind]. eapply post_imp; [eapply IH; [exact Hch|exact Hokc|exact Esc]|].
      intros l (o & Hin & p & h' & n & q' & rs' & ks' & Hp & Hg). exists o. split; [cbn [linord]; eapply in_weave_kid; [exact Ek|lia|exact Hin]|].
      exists (c :: p), h', n, q', rs', ks'. split; [|exact Hg]. cbn [at_path l_kids]. rewrite Ek, (proj1 (kids_child _ _ _) Ec). replace (S h - 1) with h by lia. exact Hp.
  Qed.

  Lemma wild_get : forall X t hp hints idx, index_any X -> winv t hp ->
    post (fun l => exists i o, nth_error (linord (pt_nodes t)) i = Some (Some l, o) /\
      forall a b s, get_with_cursor X (pt_rle t) hints idx = Ok (a, b, s) -> handle_value t l = Ok s) (get_handle X t hints idx).
  Proof.
    intros X t hp hints idx HX P. pose proof (wi_tree _ _ P) as Ht. unfold get_handle, get_with_cursor.
    eapply post_bind; [eapply p_rle_size, rle_shape_sh, Ht|]. intros sz Esz _. rewrite Esz. cbn [bind].
    destruct (ix_ltb X idx (ix_zero X)); [exact Logic.I|]. destruct (ix_leb X sz idx); [exact Logic.I|].
    pose proof (wi_shape _ _ P) as Es. destruct (pt_rle t) as [r|] eqn:Er; [|exact Logic.I]. destruct Ht as [Ht _].
    eapply post_imp; [eapply (wild_find X HX); [exact Ht|exact (wi_lok _ _ P)|exact Es]|]. intros l (o & Hin & p & h' & n & q & rs & ks & Hp & Hg).
    apply In_nth_error in Hin. destruct Hin as [i Hi]. exists i, o. split; [exact Hi|]. intros a b s E. unfold handle_value.
    rewrite (deref_at _ _ _ _ _ _ _ _ _ Er Es (wi_nodup _ _ P) Hp). cbn [bind]. exact (Hg _ _ _ _ E).
  Qed.

  (** ** The destructor *)
  Lemma erase_drop : forall {J : Type} h (t : Tree.tree J V) lt, do_drop h (erase t) lt = do_drop h t lt.
  Proof.
    intros J. induction h as [|h IH]; intros t [|a q rs ks]; try reflexivity; cbn [do_drop].
    all: assert (K : map (fun e => DSlice (e_slice e)) (keys (erase t)) = map (fun e => DSlice (e_slice e)) (keys t))
      by (destruct t as [|tot c0 es]; [reflexivity|]; rewrite erase_node; cbn [keys]; rewrite map_map; reflexivity); rewrite K.
    { reflexivity. }
    do 2 f_equal.
    assert (Kk : kids_of (erase t) = map erase (kids_of t)) by (destruct t as [|tot c0 es]; [reflexivity|]; rewrite erase_node; cbn [kids_of map]; rewrite !map_map; reflexivity).
    rewrite Kk. generalize (kids_of t). clear - IH. induction ks as [|k ks IHk]; intros [|c cs]; try reflexivity. cbn [map]. rewrite IH, IHk. reflexivity.
  Qed.
  Lemma wild_drop : forall t hp, winv t hp -> Permutation (drops (p_drop t)) (rle_slices (pt_rle t)) /\ NoDup (frees (p_drop t)) /\ Permutation (frees (p_drop t)) (laddrs (pt_nodes t)).
  Proof.
    intros t hp P. unfold p_drop. pose proof (wi_tree _ _ P) as Ht. pose proof (wi_shape _ _ P) as Es. pose proof (wi_nodup _ _ P) as Hn.
    destruct (pt_rle t) as [r|]; cbn [rshape rle_slices] in *.
    - destruct Ht as [Ht _]. destruct (good_tree M _ _ _ Ht) as (g & Eg & Rg).
      assert (Sg : LShape.shape g = lshape (pt_nodes t)) by (rewrite <- Es, <- (shape_erase (r_node r)), <- Eg; symmetry; apply shape_erase).
      destruct (do_drop_ok (fun z => z) M _ _ _ _ _ Rg Sg) as [A B]. rewrite <- erase_drop, Eg, erase_drop in A, B. rewrite two_fst in A.
      split; [exact A|]. split; [|exact B]. exact (Permutation_NoDup (Permutation_sym B) Hn).
    - symmetry in Es. apply lshape_SX in Es. rewrite Es. cbn. split; [constructor|]. split; constructor.
  Qed.

  (** ** Histories *)
  Record rinv (t : @rtree I V) : Prop := {
    ri_tree : winv (rt_tree t) (rt_heap t);
    ri_refs : Forall (fun r => r < length (hp_store (rt_heap t))) (rt_refs t);
  }.
  Lemma ref_place : forall t r j, winv (rt_tree t) (rt_heap t) -> nth_error (lrefs (pt_nodes (rt_tree t))) j = Some (Some r) ->
    ref_at t r j /\ exists l s, nth_error (hp_store (rt_heap t)) r = Some (Some l) /\ handle_value (rt_tree t) l = Ok s /\
      nth_error (rle_slices (pt_rle (rt_tree t))) j = Some s /\ (forall X, index_any X -> handle_range X (rt_tree t) l <> UB).
  Proof.
    intros t r j P Hj. unfold lrefs in Hj. rewrite nth_error_map in Hj. destruct (nth_error (linord (pt_nodes (rt_tree t))) j) as [[ol o]|] eqn:E; [|discriminate].
    cbn [option_map snd] in Hj. injection Hj as ->. destruct ol as [[a k]|]; [|exfalso; exact (linord_some _ _ _ _ E eq_refl)].
    pose proof (wi_sok _ _ P) as Hs. unfold Sok in Hs. rewrite Forall_forall in Hs. specialize (Hs _ (nth_error_In _ _ E)). cbn [fst snd] in Hs.
    destruct (wild_place _ _ _ _ _ _ P E) as (root & h & n & ln & s & p & Er & _ & _ & Hv & Hsl & Hc & Hh & Hx).
    split; [exists root, a, k, p; auto|]. exists (a, k), s. auto.
  Qed.
  Lemma ref_at_inv : forall t r j, winv (rt_tree t) (rt_heap t) -> ref_at t r j -> nth_error (lrefs (pt_nodes (rt_tree t))) j = Some (Some r).
  Proof.
    intros t r j P (root & a & k & p & Er & Hs & Hc & Hh).
    assert (Hr : In r (rids (lrefs (pt_nodes (rt_tree t))))) by (apply (wi_all _ _ P); apply nth_error_Some; congruence).
    apply in_rids in Hr. apply In_nth_error in Hr. destruct Hr as [j' Hj'].
    destruct (ref_place _ _ _ P Hj') as [(root' & a' & k' & p' & Er' & Hs' & Hc' & Hh') _].
    rewrite Hs in Hs'. injection Hs' as <- <-. rewrite Hc in Hc'. injection Hc' as <-. rewrite Er in Er'. injection Er' as <-.
    apply handles_rank in Hh. apply handles_rank in Hh'. rewrite Hh in Hh'. injection Hh' as <-. exact Hj'.
  Qed.

  Lemma rinv_call : forall nop t c, index_any (ref_ops c) -> rinv t -> post (fun t' => rinv t' /\
      match c with
      | RIns _ => rt_refs t' = rt_refs t /\ moved (pt_rle (rt_tree t)) (pt_rle (rt_tree t')) (lrefs (pt_nodes (rt_tree t))) (lrefs (pt_nodes (rt_tree t')))
      | RRef X hints idx => exists r s i a b, rt_refs t' = rt_refs t ++ [r] /\ get_with_cursor X (pt_rle (rt_tree t)) hints idx = Ok (a, b, s) /\
          nth_error (rle_slices (pt_rle (rt_tree t))) i = Some s /\ pt_rle (rt_tree t') = pt_rle (rt_tree t) /\
          nth_error (lrefs (pt_nodes (rt_tree t'))) i = Some (Some r) /\
          (forall r' j, nth_error (lrefs (pt_nodes (rt_tree t))) j = Some (Some r') -> nth_error (lrefs (pt_nodes (rt_tree t'))) j = Some (Some r'))
      end) (do_ref_call M nop t c).
  Proof.
    intros nop t c HX [P Q]. destruct c as [c|X hints idx]; cbn [do_ref_call ref_ops] in *.
    - cbv zeta. eapply post_bind; [exact (winv_insert (ic_x c) (ic_y c) nop _ _ _ _ _ _ HX P)|]. intros [[[p hp] ho] lg] _ (W & L & Mv). cbn [post rt_tree rt_heap rt_refs].
      split; [|split; [reflexivity|exact Mv]]. constructor; cbn [rt_tree rt_heap rt_refs]; [exact W|]. rewrite L. exact Q.
    - eapply post_bind; [exact (p_get X M M HX _ hints idx (rle_shape_sh _ _ (wi_tree _ _ P)))|]. intros [[a b] s] Ege _.
      eapply post_bind; [exact (wild_get X _ _ hints idx HX P)|]. intros l Eg (i & o & Hi & Hv). unfold add_ref.
      assert (Hsl : nth_error (rle_slices (pt_rle (rt_tree t))) i = Some s).
      { destruct l as [al kl]. destruct (wild_place _ _ _ _ _ _ P Hi) as (root & h & n & ln & s' & p & _ & _ & _ & Hv' & Hsl & _). rewrite (Hv _ _ _ Ege) in Hv'. congruence. }
      destruct (winv_ref _ _ _ _ _ P Hi) as (t' & hp' & r & E & W & Er & Hl & _ & Hlt & Hle & Hkeep). rewrite E. cbn [bind post rt_tree rt_heap rt_refs]. split.
      + constructor; cbn [rt_tree rt_heap rt_refs]; [exact W|]. apply Forall_app. split; [|constructor; [exact Hlt|constructor]].
        eapply Forall_impl; [|exact Q]. cbn. intros. lia.
      + exists r, s, i, a, b. split; [reflexivity|]. split; [exact Ege|]. split; [exact Hsl|]. split; [exact Er|]. split; [|exact Hkeep].
        rewrite Hl. assert (Hlr : nth_error (lrefs (pt_nodes (rt_tree t))) i = Some o) by (unfold lrefs; rewrite nth_error_map, Hi; reflexivity).
        assert (Hil : i < length (lrefs (pt_nodes (rt_tree t)))) by (apply nth_error_Some; congruence).
        rewrite (replace_at_split _ _ _ _ Hlr), nth_error_app2; rewrite firstn_length, Nat.min_l by lia; [|lia]. rewrite Nat.sub_diag. reflexivity.
  Qed.
  Lemma rinv_new : rinv (@rt_new I V).
  Proof. constructor; [apply winv_empty|constructor]. Qed.
  Lemma rinv_run : forall nop cs t, (forall c, In c cs -> index_any (ref_ops c)) -> rinv t -> post rinv (run_refs M nop t cs).
  Proof.
    intros nop. induction cs as [|c cs IH]; intros t HX R; cbn [run_refs]; [exact R|].
    eapply post_bind; [exact (rinv_call nop t c (HX c (or_introl eq_refl)) R)|]. intros t' _ [R' _]. apply IH; [intros c' H'; exact (HX c' (or_intror H'))|exact R'].
  Qed.
End WildRef.
