(** The cursor of an insertion that merges the new slice into the left part of the run it cuts.
    Proof support only. *)
From Coq Require Import List ZArith Lia Bool Arith.
From Verif Require Import Base Spec Index Slice Tree Insert Order Zip Rep Upd Leaf Path Ops Find Ins IterP OrderP ListFacts.
Import ListNotations.
Local Open Scope Z_scope.

Section Heights.
  Context {I V : Type} (X : index_ops I) (M : nat).
  Notation tree := (tree I V).
  Notation upstate := (@upstate I V).

  (** The node the cursor leads to is at height [x], in a state at height [h]. *)
  Definition curh (h x : nat) (st : upstate) : Prop :=
    match st with
    | Done _ _ _ cur => (length cur + x = h)%nat
    | Bubble b =>
      match b_side b with
      | None => b_cur b = [] /\ x = S h
      | Some _ => (length (b_cur b) + x = h)%nat
      end
    end.

  Ltac both := repeat match goal with
    | |- bind (bubble_step _ _ _ _ _ _) _ = Ok _ -> _ => fail 1
    | |- bind (upd _ _ _ _ _ _) _ = Ok _ -> _ => fail 1
    | |- bind ?e _ = Ok _ -> _ => destruct e; cbn [bind]; [|discriminate|discriminate]
    | |- (let (_, _) := ?p in _) = Ok _ -> _ => destruct p
    | |- (if ?b then _ else _) = Ok _ -> _ => destruct b
    | |- bind (if ?b then _ else _) _ = Ok _ -> _ => destruct b
    end.

  Lemma bubble_step_recur : forall (t : tree) c b s1 sd cur, bubble_step X M t c None b = Ok s1 ->
    exists sd' cur', bubble_step X M t c None {| b_lhs := b_lhs b; b_key := b_key b; b_key_size := b_key_size b; b_rhs := b_rhs b;
                            b_old := b_old b; b_side := sd; b_cur := cur |} = Ok (recur sd' cur' s1).
  Proof.
    intros t c b s1 sd cur. unfold bubble_step, key_step. cbn [b_lhs b_key b_key_size b_rhs b_old b_side b_cur]. both;
      intros E; injection E as <-; cbn [recur]; first [exists None; eexists; reflexivity | do 2 eexists; reflexivity].
  Qed.

  Lemma bubble_step_curh : forall (t : tree) c b s1 h x, bubble_step X M t c None b = Ok s1 -> curh h x (Bubble b) ->
    exists x', curh (S h) x' s1 /\ (x <= x')%nat /\ ((x <= h)%nat -> x' = x).
  Proof.
    intros t c b s1 h x. unfold bubble_step, key_step. both; intros E H; injection E as <-; cbn [curh b_side b_cur] in *.
    all: destruct (b_side b) as [[]|]; cbn [option_map opt_cons length] in *; try (exists x; lia).
    all: destruct H as [-> ->].
    all: first [exists (S h); cbn [length]; lia | exists (S (S h)); split; [auto|lia]].
  Qed.

  Lemma up_step_recur : forall (t : tree) c st s1 sd cur, up_step X M t c None st = Ok s1 ->
    exists sd' cur', up_step X M t c None (recur sd cur st) = Ok (recur sd' cur' s1).
  Proof.
    intros t c [n o nw cu|b] s1 sd cur.
    - cbn [recur up_step]. unfold child_step. cbn [bind]. both. intros E. injection E as <-. exists None, (c :: cur). reflexivity.
    - cbn [recur up_step b_lhs]. both. intros E. destruct (bubble_step X M a c None b) as [s| |] eqn:Eb; try discriminate. injection E as <-.
      destruct (bubble_step_recur _ _ _ _ sd cur Eb) as (sd' & cur' & ->). exists sd', cur'. reflexivity.
  Qed.

  Lemma up_step_curh : forall (t : tree) c st s1 h x, up_step X M t c None st = Ok s1 -> curh h x st ->
    exists x', curh (S h) x' s1 /\ (x <= x')%nat /\ ((x <= h)%nat -> x' = x).
  Proof.
    intros t c [n o nw cu|b] s1 h x.
    - cbn [up_step]. unfold child_step. cbn [bind]. both. intros E H. injection E as <-. exists x. cbn [curh length] in *. lia.
    - cbn [up_step]. both. intros E. destruct (bubble_step X M a c None b) as [s| |] eqn:Eb; try discriminate. injection E as <-.
      exact (bubble_step_curh _ _ _ _ _ _ Eb).
  Qed.

  Lemma upd_recur : forall p (t : tree) f st sd cur, upd X M f None t p = Ok st ->
    exists sd' cur', upd X M (fun n => let* s := f n in Ok (recur sd cur s)) None t p = Ok (recur sd' cur' st).
  Proof.
    induction p as [|c p IH]; intros t f st sd cur; cbn [upd].
    - intros E. rewrite E. cbn [bind]. eauto.
    - both. intros E. destruct (upd X M f None a p) as [s1| |] eqn:E1; try discriminate. cbn [bind] in E.
      destruct (IH a f s1 sd cur E1) as (sd1 & cur1 & ->). cbn [bind]. eapply up_step_recur. exact E.
  Qed.

  Lemma upd_curh : forall p (t : tree) f st n s0 h x, upd X M f None t p = Ok st -> node_at t p = Ok n -> f n = Ok s0 -> curh h x s0 ->
    exists x', curh (h + length p) x' st /\ (x <= x')%nat /\ ((x <= h)%nat -> x' = x).
  Proof.
    induction p as [|c p IH]; intros t f st n s0 h x; cbn [upd node_at].
    - intros E En Ef H. injection En as ->. rewrite Ef in E. injection E as ->. exists x. cbn [length]. rewrite Nat.add_0_r. auto.
    - both. intros E En Ef H. destruct (upd X M f None a p) as [s1| |] eqn:E1; try discriminate. cbn [bind] in E, En.
      destruct (IH a f s1 n s0 h x E1 En Ef H) as (x1 & H1 & Hx1 & Hx2).
      destruct (up_step_curh _ _ _ _ _ _ E H1) as (x2 & H2 & Hx3 & Hx4).
      exists x2. cbn [length]. replace (h + S (length p))%nat with (S (h + length p)) by lia. split; [exact H2|]. split; [lia|].
      intros Hx. rewrite <- (Hx2 Hx). apply Hx4. rewrite (Hx2 Hx). lia.
  Qed.

  Lemma finish_recur : forall h st (t' : tree) h' cu sd cur, finish_root X h st = Ok (t', h', cu) ->
    exists cu', finish_root X h (recur sd cur st) = Ok (t', h', cu').
  Proof.
    intros h [n o nw c|b] t' h' cu sd cur; cbn [recur finish_root b_lhs b_key b_key_size b_rhs b_old b_side b_cur].
    - intros E. injection E as <- <- _. eauto.
    - both. intros E. injection E as <- <- _. eauto.
  Qed.

  Lemma finish_curh : forall h st (t' : tree) h' cu x, finish_root X h st = Ok (t', h', cu) -> curh h x st -> (length cu + x = h')%nat.
  Proof.
    intros h [n o nw c|b] t' h' cu x; cbn [finish_root curh].
    - intros E H. injection E as _ <- <-. exact H.
    - both. intros E H. injection E as _ <- <-. destruct (b_side b) as [[]|]; cbn [option_map opt_cons length]; try lia.
      destruct H as [-> ->]. cbn [length]. lia.
  Qed.
End Heights.

Section Exact.
  Context {I V : Type} (X : index_ops I) (MAX : Z) (inj : Z -> I) (M : nat).
  Hypothesis L : index_laws X MAX inj.
  Hypothesis HM : (1 <= M)%nat.
  Notation tree := (tree I V).
  Notation run := (prod V Z) (only parsing).
  Notation rep := (@rep I V inj M).
  Notation childR := (@childR I V inj M).
  Notation good := (@good I V inj M).

  Ltac ix := repeat (first [ rewrite (il_addr _ _ _ L) by lia
                           | rewrite (il_addl _ _ _ L) by lia
                           | rewrite (il_subl _ _ _ L) by lia
                           | rewrite (il_subr _ _ _ L) by lia ]; cbn [bind]).

  Definition is_bubble (st : @upstate I V) : Prop := match st with Bubble _ => True | Done _ _ _ _ => False end.

  Ltac steps H := repeat match type of H with
    | bind ?e _ = Ok _ => destruct e; cbn [bind] in H; [|discriminate|discriminate]
    | (let (_, _) := ?p in _) = Ok _ => destruct p
    end.

  (** Insertion of one run at the left end of a subtree splits the top node of it exactly if all
      nodes on its left edge are full. *)
  Lemma left_bubble : forall hc (t : tree) l fs st, rep M hc t l ->
    upd X M (no_join_leaf X M false 0 None fs None) None t (repeat O hc) = Ok st -> (is_bubble st <-> left_full M t).
  Proof.
    induction hc as [|hc IH]; intros t l fs st R E; rewrite rep_nrep in R; destruct R as (c0 & es & lc & l' & -> & Hl & Hc & _); cbn [repeat upd] in E.
    - destruct Hc as [-> _]. unfold no_join_leaf in E. cbn [Nat.ltb Nat.leb andb orb bind] in E. unfold tlen, keys, max_len in E.
      cbn [left_full]. destruct (Nat.ltb_spec (length es) 0); [lia|]. cbn [orb] in E. rewrite Nat.sub_0_r in E.
      destruct (Nat.leb_spec (2 * M) (length es)).
      + steps E. injection E as <-. cbn. tauto.
      + unfold key_step in E. steps E. injection E as <-. cbn [is_bubble]. split; [intros []|lia].
    - cbn [childR] in Hc. unfold child, child_of in E. cbn [bind] in E.
      destruct (upd X M (no_join_leaf X M false 0 None fs None) None c0 (repeat 0%nat hc)) as [s1| |] eqn:E1; cbn [bind] in E; try discriminate.
      pose proof (IH _ _ _ _ Hc E1) as Q. cbn [left_full]. rewrite <- Q. clear Q E1 IH.
      destruct s1 as [n o nw cu|b]; cbn [up_step set_child bind is_bubble] in *.
      + unfold child_step in E. cbn [bind] in E. steps E. injection E as <-. cbn [is_bubble]. tauto.
      + destruct (bubble_step X M (Node (inj (rsum l)) (b_lhs b) es) 0 None b) as [s| |] eqn:Eb; try discriminate. injection E as <-.
        unfold bubble_step in Eb. steps Eb. unfold tlen, keys, max_len in Eb. destruct (Nat.ltb_spec (length es) (2 * M)).
        * unfold key_step in Eb. steps Eb. injection Eb as <-. cbn [is_bubble]. split; [intros []|lia].
        * steps Eb. destruct (negb (0 =? M)%nat); steps Eb; injection Eb as <-; cbn [is_bubble]; tauto.
  Qed.

  Lemma app_node : forall tot lft (ch : tree) rgt, exists c0 es, node tot lft ch rgt = Node tot c0 es /\ length es = (length lft + length rgt)%nat /\
    forall k e, nth_error rgt k = Some e -> nth_error es (length lft + k) = Some e.
  Proof.
    intros tot lft. induction lft as [|[a [q s]] lft IH]; intros ch rgt.
    - exists ch, rgt. auto.
    - destruct (IH ch rgt) as (c0 & es & E & Hl & Hn). unfold node in *. cbn [asm]. destruct (asm lft ch rgt) as [c1 es1]. cbn [fst snd] in *.
      injection E as -> ->. eexists _, _. split; [reflexivity|]. cbn [length]. split; [lia|]. intros k e H. cbn [Nat.add nth_error]. auto.
  Qed.

  Lemma insert_rhs_kept : forall h (t : tree) l p hc k A s z zn B f n1 t' h' cur,
    rep 1 h t l -> l = A ++ (s, z) :: B -> rank t p k = Some (length A) -> (h - length p)%nat = S hc ->
    0 < zn -> 0 < n1 -> z < zn + n1 -> rsum l <= MAX -> rsum A + zn + n1 + rsum B <= MAX ->
    insert_rhs X M h t p (S hc) k (inj zn) true (f, inj n1) None = Ok (t', h', cur) ->
    exists q j tot c0 es e, rank t' q j = Some (length A) /\ node_at t p = Ok (Node tot c0 es) /\ nth_error es k = Some e /\ e_child e <> Nil /\
      (cur = q <-> left_full M (e_child e) /\ ((length es < 2 * M)%nat \/ k = M)).
  Proof.
    intros h t l p hc k A s z zn B f n1 t' h' cur R El H Ehc Hzn Hn1 Hinc Hm Hmax EI.
    destruct (handle_view inj M HM _ _ _ _ _ _ _ R H) as (lo' & h1 & n & ln & la & lb & A' & s0 & z0 & B' & F & K & Hr & El' & Hz).
    pose proof El' as El2. rewrite El in El2. apply app_mid_inv in El2; [|rewrite app_length; lia].
    destruct El2 as (-> & E & ->). inversion E; subst s0 z0. clear E El.
    destruct (focus_facts inj M HM _ _ _ _ _ _ _ _ _ _ _ F) as (_ & Rn & El3 & Eh & En).
    pose proof R as R0. rewrite El3 in R0. pose proof (rep_part _ _ _ _ _ _ _ _ R0) as (Ha & Hn & Hb). clear R0.
    assert (Hmn : rsum ln <= MAX) by (rewrite El3, !rsum_app in Hm; lia).
    destruct (keyat_size X MAX inj M L HM _ _ _ _ _ _ _ _ _ K Hmn) as (E1 & _ & E3).
    assert (S hc = h1) by lia. subst h1.
    unfold insert_rhs in EI. rewrite En in EI. cbn [bind] in EI. rewrite E3 in EI. cbn [bind] in EI. rewrite E1 in EI. cbn [bind] in EI.
    destruct K as (lft & ch & ch' & rgt & l1 & lc & lc' & l2 & -> & <- & Hlen & H1 & Hc & _ & Hc' & H2 & -> & -> & ->).
    pose proof (lseg_nonneg _ _ _ _ _ _ H1). pose proof (seg_nonneg _ _ _ _ _ _ H2).
    pose proof (childR_nonneg _ _ _ _ _ Hc). pose proof (childR_nonneg _ _ _ _ _ Hc').
    autorewrite with rs in Hmax, Hmn.
    cbn [Rep.childR] in Hc, Hc'.
    pose proof Hc' as Hch.
    destruct (leftmost inj M HM hc ch' lc' Hc') as (n0 & ln0 & lb0 & F0).
    destruct (focus_facts inj M HM _ _ _ _ _ _ _ _ _ _ _ F0) as (_ & Rn0 & Elc' & _ & _). cbn [app] in Elc'.
    rewrite Elc' in Hc'. pose proof (rep_part _ _ _ _ _ [] _ _ Hc') as (_ & Hl0 & Hb0). subst lc'.
    rewrite upd_split in EI.
    rewrite rsum_app in Hmax, Hmn, H2. rewrite (rsum_app l1 lc) in EI.
    destruct (no_join_leaf_ok X MAX inj M L HM M false None f n1 None [] [] ln0 n0) as (st & E4 & G4);
      cbn [app]; auto; try (cbn [snd_runs rsum]; autorewrite with rs; lia); try discriminate; [constructor|constructor|].
    cbn [length snd_runs snd_arg app] in E4, G4.
    destruct (upd_ok X MAX inj M L HM _ _ _ _ _ _ _ _ _ _ _ _ F0 _ _ _ E4 G4) as (st1 & E5 & G5);
      try (autorewrite with rs; lia).
    set (lcn := (f, n1) :: ln0 ++ lb0) in *.
    assert (G5' : good M hc (rsum (ln0 ++ lb0)) lcn (Some 0%nat) st1).
    { unfold lcn. cbn [app length] in G5. exact G5. }
    clear G5.
    pose proof (left_bubble _ _ _ _ _ Hch E5) as Hbub.
    set (li := {| l_pos := inj (rsum l1 + rsum lc); l_old := inj z; l_new := inj zn; l_remap := true |}) in *.
    destruct (up_step_lhs X MAX inj M L HM lo' hc (lft ++ [(ch, (inj (rsum l1 + rsum lc), s))]) ch' rgt
               ((l1 ++ lc) ++ [(s, z)]) ((l1 ++ lc) ++ [(s, zn)]) (ln0 ++ lb0) lcn l2 li
               (rsum ((l1 ++ lc) ++ (s, z) :: (ln0 ++ lb0) ++ l2)) st1 (Some 0%nat)) as (st2 & sd & E6 & G6 & W); auto;
      try (unfold lcn; autorewrite with rs; lia).
    { rewrite app_length. cbn [length]. lia. }
    { rewrite <- app_assoc.
      apply (lseg_app inj _ lft 0 [(ch, (inj (rsum l1 + rsum lc), s))] l1 (lc ++ [(s, z)])); auto.
      change (lc ++ [(s, z)]) with (lc ++ (s, z) :: []). constructor; auto. constructor. }
    { autorewrite with rs. replace (rsum l1 + rsum lc + (z + 0) + (rsum ln0 + rsum lb0)) with (rsum l1 + rsum lc + z + (rsum ln0 + rsum lb0)) by lia. auto. }
    { unfold li. rewrite <- rsum_app. constructor; auto. autorewrite with rs. lia. }
    assert (Elc2 : (length (lft ++ [(ch, (inj (rsum l1 + rsum lc), s))]) = length lft + 1)%nat) by (rewrite app_length; reflexivity).
    rewrite Elc2, node_snoc in *.
    set (fr := fun n => upd X M (no_join_leaf X M false 0 None (f, inj n1) None) (Some (O, li)) n ((length lft + 1)%nat :: repeat O hc)) in *.
    assert (Efr : fr (node (inj (rsum ((l1 ++ lc) ++ (s, z) :: (ln0 ++ lb0) ++ l2))) lft ch ((inj (rsum l1 + rsum lc), s, ch') :: rgt)) = Ok st2).
    { unfold fr. cbn [upd]. rewrite node_child1. cbn [bind]. rewrite E5. cbn [bind]. exact E6. }
    destruct (upd_ok X MAX inj M L HM (fun n => let* s := fr n in Ok (recur sd [] s))
       _ _ _ _ _ _ _ _ _ _ _ F (((l1 ++ lc) ++ [(s, zn)]) ++ lcn ++ l2) (Some (length ((l1 ++ lc) ++ [(s, z)]) - 1)%nat) (recur sd [] st2)) as (st3f & E7 & G7).
    { rewrite Efr. reflexivity. }
    { exact G6. }
    { unfold lcn; autorewrite with rs; lia. }
    { unfold lcn; autorewrite with rs; lia. }
    destruct (upd X M fr None t p) as [st3| |] eqn:E8; cbn [bind] in EI; try discriminate.
    destruct (upd_recur X M p t fr st3 sd [] E8) as (sd3 & cur3 & E9).
    rewrite E7 in E9. injection E9 as ->.
    destruct (finish_root_ok X MAX inj M L HM _ _ _ _ _ G7) as (t2 & h2 & cu2 & E10 & R10 & _ & T10).
    { unfold lcn. autorewrite with rs. lia. }
    destruct (finish_recur X _ _ _ _ _ sd3 cur3 EI) as (cu3 & E11). rewrite E10 in E11. injection E11 as -> -> ->.
    destruct (T10 _ eq_refl) as (j & Hj).
    assert (Eq : rank t' cu3 j = Some (length (la ++ l1 ++ lc))).
    { rewrite Hj. cbn [option_map]. f_equal. rewrite !app_length. cbn [length]. lia. }
    destruct (app_node (inj (rsum ((l1 ++ lc) ++ (s, z) :: (ln0 ++ lb0) ++ l2))) lft ch ((inj (rsum l1 + rsum lc), s, ch') :: rgt)) as (c0 & es & EN & HL & HN).
    specialize (HN O _ eq_refl). rewrite Nat.add_0_r in HN. cbn [length] in HL.
    exists cu3, j. do 4 eexists. split; [exact Eq|]. split; [rewrite En; f_equal; exact EN|]. split; [exact HN|].
    unfold e_child. cbn [snd].
    split. { intros Q. rewrite Q in Hch. rewrite rep_nrep in Hch. destruct Hch as (? & ? & ? & ? & ? & _). discriminate. }
    (* the cursor leads to the run if it is that of the resized key *)
    assert (Hsame : recur sd [] st2 = st2 -> cur = cu3).
    { intros Hs. rewrite Hs in G6.
      destruct (upd_ok X MAX inj M L HM fr _ _ _ _ _ _ _ _ _ _ _ F _ _ _ Efr G6) as (st4 & E12 & G8);
        try (unfold lcn; autorewrite with rs; lia).
      rewrite E8 in E12. injection E12 as <-.
      destruct (finish_root_ok X MAX inj M L HM _ _ _ _ _ G8) as (t5 & h5 & cu5 & E13 & _ & _ & T13).
      { unfold lcn. autorewrite with rs. lia. }
      rewrite EI in E13. injection E13 as <- <- <-. destruct (T13 _ eq_refl) as (j5 & Hj5).
      exact (proj1 (rank_inj _ _ _ _ _ _ Hj5 Hj)). }
    (* and it does not if the heights differ *)
    assert (Hdiff : forall x y, curh (S hc) x st2 -> curh (S hc) y (recur sd [] st2) -> (y <= S hc)%nat -> (x < y)%nat \/ (y < x)%nat -> cur <> cu3).
    { intros x y Hx Hy Hle Hxy.
      destruct (upd_curh X M p t fr st3 _ _ _ _ E8 En Efr Hx) as (x' & Hx' & Hx1 & Hx2).
      destruct (upd_curh X M p t _ _ _ (recur sd [] st2) (S hc) y E7 En) as (y' & Hy' & Hy1 & Hy2); [rewrite Efr; reflexivity|exact Hy|].
      assert (Hp : (S hc + length p = h)%nat) by lia. rewrite Hp in Hx', Hy'.
      pose proof (finish_curh X _ _ _ _ _ _ EI Hx'). pose proof (finish_curh X _ _ _ _ _ _ E10 Hy').
      intros ->. lia. }
    destruct st1 as [? ? ? ?|b1], st2 as [n2 o2 nw2 c2|b2]; cbn [is_bubble] in Hbub; try contradiction.
    - subst c2. split; [|tauto]. intros Q. exfalso. revert Q. apply (Hdiff hc (S hc)); cbn [recur curh length]; lia.
    - destruct W as [W ->]. cbn [length] in W. split; [intros _; split; [tauto|left; lia]|]. intros _. apply Hsame. reflexivity.
    - destruct W as (W & Ws & Wc & Wi). destruct sd as [sd|].
      + split; [|intros [_ [Q|Q]]; [lia|]; assert (Some sd = None) by (apply Wi; lia); discriminate].
        intros Q. exfalso. revert Q. apply (Hdiff (S (S hc)) (S hc)); cbn [recur curh b_side b_cur length]; try lia.
        rewrite Ws. auto.
      + split; [intros _; split; [tauto|]; right; assert (length lft + 1 = M + 1)%nat by (apply Wi; reflexivity); lia|].
        intros _. apply Hsame. cbn [recur]. destruct b2 as [q1 q2 q3 q4 q5 q6 q7]. cbn [b_lhs b_key b_key_size b_rhs b_old b_side b_cur] in *. subst. reflexivity.
  Qed.

  Variable Y : slice_ops I V.

  Lemma node_at_on : forall p (t n : tree), node_at t p = Ok n -> node_on t p = n.
  Proof.
    induction p as [|c p IH]; intros t n H; cbn [node_at node_on] in *; [injection H as <-; reflexivity|].
    destruct t as [|tot c0 es]; [discriminate|]. cbn [child] in H. destruct (child_of c0 es c) as [ch| |] eqn:E; cbn [bind] in H; try discriminate.
    replace (nth c (c0 :: map e_child es) Nil) with ch; [auto|]. destruct c as [|c]; cbn [child_of nth] in *; [injection E as <-; reflexivity|].
    unfold nth_ub in E. destruct (nth_error es c) as [e|] eqn:Ee; cbn [bind] in E; [|discriminate]. injection E as <-.
    symmetry. apply nth_error_nth. rewrite nth_error_map, Ee. reflexivity.
  Qed.

  Lemma replace_kids : forall k (e e' : I * V * tree) es, nth_error es k = Some e -> e_child e' = e_child e -> map e_child (replace_at k e' es) = map e_child es.
  Proof.
    induction k as [|k IH]; intros e e' [|f es] H He; cbn in H; try discriminate.
    - injection H as ->. cbn. rewrite He. reflexivity.
    - specialize (IH e e' es H He). unfold replace_at in *. cbn [skipn firstn]. destruct (skipn k es); [reflexivity|].
      cbn [app map]. f_equal. exact IH.
  Qed.

  Lemma set_slice_node : forall p (t t1 : tree) k v tot c0 es, set_slice_at t p k v = Ok t1 -> node_at t p = Ok (Node tot c0 es) ->
    exists es1, node_at t1 p = Ok (Node tot c0 es1) /\ map e_child es1 = map e_child es.
  Proof.
    induction p as [|c p IH]; intros t t1 k v tot c0 es H En; cbn [set_slice_at node_at] in *.
    - injection En as ->. cbn [set_slice] in H. unfold nth_ub in H. destruct (nth_error es k) as [e|] eqn:Ee; cbn [bind] in H; [|discriminate].
      injection H as <-. eexists. split; [reflexivity|]. eapply replace_kids; eauto.
    - destruct (child t c) as [ch| |] eqn:Ec; cbn [bind] in *; try discriminate.
      destruct (set_slice_at ch p k v) as [ch1| |] eqn:E1; cbn [bind] in H; try discriminate.
      destruct (IH _ _ _ _ _ _ _ E1 En) as (es1 & En1 & Em). exists es1. split; [|exact Em].
      replace (child t1 c) with (Ok ch1); [exact En1|]. destruct t as [|tt cc ee]; [discriminate|]. cbn [set_child] in H. destruct c as [|c].
      + injection H as <-. reflexivity.
      + unfold nth_ub in H. destruct (nth_error ee c) as [e|] eqn:Ee; cbn [bind] in H; [|discriminate]. injection H as <-.
        cbn [child child_of]. unfold nth_ub. rewrite replace_nth_same by (apply nth_error_Some; rewrite Ee; discriminate). reflexivity.
  Qed.

  Lemma kids_nth : forall es es1 k (e1 : I * V * tree), map e_child es1 = map e_child es -> nth_error es1 k = Some e1 ->
    exists e, nth_error es k = Some e /\ e_child e = e_child e1 /\ length es1 = length es.
  Proof.
    intros es es1 k e1 Em E1. assert (Q : nth_error (map e_child es1) k = Some (e_child e1)) by (rewrite nth_error_map, E1; reflexivity).
    rewrite Em, nth_error_map in Q. destruct (nth_error es k) as [e|]; [|discriminate]. injection Q as Q. exists e. split; [reflexivity|]. split; [exact Q|].
    rewrite <- (map_length (@e_child I V) es1), <- (map_length (@e_child I V) es), Em. reflexivity.
  Qed.

  Lemma ljo_edge : forall A B x, pos_runs (A ++ B) -> left_join_only Y inj (A ++ B) (rsum A) x = false.
  Proof.
    induction A as [|[s z] A IH]; intros B x Hp.
    - cbn [rsum app]. destruct B as [|[s z] B]; reflexivity.
    - inversion Hp as [|? ? Hz Hp']; subst. cbn [snd] in Hz. apply pos_runs_app in Hp'. destruct Hp' as [HA HB]. pose proof (pos_runs_nonneg _ HA).
      cbn [rsum app left_join_only]. destruct (Z.eqb_spec (z + rsum A) 0); [lia|]. destruct (Z.ltb_spec (z + rsum A) z); [lia|].
      replace (z + rsum A - z) with (rsum A) by lia. apply IH. apply pos_runs_app. auto.
  Qed.

  Theorem insert_cursor_kept : forall r l hints idx x n r' cur,
    rle_rep inj M r l -> 0 <= idx <= rsum l -> 0 < n -> rsum l + n <= MAX ->
    insert_with_cursor X Y M false r hints (inj idx) x (inj n) = Ok (r', cur) -> left_join_only Y inj l idx x = true ->
    (path_to r' cur (inserted_at Y inj l idx x) <-> cursor_kept M r (inserted_at Y inj l idx x)).
  Proof.
    intros r l hints idx x n r' cur Hr Hi Hn Hm E Hj. unfold insert_with_cursor in E.
    rewrite (rle_size_ok X MAX inj M L _ _ Hr) in E. cbn [bind] in E. rewrite (il_ltb _ _ _ L) in E by lia. destruct (Z.ltb_spec (rsum l) idx); [lia|].
    unfold ix_leb in E. rewrite (il_zero _ _ _ L), (il_ltb _ _ _ L) in E by lia. destruct (Z.ltb_spec 0 n); [|lia]. cbn [negb] in E.
    destruct r as [r|]; cbn [rle_rep] in Hr; [|subst l; discriminate].
    destruct Hr as [R Hlen].
    assert (F : focus inj M 1 (r_height r) (r_node r) l [] 1 (r_height r) (r_node r) l [] []) by (apply f_here; auto).
    destruct (find_ok X MAX inj M L HM Y _ _ _ _ _ _ _ _ _ _ idx hints None None F) as (ip & Eip & P); try lia.
    { intros _. cbn [lhs_ok rhs_ok length]. split; lia. }
    rewrite Eip in E. cbn [bind rsum] in *. rewrite Z.add_0_l in P.
    pose proof (rep_pos _ _ _ _ _ _ R) as Hpos.
    destruct ip as [p k a b|p hk k q]; cbn [point_ok] in P.
    { destruct P as (e & _ & _ & He & Hsum & _). destruct (split_list_at e l He) as (A & B & -> & <-).
      rewrite firstn_app, firstn_all, Nat.sub_diag in Hsum. cbn [firstn] in Hsum. rewrite app_nil_r in Hsum.
      rewrite <- Hsum, ljo_edge in Hj by exact Hpos. discriminate. }
    destruct P as (A & s & z & B & zq & -> & Hr & Hhk & -> & Hq & Hsum).
    rewrite <- Hsum in Hj |- *. rewrite rsum_app in Hm. cbn [rsum] in Hm.
    apply pos_runs_app in Hpos. destruct Hpos as [HA HB0]. inversion HB0 as [|? ? Hz HB]; subst. cbn [snd] in Hz.
    pose proof (pos_runs_nonneg _ HA). pose proof (pos_runs_nonneg _ HB).
    rewrite (ljo_app Y inj M HM) in Hj by (auto; lia). rewrite (at_app Y inj M HM) by (auto; lia).
    pose proof Hj as Hj'. cbn [left_join_only] in Hj'. destruct (Z.eqb_spec zq 0); [lia|]. destruct (Z.ltb_spec zq z); [|lia].
    assert (Eat : inserted_at Y inj ((s, z) :: B) zq x = O).
    { cbn [inserted_at]. destruct (Z.eqb_spec zq 0); [lia|]. destruct (Z.ltb_spec zq z); [|lia].
      destruct (sl_split_at Y s (inj zq)) as [lhs rhs]. cbn [fst]. destruct (join Y lhs x); [reflexivity|discriminate]. }
    rewrite Eat, Nat.add_0_r.
    pose proof (rank_handles _ _ [] _ _ Hr) as Hh. cbn [app] in Hh.
    destruct (r_height r - length p)%nat as [|hc] eqn:Ehc.
    - (* in a leaf *)
      destruct (insert_split_key_ok X Y MAX inj M L HM false _ _ _ _ _ _ _ _ O zq x n R Hr (eq_sym Ehc) Hq Hn) as (t' & h' & cur' & added & E2 & _ & _ & T'); [lia|].
      rewrite E2 in E. cbn [bind] in E. injection E as <- <-. rewrite Eat, Nat.add_0_r in T'. specialize (T' (or_intror (conj eq_refl eq_refl))).
      split; [|intros _; apply (tracks_path_to (Some _)); exact T']. intros _.
      destruct (handle_view inj M HM _ _ _ _ _ _ _ R Hr) as (lo' & h1 & nd & ln & la & lb & A' & s0 & z0 & B' & F' & K & _).
      destruct (focus_facts inj M HM _ _ _ _ _ _ _ _ _ _ _ F') as (_ & _ & _ & Eh & En). assert (h1 = O) by lia. subst h1.
      destruct K as (lft & ch & ch' & rgt & l1 & lc & lc' & l2 & -> & <- & _ & _ & _ & _ & Hc' & _). destruct Hc' as [-> _].
      match type of En with _ = Ok (node ?tot _ _ ?rg) => destruct (app_node tot lft ch rg) as (c0 & es & EN & _ & HN) end.
      specialize (HN O _ eq_refl). rewrite Nat.add_0_r in HN.
      exists p, (length lft). do 4 eexists. split; [exact Hh|]. split; [apply node_at_on; rewrite En; f_equal; exact EN|]. split; [exact HN|]. left. reflexivity.
    - (* in an internal node *)
      destruct (insert_split_key X Y M false (r_height r) (r_node r) p (S hc) k (inj zq) x (inj n)) as [[[[t' h'] cur'] added]| |] eqn:E2; cbn [bind] in E; try discriminate.
      injection E as <- <-. unfold insert_split_key in E2.
      destruct (handle_ok X MAX inj M L HM _ _ _ _ p k A s z B R) as (Hs & Hsl & _ & _); auto; [autorewrite with rs; lia|].
      unfold handle_size, handle_slice in Hs, Hsl. cbn [fst snd] in *.
      destruct (node_at (r_node r) p) as [nd| |] eqn:En; cbn [bind] in *; try discriminate.
      unfold handle_height in Hs. cbn [fst] in Hs. rewrite Ehc in Hs. rewrite Hs, Hsl in E2. cbn [bind] in E2.
      destruct (sl_split_at Y s (inj zq)) as [lhs rhs] eqn:Esp. cbn [fst snd] in Hj'.
      destruct (set_slice_ok inj M HM _ _ _ _ p k A s z B lhs R eq_refl Hr) as (t1 & Et1 & R1 & S1). rewrite Et1 in E2. cbn [bind] in E2.
      assert (H1' : rank t1 p k = Some (length A)) by (destruct S1 as (_ & S1 & _); rewrite S1; exact Hr).
      rewrite (il_subl _ _ _ L) in E2 by lia. cbn [bind] in E2.
      unfold join in Hj'. destruct (sl_may_join Y); cbn [negb] in E2; [|discriminate].
      destruct (sl_try_join Y lhs x) as [mid|[l' x']]; [|discriminate].
      rewrite (il_addr _ _ _ L) in E2 by lia. cbn [bind] in E2.
      destruct (sl_try_join Y mid rhs) as [j|[m' r']]; [discriminate|].
      destruct (set_slice_ok inj M HM _ _ _ _ p k A lhs z B m' R1 eq_refl H1') as (t2 & Et2 & R2 & S2). rewrite Et2 in E2. cbn [bind] in E2.
      assert (H2' : rank t2 p k = Some (length A)) by (destruct S2 as (_ & S2 & _); rewrite S2; exact H1').
      cbn [negb] in E2.
      destruct (insert_rhs X M (r_height r) t2 p (S hc) k (inj (zq + n)) true (r', inj (z - zq)) None) as [[[t3 h3] cur3]| |] eqn:E3; cbn [bind] in E2; try discriminate.
      injection E2 as <- <- <- <-.
      destruct (insert_rhs_kept (r_height r) t2 _ p hc k A m' z (zq + n) B r' (z - zq) t3 h3 cur3 R2 eq_refl H2' Ehc)
        as (q & j & tot & c0 & es2 & e2 & Hq' & En2 & He2 & Hnn & Hiff); auto; try lia; try (autorewrite with rs; lia).
      assert (exists es e, nd = Node tot c0 es /\ nth_error es k = Some e /\ e_child e = e_child e2 /\ length es2 = length es) as (es & e & -> & He & Hce & Hl2).
      { destruct nd as [|tn cn en]; [unfold slice_at in Hsl; destruct k; discriminate|].
        destruct (set_slice_node _ _ _ _ _ _ _ _ Et1 En) as (es1 & En1 & Em1). destruct (set_slice_node _ _ _ _ _ _ _ _ Et2 En1) as (es3 & En3 & Em3).
        rewrite En2 in En3. injection En3 as -> -> ->. rewrite Em1 in Em3. destruct (kids_nth _ _ _ _ Em3 He2) as (e & He & Hce & Hl). exists en, e. auto. }
      pose proof (rank_handles _ _ [] _ _ Hq') as Hh'. cbn [app] in Hh'.
      transitivity (cur3 = q).
      + cbn [path_to r_node]. split; [intros (key & Hk); rewrite Hh' in Hk; injection Hk as <- _; reflexivity|]. intros ->. exists j. exact Hh'.
      + rewrite Hiff. cbn [cursor_kept]. pose proof (node_at_on _ _ _ En) as Eon. split.
        * intros [Hf Hk]. exists p, k, tot, c0, es, e. rewrite Hce, <- Hl2. auto 10.
        * intros (p' & k' & tot' & c0' & es' & e' & Hh2 & Hon & He' & [Hc|Hc]); rewrite Hh in Hh2; injection Hh2 as <- <-; rewrite Eon in Hon; injection Hon as <- <- <-; rewrite He in He'; injection He' as <-.
          -- rewrite Hce in Hc. contradiction.
          -- rewrite <- Hce, Hl2. exact Hc.
  Qed.
End Exact.
