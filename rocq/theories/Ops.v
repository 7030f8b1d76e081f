(** The pieces of an insertion on a whole tree, by rank: growing a key, inserting after a key,
    inserting at an edge, and finishing at the root. *)
From Coq Require Import List ZArith Lia Bool Arith.
From Verif Require Import Base Spec Index Slice Tree Insert Zip Rep Upd Leaf Path.
Import ListNotations.
Local Open Scope Z_scope.

Section Ops.
  Context {I V : Type} (X : index_ops I) (MAX : Z) (inj : Z -> I) (M : nat).
  Hypothesis L : index_laws X MAX inj.
  Hypothesis HM : (1 <= M)%nat.
  Notation tree := (tree I V).
  Notation run := (prod V Z) (only parsing).
  Notation rep := (@rep I V inj M).
  Notation childR := (@childR I V inj M).
  Notation seg := (@seg I V inj).
  Notation lseg := (@lseg I V inj).
  Notation good := (@good I V inj M).
  Notation focus := (@focus I V inj M).

  Ltac ix := repeat (first [ rewrite (il_addr _ _ _ L) by lia
                           | rewrite (il_addl _ _ _ L) by lia
                           | rewrite (il_subl _ _ _ L) by lia
                           | rewrite (il_subr _ _ _ L) by lia ]; cbn [bind]).

  Lemma rep_part : forall lo h (t : tree) la ln lb, rep lo h t (la ++ ln ++ lb) ->
    0 <= rsum la /\ 0 <= rsum ln /\ 0 <= rsum lb.
  Proof.
    intros lo h t la ln lb R. pose proof (rep_pos _ _ _ _ _ _ R) as Hp.
    apply pos_runs_app in Hp. destruct Hp as [Hp1 Hp2]. apply pos_runs_app in Hp2. destruct Hp2 as [Hp2 Hp3].
    repeat split; apply pos_runs_nonneg; auto.
  Qed.

  Lemma key_upd_ok : forall lo h t l p k A s z z' B, rep lo h t l ->
    l = A ++ (s, z) :: B -> rank t p k = Some (length A) -> z < z' -> rsum A + z' + rsum B <= MAX ->
    exists st, upd X M (fun n => key_step X n k None (inj z) (inj z') []) None t p = Ok st /\
      good lo h (rsum l) (A ++ (s, z') :: B) (Some (length A)) st.
  Proof.
    intros lo h t l p k A s z z' B R El H Hzz Hmax.
    destruct (handle_view inj M HM _ _ _ _ _ _ _ R H) as (lo' & h' & n & ln & la & lb & A' & s0 & z0 & B' & F & K & Hr & El' & Hz).
    pose proof El' as El2. rewrite El in El2. apply app_mid_inv in El2; [|rewrite app_length; lia].
    destruct El2 as (-> & E & ->). inversion E; subst s0 z0. clear E El.
    pose proof (keyat_rank inj M _ _ _ _ _ _ _ _ _ K) as Hrank.
    destruct K as (lft & ch & ch' & rgt & l1 & lc & lc' & l2 & -> & <- & Hlen & H1 & Hc & _ & Hc' & H2 & -> & -> & ->).
    destruct (focus_facts inj M HM _ _ _ _ _ _ _ _ _ _ _ F) as (_ & Rn & El3 & _ & _).
    rewrite El3 in R. pose proof (rep_part _ _ _ _ _ _ R) as (Ha & Hn & Hb).
    pose proof (lseg_nonneg _ _ _ _ _ _ H1). pose proof (seg_nonneg _ _ _ _ _ _ H2).
    pose proof (childR_nonneg _ _ _ _ _ Hc). pose proof (childR_nonneg _ _ _ _ _ Hc').
    autorewrite with rs in Hmax, Hn.
    destruct (key_step_ok X MAX inj M L HM h' (rsum ((l1 ++ lc) ++ (s, z) :: lc' ++ l2)) lft ch (inj (rsum l1 + rsum lc)) s ch' rgt None
                (rsum l1 + rsum lc) z z' [] (rsum l1 + rsum lc + z + rsum lc') l2) as (rgt' & E1 & S1 & Hl1);
      auto; try (autorewrite with rs; lia).
    set (ln' := l1 ++ lc ++ (s, z') :: lc' ++ l2).
    assert (R' : rep lo' h' (node (inj (rsum ((l1 ++ lc) ++ (s, z) :: lc' ++ l2) + (z' - z))) lft ch ((inj (rsum l1 + rsum lc), s, ch') :: rgt')) ln').
    { rewrite rep_nrep. apply zip_nrep; auto.
      - cbn [length]. lia.
      - constructor; auto; [lia|]. replace (rsum l1 + rsum lc + z' + rsum lc') with (rsum l1 + rsum lc + z + rsum lc' + (z' - z)) by lia. auto.
      - autorewrite with rs. lia. }
    destruct (upd_ok X MAX inj M L HM (fun n => key_step X n (length lft) None (inj z) (inj z') []) lo h t l p lo' h' _ _ la lb F
                ln' (Some (length (l1 ++ lc))) (Done (node (inj (rsum ((l1 ++ lc) ++ (s, z) :: lc' ++ l2) + (z' - z))) lft ch ((inj (rsum l1 + rsum lc), s, ch') :: rgt'))
                      (inj (rsum ((l1 ++ lc) ++ (s, z) :: lc' ++ l2))) (inj (rsum ((l1 ++ lc) ++ (s, z) :: lc' ++ l2) + (z' - z))) []))
      as (st & E2 & G2).
    - exact E1.
    - constructor; auto.
      + unfold ln'. autorewrite with rs. lia.
      + intros r Hr'. inversion Hr'; subst r. apply tracks_here.
        rewrite (lseg_count inj _ _ _ _ (childR_count inj M h') H1), (childR_count inj M h' _ _ Hc), app_length. reflexivity.
    - unfold ln'. autorewrite with rs. lia.
    - unfold ln'. autorewrite with rs. lia.
    - exists st. split; auto. unfold ln' in G2. rewrite app_length. cbn [option_map] in G2.
      replace ((la ++ l1 ++ lc) ++ (s, z') :: (lc' ++ l2) ++ lb) with (la ++ (l1 ++ lc ++ (s, z') :: lc' ++ l2) ++ lb)
        by (rewrite <- !app_assoc; cbn [app]; rewrite <- !app_assoc; reflexivity).
      exact G2.
  Qed.

  Lemma leftmost : forall h (t : tree) l, rep M h t l ->
    exists n ln lb, focus M h t l (repeat O h) M 0 n ln [] lb.
  Proof.
    induction h as [|h IH]; intros t l R.
    - exists t, l, []. apply f_here; auto.
    - pose proof R as R0. rewrite rep_nrep in R0.
      destruct (nrep_zip inj M M _ t l O R0) as (lft & ch & rgt & l1 & lc & l2 & -> & Hl0 & Hlen & H1 & Hch & H2 & ->); [lia|].
      destruct lft; [|discriminate]. inversion H1; subst l1. cbn [app] in *.
      destruct (IH ch lc Hch) as (n & ln & lb & F).
      exists n, ln, (lb ++ l2).
      pose proof (f_down inj M M h [] ch rgt [] lc l2 (repeat O h) M O n ln [] lb Hlen H1 H2 F) as Q. exact Q.
  Qed.

  Lemma finish_root_ok : forall h old lc wh st, good 1 h old lc wh st -> rsum lc <= MAX ->
    exists t' h' cur, finish_root X h st = Ok (t', h', cur) /\ rep 1 h' t' lc /\
      (h' = h \/ h' = (h + 1)%nat) /\ (forall r, wh = Some r -> tracks t' cur r).
  Proof.
    intros h old lc wh st G Hm.
    destruct G as [n lc' wh new cur R -> Ht | lhs rhs k z ll lr wh sd cur Rl Rr Hz Ht].
    - exists n, h, cur. repeat split; auto.
    - pose proof (rep_nonneg _ _ _ _ _ _ Rl). pose proof (rep_nonneg _ _ _ _ _ _ Rr).
      autorewrite with rs in Hm.
      unfold finish_root, make_new_parent. cbn [b_lhs b_rhs b_key b_key_size b_side b_cur].
      rewrite (rep_size _ _ _ _ _ _ Rl), (rep_size _ _ _ _ _ _ Rr). cbn [bind]. ix.
      eexists _, (h + 1)%nat, _. split; [reflexivity|]. rewrite Nat.add_1_r. split; [|split; [auto|]].
      + change (Node ?tot ?a ?b) with (node tot [] a b). rewrite rep_nrep.
        change (ll ++ (k, z) :: lr) with ([] ++ ll ++ ((k, z) :: lr)).
        apply zip_nrep.
        * cbn [length]. lia.
        * constructor.
        * exact Rl.
        * cbn [rsum]. rewrite Z.add_0_l. replace ((k, z) :: lr) with ((k, z) :: lr ++ []) by (rewrite app_nil_r; reflexivity).
          constructor; auto. constructor.
        * cbn [rsum]. lia.
      + intros r Hr. specialize (Ht r Hr).
        change (Node ?tot ?a ?b) with (node tot [] a b).
        destruct sd as [[]|]; cbn [option_map opt_cons side_nat].
        * eapply tracks_down; eauto.
        * destruct Ht as (r' & -> & Ht).
          change (node ?tot [] lhs [(?p, rhs)]) with (node tot ([] ++ [(lhs, p)]) rhs []).
          eapply tracks_down; eauto. cbn [lcount app]. rewrite (rep_count _ _ _ _ _ _ Rl). lia.
        * destruct Ht as [-> ->]. apply tracks_here. cbn [lcount]. rewrite (rep_count _ _ _ _ _ _ Rl). reflexivity.
  Qed.

  (** Insertion of one or two runs right after the run [A]'s successor, which is resized. *)
  Lemma insert_rhs_ok : forall h t l p hk k A s z zn B remap f n1 (sn : option (V * Z)),
    rep 1 h t l -> l = A ++ (s, z) :: B -> rank t p k = Some (length A) -> hk = (h - length p)%nat ->
    0 < zn -> 0 < n1 -> pos_runs (snd_runs sn) -> z < zn + n1 + rsum (snd_runs sn) ->
    rsum l <= MAX -> rsum A + zn + n1 + rsum (snd_runs sn) + rsum B <= MAX ->
    exists t' h' cur,
      insert_rhs X M h t p hk k (inj zn) remap (f, inj n1) (snd_arg inj sn) = Ok (t', h', cur) /\
      rep 1 h' t' (A ++ (s, zn) :: (f, n1) :: snd_runs sn ++ B) /\ (h' = h \/ h' = (h + 1)%nat) /\
      (remap = false -> tracks t' cur (length A + 1)%nat) /\
      (remap = true -> hk = O -> tracks t' cur (length A)).
  Proof.
    intros h t l p hk k A s z zn B remap f n1 sn R El H Ehk Hzn Hn1 Hsn Hinc Hm Hmax.
    destruct (handle_view inj M HM _ _ _ _ _ _ _ R H) as (lo' & h' & n & ln & la & lb & A' & s0 & z0 & B' & F & K & Hr & El' & Hz).
    pose proof El' as El2. rewrite El in El2. apply app_mid_inv in El2; [|rewrite app_length; lia].
    destruct El2 as (-> & E & ->). inversion E; subst s0 z0. clear E El.
    destruct (focus_facts inj M HM _ _ _ _ _ _ _ _ _ _ _ F) as (_ & Rn & El3 & Eh & En).
    pose proof R as R0. rewrite El3 in R0. pose proof (rep_part _ _ _ _ _ _ R0) as (Ha & Hn & Hb). clear R0.
    assert (Hmn : rsum ln <= MAX) by (rewrite El3, !rsum_app in Hm; lia).
    destruct (keyat_size X MAX inj M L HM _ _ _ _ _ _ _ _ _ K Hmn) as (E1 & _ & E3).
    assert (hk = h') by lia. subst hk. subst h'.
    unfold insert_rhs. rewrite En. cbn [bind]. rewrite E3. cbn [bind]. rewrite E1. cbn [bind].
    pose proof (pos_runs_nonneg _ Hsn).
    destruct K as (lft & ch & ch' & rgt & l1 & lc & lc' & l2 & -> & <- & Hlen & H1 & Hc & _ & Hc' & H2 & -> & -> & ->).
    pose proof (lseg_nonneg _ _ _ _ _ _ H1). pose proof (seg_nonneg _ _ _ _ _ _ H2).
    pose proof (childR_nonneg _ _ _ _ _ Hc). pose proof (childR_nonneg _ _ _ _ _ Hc').
    autorewrite with rs in Hmax, Hmn.
    assert (Fin : forall st wh, good 1 h (rsum l) (la ++ (l1 ++ lc ++ (s, zn) :: (f, n1) :: snd_runs sn ++ lc' ++ l2) ++ lb) wh st ->
      (remap = false -> wh = Some (length (la ++ l1 ++ lc) + 1)%nat) ->
      (remap = true -> (h - length p)%nat = O -> wh = Some (length (la ++ l1 ++ lc))) ->
      exists t' h' cur,
        finish_root X h st = Ok (t', h', cur) /\
        rep 1 h' t' ((la ++ l1 ++ lc) ++ (s, zn) :: (f, n1) :: snd_runs sn ++ (lc' ++ l2) ++ lb) /\ (h' = h \/ h' = (h + 1)%nat) /\
        (remap = false -> tracks t' cur (length (la ++ l1 ++ lc) + 1)%nat) /\
        (remap = true -> (h - length p)%nat = O -> tracks t' cur (length (la ++ l1 ++ lc)))).
    { intros st wh G W1 W2.
      destruct (finish_root_ok _ _ _ _ _ G) as (t' & h' & cur & E4 & R4 & Hh4 & T4).
      { autorewrite with rs. lia. }
      exists t', h', cur. split; auto. split; [|split; auto].
      replace ((la ++ l1 ++ lc) ++ (s, zn) :: (f, n1) :: snd_runs sn ++ (lc' ++ l2) ++ lb) with
        (la ++ (l1 ++ lc ++ (s, zn) :: (f, n1) :: snd_runs sn ++ lc' ++ l2) ++ lb); auto.
      rewrite <- !app_assoc. cbn [app]. rewrite <- !app_assoc. reflexivity. }
    destruct (h - length p)%nat as [|hc] eqn:Ehc.
    - (* the key is in a leaf *)
      destruct (no_join_leaf_ok X MAX inj M L HM lo' remap (Some (inj zn)) f n1 sn (l1 ++ lc ++ [(s, z)]) (l1 ++ lc ++ [(s, zn)]) (lc' ++ l2)
        (node (inj (rsum ((l1 ++ lc) ++ (s, z) :: lc' ++ l2))) lft ch ((inj (rsum l1 + rsum lc), s, ch') :: rgt)))
        as (st & E4 & G4); auto; try (autorewrite with rs; lia); try discriminate.
      { rewrite <- !app_assoc. cbn [app]. rewrite <- app_assoc in Rn. exact Rn. }
      { rewrite !app_assoc. constructor; auto. }
      assert (Elft : length (l1 ++ lc ++ [(s, z)]) = (length lft + 1)%nat).
      { destruct Hc as [-> ->]. rewrite app_length. cbn [app length].
        rewrite <- (lseg_count inj _ _ _ _ (childR_count inj M 0) H1). f_equal.
        clear - H1. induction H1 as [|off z s ch lc lft l Hz [-> ->] H IH]; cbn [lcount length count]; auto. }
      rewrite Elft in E4, G4.
      destruct (upd_ok X MAX inj M L HM _ _ _ _ _ _ _ _ _ _ _ _ F ((l1 ++ lc ++ [(s, zn)]) ++ (f, n1) :: snd_runs sn ++ lc' ++ l2)
                  (Some (length lft + 1 - (if remap then 1 else 0))%nat) st E4) as (st' & E5 & G5).
      + match goal with |- good _ _ ?a _ _ _ => match type of G4 with good _ _ ?b _ _ _ => replace a with b by (autorewrite with rs; lia) end end.
        exact G4.
      + autorewrite with rs. lia.
      + autorewrite with rs. lia.
      + rewrite E5. cbn [bind]. eapply Fin; [|intros ->|intros -> _].
        * match goal with |- good _ _ _ ?a _ _ => match type of G5 with good _ _ _ ?b _ _ => replace a with b end end; [exact G5|].
          rewrite <- !app_assoc. reflexivity.
        * cbn [option_map]. f_equal. rewrite app_length in Elft. rewrite app_length in Elft. cbn [length] in Elft. rewrite !app_length. lia.
        * cbn [option_map]. f_equal. rewrite app_length in Elft. rewrite app_length in Elft. cbn [length] in Elft. rewrite !app_length. lia.
    - (* the key is in an internal node *)
      cbn [Rep.childR] in Hc, Hc'.
      destruct (leftmost hc ch' lc' Hc') as (n0 & ln0 & lb0 & F0).
      destruct (focus_facts inj M HM _ _ _ _ _ _ _ _ _ _ _ F0) as (_ & Rn0 & Elc' & _ & _). cbn [app] in Elc'.
      rewrite Elc' in Hc'. pose proof (rep_part _ _ _ [] _ _ Hc') as (_ & Hl0 & Hb0). subst lc'.
      rewrite upd_split.
      rewrite rsum_app in Hmax, Hmn, H2. rewrite (rsum_app l1 lc).
      destruct (no_join_leaf_ok X MAX inj M L HM M false None f n1 sn [] [] ln0 n0) as (st & E4 & G4);
        cbn [app]; auto; try (autorewrite with rs; lia); try discriminate; [constructor|].
      destruct (upd_ok X MAX inj M L HM _ _ _ _ _ _ _ _ _ _ _ _ F0 _ _ _ E4 G4) as (st1 & E5 & G5);
        try (autorewrite with rs; lia).
      set (lcn := (f, n1) :: snd_runs sn ++ ln0 ++ lb0) in *.
      assert (G5' : good M hc (rsum (ln0 ++ lb0)) lcn (Some 0%nat) st1).
      { unfold lcn. cbn [app length] in G5. rewrite <- app_assoc in G5. exact G5. }
      clear G5.
      destruct (up_step_ok X MAX inj M L HM lo' hc (lft ++ [(ch, (inj (rsum l1 + rsum lc), s))]) ch' rgt
                 ((l1 ++ lc) ++ [(s, z)]) ((l1 ++ lc) ++ [(s, zn)]) (ln0 ++ lb0) lcn l2
                 (Some {| l_pos := inj (rsum l1 + rsum lc); l_old := inj z; l_new := inj zn; l_remap := remap |})
                 (rsum ((l1 ++ lc) ++ (s, z) :: (ln0 ++ lb0) ++ l2)) st1 (Some 0%nat)) as (st2 & E6 & G6); auto;
        try (unfold lcn; autorewrite with rs; lia).
      + rewrite app_length. cbn [length]. lia.
      + rewrite <- app_assoc.
        apply (lseg_app inj _ lft 0 [(ch, (inj (rsum l1 + rsum lc), s))] l1 (lc ++ [(s, z)])); auto.
        change (lc ++ [(s, z)]) with (lc ++ (s, z) :: []). constructor; auto. constructor.
      + autorewrite with rs. replace (rsum l1 + rsum lc + (z + 0) + (rsum ln0 + rsum lb0)) with (rsum l1 + rsum lc + z + (rsum ln0 + rsum lb0)) by lia. auto.
      + rewrite <- rsum_app. constructor; auto. autorewrite with rs. lia.
      + assert (Elc2 : (length (lft ++ [(ch, (inj (rsum l1 + rsum lc), s))]) = length lft + 1)%nat) by (rewrite app_length; reflexivity).
        rewrite Elc2, node_snoc in E6.
        destruct (upd_ok X MAX inj M L HM
           (fun n => upd X M (no_join_leaf X M false 0 None (f, inj n1) (snd_arg inj sn)) (Some (O, {| l_pos := inj (rsum l1 + rsum lc); l_old := inj z; l_new := inj zn; l_remap := remap |})) n ((length lft + 1)%nat :: repeat O hc))
           _ _ _ _ _ _ _ _ _ _ _ F (((l1 ++ lc) ++ [(s, zn)]) ++ lcn ++ l2) (wh_up (Some {| l_pos := inj (rsum l1 + rsum lc); l_old := inj z; l_new := inj zn; l_remap := remap |}) (length ((l1 ++ lc) ++ [(s, z)])) (Some 0%nat)) st2) as (st3 & E7 & G7).
        * cbn [upd]. rewrite node_child1. cbn [bind]. cbn [length] in E5. rewrite E5. cbn [bind]. exact E6.
        * exact G6.
        * unfold lcn; autorewrite with rs; lia.
        * unfold lcn; autorewrite with rs; lia.
        * rewrite E7. cbn [bind]. eapply Fin; [|intros ->|intros _ Q; discriminate].
          -- match goal with |- good _ _ _ ?a _ _ => match type of G7 with good _ _ _ ?b _ _ => replace a with b end end; [exact G7|].
             unfold lcn. rewrite <- !app_assoc. cbn [app]. rewrite <- !app_assoc. reflexivity.
          -- cbn [wh_up l_remap option_map]. f_equal. rewrite !app_length. cbn [length]. lia.
  Qed.
End Ops.
