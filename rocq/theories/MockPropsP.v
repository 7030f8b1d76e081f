(** Proofs of the property theorems about the reference implementation. *)
From Coq Require Import List ZArith Lia Bool Arith.
From Verif Require Import Base Index Slice Tree Insert Range Spec RefSpec Rep Ins Iter IterQ Hist HistP TreePropsP IterPropsP Mock ListFacts MockP MockQ.
Import ListNotations.
Local Open Scope Z_scope.

Section MockR.
  Context {I V : Type} (X : index_ops I) (Y : slice_ops I V) (MAX : Z) (inj : Z -> I).
  Hypothesis L : index_laws X MAX inj.
  Hypothesis Hmj : sl_may_join Y = false -> forall a b, sl_try_join Y a b = inr (a, b).
  Notation run := (prod V Z) (only parsing).
  Notation drun := (prod (prod V Z) nat) (only parsing).

  Lemma rep_empty : rep inj mock_empty ([] : list drun).
  Proof. split; cbn; try constructor; cbn; auto; constructor. Qed.

  (** Calls with integer arguments. *)
  Definition inj_args (a : Z * V * Z) : I * V * I := (inj (fst (fst a)), snd (fst a), inj (snd a)).

  Lemma insert_outside : forall m D idx x n mr, rep inj m D -> dsum D <= MAX -> 0 <= idx <= MAX -> 0 <= n <= MAX ->
    dsum D < idx \/ n = 0 -> exists w, mock_insert X Y m (inj idx) x (inj n) mr = Panic w /\ (w = POutOfBounds \/ w = PBadSize).
  Proof.
    intros m D idx x n mr [Er Hp HR Hrefs] Hm Hi Hn Hb. unfold mock_insert. pose proof (dpos_nn _ Hp).
    rewrite (size_ok X MAX inj L D m Er), (il_zero _ _ _ L), (il_eqb _ _ _ L), (il_ltb _ _ _ L) by lia.
    destruct (Z.eqb_spec n 0); [eauto|]. destruct (Z.ltb_spec (dsum D) idx); [eauto|]. lia.
  Qed.

  Lemma mock_run_ok : forall ops m D l', rep inj m D -> Forall (fun o : Z * V * Z => 0 <= fst (fst o) <= MAX /\ 0 <= snd o) ops ->
    dsum D + fold_right Z.add 0 (map snd ops) <= MAX -> spec_run Y inj (plain D) ops = Ok l' ->
    exists m' D', mock_run X Y m (map inj_args ops) = Ok m' /\ rep inj m' D' /\ plain D' = l'.
  Proof.
    induction ops as [|[[idx x] n] ops IH]; intros m D l' R Hf Hm Es.
    - cbn in *. inversion Es; subst. exists m, D. auto.
    - inversion Hf as [|? ? [H1 H2] Hf']; subst. cbn [fst snd map fold_right spec_run] in *.
      assert (Hfn : 0 <= fold_right Z.add 0 (map snd ops)). { clear - Hf'. induction Hf' as [|? ? [_ ?] _ IH]; cbn [map fold_right]; lia. }
      destruct (spec_insert Y inj (plain D) idx x n) as [l1| |] eqn:E1; cbn [bind] in Es; try discriminate.
      destruct (spec_insert_sum _ _ _ _ _ _ _ E1) as (Hs & Hn & Hi). change (rsum (plain D)) with (dsum D) in *.
      unfold spec_insert in E1. change (rsum (plain D)) with (dsum D) in E1. destruct (Z.ltb_spec (dsum D) idx); [lia|]. destruct (Z.leb_spec n 0); [lia|].
      destruct (mock_insert_ok X Y MAX inj L Hmj m D idx x n false R ltac:(lia) ltac:(lia) ltac:(lia)) as (m1 & D1 & o & Em & R1 & Hs1 & Hsp & _).
      specialize (Hsp _ E1). subst l1. unfold inj_args at 1. cbn [mock_run fst snd]. rewrite Em. cbn [bind].
      apply (IH m1 D1 l' R1 Hf'); auto. rewrite Hs1. lia.
  Qed.

  Lemma mock_get_ok : forall (m : mock I V) (D : list drun) i, rep inj m D -> dsum D <= MAX -> 0 <= i <= MAX ->
    mock_get X m (inj i) = match covering (plain D) i with Some (a, b, s) => Ok (inj a, inj b, s) | None => Panic PAssert end.
  Proof.
    intros m D i [Er Hp HR Hrefs] Hm Hi. unfold mock_get. pose proof (dpos_nn _ Hp). rewrite (size_ok X MAX inj L D m Er), Er.
    unfold ix_leb. rewrite (il_zero _ _ _ L), !(il_ltb _ _ _ L) by lia. destruct (Z.ltb_spec i 0); [lia|]. cbn [negb andb].
    destruct (Z.ltb_spec i (dsum D)).
    - destruct (locate D i Hp ltac:(lia)) as (A & s & z & id & B & -> & Ha).
      rewrite (run_index_ok X MAX inj L); auto; try lia. rewrite vget_ok. cbn [bind]. rewrite (start_ok0 X MAX inj L). cbn [bind fst snd].
      rewrite covering_at by (auto; lia). rewrite Z.add_0_l. reflexivity.
    - destruct (covering (plain D) i) as [[[a b] s]|] eqn:E; auto. exfalso. apply find_some in E. destruct E as [Hin Hb].
      pose proof (spans_lo (plain D) 0 Hp) as Hs. rewrite Forall_forall in Hs. specialize (Hs _ Hin). unfold dsum in *. lia.
  Qed.

  (** Iteration. *)
  Definition mock_item (e : Z * Z * V) : I * I * I * V := (inj (fst (fst e)), inj (snd (fst e)), inj (snd (fst e) - fst (fst e)), snd e).

  Lemma mock_calls_ok : forall calls (m : mock I V) (A B C : list drun), rep inj m (A ++ B ++ C) -> dsum (A ++ B ++ C) <= MAX ->
    exists it, mock_calls X m (length A, length A + length B)%nat calls
      = Ok (map (option_map mock_item) (deque (spans (dsum A) (plain B)) calls), it).
  Proof.
    induction calls as [|b calls IH]; intros m A B C R Hm; [eexists; reflexivity|].
    pose proof (mr_runs _ _ _ R) as Er. pose proof (mr_pos _ _ _ R) as Hp. cbn [mock_calls]. unfold mock_step at 1.
    destruct (snoc_case B) as [->|(B0 & s & z & id & ->)].
    - cbn [length]. rewrite Nat.add_0_r. destruct (Nat.leb_spec (length A) (length A)); [|lia]. cbn [bind].
      destruct (IH m A [] C R Hm) as [it E]. cbn [length] in E. rewrite Nat.add_0_r in E. rewrite E. cbn [bind plain map spans deque rev].
      exists it. destruct b; reflexivity.
    - rewrite app_length. cbn [length]. destruct (Nat.leb_spec (length A + (length B0 + 1)) (length A)); [lia|].
      destruct b.
      + (* back *)
        assert (Em : A ++ (B0 ++ [(s, z, id)]) ++ C = (A ++ B0) ++ (s, z, id) :: C) by (rewrite <- !app_assoc; reflexivity).
        replace (length A + (length B0 + 1) - 1)%nat with (length (A ++ B0)) by (rewrite app_length; lia).
        rewrite Er, Em. rewrite (start_ok0 X MAX inj L). cbn [bind]. rewrite vget_ok. cbn [bind fst snd].
        rewrite Em in Hp, Hm. pose proof Hp as Hp2. apply dpos_app in Hp2. destruct Hp2 as [H1 H2]. apply dpos_cons in H2. destruct H2 as [H2 H3].
        pose proof (dpos_nn _ H1). pose proof (dpos_nn _ H3). rewrite dsum_app, dsum_cons in Hm. rewrite Z.add_0_l.
        rewrite (il_subl _ _ _ L) by lia. cbn [bind].
        assert (Er2 : rep inj m (A ++ B0 ++ [(s, z, id)] ++ C)) by (rewrite (app_assoc B0); exact R).
        destruct (IH m A B0 ([(s, z, id)] ++ C) Er2) as [it E].
        { rewrite (app_assoc B0), Em, dsum_app, dsum_cons. lia. }
        rewrite app_length, E. cbn [bind]. exists it. do 2 f_equal.
        rewrite plain_app, spans_app. cbn [plain map fst spans deque]. rewrite rev_app_distr. cbn [rev app]. rewrite rev_involutive.
        cbn [map option_map]. f_equal. unfold mock_item. cbn [fst snd]. rewrite dsum_app. unfold dsum. f_equal.
      + (* front *)
        destruct B0 as [|[[s1 z1] id1] B1].
        * cbn [app length plus] in *. rewrite Er. rewrite (start_ok0 X MAX inj L). cbn [bind]. rewrite vget_ok. cbn [bind fst snd].
          pose proof Hp as Hp2. apply dpos_app in Hp2. destruct Hp2 as [H1 H2]. apply dpos_cons in H2. destruct H2 as [H2 H3].
          pose proof (dpos_nn _ H1). pose proof (dpos_nn _ H3). pose proof Hm as Hm2. rewrite dsum_app, dsum_cons in Hm2. rewrite Z.add_0_l.
          rewrite (il_subl _ _ _ L) by lia. cbn [bind].
          assert (Em : (A ++ [(s, z, id)]) ++ [] ++ C = A ++ (s, z, id) :: C) by (rewrite <- app_assoc; reflexivity).
          destruct (IH m (A ++ [(s, z, id)]) [] C ltac:(rewrite Em; auto) ltac:(rewrite Em; auto)) as [it E].
          rewrite app_length in E. cbn [length] in E. rewrite Nat.add_0_r in E.
          rewrite E. cbn [bind plain map spans fst deque]. exists it. do 2 f_equal.
        * cbn [app length] in *. rewrite Er. cbn [app]. rewrite (start_ok0 X MAX inj L). cbn [bind]. rewrite vget_ok. cbn [bind fst snd].
          pose proof Hp as Hp2. apply dpos_app in Hp2. destruct Hp2 as [H1 H2]. apply dpos_cons in H2. destruct H2 as [H2 H3].
          pose proof (dpos_nn _ H1). pose proof (dpos_nn _ H3). pose proof Hm as Hm2. rewrite dsum_app, dsum_cons in Hm2. rewrite Z.add_0_l.
          rewrite (il_subl _ _ _ L) by lia. cbn [bind].
          assert (Em : (A ++ [(s1, z1, id1)]) ++ (B1 ++ [(s, z, id)]) ++ C = A ++ (s1, z1, id1) :: (B1 ++ [(s, z, id)]) ++ C) by (rewrite <- !app_assoc; reflexivity).
          destruct (IH m (A ++ [(s1, z1, id1)]) (B1 ++ [(s, z, id)]) C ltac:(rewrite Em; auto) ltac:(rewrite Em; auto)) as [it E].
          rewrite !app_length in E. cbn [length] in E.
          replace (length A + (S (length B1) + 1))%nat with (length A + 1 + (length B1 + 1))%nat by lia.
          rewrite E. cbn [bind plain map spans fst deque]. exists it. do 2 f_equal. cbn [map option_map]. f_equal.
          repeat f_equal. rewrite dsum_app, dsum_cons, dsum_nil. lia.
  Qed.

  (** Splitting the decorated list as the plain one. *)
  Lemma plain_split : forall (D : list drun) a b, plain D = a ++ b -> exists A B, D = A ++ B /\ plain A = a /\ plain B = b.
  Proof.
    intros D a. revert D. induction a as [|r a IH]; intros D b E; [exists [], D; auto|].
    destruct D as [|[r' id] D]; [discriminate|]. cbn [plain map fst app] in E. inversion E; subst.
    destruct (IH D b H1) as (A & B & -> & <- & <-). exists ((r, id) :: A), B. auto.
  Qed.
  Lemma plain_len : forall (D : list drun), length (plain D) = length D.
  Proof. intros. apply map_length. Qed.

  Lemma mock_iter_ok : forall (m : mock I V) (D : list drun) sb eb, rep inj m D -> dsum D <= MAX -> sb_in MAX sb -> eb_in MAX eb ->
    if range_ok (dsum D) sb eb then
      exists it, mock_iter X m (inj_sb inj sb) (inj_eb inj eb) = Ok it /\
        forall calls, exists it', mock_calls X m it calls
          = Ok (map (option_map mock_item) (deque (overlapping (plain D) (range_start sb) (range_end (dsum D) eb)) calls), it')
    else mock_iter X m (inj_sb inj sb) (inj_eb inj eb) = Panic PRange.
  Proof.
    intros m D sb eb R Hm Hsb Heb. pose proof (mr_runs _ _ _ R) as Er. pose proof (mr_pos _ _ _ R) as Hp. pose proof (dpos_nn _ Hp) as Hnn.
    unfold mock_iter. rewrite (size_ok X MAX inj L D m Er), Er.
    set (sp := match sb with SIncl a => a | SUnb => 0 end).
    assert (Hsp : 0 <= sp <= MAX \/ sp = 0) by (unfold sp; destruct sb; cbn [sb_in] in *; lia).
    assert (Hsp0 : 0 <= sp <= MAX) by lia.
    assert (Esb : (match inj_sb inj sb with SUnb => (ix_zero X, true) | SIncl i => (i, false) end) = (inj sp, match sb with SUnb => true | SIncl _ => false end)).
    { unfold sp. destruct sb; cbn; rewrite ?(il_zero _ _ _ L); reflexivity. }
    rewrite Esb.
    (* the start *)
    assert (Hfwd : match sb with SIncl a => (0 <=? a) && (a <? dsum D) = false | SUnb => False end ->
      (match inj_sb inj sb with SUnb => Ok O | SIncl i => if ix_leb X (inj (dsum D)) i then Panic PRange else Ok (run_index X (enc inj 0 D) i) end) = Panic PRange).
    { destruct sb as [a|]; cbn [inj_sb sb_in] in *; [|tauto]. intros Ha. unfold ix_leb. rewrite (il_ltb _ _ _ L) by lia.
      destruct (Z.ltb_spec a (dsum D)); cbn [negb]; auto. rewrite andb_true_r in Ha. lia. }
    destruct (range_ok (dsum D) sb eb) eqn:Ero.
    2:{ unfold range_ok in Ero. apply andb_false_iff in Ero. destruct Ero as [Ero|Ero].
        - apply andb_false_iff in Ero. destruct Ero as [Ero|Ero].
          + rewrite Hfwd; [reflexivity|]. destruct sb; auto. discriminate.
          + destruct (match inj_sb inj sb with SUnb => Ok O | SIncl i => if ix_leb X (inj (dsum D)) i then Panic PRange else Ok (run_index X (enc inj 0 D) i) end) as [f|w|] eqn:Ef; cbn [bind].
            * destruct eb as [b|b|]; cbn [inj_eb eb_in] in *; [| |discriminate].
              -- unfold ix_leb. rewrite !(il_ltb _ _ _ L) by lia. rewrite Ero. cbn [negb]. rewrite orb_true_r. reflexivity.
              -- rewrite !(il_ltb _ _ _ L) by lia. destruct (Z.ltb_spec (dsum D) b); [rewrite orb_true_r; reflexivity|]. lia.
            * destruct sb; cbn in Ef; [|discriminate]. destruct (ix_leb X (inj (dsum D)) (inj i)); inversion Ef; reflexivity.
            * destruct sb; cbn in Ef; [|discriminate]. destruct (ix_leb X (inj (dsum D)) (inj i)); discriminate.
        - destruct sb as [a|]; [|discriminate]. cbn [inj_sb sb_in] in *. unfold sp in *.
          unfold ix_leb at 1. rewrite (il_ltb _ _ _ L) by lia. destruct (Z.ltb_spec a (dsum D)); cbn [negb bind]; auto.
          destruct eb as [b|b|]; cbn [inj_eb eb_in] in *; [| |discriminate].
          + rewrite !(il_ltb _ _ _ L) by lia. destruct (Z.ltb_spec b a); [reflexivity|]. lia.
          + rewrite !(il_ltb _ _ _ L), (il_eqb _ _ _ L) by lia. destruct (Z.ltb_spec b a); [reflexivity|]. destruct (Z.eqb_spec b a); [reflexivity|]. lia. }
    unfold range_ok in Ero. apply andb_true_iff in Ero. destruct Ero as [Ero E3]. apply andb_true_iff in Ero. destruct Ero as [E1 E2].
    set (a := range_start sb). set (b := range_end (dsum D) eb).
    assert (Ha : sp = a) by (unfold sp, a; destruct sb; reflexivity).
    (* an empty range: nothing or `..0` *)
    destruct (Z.lt_ge_cases a b) as [Hab|Hab].
    2:{ assert (sb = SUnb /\ a = 0 /\ b = 0).
        { unfold a, b in *. destruct sb as [a0|], eb as [b0|b0|]; cbn [range_start range_end sb_in eb_in] in *; first [exfalso; lia | repeat split; lia]. }
        destruct H as (-> & Ha0 & Hb0). cbn [inj_sb bind].
        assert (Hov : overlapping (plain D) a b = []).
        { unfold overlapping. apply filter_none. apply Forall_forall. intros e Hin. pose proof (spans_lo (plain D) 0 Hp) as Hs.
          rewrite Forall_forall in Hs. specialize (Hs _ Hin). destruct (Z.ltb_spec (fst (fst e)) b); [lia|reflexivity]. }
        rewrite Hov. unfold b in Hb0. destruct eb as [b0|b0|]; cbn [range_end inj_eb eb_in] in *; [lia| |].
        - subst b0. rewrite (il_zero _ _ _ L). rewrite !(il_ltb _ _ _ L), !(il_eqb _ _ _ L) by lia. cbn [negb]. rewrite andb_false_r.
          unfold sp. cbn [Z.ltb Z.compare orb Z.eqb]. destruct (Z.ltb_spec (dsum D) 0); [lia|]. cbn [bind]. eexists. split; [reflexivity|]. intros calls.
          destruct (mock_calls_ok calls m [] [] D R Hm) as [it' E]. cbn [length plus] in E. exists it'. exact E.
        - assert (D = []). { destruct D as [|[[s z] id] D]; auto. apply dpos_cons in Hp. destruct Hp as [? Hp]. pose proof (dpos_nn _ Hp). rewrite dsum_cons in Hb0. lia. }
          subst D. cbn [enc length bind]. eexists. split; [reflexivity|]. intros calls.
          destruct (mock_calls_ok calls m [] [] [] R Hm) as [it' E]. cbn [length plus] in E. exists it'. exact E. }
    assert (Hb : b <= dsum D) by (unfold b; destruct eb; cbn [range_end eb_in] in *; lia).
    assert (Ha0 : 0 <= a) by lia.
    destruct (C14_overlapping_is_a_segment_proof V (plain D) a b Hp Ha0 Hab Hb) as (PA & PB & PC & El & Hov & HaA & HbB & Hfirst & Hlast).
    destruct (plain_split D PA (PB ++ PC) El) as (A & T & -> & <- & ET). destruct (plain_split T PB PC ET) as (B & C & -> & <- & <-).
    rewrite rsum_app in *. rewrite !plain_app in *. change (rsum (plain A)) with (dsum A) in *. change (rsum (plain B)) with (dsum B) in *.
    destruct (snoc_case B) as [->|(B0 & s & z & id & ->)]; [rewrite dsum_nil in *; lia|].
    (* the two indices *)
    assert (Ef : (match inj_sb inj sb with SUnb => Ok O | SIncl i => if ix_leb X (inj (dsum (A ++ (B0 ++ [(s, z, id)]) ++ C))) i then Panic PRange else Ok (run_index X (enc inj 0 (A ++ (B0 ++ [(s, z, id)]) ++ C)) i) end) = Ok (length A)).
    { destruct sb as [a0|]; cbn [inj_sb range_start] in *.
      - unfold a in *. unfold ix_leb. rewrite (il_ltb _ _ _ L) by lia. destruct (Z.ltb_spec a0 (dsum (A ++ (B0 ++ [(s, z, id)]) ++ C))); [|lia]. cbn [negb].
        f_equal. apply (run_index_ok X MAX inj L); auto; try lia. destruct B0 as [|[[s1 z1] id1] B0]; cbn [app].
        + eapply (Hfirst s z []). reflexivity.
        + eapply (Hfirst s1 z1). reflexivity.
      - assert (a = 0) by reflexivity. destruct A as [|[[s1 z1] id1] A]; auto. exfalso. cbn [app] in Hp. apply dpos_cons in Hp. destruct Hp as [? Hp].
        apply dpos_app in Hp. destruct Hp as [Hp _]. pose proof (dpos_nn _ Hp). rewrite dsum_cons in *. lia. }
    rewrite Ef. cbn [bind]. clear Ef Hfwd.
    assert (HlastB : dsum A + dsum B0 < b). { pose proof (Hlast s z (plain B0) ltac:(rewrite plain_app; reflexivity)) as Q. rewrite rsum_app in Q. exact Q. }
    assert (HsumB : dsum (B0 ++ [(s, z, id)]) = dsum B0 + z) by (rewrite dsum_app, dsum_cons, dsum_nil; lia).
    set (N := (length A + length (B0 ++ [(s, z, id)]))%nat).
    assert (HN : N = (length (A ++ B0) + 1)%nat) by (unfold N; rewrite !app_length; cbn [length]; lia).
    assert (Em : A ++ (B0 ++ [(s, z, id)]) ++ C = (A ++ B0) ++ (s, z, id) :: C) by (rewrite <- !app_assoc; reflexivity).
    assert (Em2 : A ++ (B0 ++ [(s, z, id)]) ++ C = (A ++ B0 ++ [(s, z, id)]) ++ C) by (rewrite <- !app_assoc; reflexivity).
    assert (HpA : dpos A /\ dpos B0 /\ 0 < z /\ dpos C).
    { rewrite Em in Hp. apply dpos_app in Hp. destruct Hp as [Q1 Q2]. apply dpos_app in Q1. apply dpos_cons in Q2. tauto. }
    destruct HpA as (HpA & HpB0 & Hz & HpC). pose proof (dpos_nn _ HpA). pose proof (dpos_nn _ HpB0). pose proof (dpos_nn _ HpC).
    assert (Eb : (match inj_eb inj eb with
                 | EUnb => Ok (length (enc inj 0 (A ++ (B0 ++ [(s, z, id)]) ++ C)))
                 | EIncl i => if ix_ltb X i (inj sp) || ix_leb X (inj (dsum (A ++ (B0 ++ [(s, z, id)]) ++ C))) i then Panic PRange
                   else Ok (match search X (enc inj 0 (A ++ (B0 ++ [(s, z, id)]) ++ C)) i with inl k => k + 2 | inr k => k + 1 end)%nat
                 | EExcl i =>
                   if ix_ltb X i (inj sp) || (ix_eqb X i (inj sp) && negb (match sb with SUnb => true | SIncl _ => false end)) || ix_ltb X (inj (dsum (A ++ (B0 ++ [(s, z, id)]) ++ C))) i then Panic PRange
                   else if ix_eqb X i (ix_zero X) then Ok O
                   else Ok (match search X (enc inj 0 (A ++ (B0 ++ [(s, z, id)]) ++ C)) i with inl k => k + 1 | inr k => k + 1 end)%nat
                 end) = Ok N).
    { unfold b in *. clear Hov. rewrite (il_zero _ _ _ L). destruct eb as [b0|b0|]; cbn [inj_eb range_end eb_in] in *.
      - unfold ix_leb. rewrite !(il_ltb _ _ _ L) by lia. destruct (Z.ltb_spec b0 sp); [lia|]. destruct (Z.ltb_spec b0 (dsum (A ++ (B0 ++ [(s, z, id)]) ++ C))); [|lia]. cbn [negb orb].
        f_equal. rewrite Em in *. rewrite (search_ok X MAX inj L); auto; rewrite ?dsum_app; try lia. rewrite Z.add_0_l. rewrite !app_length in *.
        destruct (Z.eqb_spec b0 (dsum A + dsum B0)); cbn [andb]; [|lia].
        destruct (length A + length B0 =? 0)%nat eqn:En; cbn [negb]; [lia|]. apply Nat.eqb_neq in En. lia.
      - rewrite !(il_ltb _ _ _ L), !(il_eqb _ _ _ L) by lia. destruct (Z.ltb_spec b0 sp); [lia|].
        destruct (Z.eqb_spec b0 sp); [lia|]. cbn [andb orb]. destruct (Z.ltb_spec (dsum (A ++ (B0 ++ [(s, z, id)]) ++ C)) b0); [lia|].
        destruct (Z.eqb_spec b0 0); [lia|]. f_equal. destruct (Z.eq_dec b0 (dsum A + (dsum B0 + z))) as [He|Hne].
        + rewrite Em2 in *. assert (Es : dsum (A ++ B0 ++ [(s, z, id)]) = b0) by (rewrite dsum_app, HsumB; lia).
          rewrite (search_ok X MAX inj L); auto; rewrite ?Es; try lia.
          * rewrite Z.add_0_l, Z.eqb_refl. cbn [andb]. rewrite !app_length. cbn [length].
            destruct (length A + (length B0 + 1) =? 0)%nat eqn:En; cbn [negb]; [apply Nat.eqb_eq in En; lia|]. rewrite HN, app_length. lia.
          * destruct C as [|[[s1 z1] id1] C]; auto. apply dpos_cons in HpC. lia.
        + rewrite Em in *. rewrite (search_ok X MAX inj L); auto; rewrite ?dsum_app; try lia. rewrite Z.add_0_l.
          destruct (Z.eqb_spec b0 (dsum A + dsum B0)); [lia|]. cbn [andb]. auto.
      - f_equal. rewrite enc_len. assert (C = []).
        { destruct C as [|[[s1 z1] id1] C]; auto. exfalso. apply dpos_cons in HpC. destruct HpC as [? HpC]. pose proof (dpos_nn _ HpC).
          rewrite Em2, dsum_app, dsum_app, dsum_cons in HbB. lia. }
        subst C. rewrite app_nil_r. unfold N. rewrite app_length. reflexivity. }
    rewrite Eb. cbn [bind]. exists (length A, N). split; auto. intros calls. rewrite Hov. apply mock_calls_ok with (C := C); auto.
  Qed.

  (** References. *)
  Definition inj_call (c : rcall V) : @mop I V :=
    match c with CInsert i x n => MInsert (inj i) x (inj n) | CInsertRef i x n => MInsertRef (inj i) x (inj n) | CMakeRef i => MMakeRef (inj i) end.

  Definition refs_at (m : mock I V) (D : list drun) (starts : list Z) : Prop :=
    length (rm_refs (mk_map m)) = length starts /\
    forall k a, nth_error starts k = Some a -> exists id, nth_error (rm_refs (mk_map m)) k = Some id /\ at_start D id a.

  Lemma all_some_map : forall {T U} (f : T -> option U) l r, all_some (map f l) = Some r ->
    length r = length l /\ forall k b, nth_error r k = Some b -> exists a, nth_error l k = Some a /\ f a = Some b.
  Proof.
    induction l as [|x l IH]; intros r E; cbn [map all_some] in E.
    - inversion E. split; auto. intros [|k] b Hb; discriminate.
    - destruct (f x) eqn:Ex; [|discriminate]. destruct (all_some (map f l)) as [r'|]; [|discriminate]. inversion E; subst.
      destruct (IH r' eq_refl) as [Hl H]. cbn [length]. split; [lia|]. intros [|k] b Hb; cbn [nth_error] in *.
      + inversion Hb; subst. eauto.
      + auto.
  Qed.

  Lemma refs_insert : forall (m : mock I V) (D : list drun) starts idx x n mr l' starts', rep inj m D -> refs_at m D starts -> 0 <= idx -> dsum D + n <= MAX ->
    ref_insert Y inj (plain D) starts idx x n = Ok (l', starts') ->
    exists m' D', mock_insert X Y m (inj idx) x (inj n) mr = Ok (m', if mr then Some (length starts) else None) /\ rep inj m' D' /\ plain D' = l' /\ dsum D' = dsum D + n /\
      if mr then exists a, start_at l' idx = Some a /\ refs_at m' D' (starts' ++ [a]) else refs_at m' D' starts'.
  Proof.
    intros m D starts idx x n mr l' starts' R [Hl Hr] Hi Hm E. unfold ref_insert in E.
    destruct (spec_insert Y inj (plain D) idx x n) as [l1| |] eqn:E1; cbn [bind] in E; try discriminate.
    destruct (spec_insert_sum _ _ _ _ _ _ _ E1) as (Hs & Hn & Hi'). change (rsum (plain D)) with (dsum D) in *.
    unfold spec_insert in E1. change (rsum (plain D)) with (dsum D) in E1. destruct (Z.ltb_spec (dsum D) idx); [lia|]. destruct (Z.leb_spec n 0); [lia|].
    destruct (all_some (map (follow l1 idx n) starts)) as [ss|] eqn:Ea; [|discriminate]. inversion E; subst l' starts'.
    destruct (mock_insert_ok X Y MAX inj L Hmj m D idx x n mr R ltac:(lia) Hn ltac:(lia)) as (m1 & D1 & o & Em & R1 & Hs1 & Hsp & (tail & Et & Elen & Eo) & Htr & Hnew).
    specialize (Hsp _ E1). subst l1. rewrite Hl in *. exists m1, D1. rewrite Em, Eo. split; auto. split; auto. split; auto. split; auto.
    destruct (all_some_map _ _ _ Ea) as [Hss Hf].
    assert (Hold : forall k a, nth_error ss k = Some a -> exists id, nth_error (rm_refs (mk_map m1)) k = Some id /\ at_start D1 id a).
    { intros k a Hk. destruct (Hf k a Hk) as (a0 & Hk0 & Hfa). destruct (Hr k a0 Hk0) as (id & Hid & Has).
      destruct (Htr k id a0 Hid Has) as (id' & a' & Hk' & Has' & Hfol). exists id'. split; auto.
      unfold follow, start_at in Hfa. unfold follow_start in Hfol. rewrite Hfol in Hfa. inversion Hfa; subst; auto. }
    destruct mr.
    - destruct (Hnew eq_refl) as (id & a & Hk & Has & Hc). exists a. split; auto. split; [rewrite Et, app_length; cbn [length]; lia|].
      intros k a1 Hk1. destruct (Nat.eq_dec k (length ss)) as [->|Hne].
      + rewrite nth_snoc in Hk1. inversion Hk1; subst a1. exists id. rewrite Hss. auto.
      + apply Hold. rewrite nth_error_app1 in Hk1; auto. pose proof (nth_error_lt _ _ _ Hk1). rewrite app_length in *. cbn [length] in *. lia.
    - split; [rewrite Et, Elen, Nat.add_0_r; auto|]. auto.
  Qed.

  Lemma refs_run : forall calls (m : mock I V) (D : list drun) starts l starts', rep inj m D -> refs_at m D starts -> calls_fit MAX calls -> dsum D + csum calls <= MAX ->
    ref_run Y inj (plain D) starts calls = Ok (l, starts') ->
    exists m' D', mock_ops X Y m (map inj_call calls) = Ok (m', seq (length starts) (length starts' - length starts)) /\ (length starts <= length starts')%nat /\
      rep inj m' D' /\ plain D' = l /\ dsum D' <= MAX /\ refs_at m' D' starts'.
  Proof.
    assert (Hcs : forall calls, Forall (fun c : rcall V => match c with CInsert i _ n | CInsertRef i _ n => 0 <= i <= MAX /\ 0 <= n | CMakeRef i => 0 <= i <= MAX end) calls -> 0 <= csum calls).
    { clear. induction 1 as [|c calls H _ IH]; cbn [csum]; [lia|]. destruct c; lia. }
    induction calls as [|c calls IH]; intros m D starts l starts' R Hr [Hf Hs] Hm E.
    - cbn in *. inversion E; subst. exists m, D. rewrite Nat.sub_diag. cbn. split; auto. split; auto. split; auto. split; auto. split; auto. lia.
    - inversion Hf as [|? ? Hc Hf']; subst. pose proof (Hcs _ Hf'). cbn [ref_run] in E. cbn [map mock_ops].
      destruct c as [i x n|i x n|i]; cbn [inj_call csum] in *.
      + destruct (ref_insert Y inj (plain D) starts i x n) as [[l1 s1]| |] eqn:E1; cbn [bind] in E; try discriminate.
        destruct (refs_insert m D starts i x n false l1 s1 R Hr ltac:(lia) ltac:(lia) E1) as (m1 & D1 & Em & R1 & Ep & Hs1 & Hr1).
        rewrite Em. cbn [bind]. subst l1. destruct (IH m1 D1 s1 l starts' R1 Hr1 ltac:(split; auto; lia) ltac:(lia) E) as (m' & D' & Eo & Hle & R' & El & Hb & Hr').
        rewrite Eo. cbn [bind]. exists m', D'. assert (Hl1 : length s1 = length starts).
        { unfold ref_insert in E1. destruct (spec_insert Y inj (plain D) i x n) as [l2| |]; try discriminate. cbn [bind] in E1.
          destruct (all_some (map (follow l2 i n) starts)) eqn:Ea; [|discriminate]. inversion E1; subst. apply all_some_map in Ea. tauto. }
        rewrite Hl1 in *. auto 10.
      + destruct (ref_insert Y inj (plain D) starts i x n) as [[l1 s1]| |] eqn:E1; cbn [bind] in E; try discriminate.
        destruct (refs_insert m D starts i x n true l1 s1 R Hr ltac:(lia) ltac:(lia) E1) as (m1 & D1 & Em & R1 & Ep & Hs1 & a & Ea1 & Hr1).
        rewrite Em. cbn [bind]. subst l1. unfold ref_add in E. rewrite Ea1 in E. cbn [bind] in E.
        destruct (IH m1 D1 (s1 ++ [a]) l starts' R1 Hr1 ltac:(split; auto; lia) ltac:(lia) E) as (m' & D' & Eo & Hle & R' & El & Hb & Hr').
        rewrite Eo. cbn [bind]. exists m', D'. assert (Hl1 : length s1 = length starts).
        { unfold ref_insert in E1. destruct (spec_insert Y inj (plain D) i x n) as [l2| |]; try discriminate. cbn [bind] in E1.
          destruct (all_some (map (follow l2 i n) starts)) eqn:Ea; [|discriminate]. inversion E1; subst. apply all_some_map in Ea. tauto. }
        rewrite app_length in *. cbn [length] in *. rewrite Hl1 in *. split; [|split; [lia|auto]].
        f_equal. f_equal. replace (length starts' - length starts)%nat with (S (length starts' - (length starts + 1))) by lia. cbn [seq]. rewrite Nat.add_1_r. reflexivity.
      + unfold ref_add in E. destruct (start_at (plain D) i) as [a|] eqn:Ea; cbn [bind] in E; [|discriminate].
        destruct R as [Er Hp HR Hrefs]. pose proof (dpos_nn _ Hp). unfold start_at in Ea. destruct (covering (plain D) i) as [[[a0 b0] s0]|] eqn:Ecov; [|discriminate].
        inversion Ea; subst a0.
        assert (Hin : 0 <= i < dsum D).
        { apply find_some in Ecov. destruct Ecov as [Hin Hb]. pose proof (spans_lo (plain D) 0 Hp) as Hsp. rewrite Forall_forall in Hsp. specialize (Hsp _ Hin). unfold dsum. cbn [fst snd] in *. lia. }
        unfold mock_make_ref. rewrite (size_ok X MAX inj L D m Er), Er. unfold ix_leb. rewrite (il_zero _ _ _ L), !(il_ltb _ _ _ L) by lia.
        destruct (Z.ltb_spec i 0); [lia|]. destruct (Z.ltb_spec i (dsum D)); [|lia]. cbn [negb andb].
        destruct (locate D i Hp Hin) as (A & s & z & id & B & -> & Ha).
        rewrite (run_index_ok X MAX inj L); auto; try lia. rewrite vget_ok. cbn [bind snd new_refid].
        rewrite covering_at in Ecov by (auto; lia). inversion Ecov; subst. destruct Hr as [Hl Hr].
        set (m1 := {| mk_runs := enc inj 0 (A ++ (s0, z, id) :: B); mk_map := {| rm_stable := rm_stable (mk_map m); rm_refs := rm_refs (mk_map m) ++ [id] |} |}).
        assert (R1 : rep inj m1 (A ++ (s0, z, id) :: B)).
        { split; cbn [m1 mk_runs mk_map rm_refs]; auto.
          - destruct HR as [Q1 Q2 Q3]. split; auto.
          - apply Forall_app. split; auto. constructor; auto. rewrite dids_app. apply in_app_iff. right. left. reflexivity. }
        assert (Hr1 : refs_at m1 (A ++ (s0, z, id) :: B) (starts ++ [dsum A])).
        { split; [unfold m1; cbn [mk_map rm_refs]; rewrite !app_length; cbn [length]; lia|]. intros k a1 Hk. unfold m1. cbn [mk_map rm_refs].
          destruct (Nat.eq_dec k (length starts)) as [->|Hne].
          - rewrite nth_snoc in Hk. inversion Hk; subst a1. exists id. rewrite <- Hl, nth_snoc. split; auto. exists A, s0, z, B. auto.
          - rewrite nth_error_app1 in Hk. 2:{ pose proof (nth_error_lt _ _ _ Hk). rewrite app_length in *. cbn [length] in *. lia. }
            destruct (Hr k a1 Hk) as (id1 & Hid & Has). exists id1. split; auto. apply nth_app_l. auto. }
        destruct (IH m1 _ (starts ++ [dsum A]) l starts' R1 Hr1 ltac:(split; auto) ltac:(lia) E) as (m' & D' & Eo & Hle & R' & El & Hb & Hr').
        rewrite Eo. cbn [bind]. exists m', D'. rewrite app_length in *. cbn [length] in *. split; [|split; [lia|auto]].
        f_equal. f_equal. replace (length starts' - length starts)%nat with (S (length starts' - (length starts + 1))) by lia. cbn [seq]. rewrite Nat.add_1_r, Hl. reflexivity.
  Qed.

  Lemma mock_ref_ok : forall (m : mock I V) (D : list drun) starts k a, rep inj m D -> refs_at m D starts -> nth_error starts k = Some a ->
    exists b s, covering (plain D) a = Some (a, b, s) /\ mock_ref X m k = Ok (Some (inj a, inj b, s)).
  Proof.
    intros m D starts k a [Er Hp HR Hrefs] [Hl Hr] Hk. destruct (Hr k a Hk) as (id & Hid & (A & s & z & B & -> & Ea)).
    apply dpos_app in Hp as Hp2. destruct Hp2 as [_ Hp2]. apply dpos_cons in Hp2. destruct Hp2 as [Hz _].
    exists (a + z), s. split; [rewrite covering_at by (auto; lia); rewrite Ea; reflexivity|].
    unfold mock_ref, rm_idx, vget. rewrite Hid. cbn [bind]. rewrite dids_app in HR. cbn [dids map snd] in HR.
    pose proof (ri_lt _ _ HR) as Hlt. rewrite Forall_forall in Hlt.
    rewrite (ri_nth _ _ _ HR) by (apply Hlt; apply in_app_iff; right; left; auto).
    rewrite index_of_self. 2:{ pose proof (ri_nodup _ _ HR) as Hnd. apply nodup_mid in Hnd. rewrite in_app_iff in Hnd. tauto. }
    cbn [bind]. rewrite dids_len, Er. change (match nth_error (enc inj 0 (A ++ (s, z, id) :: B)) (length A) with Some a0 => Ok a0 | None => Panic PAssert end) with (vget (enc inj 0 (A ++ (s, z, id) :: B)) (length A)).
    rewrite vget_ok. cbn [bind fst snd]. rewrite (start_ok0 X MAX inj L). cbn [bind]. rewrite Z.add_0_l, Ea. reflexivity.
  Qed.
End MockR.

(** On every history that the tree survives, the reference implementation survives too and agrees in
    size, in `get` at every index, and in every sequence of `next`/`next_back` calls over every
    range; invalid ranges panic in both. *)
Lemma C34_tree_agrees_with_mock_proof : forall (I V : Type) (X : index_ops I) (Y : slice_ops I V) (MAX : Z) (inj : Z -> I)
    (M : nat) (nop : bool) (ops : list (@op V Z)) (r : @rle I V),
  index_laws X MAX inj -> (1 <= M)%nat -> ops_fit MAX ops ->
  (sl_may_join Y = false -> forall a b, sl_try_join Y a b = inr (a, b)) ->
  run_ops X Y M nop None (map (inj_op inj) ops) = Ok r ->
  exists m, mock_run X Y mock_empty (map (inj_args inj) (map args ops)) = Ok m /\
    rle_size X r = Ok (mock_size X m) /\
    (forall i, 0 <= i <= MAX -> (exists e, get X r (inj i) = Ok e /\ mock_get X m (inj i) = Ok e) \/
                                (get X r (inj i) = Panic POutOfBounds /\ mock_get X m (inj i) = Panic PAssert)) /\
    (forall sb eb, sb_in MAX sb -> eb_in MAX eb ->
      (iter_new X r [] (inj_sb inj sb) (inj_eb inj eb) = Panic PRange /\ mock_iter X m (inj_sb inj sb) (inj_eb inj eb) = Panic PRange) \/
      (exists it jt, iter_new X r [] (inj_sb inj sb) (inj_eb inj eb) = Ok it /\ mock_iter X m (inj_sb inj sb) (inj_eb inj eb) = Ok jt /\
        forall calls, exists outs it' jt',
          iter_calls X r it calls = Ok (map (option_map (fun e => (fst (fst (fst e)), snd (fst (fst e)), snd e))) outs, it') /\
          mock_calls X m jt calls = Ok (outs, jt') /\
          Forall (fun o => match o with Some e => entry_size X (fst (fst (fst e)), snd (fst (fst e)), snd e) = Ok (snd (fst e)) | None => True end) outs)).
Proof.
  intros I V X Y MAX inj M nop ops r L HM [Hf Ho] Hmj E.
  pose proof (run_ok X Y MAX inj M L HM nop ops None [] eq_refl Hf ltac:(cbn [rsum]; lia)) as H.
  destruct (spec_run Y inj [] (map args ops)) as [l| |] eqn:Es; [|congruence|contradiction].
  destruct H as (r0 & E0 & R & Hs). rewrite E in E0. inversion E0; subst r0. cbn [rsum] in Hs. rewrite Z.add_0_l in Hs.
  assert (Hsum : fold_right Z.add 0 (map snd (map args ops)) = osum ops).
  { clear. induction ops as [|o ops IH]; cbn [map fold_right osum]; auto. rewrite IH. reflexivity. }
  assert (Hf2 : Forall (fun o : Z * V * Z => 0 <= fst (fst o) <= MAX /\ 0 <= snd o) (map args ops)).
  { clear - Hf. induction Hf; cbn [map]; constructor; auto. }
  destruct (mock_run_ok X Y MAX inj L Hmj (map args ops) mock_empty [] l (rep_empty inj) Hf2 ltac:(rewrite Hsum; unfold dsum; cbn; lia) Es)
    as (m & D & Em & RD & Ep).
  assert (HD : dsum D = rsum l) by (unfold dsum; rewrite Ep; reflexivity).
  exists m. split; auto. split; [rewrite (rle_size_ok X MAX inj M L _ _ R), (size_ok X MAX inj L D m (mr_runs _ _ _ RD)), HD; reflexivity|]. split.
  - intros i Hi. unfold get. rewrite (get_ok X MAX inj M L HM r l [] i R ltac:(lia) Hi), (mock_get_ok X MAX inj L m D i RD ltac:(lia) Hi), Ep.
    destruct (covering l i) as [[[a b] s]|]; eauto.
  - intros sb eb Hsb Heb. pose proof (iter_ok X MAX inj M L HM r l [] sb eb R ltac:(lia) Hsb Heb) as Hi.
    pose proof (mock_iter_ok X MAX inj L m D sb eb RD ltac:(lia) Hsb Heb) as Hj. rewrite HD, Ep in Hj.
    destruct (range_ok (rsum l) sb eb) eqn:Ero; [|auto]. right. destruct Hi as (it & Eit & Hi). destruct Hj as (jt & Ejt & Hj).
    exists it, jt. split; auto. split; auto. intros calls. destruct (Hi calls) as [it' Ei]. destruct (Hj calls) as [jt' Ej].
    eexists. exists it', jt'. split; [|split; [exact Ej|]].
    + rewrite Ei. do 2 f_equal. rewrite map_map. apply map_ext. intros [[[a b] s]|]; reflexivity.
    + apply Forall_forall. intros o Hin. apply in_map_iff in Hin. destruct Hin as (e & <- & Hin). destruct e as [e|]; cbn [option_map]; auto.
      unfold entry_size, mock_item. cbn [fst snd].
      assert (Hin2 : In e (spans 0 l)).
      { assert (G : forall (d : list (Z * Z * V)) calls, In (Some e) (deque d calls) -> In e d).
        { clear. intros d calls. revert d. induction calls as [|[|] cs IH]; intros d H; cbn [deque] in H; [destruct H| |].
          - destruct (rev d) as [|x d'] eqn:Er.
            + destruct H as [H|H]; [discriminate|]. apply IH in H. destruct H.
            + assert (Ed : d = rev d' ++ [x]) by (rewrite <- (rev_involutive d), Er; reflexivity). destruct H as [H|H].
              * inversion H; subst. apply in_app_iff. right. left. auto.
              * apply IH in H. rewrite Ed. apply in_app_iff. auto.
          - destruct d as [|x d']; destruct H as [H|H]; try discriminate.
            + apply IH in H. destruct H.
            + inversion H; left; auto.
            + right. apply IH. auto. }
        apply G in Hin. unfold overlapping in Hin. apply filter_In in Hin. tauto. }
      pose proof (spans_lo l 0 (rle_rep_pos _ _ _ _ R)) as Hsp. rewrite Forall_forall in Hsp. specialize (Hsp _ Hin2).
      rewrite (il_subr _ _ _ L) by lia. reflexivity.
Qed.

(** The two disagree about panics in one way only: an insert that merges with both neighbours, which
    the tree does not implement.  (For index and size errors, both panic.) *)
Lemma C34_same_panics_proof : forall (I V : Type) (X : index_ops I) (Y : slice_ops I V) (MAX : Z) (inj : Z -> I)
    (M : nat) (nop : bool) (ops : list (@op V Z)) (r : @rle I V) (m : mock I V) (idx : Z) (x : V) (n : Z) (mr : bool),
  index_laws X MAX inj -> (1 <= M)%nat -> ops_fit MAX ops ->
  (sl_may_join Y = false -> forall a b, sl_try_join Y a b = inr (a, b)) ->
  run_ops X Y M nop None (map (inj_op inj) ops) = Ok r ->
  mock_run X Y mock_empty (map (inj_args inj) (map args ops)) = Ok m ->
  0 <= idx <= MAX -> 0 <= n -> osum ops + n <= MAX ->
  let tree_call := insert_with_cursor X Y M nop r [] (inj idx) x (inj n) in
  let mock_call := mock_insert X Y m (inj idx) x (inj n) mr in
  (is_ok tree_call = true -> is_ok mock_call = true) /\
  (is_ok mock_call = true -> is_ok tree_call = true \/ tree_call = Panic PTodo) /\
  (tree_call = Panic PTodo -> is_ok mock_call = true).
Proof.
  intros I V X Y MAX inj M nop ops r m idx x n mr L HM [Hf Ho] Hmj E Em Hi Hn Hm tc mc.
  pose proof (run_ok X Y MAX inj M L HM nop ops None [] eq_refl Hf ltac:(cbn [rsum]; lia)) as H.
  destruct (spec_run Y inj [] (map args ops)) as [l| |] eqn:Es; [|congruence|contradiction].
  destruct H as (r0 & E0 & R & Hs). rewrite E in E0. inversion E0; subst r0. cbn [rsum] in Hs. rewrite Z.add_0_l in Hs.
  assert (Hsum : fold_right Z.add 0 (map snd (map args ops)) = osum ops).
  { clear. induction ops as [|o ops IH]; cbn [map fold_right osum]; auto. rewrite IH. reflexivity. }
  assert (Hf2 : Forall (fun o : Z * V * Z => 0 <= fst (fst o) <= MAX /\ 0 <= snd o) (map args ops)).
  { clear - Hf. induction Hf; cbn [map]; constructor; auto. }
  destruct (mock_run_ok X Y MAX inj L Hmj (map args ops) mock_empty [] l (rep_empty inj) Hf2 ltac:(rewrite Hsum; unfold dsum; cbn; lia) Es)
    as (m0 & D & Em0 & RD & Ep). rewrite Em in Em0. inversion Em0; subst m0.
  assert (HD : dsum D = rsum l) by (unfold dsum; rewrite Ep; reflexivity).
  pose proof (insert_full_ok X Y MAX inj M L HM nop r l [] idx x n R Hi Hn ltac:(lia)) as Ht. fold tc in Ht.
  assert (Hbad : rsum l < idx \/ n = 0 -> is_ok tc = false /\ is_ok mc = false /\ tc <> Panic PTodo).
  { intros Hb. destruct (insert_outside X Y MAX inj L m D idx x n mr RD ltac:(lia) Hi ltac:(pose proof (pos_runs_nonneg _ (rle_rep_pos _ _ _ _ R)); lia) ltac:(lia)) as (w & Ew & _). unfold mc. rewrite Ew.
    unfold spec_insert in Ht. destruct (Z.ltb_spec (rsum l) idx); [rewrite Ht; repeat split; auto; discriminate|].
    destruct (Z.leb_spec n 0); [rewrite Ht; repeat split; auto; discriminate|]. lia. }
  destruct (Z.lt_ge_cases (rsum l) idx) as [Hlt|Hge]; [destruct (Hbad (or_introl Hlt)) as (-> & -> & ?); repeat split; try discriminate; tauto|].
  destruct (Z.eq_dec n 0) as [Hz|Hz]; [destruct (Hbad (or_intror Hz)) as (-> & -> & ?); repeat split; try discriminate; tauto|].
  destruct (mock_insert_ok X Y MAX inj L Hmj m D idx x n mr RD ltac:(lia) ltac:(lia) ltac:(lia)) as (m1 & D1 & o & Em1 & _).
  unfold mc. rewrite Em1. cbn [is_ok]. split; auto. split; auto. intros _.
  unfold spec_insert in Ht. destruct (Z.ltb_spec (rsum l) idx); [lia|]. destruct (Z.leb_spec n 0); [lia|].
  destruct (runs_result Y inj l idx x n (rle_rep_pos _ _ _ _ R)) as [[Er _]|[l' Er]]; rewrite Er in Ht; auto.
  destruct Ht as (r' & cur & -> & _). auto.
Qed.

(** The references handed out by the reference implementation follow their runs as the flat
    specification of references says. *)
Lemma C34_mock_references_proof : forall (I V : Type) (X : index_ops I) (Y : slice_ops I V) (MAX : Z) (inj : Z -> I)
    (calls : list (rcall V)) (l : list (V * Z)) (starts : list Z),
  index_laws X MAX inj -> calls_fit MAX calls ->
  (sl_may_join Y = false -> forall a b, sl_try_join Y a b = inr (a, b)) ->
  ref_run Y inj [] [] calls = Ok (l, starts) ->
  exists m ids, mock_ops X Y mock_empty (map (inj_call inj) calls) = Ok (m, ids) /\ length ids = length starts /\
    forall k a id, nth_error starts k = Some a -> nth_error ids k = Some id ->
      exists b s, covering l a = Some (a, b, s) /\ mock_ref X m id = Ok (Some (inj a, inj b, s)).
Proof.
  intros I V X Y MAX inj calls l starts L Hf Hmj E.
  destruct (refs_run X Y MAX inj L Hmj calls mock_empty [] [] l starts (rep_empty inj)) as (m & D & Eo & Hle & R & El & Hb & Hr); auto.
  { split; auto. intros [|k] a Ha; discriminate. }
  { unfold dsum. cbn. destruct Hf. lia. }
  cbn [length] in Eo. rewrite Nat.sub_0_r in Eo. exists m, (seq 0 (length starts)). split; auto. rewrite seq_length. split; auto.
  intros k a id Hk Hid. pose proof (nth_error_lt _ _ _ Hk) as Hlt. rewrite (nth_error_nth' (seq 0 (length starts)) O) in Hid by (rewrite seq_length; auto).
  rewrite seq_nth in Hid by auto. inversion Hid; subst id. cbn [plus]. subst l. apply (mock_ref_ok X MAX inj L m D starts k a R Hr Hk).
Qed.

(** In that specification no reference is ever lost. *)
Lemma C34_references_never_lost_proof : forall (I V : Type) (Y : slice_ops I V) (inj : Z -> I) (MAX : Z) (calls : list (rcall V)),
  calls_fit MAX calls -> ref_run Y inj [] [] calls <> Panic PInvalid.
Proof.
  intros I V Y inj MAX calls [Hf _].
  assert (G : forall calls l starts, Forall (fun c : rcall V => match c with CInsert i _ n | CInsertRef i _ n => 0 <= i <= MAX /\ 0 <= n | CMakeRef i => 0 <= i <= MAX end) calls ->
    pos_runs l -> Forall (fun a => 0 <= a < rsum l) starts -> ref_run Y inj l starts calls <> Panic PInvalid).
  { clear. induction calls as [|c calls IH]; intros l starts Hf Hp Hs; cbn [ref_run]; [discriminate|]. inversion Hf as [|? ? Hc Hf']; subst.
    assert (Hcov : forall (l : list (V * Z)) p, pos_runs l -> 0 <= p < rsum l -> exists a, start_at l p = Some a /\ 0 <= a < rsum l).
    { clear. intros l p Hp Hi. unfold start_at. destruct (covering l p) as [[[a b] s]|] eqn:E.
      - exists a. split; auto. apply find_some in E. destruct E as [Hin Hb]. pose proof (spans_lo l 0 Hp) as Hs. rewrite Forall_forall in Hs. specialize (Hs _ Hin). cbn [fst snd] in *. lia.
      - exfalso. unfold covering in E.
        assert (G : forall (l : list (V * Z)) off, off <= p < off + rsum l -> find (fun e : Z * Z * V => (fst (fst e) <=? p) && (p <? snd (fst e))) (spans off l) <> None).
        { clear. induction l as [|[s z] l IH]; intros off Hp; cbn [rsum spans find fst snd] in *; [lia|].
          destruct ((off <=? p) && (p <? off + z)) eqn:Ec; [discriminate|]. apply IH; auto. lia. }
        apply (G l 0); auto; lia. }
    assert (Hins : forall i x n, 0 <= i <= MAX -> 0 <= n ->
       (exists l' ss, ref_insert Y inj l starts i x n = Ok (l', ss) /\ pos_runs l' /\ rsum l' = rsum l + n /\ Forall (fun a => 0 <= a < rsum l') ss) \/
       (exists w, ref_insert Y inj l starts i x n = Panic w /\ w <> PInvalid)).
    { intros i x n Hi Hn. unfold ref_insert, spec_insert. destruct (Z.ltb_spec (rsum l) i); [right; eexists; split; [reflexivity|discriminate]|].
      destruct (Z.leb_spec n 0); [right; eexists; split; [reflexivity|discriminate]|].
      destruct (runs_result Y inj l i x n Hp) as [[E _]|[l' E]]; rewrite E; cbn [bind]; [right; eexists; split; [reflexivity|discriminate]|].
      left. pose proof (insert_runs_sum _ _ _ _ _ _ _ E) as Hsum. assert (Hp' : pos_runs l') by (eapply (insert_runs_pos Y inj); eauto; lia).
      assert (Ha : exists ss, all_some (map (follow l' i n) starts) = Some ss /\ Forall (fun a => 0 <= a < rsum l') ss).
      { clear - Hs Hcov Hsum Hp' H0. induction Hs as [|a st Ha Hs IH]; [exists []; split; auto|]. destruct IH as (ss & E & F).
        cbn [map all_some]. unfold follow at 1. destruct (Hcov l' (if a <? i then a else a + n) Hp') as (a' & Ea & Hb).
        { destruct (Z.ltb_spec a i); lia. }
        rewrite Ea, E. cbn [option_map]. eexists. split; [reflexivity|]. constructor; auto. }
      destruct Ha as (ss & Ea & F). rewrite Ea. eauto 6. }
    destruct c as [i x n|i x n|i].
    - destruct (Hins i x n ltac:(tauto) ltac:(tauto)) as [(l' & ss & -> & Hp' & _ & F)|(w & -> & Hw)]; cbn [bind]; [apply IH; auto|congruence].
    - destruct (Hins i x n ltac:(tauto) ltac:(tauto)) as [(l' & ss & -> & Hp' & _ & F)|(w & -> & Hw)]; cbn [bind]; [|congruence].
      unfold ref_add. destruct (start_at l' i) as [a|] eqn:Ea; cbn [bind]; [|discriminate]. apply IH; auto. apply Forall_app. split; auto. constructor; auto.
      unfold start_at in Ea. destruct (covering l' i) as [[[a0 b0] s0]|] eqn:Ec; [|discriminate]. inversion Ea; subst.
      apply find_some in Ec. destruct Ec as [Hin Hb]. pose proof (spans_lo l' 0 Hp') as Hsp. rewrite Forall_forall in Hsp. specialize (Hsp _ Hin). cbn [fst snd] in *. lia.
    - unfold ref_add. destruct (start_at l i) as [a|] eqn:Ea; cbn [bind]; [|discriminate]. apply IH; auto. apply Forall_app. split; auto. constructor; auto.
      unfold start_at in Ea. destruct (covering l i) as [[[a0 b0] s0]|] eqn:Ec; [|discriminate]. inversion Ea; subst.
      apply find_some in Ec. destruct Ec as [Hin Hb]. pose proof (spans_lo l 0 Hp) as Hsp. rewrite Forall_forall in Hsp. specialize (Hsp _ Hin). cbn [fst snd] in *. lia. }
  apply G; auto. constructor.
Qed.
