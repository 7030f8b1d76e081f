(** What an insertion that panics leaves: the steps of the insertion.  Proof support only. *)
From Coq Require Import List ZArith Bool Arith Lia Permutation.
From Verif Require Import Base Index Slice Tree Insert Crash Wild WildQ Hist Unwind UnwindSpec UnwindP.
Import ListNotations.

Section Steps.
  Context {I V : Type} (X : index_ops I) (Cp : @cmp_panics I) (M lo : nat).
  Hypothesis HX : index_any X.
  Hypothesis HM : 1 <= M.
  Hypothesis Hlo : lo = 0 \/ lo = 1 /\ 3 <= M.
  Notation tree := (tree I V).
  Notation T1 := (fun _ => True).
  Notation wsh h t := (wshape M lo lo h t = true).
  Notation okn := (@okn I V M lo).
  Notation okc := (@okc I V M lo).

  Definition left_ok (h : nat) (L : list V) (l : tree) (d : list V) : Prop := wsh h l /\ accounted (slices l) d L.
  Definition st_ok (h : nat) (L : list V) (st : @upstate I V) : Prop :=
    match st with
    | Done n _ _ _ => wsh h n /\ slices n = L
    | Bubble b => wsh h (b_lhs b) /\ wsh h (b_rhs b) /\ slices (b_lhs b) ++ b_key b :: slices (b_rhs b) = L
    end.

  Lemma q_is : forall h L t c0 l d, is t c0 l -> lo <= length l <= 2 * M -> okn h c0 l -> accounted (slices c0 ++ fl l) d L -> left_ok h L t d.
  Proof. intros h L t c0 l d H H1 H2 H3. split; [eapply is_wsh; eauto|]. rewrite (is_slices _ _ _ H). exact H3. Qed.
  Lemma q_all : forall h L t c0 l, is t c0 l -> lo <= length l <= 2 * M -> okn h c0 l -> slices c0 ++ fl l = L -> left_ok h L t [].
  Proof. intros. subst L. eapply q_is; eauto. apply acc_all. Qed.

  (** Index operations. *)
  Ltac nub1 :=
    lazymatch goal with
    | |- post _ (ix_add_left _ _ _) => apply p_addl, HX
    | |- post _ (ix_add_right _ _ _) => apply p_addr, HX
    | |- post _ (ix_sub_left _ _ _) => apply p_subl, HX
    | |- post _ (ix_sub_right _ _ _) => apply p_subr, HX
    | |- post _ (bind _ _) => eapply post_bind with (P := T1); [|intros ? _ _]
    | |- post _ (Ok _) => exact Logic.I
    | |- post _ (Panic _) => exact Logic.I
    | |- post _ (match ?x with _ => _ end) => destruct x
    end.
  Ltac nub := repeat nub1.

  Lemma q_shift_auto : forall h L t c0 l from p o n, is t c0 l -> lo <= length l <= 2 * M -> okn h c0 l -> slices c0 ++ fl l = L -> from <= length l ->
    uspec (fun t' => is t' c0 l) (left_ok h L) (ushift_auto X Cp t from p o n).
  Proof.
    intros h L t c0 l from p o n H Hl K E Hf. unfold ushift_auto, ushift.
    eapply u_at with (P := T1); [destruct (cp_shift Cp n o); exact Logic.I|eapply q_all; eauto|intros _ _].
    pose proof (is_shift X HX _ _ _ (ix_ltb X o n) from p o n H Hf) as S. destruct (shift_keys X _ t from p o n) as [t'|w|]; cbn in *; [exact S| |exact S].
    eapply q_all; eauto. apply is_shift_left, H.
  Qed.

  Lemma q_key_step : forall h L t c0 l k ov o n cur, is t c0 l -> lo <= length l <= 2 * M -> okn h c0 l -> slices c0 ++ fl l = L -> k < length l ->
    uspec (st_ok h L) (left_ok h L) (ukey_step X Cp t k ov o n cur).
  Proof.
    intros h L t c0 l k ov o n cur H Hl K E Hk. pose proof (q_all _ _ _ _ _ H Hl K E) as Q. unfold ukey_step.
    eapply u_at with (P := T1); [|exact Q|intros pos _].
    { destruct ov; [exact Logic.I|]. destruct (is_kp _ _ _ k H Hk) as [p ->]. exact Logic.I. }
    destruct (is_size _ _ _ H) as [z Hz]. eapply u_at_ok; [exact Hz|].
    eapply u_bind; [eapply q_shift_auto; eauto; lia|]. intros t' H'. cbv beta in H'.
    destruct (is_size _ _ _ H') as [z' Hz']. eapply u_at_ok; [exact Hz'|]. cbn [uspec st_ok].
    split; [eapply is_wsh; eauto|]. rewrite (is_slices _ _ _ H'). exact E.
  Qed.

  Lemma q_child_step : forall h L t c0 l c here o n cur, is t c0 l -> lo <= length l <= 2 * M -> okn h c0 l -> slices c0 ++ fl l = L -> c <= length l ->
    uspec (st_ok h L) (left_ok h L) (uchild_step X Cp t c here o n cur).
  Proof.
    intros h L t c0 l c here o n cur H Hl K E Hk. pose proof (q_all _ _ _ _ _ H Hl K E) as Q. unfold uchild_step.
    destruct (is_kpe _ _ _ c H) as [kp Hkp]. rewrite Hkp.
    eapply u_at with (P := T1); [nub|exact Q|intros [[[ov o'] n'] cur'] _].
    eapply u_at with (P := T1); [nub|exact Q|intros pos _].
    destruct (is_size _ _ _ H) as [z Hz]. eapply u_at_ok; [exact Hz|].
    eapply u_bind; [eapply q_shift_auto; eauto; lia|]. intros t' H'. cbv beta in H'.
    destruct (is_size _ _ _ H') as [z' Hz']. eapply u_at_ok; [exact Hz'|]. cbn [uspec st_ok].
    split; [eapply is_wsh; eauto|]. rewrite (is_slices _ _ _ H'). exact E.
  Qed.

  (** A node of height [S h] that holds the left part of a split child, and the rest. *)
  Lemma q_bubble_step : forall h L t c0 A B here b, is t c0 (A ++ B) -> lo <= length (A ++ B) <= 2 * M -> okn (S h) c0 (A ++ B) ->
    wsh h (b_lhs b) -> wsh h (b_rhs b) -> slices c0 ++ fl A ++ (b_key b :: slices (b_rhs b)) ++ fl B = L ->
    uspec (st_ok (S h) L) (left_ok (S h) L) (ububble_step X Cp M t (length A) here b).
  Proof.
    intros h L t c0 A B here b H Hl K Hb1 Hb2 E. unfold ububble_step. cbv zeta.
    set (c := length A).
    assert (Hs : slices t = slices c0 ++ fl A ++ fl B) by (rewrite (is_slices _ _ _ H), fl_app; reflexivity).
    assert (Q0 : left_ok (S h) L t (b_key b :: slices (b_rhs b))).
    { eapply q_is; eauto. rewrite fl_app, <- E. acct. }
    destruct (wsh_is _ _ _ _ Hb1) as (lc & ll & Il & _ & _). destruct (wsh_is _ _ _ _ Hb2) as (rc & rl & Ir & _ & _).
    destruct (is_size _ _ _ Il) as [lz Hlz]. destruct (is_size _ _ _ Ir) as [rz Hrz].
    rewrite Hlz, Hrz. cbn [at_ ubind].
    eapply u_at with (P := T1); [nub|exact Q0|intros a _]. eapply u_at with (P := T1); [nub|exact Q0|intros new_total _].
    destruct (is_kpe _ _ _ c H) as [kp Hkp]. rewrite (is_tlen _ _ _ H). destruct K as [K0 K]. apply Forall_app in K. destruct K as [KA KB].
    destruct (Nat.ltb_spec (length (A ++ B)) (max_len M)) as [Hlt|Hge]; unfold max_len in *.
    - rewrite Hkp. eapply u_at with (P := T1); [nub|exact Q0|intros [[[ov o] n] lp] _].
      destruct (is_insert M t c0 A B c (b_key b) (b_rhs b) H eq_refl Hlt) as (t1 & p & Ei & H1).
      eapply u_at_ok; [exact Ei|]. cbv beta iota.
      assert (L1 : lo <= length (A ++ (b_key b, b_rhs b) :: B) <= 2 * M) by (rewrite app_length in *; cbn [length]; lia).
      assert (K1 : okn (S h) c0 (A ++ (b_key b, b_rhs b) :: B)) by (split; [exact K0|]; apply Forall_app; split; [exact KA|]; constructor; [exact Hb2|exact KB]).
      assert (E1 : slices c0 ++ fl (A ++ (b_key b, b_rhs b) :: B) = L).
      { rewrite <- E, fl_app. repeat rewrite ?fl_app, ?fl_cons, ?fl_nil. reflexivity. }
      pose proof (q_all _ _ _ _ _ H1 L1 K1 E1) as Q1.
      eapply u_at with (P := T1); [nub|exact Q1|intros mp _].
      destruct (is_set_pos _ _ _ c mp H1) as (t2 & Es & H2); [unfold c; rewrite app_length; cbn [length]; lia|].
      eapply u_at_ok; [exact Es|]. eapply q_key_step; eauto. unfold c. rewrite app_length. cbn [length]. lia.
    - destruct (is_size _ _ _ H) as [oz Hoz]. eapply u_at_ok; [exact Hoz|].
      assert (Hfull : length A + length B = 2 * M) by (rewrite app_length in *; lia).
      destruct (Nat.eqb_spec c M) as [EcM|NcM].
      + (* the new key becomes the one in the middle *)
        destruct (Nat.ltb_spec M c); [lia|].
        assert (exists A0 s ch, A = A0 ++ [(s, ch)]) as (A0 & s & ch & EA).
        { destruct A as [|q A' _] using rev_ind; [cbn in *; lia|]. exists A', (fst q), (snd q). destruct q; reflexivity. }
        subst A. rewrite app_length in Hfull; cbn [length] in Hfull. unfold c in EcM. rewrite app_length in EcM; cbn [length] in EcM.
        rewrite <- app_assoc in H. destruct (is_split _ _ _ _ _ _ (M - 1) H ltac:(lia)) as (p0 & mp & r0 & Esp & Ip & Ir0).
        eapply u_at_ok; [exact Esp|]. cbv beta iota.
        destruct (is_set_size _ _ _ mp Ip) as (par & Epar & Ipar). eapply u_at_ok; [exact Epar|].
        apply Forall_app in KA. destruct KA as [KA0 Kch]. pose proof (Forall_inv Kch) as Kch1. cbn [snd] in Kch1.
        assert (Lp : lo <= length A0 <= 2 * M) by lia.
        assert (Q1 : left_ok (S h) L par (s :: slices r0 ++ b_key b :: slices (b_rhs b))).
        { eapply q_is; [exact Ipar|exact Lp|split; auto|]. rewrite (is_slices _ _ _ Ir0), <- E, fl_app. repeat rewrite ?fl_app, ?fl_cons, ?fl_nil. acct. }
        eapply u_at with (P := T1); [|exact Q1|intros fkp _].
        { destruct (try_key_pos r0 0) eqn:Et; [exact Logic.I|]. destruct (is_size _ _ _ Ir0) as [z ->]. destruct (Nat.ltb_spec 1 M); [|exact Logic.I].
          unfold try_key_pos in Et. pose proof (is_tlen _ _ _ Ir0) as Lr. unfold tlen in Lr. destruct (keys r0); [cbn in Lr; lia|discriminate]. }
        cbn [orb].
        eapply u_at with (P := T1); [exact Logic.I|exact Q1|intros fcs _].
        eapply u_at with (P := T1); [nub|exact Q1|intros rs _]. eapply u_at with (P := T1); [nub|exact Q1|intros ms _]. cbn [negb].
        cbn [at_ ubind].
        destruct (is_replace _ _ _ (b_rhs b) Ir0) as (r1 & Er & Ir1). eapply u_at_ok; [exact Er|]. cbv beta iota.
        assert (Q2 : left_ok (S h) L par (s :: slices ch ++ b_key b :: slices r1)).
        { eapply q_is; [exact Ipar|exact Lp|split; auto|]. rewrite (is_slices _ _ _ Ir1), <- E, fl_app. repeat rewrite ?fl_app, ?fl_cons, ?fl_nil. acct. }
        eapply u_at with (P := T1); [|exact Q2|intros ofz _].
        { destruct (wsh_is _ _ _ _ Kch1) as (xc & xl & Ix & _ & _). destruct (is_size _ _ _ Ix) as [z ->]. exact Logic.I. }
        destruct (is_size _ _ _ Ipar) as [pz Hpz]. eapply u_at_ok; [exact Hpz|].
        eapply u_at with (P := T1); [nub|exact Q2|intros q _]. eapply u_at with (P := T1); [nub|exact Q2|intros nl _].
        destruct (is_push M _ _ _ s ch nl Ipar ltac:(lia)) as (par' & Epp & Ipar'). eapply u_at_ok; [exact Epp|].
        assert (Lp' : lo <= length (A0 ++ [(s, ch)]) <= 2 * M) by (rewrite app_length; cbn [length]; lia).
        assert (Kp' : okn (S h) c0 (A0 ++ [(s, ch)])) by (split; [exact K0|]; apply Forall_app; split; [exact KA0|exact Kch]).
        assert (Q3 : left_ok (S h) L par' (b_key b :: slices r1)).
        { eapply q_is; [exact Ipar'|exact Lp'|exact Kp'|]. rewrite (is_slices _ _ _ Ir1), <- E, !fl_app. repeat rewrite ?fl_app, ?fl_cons, ?fl_nil. acct. }
        destruct (is_kp _ _ _ 0 Ir1 ltac:(lia)) as [k0 Hk0]. eapply u_at_ok; [exact Hk0|].
        eapply u_at with (P := fun t' => is t' (b_rhs b) B); [apply is_shift; [exact HX|exact Ir1|lia]|exact Q3|intros r2 Ir2].
        cbn [uspec st_ok b_lhs b_key b_rhs]. split; [eapply is_wsh; eauto|]. split; [eapply is_wsh; [exact Ir2|lia|split; auto]|].
        rewrite (is_slices _ _ _ Ipar'), (is_slices _ _ _ Ir2), <- E, <- !app_assoc. reflexivity.
      + cbn [negb orb].
        destruct (Nat.ltb_spec M c) as [Hc|Hc].
        * (* into the right half *)
          destruct (pick_mid A M) as (A1 & [s ch] & A2 & EA & LA1); [unfold c in Hc; lia|]. subst A.
          rewrite <- app_assoc in H. cbn [app] in H. destruct (is_split _ _ _ _ _ _ M H LA1) as (p0 & mp & r0 & Esp & Ip & Ir0).
          eapply u_at_ok; [exact Esp|]. cbv beta iota.
          destruct (is_set_size _ _ _ mp Ip) as (par & Epar & Ipar). eapply u_at_ok; [exact Epar|].
          apply Forall_app in KA. destruct KA as [KA1 KA2]. pose proof (Forall_inv KA2) as Kch. pose proof (Forall_inv_tail KA2) as KA3. cbn [snd] in Kch.
          assert (Hlen : c = M + 1 + length A2) by (unfold c; rewrite app_length; cbn [length]; lia).
          assert (Hfull' : M + 1 + length A2 + length B = 2 * M) by (rewrite app_length in Hfull; cbn [length] in Hfull; lia).
          assert (Q1 : left_ok (S h) L par (s :: slices r0 ++ b_key b :: slices (b_rhs b))).
          { eapply q_is; [exact Ipar|lia|split; auto|]. rewrite (is_slices _ _ _ Ir0), <- E, !fl_app. repeat rewrite ?fl_app, ?fl_cons, ?fl_nil. acct. }
          eapply u_at with (P := T1); [|exact Q1|intros fkp _].
          { destruct (try_key_pos r0 0) eqn:Et; [exact Logic.I|]. destruct (is_size _ _ _ Ir0) as [z ->]. destruct (Nat.ltb_spec 1 M); [|exact Logic.I].
            unfold try_key_pos in Et. pose proof (is_tlen _ _ _ Ir0) as Lr. unfold tlen in Lr. rewrite app_length in Lr. destruct (keys r0); [cbn in Lr; lia|discriminate]. }
          eapply u_at with (P := T1); [|exact Q1|intros fcs _].
          { destruct (c =? M + 1); [exact Logic.I|]. destruct (wsh_is _ _ _ _ Kch) as (xc & xl & Ix & _ & _). destruct (is_size _ _ _ Ix) as [z Hz].
            destruct Ir0 as (rt & re & -> & _). unfold child_size. cbn [child child_of bind]. rewrite Hz. exact Logic.I. }
          eapply u_at with (P := T1); [nub|exact Q1|intros rs _]. eapply u_at with (P := T1); [nub|exact Q1|intros ms _].
          eapply u_at with (P := fun t' => is t' ch (A2 ++ B)); [apply is_shift; [exact HX|exact Ir0|lia]|exact Q1|intros r1 Ir1].
          match goal with |- context [match ?x with (midpoint_size, shift) => _ end] => destruct x as [midz shift] end.
          rewrite (is_slices _ _ _ Ir0), <- (is_slices _ _ _ Ir1) in *.
          eapply u_at with (P := T1); [nub|exact Q1|intros shift' _].
          replace (c - (M + 1)) with (length A2) by lia.
          destruct (is_kpe _ _ _ (length A2) Ir1) as [kp1 Hkp1]. rewrite Hkp1.
          eapply u_at with (P := T1); [nub|exact Q1|intros [[[lp sp] o0] n0] _].
          eapply u_at with (P := T1); [nub|exact Q1|intros kpos _]. eapply u_at with (P := T1); [nub|exact Q1|intros oz' _].
          eapply u_at with (P := T1); [nub|exact Q1|intros nz' _].
          destruct (is_insert M r1 ch A2 B (length A2) (b_key b) (b_rhs b) Ir1 eq_refl) as (i1 & p & Ei & I1); [rewrite app_length; lia|].
          eapply u_at_ok; [exact Ei|]. cbv beta iota.
          destruct (is_set_pos _ _ _ (length A2) kpos I1) as (i2 & Es & I2); [rewrite app_length; cbn [length]; lia|]. eapply u_at_ok; [exact Es|].
          assert (Q2 : left_ok (S h) L par (s :: slices i2)).
          { eapply q_is; [exact Ipar|lia|split; auto|]. rewrite (is_slices _ _ _ I2), <- E, !fl_app. repeat rewrite ?fl_app, ?fl_cons, ?fl_nil. acct. }
          eapply u_at with (P := fun t' => is t' ch (A2 ++ (b_key b, b_rhs b) :: B)); [apply is_shift; [exact HX|exact I2|rewrite app_length; cbn [length]; lia]|exact Q2|intros i3 I3].
          cbn [uspec st_ok b_lhs b_key b_rhs]. split; [eapply is_wsh; [exact Ipar|lia|split; auto]|].
          split; [eapply is_wsh; [exact I3|rewrite app_length; cbn [length]; lia|split; [exact Kch|apply Forall_app; split; [exact KA3|constructor; [exact Hb2|exact KB]]]]|].
          rewrite (is_slices _ _ _ Ipar), (is_slices _ _ _ I3), <- E, !fl_app. repeat rewrite ?fl_app, ?fl_cons, ?fl_nil. blocks. reflexivity.
        * (* into the left half *)
          assert (Hc' : c <= M - 1) by lia.
          destruct (pick_mid B (M - 1 - c)) as (B1 & [s ch] & B2 & EB & LB1); [unfold c in *; lia|]. subst B.
          rewrite app_assoc in H. destruct (is_split _ _ _ _ _ _ (M - 1) H ltac:(rewrite app_length; unfold c in *; lia)) as (p0 & mp & r0 & Esp & Ip & Ir0).
          eapply u_at_ok; [exact Esp|]. cbv beta iota.
          destruct (is_set_size _ _ _ mp Ip) as (par & Epar & Ipar). eapply u_at_ok; [exact Epar|].
          apply Forall_app in KB. destruct KB as [KB1 KB2]. pose proof (Forall_inv KB2) as Kch. pose proof (Forall_inv_tail KB2) as KB3. cbn [snd] in Kch.
          rewrite app_length in Hfull; cbn [length] in Hfull.
          assert (Lp : lo <= length (A ++ B1) <= 2 * M) by (rewrite app_length; unfold c in *; lia).
          assert (Kp : okn (S h) c0 (A ++ B1)) by (split; [exact K0|]; apply Forall_app; auto).
          assert (Q1 : left_ok (S h) L par (s :: slices r0 ++ b_key b :: slices (b_rhs b))).
          { eapply q_is; [exact Ipar|exact Lp|exact Kp|]. rewrite (is_slices _ _ _ Ir0), <- E, !fl_app. repeat rewrite ?fl_app, ?fl_cons, ?fl_nil. acct. }
          eapply u_at with (P := T1); [|exact Q1|intros fkp _].
          { destruct (try_key_pos r0 0) eqn:Et; [exact Logic.I|]. destruct (is_size _ _ _ Ir0) as [z ->]. destruct (Nat.ltb_spec 1 M); [|exact Logic.I].
            unfold try_key_pos in Et. pose proof (is_tlen _ _ _ Ir0) as Lr. unfold tlen in Lr. destruct (keys r0); [cbn in Lr; unfold c in *; lia|discriminate]. }
          eapply u_at with (P := T1); [|exact Q1|intros fcs _].
          { destruct (c =? M + 1); [exact Logic.I|]. destruct (wsh_is _ _ _ _ Kch) as (xc & xl & Ix & _ & _). destruct (is_size _ _ _ Ix) as [z Hz].
            destruct Ir0 as (rt & re & -> & _). unfold child_size. cbn [child child_of bind]. rewrite Hz. exact Logic.I. }
          eapply u_at with (P := T1); [nub|exact Q1|intros rs _]. eapply u_at with (P := T1); [nub|exact Q1|intros ms _].
          eapply u_at with (P := fun t' => is t' ch B2); [apply is_shift; [exact HX|exact Ir0|lia]|exact Q1|intros r1 Ir1].
          match goal with |- context [match ?x with (midpoint_size, shift) => _ end] => destruct x as [midz shift] end.
          eapply u_at with (P := T1); [nub|exact Q1|intros shift' _].
          destruct (is_kpe _ _ _ c Ipar) as [kp1 Hkp1]. rewrite Hkp1.
          eapply u_at with (P := T1); [nub|exact Q1|intros [[[lp sp] o0] n0] _].
          eapply u_at with (P := T1); [nub|exact Q1|intros kpos _]. eapply u_at with (P := T1); [nub|exact Q1|intros oz' _].
          eapply u_at with (P := T1); [nub|exact Q1|intros nz' _].
          destruct (is_insert M par c0 A B1 c (b_key b) (b_rhs b) Ipar eq_refl) as (i1 & p & Ei & I1); [rewrite app_length; unfold c in *; lia|].
          eapply u_at_ok; [exact Ei|]. cbv beta iota.
          destruct (is_set_pos _ _ _ c kpos I1) as (i2 & Es & I2); [unfold c; rewrite app_length; cbn [length]; lia|]. eapply u_at_ok; [exact Es|].
          assert (Li : lo <= length (A ++ (b_key b, b_rhs b) :: B1) <= 2 * M) by (rewrite app_length in *; cbn [length]; unfold c in *; lia).
          assert (Ki : okn (S h) c0 (A ++ (b_key b, b_rhs b) :: B1)) by (split; [exact K0|]; apply Forall_app; split; [exact KA|constructor; [exact Hb2|exact KB1]]).
          eapply u_at with (P := fun t' => is t' c0 (A ++ (b_key b, b_rhs b) :: B1)).
          { apply is_shift; [exact HX|exact I2|rewrite app_length; cbn [length]; unfold c in *; lia]. }
          { eapply q_is; [apply is_shift_left, I2|exact Li|exact Ki|]. rewrite (is_slices _ _ _ Ir1), <- E, !fl_app. repeat rewrite ?fl_app, ?fl_cons, ?fl_nil. acct. }
          intros i3 I3. cbv beta in I3. cbn [uspec st_ok b_lhs b_key b_rhs]. split; [eapply is_wsh; eauto|].
          split; [eapply is_wsh; [exact Ir1|unfold c in *; lia|split; [exact Kch|exact KB3]]|].
          rewrite (is_slices _ _ _ I3), (is_slices _ _ _ Ir1), <- E, !fl_app. repeat rewrite ?fl_app, ?fl_cons, ?fl_nil. blocks. reflexivity.
  Qed.
End Steps.
