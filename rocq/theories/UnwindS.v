(** What an insertion that panics leaves: the leaf, and the new root.  Proof support only. *)
From Coq Require Import List ZArith Bool Arith Lia Permutation.
From Verif Require Import Base Index Slice Tree Insert Crash Wild WildQ WildR Zip Rep Path Hist Unwind UnwindSpec UnwindP UnwindQ UnwindR.
Import ListNotations.

Section Leaf.
  Context {I V : Type} (X : index_ops I) (Cp : @cmp_panics I) (M lo : nat).
  Hypothesis HX : index_any X.
  Hypothesis HM : 1 <= M.
  Hypothesis Hlo : lo = 0 \/ lo = 1 /\ 3 <= M.
  Notation tree := (tree I V).
  Notation T1 := (fun _ => True).
  Notation wsh h t := (wshape M lo lo h t = true).
  Notation okn := (@okn I V M lo).
  Notation okc := (@okc I V M lo).
  Notation st_ok := (@st_ok I V M lo).
  Notation left_ok := (@left_ok I V M lo).

  Ltac nub1 :=
    lazymatch goal with
    | |- post _ (ix_add_left _ _ _) => apply p_addl, HX
    | |- post _ (ix_add_right _ _ _) => apply p_addr, HX
    | |- post _ (ix_sub_left _ _ _) => apply p_subl, HX
    | |- post _ (ix_sub_right _ _ _) => apply p_subr, HX
    | |- post _ (bind _ _) => eapply post_bind with (P := T1); [|intros ? _ _]
    | |- post _ (Ok _) => exact Logic.I
    | |- post _ (Panic _) => exact Logic.I
    | |- post _ (match ?x with _ => _ end) => destruct x
    end.
  Ltac nub := repeat nub1.

  (** A leaf by its slices. *)
  Definition nl (l : list V) : list (V * tree) := map (fun s => (s, Nil)) l.
  Definition leaf (t : tree) (l : list V) : Prop := is t Nil (nl l).
  Lemma nl_app : forall a b, nl (a ++ b) = nl a ++ nl b.
  Proof. intros. apply map_app. Qed.
  Lemma nl_len : forall a, length (nl a) = length a.
  Proof. intros. apply map_length. Qed.
  Lemma fl_nl : forall a, fl (nl a) = a.
  Proof. induction a; [reflexivity|]. cbn [nl map]. rewrite fl_cons. cbn [slices app]. f_equal. assumption. Qed.
  Lemma okn_nl : forall l, okn 0 Nil (nl l).
  Proof. intros. split; [reflexivity|]. apply Forall_forall. intros q H. apply in_map_iff in H. destruct H as (s & <- & _). reflexivity. Qed.
  Lemma wsh_leaf : forall t, wsh 0 t -> exists l, leaf t l /\ lo <= length l <= 2 * M.
  Proof.
    intros t H. destruct (wsh_is _ _ _ _ H) as (c0 & l & It & Hl & K0 & K). cbn in K0. subst c0. exists (map fst l).
    assert (E : nl (map fst l) = l).
    { unfold nl. rewrite map_map. clear - K. induction K as [|[s c] l Hc K IH]; [reflexivity|]. cbn in *. subst c. f_equal. exact IH. }
    unfold leaf. rewrite E, map_length. auto.
  Qed.
  Lemma le_slices : forall t l, leaf t l -> slices t = l.
  Proof. intros t l H. rewrite (is_slices _ _ _ H), fl_nl. reflexivity. Qed.
  Lemma le_tlen : forall t l, leaf t l -> tlen t = length l.
  Proof. intros t l H. rewrite (is_tlen _ _ _ H). apply nl_len. Qed.
  Lemma le_wsh : forall t l, leaf t l -> lo <= length l <= 2 * M -> wsh 0 t.
  Proof. intros t l H K. eapply is_wsh; [exact H|rewrite nl_len; exact K|apply okn_nl]. Qed.
  Lemma le_left : forall L t l d, leaf t l -> lo <= length l <= 2 * M -> accounted l d L -> left_ok 0 L t d.
  Proof. intros L t l d H K A. split; [eapply le_wsh; eauto|]. rewrite (le_slices _ _ H). exact A. Qed.
  Lemma le_insert : forall t A B k s, leaf t (A ++ B) -> length A = k -> length (A ++ B) < 2 * M ->
    exists t' p, insert_key M t k s = Ok (t', p) /\ leaf t' (A ++ s :: B).
  Proof.
    intros t A B k s H Hk Hl. unfold leaf in *. rewrite nl_app in H. destruct (is_insert M t Nil (nl A) (nl B) k s Nil H) as (t' & p & E & H').
    - rewrite nl_len. exact Hk.
    - rewrite <- nl_app, nl_len. exact Hl.
    - exists t', p. split; [exact E|]. rewrite nl_app. exact H'.
  Qed.
  Lemma le_push : forall t l s z, leaf t l -> length l < 2 * M -> exists t', push_key M t s z = Ok t' /\ leaf t' (l ++ [s]).
  Proof.
    intros t l s z H Hl. destruct (is_push M t Nil (nl l) s Nil z H) as (t' & E & H'); [rewrite nl_len; exact Hl|].
    exists t'. split; [exact E|]. unfold leaf. rewrite nl_app. exact H'.
  Qed.
  Lemma le_split : forall t A s B m, leaf t (A ++ s :: B) -> length A = m -> exists p0 mp r0, split t m = Ok (p0, (mp, s), r0) /\ leaf p0 A /\ leaf r0 B.
  Proof.
    intros t A s B m H L. unfold leaf in *. rewrite nl_app in H. apply (is_split _ _ _ _ _ _ m H). rewrite nl_len. exact L.
  Qed.
  Lemma le_set_pos : forall t l k p, leaf t l -> k < length l -> exists t', set_single_key_pos t k p = Ok t' /\ leaf t' l.
  Proof. intros t l k p H K. apply (is_set_pos _ _ _ k p H). rewrite nl_len. exact K. Qed.
  Lemma le_set_size : forall t l z, leaf t l -> exists t', set_subtree_size t z = Ok t' /\ leaf t' l.
  Proof. intros t l z H. apply (is_set_size _ _ _ z H). Qed.
  Lemma le_size : forall t l, leaf t l -> exists z, tsize t = Ok z.
  Proof. intros t l H. apply (is_size _ _ _ H). Qed.
  Lemma le_kpe : forall t l k, leaf t l -> exists z, key_pos_or_end t k = Ok z.
  Proof. intros t l k H. apply (is_kpe _ _ _ k H). Qed.
  Lemma le_kp : forall t l k, leaf t l -> k < length l -> exists z, key_pos t k = Ok z.
  Proof. intros t l k H K. apply (is_kp _ _ _ k H). rewrite nl_len. exact K. Qed.
  Lemma le_shift : forall t l b from p o n, leaf t l -> from <= length l -> post (fun t' => leaf t' l) (shift_keys X b t from p o n).
  Proof. intros t l b from p o n H K. apply (is_shift X HX). exact H. rewrite nl_len. exact K. Qed.
  Lemma le_shift_left : forall t l b from p o n, leaf t l -> leaf (shift_left X b t from p o n) l.
  Proof. intros. apply is_shift_left. assumption. Qed.
  Lemma le_ssize : forall t l k, leaf t l -> k < length l -> post T1 (slice_size X 0 t k).
  Proof.
    intros t l k H K. unfold slice_size. destruct (le_kp _ _ _ H K) as [z ->]. destruct (le_kpe _ _ (k + 1) H) as [z' ->]. cbn [bind]. nub.
  Qed.

  Definition snds (sn : option (V * I)) : list V := match sn with Some s => [fst s] | None => [] end.

  Lemma q_split_small : forall t A B k ov fs sn, leaf t (A ++ B) -> length A = k -> M = 1 -> length (A ++ B) = 1 -> (ov <> None -> k <> 0) ->
    uspec (fun r => st_ok 0 (A ++ fst fs :: fst sn :: B) (Bubble (fst r))) (left_ok 0 (A ++ fst fs :: fst sn :: B)) (usplit_leaf_small_m X M t k ov fs sn).
  Proof.
    intros t A B k ov fs sn H Hk EM Hl Hov. unfold usplit_leaf_small_m, split_leaf_small_m. rewrite (le_tlen _ _ H), Hl.
    replace (M =? 1) with true by (symmetry; apply Nat.eqb_eq, EM).
    rewrite app_length, Hk in Hl. destruct (le_size _ _ H) as [z Hz].
    destruct k as [|[|k]]; [| |lia].
    - destruct A; [|discriminate]. destruct B as [|m [|? ?]]; try discriminate Hl. destruct ov; [destruct Hov; congruence|]. cbn [Nat.eqb negb andb orb Nat.ltb Nat.leb].
      rewrite Hz. destruct (le_split t [] m [] 0 H eq_refl) as (p0 & mp & r0 & -> & H0 & H1). cbn [bind].
      destruct (le_set_size _ _ (ix_zero X) H0) as (n1 & -> & I1). destruct (le_set_size _ _ (ix_zero X) H1) as (r1 & -> & J1). cbn [bind].
      destruct (le_push _ _ (fst fs) (snd fs) I1) as (n2 & E2 & I2); [cbn [length]; lia|]. destruct (le_push _ _ m z J1) as (r2 & E3 & J2); [cbn [length]; lia|].
      rewrite E2, E3. cbn [bind at_ uspec fst UnwindQ.st_ok b_lhs b_rhs b_key app].
      split; [eapply le_wsh; [exact I2|cbn [app length]; lia]|]. split; [eapply le_wsh; [exact J2|cbn [app length]; lia]|]. rewrite (le_slices _ _ I2), (le_slices _ _ J2). reflexivity.
    - destruct A as [|m [|? ?]]; try discriminate Hk. destruct B; [|cbn in Hl; lia]. cbn [Nat.eqb negb Nat.ltb Nat.leb]. rewrite andb_false_r. cbn [orb].
      rewrite Hz. cbn [app] in H. destruct (le_split t [] m [] 0 H eq_refl) as (p0 & mp & r0 & -> & H0 & H1). cbn [bind].
      destruct (le_set_size _ _ (ix_zero X) H0) as (n1 & -> & I1). destruct (le_set_size _ _ (ix_zero X) H1) as (r1 & -> & J1). cbn [bind].
      destruct (le_push _ _ m (match ov with Some s => s | None => z end) I1) as (n2 & E2 & I2); [cbn [length]; lia|]. destruct (le_push _ _ (fst sn) (snd sn) J1) as (r2 & E3 & J2); [cbn [length]; lia|].
      rewrite E2. cbn [bind]. rewrite E3. cbn [bind at_ uspec fst UnwindQ.st_ok b_lhs b_rhs b_key app].
      split; [eapply le_wsh; [exact I2|cbn [app length]; lia]|]. split; [eapply le_wsh; [exact J2|cbn [app length]; lia]|]. rewrite (le_slices _ _ I2), (le_slices _ _ J2). reflexivity.
  Qed.

  (** Where the key in the middle is, relative to the place of the insertion. *)
  Lemma choose : forall (A B : list V) (sn : option (V * I)) k, length A = k -> 2 * M - length (snds sn) <= length (A ++ B) <= 2 * M -> ~ (M = 1 /\ length (A ++ B) = 1) ->
    exists m at_, choose_split M k (length (A ++ B)) (match sn with Some _ => true | None => false end) = (m, at_) /\ lo <= m /\
      match at_ with
      | inl SLeft => exists B1 mid B2, B = B1 ++ mid :: B2 /\ length (A ++ B1) = m /\ m <= M - 1 /\ M <= length B2 <= 2 * M
      | inl SRight => exists A1 mid A2, A = A1 ++ mid :: A2 /\ length A1 = m /\ m = M /\ k = m + 1 + length A2 /\ length A2 + length B <= M - 1 /\ M <= length A2 + length B + 1 + length (snds sn)
      | inr sd => exists A1 mid, A = A1 ++ [mid] /\ length A1 = m /\ m <= M - 1 /\ M <= length B + length (snds sn) /\ length B <= M /\
          match sd with SLeft => length (snds sn) = 1 /\ M <= length B | SRight => length B + length (snds sn) <= 2 * M end
      end.
  Proof.
    intros A B sn k Hk Hl Hn. assert (Lab : length (A ++ B) = length A + length B) by apply app_length.
    set (b := match sn with Some _ => true | None => false end).
    assert (Lsn : length (snds sn) = if b then 1 else 0) by (destruct sn; reflexivity).
    assert (cutB : forall m, k <= m -> m < length (A ++ B) -> exists B1 mid B2, B = B1 ++ mid :: B2 /\ length (A ++ B1) = m).
    { intros m H1 H2. destruct (pick_mid B (m - k)) as (B1 & x & B2 & E & E'); [lia|]. exists B1, x, B2. split; [exact E|]. rewrite app_length. lia. }
    assert (cutA : k <> 0 -> exists A1 mid, A = A1 ++ [mid] /\ length A1 = k - 1).
    { intros H0. destruct A as [|x A' _] using rev_ind; [cbn in Hk; lia|]. exists A', x. split; [reflexivity|]. rewrite app_length in Hk. cbn in Hk. lia. }
    unfold choose_split, max_len. destruct (Nat.compare_spec k M) as [Ek|Ek|Ek].
    - destruct (cutA ltac:(lia)) as (A1 & mid & EA & LA1).
      destruct (b && (length (A ++ B) =? 2 * M)) eqn:Eb.
      + apply andb_prop in Eb. destruct Eb as [Eb El]. apply Nat.eqb_eq in El. rewrite Eb in Lsn.
        exists (M - 1), (inr SLeft). split; [reflexivity|]. split; [lia|]. exists A1, mid. repeat split; auto; lia.
      + exists (M - 1), (inr SRight). split; [reflexivity|]. split; [lia|].
        assert (Eb' : b = true -> length (A ++ B) <> 2 * M) by (intros Hb El; rewrite Hb, El, Nat.eqb_refl in Eb; discriminate Eb).
        exists A1, mid. destruct b; [specialize (Eb' eq_refl)|]; repeat split; auto; lia.
    - destruct (b && (length (A ++ B) <? 2 * M)) eqn:Eb.
      + apply andb_prop in Eb. destruct Eb as [Eb El]. apply Nat.ltb_lt in El. rewrite Eb in Lsn.
        destruct (Nat.ltb_spec k (M - 1)).
        * exists (M - 2), (inl SLeft). split; [reflexivity|]. split; [lia|]. destruct (cutB (M - 2)) as (B1 & mid & B2 & EB & LB); [lia|lia|].
          assert (LBB : length B = length B1 + S (length B2)) by (rewrite EB, app_length; reflexivity). exists B1, mid, B2. rewrite app_length in *. repeat split; auto; lia.
        * destruct (cutA ltac:(lia)) as (A1 & mid & EA & LA1).
          exists (M - 2), (inr SLeft). split; [reflexivity|]. split; [lia|]. exists A1, mid. repeat split; auto; lia.
      + exists (M - 1), (inl SLeft). split; [reflexivity|]. split; [lia|].
        assert (El : length (A ++ B) = 2 * M).
        { destruct b; cbn [andb] in Eb; [apply Nat.ltb_ge in Eb|]; lia. }
        destruct (cutB (M - 1)) as (B1 & mid & B2 & EB & LB); [lia|lia|].
        assert (LBB : length B = length B1 + S (length B2)) by (rewrite EB, app_length; reflexivity). exists B1, mid, B2. rewrite app_length in *. repeat split; auto; lia.
    - exists M, (inl SRight). split; [reflexivity|]. split; [lia|]. destruct (pick_mid A M) as (A1 & mid & A2 & EA & LA1); [lia|].
      assert (LAA : length A = length A1 + S (length A2)) by (rewrite EA, app_length; reflexivity). exists A1, mid, A2. repeat split; auto; destruct b; lia.
  Qed.
  Lemma q_split_leaf : forall t A B k ov fs sn, leaf t (A ++ B) -> length A = k -> 2 * M - length (snds sn) <= length (A ++ B) <= 2 * M -> (ov <> None -> k <> 0) ->
    uspec (fun r => st_ok 0 (A ++ fst fs :: snds sn ++ B) (Bubble (fst r))) (left_ok 0 (A ++ fst fs :: snds sn ++ B)) (usplit_leaf X M t k ov fs sn).
  Proof.
    intros t A B k ov fs sn H Hk Hl Hov. unfold usplit_leaf. rewrite (le_tlen _ _ H). fold (snds sn).
    destruct ((M =? 1) && (length (A ++ B) =? 1)) eqn:E1.
    { apply andb_prop in E1. destruct E1 as [EM E1]. apply Nat.eqb_eq in EM, E1.
      destruct sn as [sn|]; [|cbn [snds length] in Hl; lia]. apply q_split_small; auto. }
    destruct (choose A B sn k Hk Hl) as (m & at_ & -> & Hm & C).
    { intros [-> E]. rewrite E in E1. discriminate E1. }
    clear E1.
    assert (Lsn : length (snds sn) <= 1) by (destruct sn; cbn; lia).
    destruct at_ as [[|]|sd].
    - (* into the left half *)
      destruct C as (B1 & mid & B2 & -> & Lm & LM & LB2). rewrite app_assoc in H. destruct (le_split _ _ _ _ m H Lm) as (n0 & mp & r0 & Es & N0 & R0).
      eapply u_at_ok; [exact Es|]. cbv beta iota zeta.
      assert (Lm2 : lo <= length (A ++ B1) <= 2 * M) by lia.
      assert (Q : forall t, leaf t (A ++ B1) -> left_ok 0 (A ++ fst fs :: snds sn ++ B1 ++ mid :: B2) t (mid :: slices r0 ++ fst fs :: snds sn)).
      { intros t' Ht. eapply le_left; [exact Ht|exact Lm2|]. rewrite (le_slices _ _ R0). acct. }
      destruct (le_size _ _ N0) as [z0 Hz0]. eapply u_at_ok; [exact Hz0|].
      eapply u_at with (P := fun q => snd q = ov); [|exact (Q _ N0)|intros [msz ov'] Hov'].
      { destruct ov; (eapply post_bind with (P := T1); [nub|intros; reflexivity]). }
      cbn [snd] in Hov'. subst ov'.
      destruct (le_set_size _ _ mp N0) as (n1 & En1 & N1). eapply u_at_ok; [exact En1|].
      eapply u_at with (P := fun t' => leaf t' B2); [apply le_shift; [exact R0|lia]|exact (Q _ N1)|intros r1 R1]. cbv beta in R1.
      eapply u_at with (P := T1); [|exact (Q _ N1)|intros [[pos o] nz] _].
      { destruct ov as [s|]; [|destruct (le_kpe _ _ k N1) as [z ->]; exact Logic.I].
        assert (k <> 0) by (apply Hov; discriminate).
        destruct (Nat.eqb_spec k 0); [contradiction|]. rewrite app_length in *.
        destruct (le_kp _ _ (k - 1) N1) as [z ->]; [rewrite app_length; lia|]. cbn [bind].
        eapply post_bind; [apply (le_ssize _ _ (k - 1) N1); rewrite app_length; lia|]. intros; exact Logic.I. }
      rewrite app_length in Lm, Lm2. destruct (le_insert n1 A B1 k (fst fs) N1 Hk) as (i1 & p1 & Ei & J1); [rewrite app_length; lia|].
      eapply u_at_ok; [exact Ei|]. cbv beta iota.
      assert (Q1 : forall t, leaf t (A ++ fst fs :: B1) -> left_ok 0 (A ++ fst fs :: snds sn ++ B1 ++ mid :: B2) t ((mid :: slices r1) ++ snds sn)).
      { intros t' Ht. eapply le_left; [exact Ht|rewrite app_length; cbn [length]; lia|]. rewrite (le_slices _ _ R1). acct. }
      eapply u_at with (P := T1); [nub|exact (Q1 _ J1)|intros fp _].
      destruct (le_set_pos _ _ k fp J1) as (i2 & E2 & J2); [rewrite app_length; cbn [length]; lia|]. eapply u_at_ok; [exact E2|].
      eapply u_at with (P := T1); [nub|exact (Q1 _ J2)|intros ns1 _].
      eapply u_bind with (P := fun q => leaf (fst (fst q)) (A ++ fst fs :: snds sn ++ B1) /\ snd q <= k + 1 + length (snds sn)).
      { destruct sn as [[s2 z2]|]; [|cbn [uspec fst snd snds app length]; split; [exact J2|lia]].
        replace (A ++ fst fs :: B1) with ((A ++ [fst fs]) ++ B1) in J2 by (rewrite <- app_assoc; reflexivity).
        destruct (le_insert i2 _ B1 (k + 1) s2 J2) as (j1 & p2 & Ej & K1); [rewrite app_length; cbn [length]; lia|rewrite !app_length; cbn [length]; lia|].
        rewrite <- app_assoc in J2. cbn [app] in J2.
        eapply u_at_ok; [exact Ej|]. cbv beta iota. rewrite <- app_assoc in K1. cbn [app] in K1.
        assert (Q2 : forall t, leaf t (A ++ fst fs :: s2 :: B1) -> left_ok 0 (A ++ fst fs :: snds (Some (s2, z2)) ++ B1 ++ mid :: B2) t (mid :: slices r1)).
        { intros t' Ht. eapply le_left; [exact Ht|rewrite app_length; cbn [length]; lia|]. rewrite (le_slices _ _ R1). cbn [snds fst app]. acct. }
        eapply u_at with (P := T1); [nub|exact (Q2 _ K1)|intros ns _]. eapply u_at with (P := T1); [nub|exact (Q2 _ K1)|intros sp _].
        destruct (le_set_pos _ _ (k + 1) sp K1) as (j2 & E3 & K2); [rewrite app_length; cbn [length]; lia|]. eapply u_at_ok; [exact E3|].
        cbn [uspec fst snd snds app length]. split; [exact K2|lia]. }
      intros [[i3 ns2] from] [J3 Hf]. cbn [fst snd] in J3, Hf. cbv beta iota.
      assert (L3 : lo <= length (A ++ fst fs :: snds sn ++ B1) <= 2 * M) by (rewrite app_length; cbn [length]; rewrite app_length; lia).
      eapply u_at with (P := fun t' => leaf t' (A ++ fst fs :: snds sn ++ B1)).
      { apply le_shift; [exact J3|]. rewrite app_length. cbn [length]. rewrite app_length. lia. }
      { eapply le_left; [apply le_shift_left, J3|exact L3|]. rewrite (le_slices _ _ R1). acct. }
      intros i4 J4. cbv beta in J4. cbn [uspec fst UnwindQ.st_ok b_lhs b_rhs b_key]. split; [eapply le_wsh; eauto|]. split; [eapply le_wsh; [exact R1|lia]|].
      rewrite (le_slices _ _ J4), (le_slices _ _ R1). blocks. reflexivity.
    - (* into the right half *)
      destruct C as (A1 & mid & A2 & -> & Lm & EmM & Ek & LB1 & LB2). rewrite <- app_assoc in H. cbn [app] in H. destruct (le_split _ _ _ _ m H Lm) as (n0 & mp & r0 & Es & N0 & R0).
      eapply u_at_ok; [exact Es|]. cbv beta iota zeta.
      assert (Lm2 : lo <= length A1 <= 2 * M) by lia.
      assert (Q : forall t r, leaf t A1 -> leaf r (A2 ++ B) -> left_ok 0 ((A1 ++ mid :: A2) ++ fst fs :: snds sn ++ B) t (mid :: slices r ++ fst fs :: snds sn)).
      { intros t' r Ht Hr. eapply le_left; [exact Ht|exact Lm2|]. rewrite (le_slices _ _ Hr). acct. }
      destruct (le_size _ _ N0) as [z0 Hz0]. eapply u_at_ok; [exact Hz0|].
      eapply u_at with (P := fun q => snd q <> None -> k <> m + 1); [|exact (Q _ _ N0 R0)|intros [msz ov'] Hov'].
      { destruct ov; [destruct (Nat.eqb_spec k (m + 1)); [cbn; congruence|]|]; (eapply post_bind with (P := T1); [nub|intros; cbn; auto; congruence]). }
      cbn [snd] in Hov'.
      destruct (le_set_size _ _ mp N0) as (n1 & En1 & N1). eapply u_at_ok; [exact En1|].
      eapply u_at with (P := fun t' => leaf t' (A2 ++ B)); [apply le_shift; [exact R0|lia]|exact (Q _ _ N1 R0)|intros r1 R1]. cbv beta in R1.
      set (k' := k - (m + 1)). assert (Hk' : length A2 = k') by (unfold k'; lia).
      eapply u_at with (P := T1); [|exact (Q _ _ N1 R0)|intros [[pos o] nz] _].
      { destruct ov' as [s|]; [|destruct (le_kpe _ _ k' R1) as [z ->]; exact Logic.I].
        assert (k <> m + 1) by (apply Hov'; discriminate).
        destruct (Nat.eqb_spec k' 0); [unfold k' in *; lia|].
        destruct (le_kp _ _ (k' - 1) R1) as [z ->]; [rewrite app_length; lia|]. cbn [bind].
        eapply post_bind; [apply (le_ssize _ _ (k' - 1) R1); rewrite app_length; lia|]. intros; exact Logic.I. }
      destruct (le_insert r1 A2 B k' (fst fs) R1 Hk') as (i1 & p1 & Ei & J1); [rewrite app_length; lia|].
      eapply u_at_ok; [exact Ei|]. cbv beta iota.
      assert (Q1 : forall t, leaf t (A2 ++ fst fs :: B) -> left_ok 0 ((A1 ++ mid :: A2) ++ fst fs :: snds sn ++ B) n1 ((mid :: slices t) ++ snds sn)).
      { intros t' Ht. eapply le_left; [exact N1|lia|]. rewrite (le_slices _ _ Ht). acct. }
      eapply u_at with (P := T1); [nub|exact (Q1 _ J1)|intros fp _].
      destruct (le_set_pos _ _ k' fp J1) as (i2 & E2 & J2); [rewrite app_length; cbn [length]; lia|]. eapply u_at_ok; [exact E2|].
      eapply u_at with (P := T1); [nub|exact (Q1 _ J2)|intros ns1 _].
      eapply u_bind with (P := fun q => leaf (fst (fst q)) (A2 ++ fst fs :: snds sn ++ B) /\ snd q <= k' + 1 + length (snds sn)).
      { destruct sn as [[s2 z2]|]; [|cbn [uspec fst snd snds app length]; split; [exact J2|lia]].
        replace (A2 ++ fst fs :: B) with ((A2 ++ [fst fs]) ++ B) in J2 by (rewrite <- app_assoc; reflexivity).
        destruct (le_insert i2 _ B (k' + 1) s2 J2) as (j1 & p2 & Ej & K1); [rewrite app_length; cbn [length]; lia|rewrite !app_length; cbn [length]; lia|].
        rewrite <- app_assoc in J2. cbn [app] in J2.
        eapply u_at_ok; [exact Ej|]. cbv beta iota. rewrite <- app_assoc in K1. cbn [app] in K1.
        assert (Q2 : forall t, leaf t (A2 ++ fst fs :: s2 :: B) -> left_ok 0 ((A1 ++ mid :: A2) ++ fst fs :: snds (Some (s2, z2)) ++ B) n1 (mid :: slices t)).
        { intros t' Ht. eapply le_left; [exact N1|lia|]. rewrite (le_slices _ _ Ht). cbn [snds fst app]. acct. }
        eapply u_at with (P := T1); [nub|exact (Q2 _ K1)|intros ns _]. eapply u_at with (P := T1); [nub|exact (Q2 _ K1)|intros sp _].
        destruct (le_set_pos _ _ (k' + 1) sp K1) as (j2 & E3 & K2); [rewrite app_length; cbn [length]; lia|]. eapply u_at_ok; [exact E3|].
        cbn [uspec fst snd snds app length]. split; [exact K2|lia]. }
      intros [[i3 ns2] from] [J3 Hf]. cbn [fst snd] in J3, Hf. cbv beta iota.
      assert (L3 : lo <= length (A2 ++ fst fs :: snds sn ++ B) <= 2 * M) by (rewrite app_length; cbn [length]; rewrite app_length; lia).
      eapply u_at with (P := fun t' => leaf t' (A2 ++ fst fs :: snds sn ++ B)).
      { apply le_shift; [exact J3|]. rewrite app_length. cbn [length]. rewrite app_length. lia. }
      { eapply le_left; [exact N1|lia|]. rewrite (le_slices _ _ J3). acct. }
      intros i4 J4. cbv beta in J4. cbn [uspec fst UnwindQ.st_ok b_lhs b_rhs b_key]. split; [eapply le_wsh; [exact N1|lia]|]. split; [eapply le_wsh; eauto|].
      rewrite (le_slices _ _ J4), (le_slices _ _ N1). blocks. reflexivity.
    - (* at the key in the middle *)
      destruct C as (A1 & mid & -> & Lm & LmM & LB1 & LB3 & LB2). rewrite <- app_assoc in H. cbn [app] in H. destruct (le_split _ _ _ _ m H Lm) as (n0 & mp & r0 & Es & N0 & R0).
      eapply u_at_ok; [exact Es|]. cbv beta iota zeta.
      assert (Lm2 : lo <= length A1 <= 2 * M) by lia.
      assert (Q : forall t, leaf t A1 -> left_ok 0 ((A1 ++ [mid]) ++ fst fs :: snds sn ++ B) t (mid :: slices r0 ++ fst fs :: snds sn)).
      { intros t' Ht. eapply le_left; [exact Ht|exact Lm2|]. rewrite (le_slices _ _ R0). acct. }
      destruct (le_size _ _ N0) as [z0 Hz0]. eapply u_at_ok; [exact Hz0|].
      eapply u_at with (P := T1); [destruct ov; nub|exact (Q _ N0)|intros [msz ov'] _].
      destruct (le_set_size _ _ mp N0) as (n1 & En1 & N1). eapply u_at_ok; [exact En1|].
      eapply u_at with (P := fun t' => leaf t' B); [apply le_shift; [exact R0|lia]|exact (Q _ N1)|intros r1 R1]. cbv beta in R1.
      assert (Q2 : forall t, leaf t (A1 ++ [mid]) -> left_ok 0 ((A1 ++ [mid]) ++ fst fs :: snds sn ++ B) t (slices r1 ++ fst fs :: snds sn)).
      { intros t' Ht. eapply le_left; [exact Ht|rewrite app_length; cbn [length]; lia|]. rewrite (le_slices _ _ R1). acct. }
      destruct sd.
      + destruct LB2 as [Ls LB2]. destruct sn as [[s2 z2]|]; [|discriminate Ls]. destruct (le_size _ _ N1) as [z1 Hz1]. eapply u_at_ok; [exact Hz1|].
        eapply u_at with (P := T1); [nub|exact (Q _ N1)|intros lke _]. eapply u_at with (P := T1); [nub|exact (Q _ N1)|intros fke _].
        destruct (le_push _ _ mid lke N1) as (n2 & E2 & N2); [lia|]. eapply u_at_ok; [exact E2|].
        destruct (le_push _ _ (fst fs) fke N2) as (n3 & E3 & N3); [rewrite app_length; cbn [length]; lia|]. eapply u_at_ok; [exact E3|].
        cbn [uspec fst UnwindQ.st_ok b_lhs b_rhs b_key]. split; [eapply le_wsh; [exact N3|rewrite !app_length; cbn [length]; lia]|]. split; [eapply le_wsh; [exact R1|lia]|].
        rewrite (le_slices _ _ N3), (le_slices _ _ R1). cbn [snds fst]. blocks. reflexivity.
      + destruct (le_size _ _ N1) as [z1 Hz1]. eapply u_at_ok; [exact Hz1|].
        eapply u_at with (P := T1); [nub|exact (Q _ N1)|intros lke _].
        destruct (le_push _ _ mid lke N1) as (n2 & E2 & N2); [lia|]. eapply u_at_ok; [exact E2|].
        eapply u_bind with (P := fun r => leaf r (snds sn ++ B)).
        { destruct sn as [[s2 z2]|]; [|exact R1]. destruct (le_insert r1 [] B 0 s2 R1 eq_refl) as (r' & p1 & Er & R'); [cbn [app snds length] in *; lia|].
          eapply u_at_ok; [exact Er|]. cbv beta iota. cbn [app] in R'.
          pose proof (le_shift _ _ true 1 p1 (ix_zero X) z2 R' ltac:(cbn [length]; lia)) as S.
          destruct (shift_keys X true r' 1 p1 (ix_zero X) z2); cbn [at_ uspec post] in *; [exact S| |exact S].
          eapply le_left; [exact N2|rewrite app_length; cbn [length]; lia|]. rewrite (le_slices _ _ R'). cbn [snds fst]. acct. }
        intros r2 R2. cbv beta in R2. cbn [uspec fst UnwindQ.st_ok b_lhs b_rhs b_key].
        split; [eapply le_wsh; [exact N2|rewrite app_length; cbn [length]; lia]|]. split; [eapply le_wsh; [exact R2|rewrite app_length; lia]|].
        rewrite (le_slices _ _ N2), (le_slices _ _ R2). blocks. reflexivity.
  Qed.

  Lemma q_leaf_step : forall t l k ov o n cur, leaf t l -> lo <= length l <= 2 * M -> k < length l ->
    uspec (st_ok 0 l) (left_ok 0 l) (ukey_step X Cp t k ov o n cur).
  Proof.
    intros t l k ov o n cur H Hl Hk. eapply (q_key_step X Cp M lo HX HM Hlo); [exact H|rewrite nl_len; exact Hl|apply okn_nl| |rewrite nl_len; exact Hk].
    apply fl_nl.
  Qed.

  Lemma q_no_join : forall t A B remap k ov fs sn, leaf t (A ++ B) -> length A = k -> lo <= length (A ++ B) <= 2 * M -> (ov <> None -> k <> 0) ->
    uspec (st_ok 0 (A ++ fst fs :: snds sn ++ B)) (left_ok 0 (A ++ fst fs :: snds sn ++ B)) (uno_join_leaf X Cp M remap k ov fs sn t).
  Proof.
    intros t A B remap k ov fs sn H Hk Hl Hov. unfold uno_join_leaf. rewrite (le_tlen _ _ H). fold (snds sn).
    assert (Lab : length (A ++ B) = length A + length B) by apply app_length.
    destruct ((length (A ++ B) <? k) || ((match ov with Some _ => true | None => false end) && (k =? 0))) eqn:E.
    { apply orb_prop in E. destruct E as [E|E]; [apply Nat.ltb_lt in E; lia|]. apply andb_prop in E. destruct E as [E E']. apply Nat.eqb_eq in E'.
      destruct ov; [destruct Hov; [discriminate|exact E']|discriminate E]. }
    clear E. cbv zeta. set (L := A ++ fst fs :: snds sn ++ B).
    assert (Q0 : left_ok 0 L t (fst fs :: snds sn)). { eapply le_left; [exact H|exact Hl|]. unfold L. acct. }
    eapply u_at with (P := T1); [destruct sn as [[s2 z2]|]; nub|exact Q0|intros added _].
    replace (match sn with Some _ => 1 | None => 0 end) with (length (snds sn)) by (destruct sn; reflexivity).
    unfold max_len. destruct (Nat.leb_spec (2 * M - length (snds sn)) (length (A ++ B))) as [Hf|Hf].
    - eapply u_bind; [apply (q_split_leaf t A B k ov fs sn H Hk ltac:(lia) Hov)|]. intros [b o] Hb. cbn [uspec fst] in *.
      unfold remap_leaf. cbn [UnwindQ.st_ok fst] in *. destruct remap; [|exact Hb]. destruct o as [[sd k0]|]; exact Hb.
    - assert (Ins : forall t0, leaf t0 (A ++ B) -> exists t1 p, insert_key M t0 k (fst fs) = Ok (t1, p) /\ leaf t1 (A ++ fst fs :: B)).
      { intros t0 H0. apply le_insert; [exact H0|exact Hk|lia]. }
      assert (L1 : length (A ++ fst fs :: B) = S (length (A ++ B))) by (rewrite !app_length; cbn [length]; lia).
      assert (Q1 : forall t0, leaf t0 (A ++ fst fs :: B) -> left_ok 0 L t0 (snds sn)).
      { intros t0 H0. eapply le_left; [exact H0|lia|]. unfold L. acct. }
      assert (Ins2 : forall t0 s2 z2, sn = Some (s2, z2) -> leaf t0 (A ++ fst fs :: B) -> exists t1 p, insert_key M t0 (k + 1) s2 = Ok (t1, p) /\ leaf t1 L).
      { intros t0 s2 z2 -> H0. replace (A ++ fst fs :: B) with ((A ++ [fst fs]) ++ B) in H0 by (rewrite <- app_assoc; reflexivity).
        destruct (le_insert t0 _ B (k + 1) s2 H0) as (t1 & p & E1 & K1); [rewrite app_length; cbn [length]; lia|rewrite <- app_assoc; cbn [app snds length] in *; lia|].
        exists t1, p. split; [exact E1|]. rewrite <- app_assoc in K1. exact K1. }
      assert (LL : length L = S (length (A ++ B)) + length (snds sn)) by (unfold L; rewrite !app_length; cbn [length]; rewrite app_length; lia).
      assert (QL : forall t0, leaf t0 L -> left_ok 0 L t0 []).
      { intros t0 H0. eapply le_left; [exact H0|lia|apply acc_all]. }
      destruct ov as [nls|].
      + assert (k <> 0) by (apply Hov; discriminate).
        destruct (le_kp _ _ (k - 1) H) as [lp Hlp]; [lia|]. eapply u_at_ok; [exact Hlp|].
        eapply u_at with (P := T1); [apply (le_ssize _ _ (k - 1) H); lia|exact Q0|intros ols _].
        eapply u_at with (P := T1); [nub|exact Q0|intros sp _].
        destruct (Ins t H) as (t1 & p1 & E1 & K1). eapply u_at_ok; [exact E1|]. cbv beta iota.
        destruct (le_set_pos _ _ k sp K1) as (t2 & E2 & K2); [lia|]. eapply u_at_ok; [exact E2|].
        eapply u_bind with (P := fun t3 => leaf t3 L).
        { destruct sn as [[s2 z2]|]; [|exact K2]. destruct (Ins2 t2 s2 z2 eq_refl K2) as (u1 & p2 & E3 & K3). eapply u_at_ok; [exact E3|]. cbv beta iota.
          eapply u_at with (P := T1); [nub|exact (QL _ K3)|intros p _].
          destruct (le_set_pos _ _ (k + 1) p K3) as (u2 & E4 & K4); [cbn [snds length] in *; lia|]. rewrite E4. exact K4. }
        intros t3 K3. cbv beta in K3. eapply u_at with (P := T1); [nub|exact (QL _ K3)|intros nz _].
        apply q_leaf_step; [exact K3|lia|lia].
      + destruct (Ins t H) as (t1 & p1 & E1 & K1). eapply u_at_ok; [exact E1|]. cbv beta iota.
        eapply u_bind with (P := fun q => leaf (fst q) L).
        { destruct sn as [[s2 z2]|]; [|exact K1]. destruct (Ins2 t1 s2 z2 eq_refl K1) as (u1 & p2 & E3 & K3). eapply u_at_ok; [exact E3|]. cbv beta iota.
          eapply u_at with (P := T1); [nub|exact (QL _ K3)|intros p _].
          destruct (le_set_pos _ _ (k + 1) p K3) as (u2 & E4 & K4); [cbn [snds length] in *; lia|]. eapply u_at_ok; [exact E4|]. exact K4. }
        intros [t2 op] K2. cbn [fst] in K2. cbv beta iota. apply q_leaf_step; [exact K2|lia|lia].
  Qed.

  (** The root. *)
  Definition fin_ok (L : list V) (q : tree * nat * list nat) : Prop := wsh (snd (fst q)) (fst (fst q)) /\ slices (fst (fst q)) = L.
  Lemma q_finish : forall h L st, st_ok h L st -> uspec (fin_ok L) (left_ok h L) (ufinish_root X h st).
  Proof.
    intros h L [n o n' cur|b] H; cbn [UnwindQ.st_ok ufinish_root] in *; [exact H|]. destruct H as (Hl & Hr & E).
    destruct (wsh_is _ _ _ _ Hl) as (lc & ll & Il & _ & _). destruct (wsh_is _ _ _ _ Hr) as (rc & rl & Ir & _ & _).
    destruct (is_size _ _ _ Il) as [lz Hlz]. destruct (is_size _ _ _ Ir) as [rz Hrz].
    assert (Q : left_ok h L (b_lhs b) (b_key b :: slices (b_rhs b))). { split; [exact Hl|]. rewrite <- E. acct. }
    unfold make_new_parent. rewrite Hlz, Hrz. cbn [at_ ubind bind].
    pose proof (p_addr X HX lz (b_key_size b)) as P1. destruct (ix_add_right X lz (b_key_size b)) as [a|w|]; cbn [at_ ubind bind post] in *; [|exact Q|exact P1].
    pose proof (p_addr X HX a rz) as P2. destruct (ix_add_right X a rz) as [z|w|]; cbn [at_ ubind bind post] in *; [|exact Q|exact P2].
    cbn [uspec fin_ok fst snd]. rewrite Nat.add_1_r. split.
    - assert (J : is (Node z (b_lhs b) [(lz, b_key b, b_rhs b)]) (b_lhs b) [(b_key b, b_rhs b)]) by (exists z, [(lz, b_key b, b_rhs b)]; auto).
      eapply is_wsh; [exact J|cbn [length]; lia|]. split; [exact Hl|]. constructor; [exact Hr|constructor].
    - cbn [slices flat_map fst snd]. rewrite app_nil_r. exact E.
  Qed.
End Leaf.
