(** Which calls of `split_at` and `try_join` an insertion depends on. *)
From Coq Require Import List ZArith Lia Bool Arith.
From Verif Require Import Base Index Slice Tree Insert Spec Zip Rep Upd Leaf Path Ops Find Ins Joins.
Import ListNotations.
Local Open Scope Z_scope.

Section CallsP.
  Context {I V : Type} (X : index_ops I) (Y Y' : slice_ops I V) (MAX : Z) (inj : Z -> I) (M : nat).
  Hypothesis L : index_laws X MAX inj.
  Hypothesis HM : (1 <= M)%nat.
  Hypothesis MJ : sl_may_join Y' = sl_may_join Y.
  Notation tree := (tree I V).
  Notation run := (prod V Z) (only parsing).
  Notation rep := (@rep I V inj M).

  Lemma find_calls : forall h t hints idx p a b,
    find_insertion_point X Y' h t hints idx p a b = find_insertion_point X Y h t hints idx p a b.
  Proof.
    induction h as [|h IH]; intros t hints idx p a b; cbn [find_insertion_point]; rewrite MJ; auto.
    destruct (search_step X (S h) t (hd_error hints) idx) as [r0| |]; cbn [bind]; auto.
    match goal with |- bind ?m _ = _ => destruct m as [r| |]; cbn [bind]; auto end.
    destruct r; auto. destruct (ix_sub_left X idx pos) as [tg| |]; cbn [bind]; auto.
    destruct (child t c) as [ch| |]; cbn [bind]; auto.
  Qed.

  Lemma edge_calls : forall h t A B p k a b x n, rep 1 h t (A ++ B) -> rsum (A ++ B) <= MAX -> A ++ B <> [] ->
    (sl_may_join Y = true -> lhs_ok t a (length A) /\ rhs_ok t b (length A) (length (A ++ B))) ->
    (sl_may_join Y = true -> forall c d, asked Y inj (A ++ B) (rsum A) x c d -> sl_try_join Y' c d = sl_try_join Y c d) ->
    insert_edge X Y' M h t p k a b x n = insert_edge X Y M h t p k a b x n.
  Proof.
    intros h t A B p k a b x n R Hm Hne Hab Hag. unfold insert_edge, edge_try_join. rewrite MJ.
    destruct (sl_may_join Y) eqn:Hj; cbn [negb]; [|reflexivity].
    destruct (Hab eq_refl) as [Ha Hb]. specialize (Hag eq_refl). clear Hab.
    destruct (node_at t p) as [nd| |]; cbn [bind]; auto. destruct (tlen nd <? k)%nat; auto.
    pose proof (rep_pos _ _ _ _ _ _ R) as Hpos. apply pos_runs_app in Hpos. destruct Hpos as [HA HB].
    pose proof (pos_runs_nonneg _ HA). pose proof (pos_runs_nonneg _ HB).
    destruct (list_eq_nil A) as [->|(A0 & [s z] & ->)].
    - destruct B as [|[s2 z2] B]; [exfalso; apply Hne; reflexivity|].
      destruct a as [[pa ka]|]; cbn [lhs_ok] in Ha; [destruct Ha as (r & Ha & _); discriminate|].
      destruct b as [[pb kb]|]; cbn [rhs_ok] in Hb; [|cbn in Hb; discriminate].
      cbn [app length] in *.
      destruct (handle_ok X MAX inj M L HM _ _ _ _ pb kb [] s2 z2 B R) as (Hs & Hsl & _ & _); auto.
      rewrite Hs. cbn [bind]. rewrite Hsl. cbn [bind]. rewrite (Hag x s2); [reflexivity|]. eapply asked_first; reflexivity.
    - rewrite app_length in *. cbn [length] in Ha, Hb.
      destruct a as [[pa ka]|]; cbn [lhs_ok] in Ha; [|lia]. destruct Ha as (r & Ha & Ra).
      assert (r = length A0) by lia. subst r. clear Ha.
      rewrite <- app_assoc in *. cbn [app] in *. rewrite rsum_app in Hag. cbn [rsum] in Hag. rewrite Z.add_0_r in Hag.
      destruct (handle_ok X MAX inj M L HM _ _ _ _ pa ka A0 s z B R) as (Hs & Hsl & Hl & _); auto.
      rewrite Hs. cbn [bind].
      assert (E1 : sl_try_join Y' s x = sl_try_join Y s x) by (apply Hag; eapply asked_left; reflexivity).
      destruct B as [|[s2 z2] B].
      + destruct b as [[pb kb]|]; cbn [rhs_ok] in Hb.
        { exfalso. destruct (handle_view inj M HM _ _ _ _ _ _ _ R Hb) as (? & ? & ? & ? & la & lb & A1 & s1 & z1 & B1 & _ & _ & H3 & H4 & _).
          apply (f_equal (@length _)) in H4. rewrite !app_length in H4. cbn [length] in H4. rewrite !app_length in H4. lia. }
        cbn [bind]. rewrite Hsl. cbn [bind]. rewrite E1. reflexivity.
      + destruct b as [[pb kb]|]; cbn [rhs_ok] in Hb; [|rewrite !app_length in Hb; cbn [length] in Hb; lia].
        assert (R' : rep 1 h t ((A0 ++ [(s, z)]) ++ (s2, z2) :: B)) by (rewrite <- app_assoc; exact R).
        assert (Rb : forall s0 : V, rank t pb kb = Some (length (A0 ++ [(s0, z)]))) by (intros; rewrite app_length; exact Hb).
        destruct (handle_ok X MAX inj M L HM _ _ _ _ pb kb (A0 ++ [(s, z)]) s2 z2 B R') as (Hs2 & Hsl2 & Hl2 & _); auto;
          [rewrite <- app_assoc; exact Hm|].
        rewrite Hs2. cbn [bind]. rewrite Hsl. cbn [bind]. rewrite E1.
        destruct (sl_try_join Y s x) as [m|[s' x']] eqn:Ej.
        * destruct (ix_add_right X (inj z) n) as [ms| |]; cbn [bind]; auto. rewrite Hsl2. cbn [bind].
          rewrite (Hag m s2); [reflexivity|]. eapply asked_joined; eauto.
        * destruct (set_slice_ok inj M HM _ _ _ _ pa ka A0 s z ((s2, z2) :: B) s' R eq_refl Ra) as (t1 & Et1 & R1 & S1).
          cbn [fst snd]. rewrite Et1. cbn [bind].
          assert (R1' : rep 1 h t1 ((A0 ++ [(s', z)]) ++ (s2, z2) :: B)) by (rewrite <- app_assoc; exact R1).
          assert (Rb1 : rank t1 pb kb = Some (length (A0 ++ [(s', z)]))) by (destruct S1 as (_ & S1 & _); rewrite S1; apply Rb).
          destruct (handle_ok X MAX inj M L HM _ _ _ _ pb kb (A0 ++ [(s', z)]) s2 z2 B R1') as (_ & Hsl3 & _ & _); auto;
            [rewrite <- app_assoc; cbn [app]; rewrite !rsum_app in *; exact Hm|].
          rewrite Hsl3. cbn [bind]. rewrite (Hag x' s2); [reflexivity|]. eapply asked_refused; eauto.
  Qed.

  Lemma split_calls : forall nop h t A s z B p hk k q x n, rep 1 h t (A ++ (s, z) :: B) -> rsum (A ++ (s, z) :: B) <= MAX ->
    rank t p k = Some (length A) -> hk = (h - length p)%nat -> 0 < q < z ->
    sl_split_at Y' s (inj q) = sl_split_at Y s (inj q) ->
    (sl_may_join Y = true -> forall c d, asked Y inj (A ++ (s, z) :: B) (rsum A + q) x c d -> sl_try_join Y' c d = sl_try_join Y c d) ->
    insert_split_key X Y' M nop h t p hk k (inj q) x n = insert_split_key X Y M nop h t p hk k (inj q) x n.
  Proof.
    intros nop h t A s z B p hk k q x n R Hm Hr -> Hq Hs Hag. unfold insert_split_key. rewrite MJ.
    destruct (handle_ok X MAX inj M L HM _ _ _ _ p k A s z B R) as (Hz & Hsl & _ & _); auto.
    unfold handle_size, handle_slice, handle_height in Hz, Hsl. cbn [fst snd] in Hz, Hsl.
    destruct (node_at t p) as [nd| |]; cbn [bind] in *; auto. rewrite Hz. cbn [bind]. rewrite Hsl. cbn [bind]. rewrite Hs.
    destruct (sl_split_at Y s (inj q)) as [a b] eqn:Es.
    destruct (set_slice_at t p k a) as [t1| |]; cbn [bind]; auto.
    destruct (ix_sub_left X (inj z) (inj q)) as [rz| |]; cbn [bind]; auto.
    destruct (sl_may_join Y) eqn:Hj; cbn [negb]; [|reflexivity]. specialize (Hag eq_refl).
    rewrite (Hag a x) by (eapply asked_part; eauto).
    destruct (sl_try_join Y a x) as [m|[a' x']] eqn:E1.
    - rewrite (Hag m b) by (eapply asked_part_joined; eauto). reflexivity.
    - rewrite (Hag x' b) by (eapply asked_part_refused; eauto). reflexivity.
  Qed.

  Lemma insert_calls : forall nop r l hints idx x n, rle_rep inj M r l -> rsum l <= MAX -> 0 <= idx <= MAX ->
    (forall s q, cut l idx s q -> sl_split_at Y' s (inj q) = sl_split_at Y s (inj q)) ->
    (sl_may_join Y = true -> forall c d, asked Y inj l idx x c d -> sl_try_join Y' c d = sl_try_join Y c d) ->
    insert_with_cursor X Y' M nop r hints (inj idx) x n = insert_with_cursor X Y M nop r hints (inj idx) x n.
  Proof.
    intros nop r l hints idx x n Hr Hm Hi Hs Hag. unfold insert_with_cursor.
    rewrite (rle_size_ok X MAX inj M L _ _ Hr). cbn [bind].
    assert (Hp : 0 <= rsum l) by (destruct r as [r|]; cbn in Hr; [apply pos_runs_nonneg; eapply rep_pos; apply Hr | subst; cbn; lia]).
    rewrite (il_ltb _ _ _ L) by lia. destruct (Z.ltb_spec (rsum l) idx); auto.
    destruct (ix_leb X n (ix_zero X)); auto. destruct r as [r|]; auto. cbn [rle_rep] in Hr. destruct Hr as [R Hlen].
    rewrite find_calls.
    assert (F : focus inj M 1 (r_height r) (r_node r) l [] 1 (r_height r) (r_node r) l [] []) by (apply f_here; auto).
    destruct (find_ok X MAX inj M L HM Y _ _ _ _ _ _ _ _ _ _ idx hints None None F) as (ip & Eip & P); try lia.
    { intros _. cbn [lhs_ok rhs_ok length]. split; lia. }
    rewrite Eip. cbn [bind rsum] in *. rewrite Z.add_0_l in P.
    pose proof (rep_ne inj M HM _ _ _ R) as Hne.
    destruct ip as [p k a b|p hk k q]; cbn [point_ok] in P.
    - destruct P as (e & Ee & Hpl & He & Hsum & Hab).
      destruct (split_list_at e l He) as (A & B & -> & <-).
      rewrite firstn_app, firstn_all, Nat.sub_diag in Hsum. cbn [firstn] in Hsum. rewrite app_nil_r in Hsum. subst idx.
      rewrite (edge_calls (r_height r) (r_node r) A B p k a b x n R Hm Hne Hab Hag). reflexivity.
    - destruct P as (A & s & z & B & zq & -> & Hrk & Hhk & -> & Hq & Hsum). subst idx.
      rewrite (split_calls nop (r_height r) (r_node r) A s z B p hk k zq x n R Hm Hrk Hhk Hq); auto.
      apply Hs. exists A, z, B. auto.
  Qed.
End CallsP.
