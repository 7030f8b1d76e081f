(** Insertions that exceed the range of the index type.  Proof support only. *)
From Coq Require Import List ZArith Bool Arith Lia.
From Verif Require Import Base Index Slice Tree Insert.
Import ListNotations.

(** ** A larger range changes nothing but the overflows *)
Create HintDb lehints.

Section Le.
  Context {I V : Type} (X X' : index_ops I) (Y : slice_ops I V) (M : nat).
  Notation tree := (tree I V).

  Definition le {A} (m w : res A) : Prop := match m with Panic PArith => True | _ => w = m end.

  Hypothesis Ezero : ix_zero X' = ix_zero X.
  Hypothesis Eltb : ix_ltb X' = ix_ltb X.
  Hypothesis Eeqb : ix_eqb X' = ix_eqb X.
  Hypothesis Esearch : ix_search X' = ix_search X.
  Hypothesis Edebug : ix_debug X' = ix_debug X.
  Hypothesis Laddl : forall a b, le (ix_add_left X a b) (ix_add_left X' a b).
  Hypothesis Laddr : forall a b, le (ix_add_right X a b) (ix_add_right X' a b).
  Hypothesis Lsubl : forall a b, le (ix_sub_left X a b) (ix_sub_left X' a b).
  Hypothesis Lsubr : forall a b, le (ix_sub_right X a b) (ix_sub_right X' a b).

  Lemma le_refl : forall {A} (m : res A), le m m.
  Proof. intros A [|[]|]; cbn; auto. Qed.
  Lemma le_bind : forall {A B} (m w : res A) (k k' : A -> res B), le m w -> (forall a, le (k a) (k' a)) -> le (bind m k) (bind w k').
  Proof. intros A B m w k k' H K. destruct m as [a|y|]; [|destruct y|]; cbn in *; try rewrite H; cbn; auto. Qed.

  Ltac rw := rewrite ?Ezero, ?Eltb, ?Eeqb, ?Esearch, ?Edebug.
  Ltac lego := repeat lazymatch goal with
    | |- le (bind _ _) _ => apply le_bind; [|intros ?]
    | |- le (match ?x with _ => _ end) _ => destruct x
    | |- le (Ok _) _ => apply le_refl
    | |- le (Panic _) _ => apply le_refl
    | |- le UB _ => apply le_refl
    | |- le (ix_add_left X _ _) _ => apply Laddl
    | |- le (ix_add_right X _ _) _ => apply Laddr
    | |- le (ix_sub_left X _ _) _ => apply Lsubl
    | |- le (ix_sub_right X _ _) _ => apply Lsubr
    | |- le ?a ?a => apply le_refl
    | |- _ => first [solve [auto 2 with lehints nocore] | solve [auto 2]]
    end.

  Lemma le_leb : forall a b, ix_leb X' a b = ix_leb X a b.
  Proof. intros. unfold ix_leb. rewrite Eltb. reflexivity. Qed.
  Lemma le_slice_size : forall h (t : tree) k, le (slice_size X h t k) (slice_size X' h t k).
  Proof. intros. unfold slice_size. lego. Qed.
  Lemma le_csz : forall h (t : tree) k, le (child_size_or_zero X h t k) (child_size_or_zero X' h t k).
  Proof. intros. unfold child_size_or_zero. rewrite Ezero. lego. Qed.
  Hint Resolve le_slice_size le_csz : lehints.
  Lemma le_search : forall h (t : tree) hint tg, le (search_step X h t hint tg) (search_step X' h t hint tg).
  Proof. intros. unfold search_step, ix_leb. rewrite Ezero, Eltb, Esearch, Edebug. lego. Qed.
  Hint Resolve le_search : lehints.
  Lemma le_find : forall h (t : tree) hints tg p a b,
    le (find_insertion_point X Y h t hints tg p a b) (find_insertion_point X' Y h t hints tg p a b).
  Proof. induction h as [|h IH]; intros; cbn [find_insertion_point]; rewrite Eeqb; lego. Qed.
  Lemma le_mapM : forall {A B} (F G : A -> res B) l, (forall a, le (F a) (G a)) -> le (mapM F l) (mapM G l).
  Proof. intros A B F G l H. induction l; cbn [mapM]; lego. Qed.
  Lemma le_poss : forall (t : tree) F G from, (forall a, le (F a) (G a)) -> le (set_key_poss_with t F from) (set_key_poss_with t G from).
  Proof.
    intros [|tot c0 es] F G from H; cbn [set_key_poss_with]; [apply le_refl|]. destruct (_ <? _); [apply le_refl|].
    apply le_bind; [apply le_mapM; intros a; lego|]. intros es'. lego.
  Qed.
  Lemma le_shift : forall inc (t : tree) from p o n, le (shift_keys X inc t from p o n) (shift_keys X' inc t from p o n).
  Proof.
    intros. unfold shift_keys. apply le_bind; [auto|]. intros oe. apply le_bind; [auto|]. intros ne.
    apply le_bind; [destruct inc; auto|]. intros d. apply le_poss. intros q. destruct inc; auto.
  Qed.
  Lemma le_shift_auto : forall (t : tree) from p o n, le (shift_keys_auto X t from p o n) (shift_keys_auto X' t from p o n).
  Proof. intros. unfold shift_keys_auto. rewrite Eltb. apply le_shift. Qed.
  Lemma le_mnp : forall (l : tree) s z r, le (make_new_parent X l s z r) (make_new_parent X' l s z r).
  Proof. intros. unfold make_new_parent. lego. Qed.
  Hint Resolve le_find le_shift le_shift_auto le_mnp : lehints.

  Ltac lego2 := rw; repeat (lego; try (apply le_poss; intros ?)).

  Lemma le_key_step : forall (t : tree) k ov o n cur, le (key_step X t k ov o n cur) (key_step X' t k ov o n cur).
  Proof. intros. unfold key_step. lego2. Qed.
  Lemma le_child_step : forall (t : tree) c here o n cur, le (child_step X t c here o n cur) (child_step X' t c here o n cur).
  Proof. intros. unfold child_step. lego2. Qed.
  Hint Resolve le_key_step le_child_step : lehints.
  Lemma le_bubble : forall (t : tree) c here b, le (bubble_step X M t c here b) (bubble_step X' M t c here b).
  Proof. intros. unfold bubble_step. lego2. Qed.
  Hint Resolve le_bubble : lehints.
  Lemma le_up : forall (t : tree) c here st, le (up_step X M t c here st) (up_step X' M t c here st).
  Proof. intros. unfold up_step. lego2. Qed.
  Hint Resolve le_up : lehints.
  Lemma le_upd : forall F G, (forall t : tree, le (F t) (G t)) -> forall p lhs t, le (upd X M F lhs t p) (upd X' M G lhs t p).
  Proof. intros F G H. induction p as [|c p IH]; intros; cbn [upd]; lego2. Qed.
  Lemma le_small : forall (t : tree) k ov f s, le (split_leaf_small_m X M t k ov f s) (split_leaf_small_m X' M t k ov f s).
  Proof. intros. unfold split_leaf_small_m. lego2. Qed.
  Hint Resolve le_small : lehints.
  Lemma le_split_leaf : forall (t : tree) k ov f s, le (split_leaf X M t k ov f s) (split_leaf X' M t k ov f s).
  Proof. intros. unfold split_leaf. lego2. Qed.
  Hint Resolve le_split_leaf : lehints.
  Lemma le_no_join : forall remap k ov f s (t : tree), le (no_join_leaf X M remap k ov f s t) (no_join_leaf X' M remap k ov f s t).
  Proof. intros. unfold no_join_leaf. lego2. Qed.
  Hint Resolve le_no_join : lehints.
  Lemma le_finish : forall h (st : @upstate I V), le (finish_root X h st) (finish_root X' h st).
  Proof. intros. unfold finish_root. lego2. Qed.
  Hint Resolve le_finish le_upd : lehints.
  Lemma le_insert_rhs : forall h (t : tree) p hk k nl remap f s,
    le (insert_rhs X M h t p hk k nl remap f s) (insert_rhs X' M h t p hk k nl remap f s).
  Proof. intros. unfold insert_rhs. lego2. Qed.
  Hint Resolve le_insert_rhs : lehints.
  Lemma le_split_key : forall nop h (t : tree) p hk k q x n,
    le (insert_split_key X Y M nop h t p hk k q x n) (insert_split_key X' Y M nop h t p hk k q x n).
  Proof. intros. unfold insert_split_key. lego2. Qed.
  Lemma le_handle_size : forall h (t : tree) a, le (handle_size X h t a) (handle_size X' h t a).
  Proof. intros. unfold handle_size. lego2. Qed.
  Lemma le_single_join : forall h (t : tree) a o n, le (single_join X M h t a o n) (single_join X' M h t a o n).
  Proof. intros. unfold single_join. lego2. Qed.
  Hint Resolve le_split_key le_handle_size le_single_join : lehints.
  Lemma le_try_join : forall h (t : tree) a b x n, le (edge_try_join X Y M h t a b x n) (edge_try_join X' Y M h t a b x n).
  Proof. intros. unfold edge_try_join. lego2. Qed.
  Hint Resolve le_try_join : lehints.
  Lemma le_edge : forall h (t : tree) p k a b x n, le (insert_edge X Y M h t p k a b x n) (insert_edge X' Y M h t p k a b x n).
  Proof. intros. unfold insert_edge. lego2. Qed.
  Hint Resolve le_edge : lehints.
  Lemma le_insert : forall nop r hints idx x n,
    le (insert_with_cursor X Y M nop r hints idx x n) (insert_with_cursor X' Y M nop r hints idx x n).
  Proof.
    intros. unfold insert_with_cursor, rle_size, rle_new, ix_leb. rewrite Ezero, Eltb. lego2.
  Qed.
End Le.

(** ** With overflow checks no tree gets a size out of range *)
Section Top.
  Context {V : Type} (MAX : Z) (Y : slice_ops Z V) (M : nat).
  Notation tree := (tree Z V).
  Notation X := (checked_ops MAX).

  Definition okp {A} (P : A -> Prop) (m : res A) : Prop := match m with Ok a => P a | _ => True end.
  Lemma okp_bind : forall {A B} (P : A -> Prop) (Q : B -> Prop) m k, okp P m -> (forall a, P a -> okp Q (k a)) -> okp Q (bind m k).
  Proof. intros A B P Q [a|y|] k H K; cbn in *; auto. Qed.
  Lemma okp_true : forall {A} (m : res A), okp (fun _ => True) m.
  Proof. intros A [a|y|]; cbn; auto. Qed.
  Lemma okp_all : forall {A} (P : A -> Prop) m, (forall a, P a) -> okp P m.
  Proof. intros A P [a|y|] H; cbn; auto. Qed.

  Definition top (t : tree) : Prop := match t with Nil => True | Node tot _ _ => (tot <= MAX)%Z end.
  Definition topst (st : @upstate Z V) : Prop := match st with Done n _ _ _ => top n | Bubble _ => True end.

  Lemma top_tsize : forall t z, top t -> tsize t = Ok z -> (z <= MAX)%Z.
  Proof. intros [|tot c0 es] z H E; cbn in *; congruence. Qed.

  Lemma top_shift : forall inc t from p o n, top t -> okp top (shift_keys X inc t from p o n).
  Proof.
    intros inc t from p o n H. unfold shift_keys.
    eapply okp_bind; [apply okp_true|]. intros oe _. eapply okp_bind; [apply okp_true|]. intros ne _.
    eapply okp_bind with (P := fun d => (0 <= d)%Z).
    { destruct inc; cbn [ix_sub_left ix_sub_right checked_ops]; destruct (Z.leb_spec (if true then 0 else 0) 0); try lia.
      - destruct (Z.leb_spec oe ne); cbn; auto; lia.
      - destruct (Z.leb_spec ne oe); cbn; auto; lia. }
    intros d Hd. destruct t as [|tot c0 es]; [exact Logic.I|]. cbn [set_key_poss_with]. destruct (length es <? from); [exact Logic.I|].
    eapply okp_bind; [apply okp_true|]. intros es' _. cbn [top] in H.
    eapply okp_bind with (P := fun t => (t <= MAX)%Z); [|intros tot' Ht; exact Ht].
    destruct inc; cbn [ix_add_left ix_sub_left checked_ops].
    - destruct (Z.leb_spec (d + tot) MAX); cbn; auto.
    - destruct (Z.leb_spec d tot); cbn; auto. lia.
  Qed.

  Ltac skip := eapply okp_bind; [apply okp_true|]; intros ? _.

  Ltac skips := repeat lazymatch goal with
    | |- okp _ (bind _ _) => eapply okp_bind; [apply okp_true|]; intros ? _
    | |- okp _ (match ?q with (_, _) => _ end) => destruct q
    end.

  Lemma top_key_step : forall t k ov o n cur, top t -> okp topst (key_step X t k ov o n cur).
  Proof.
    intros. unfold key_step. skip. skip. eapply okp_bind; [apply (top_shift _ _ _ _ _ _ H)|]. intros t' Ht. skip. exact Ht.
  Qed.
  Lemma top_child_step : forall t c here o n cur, top t -> okp topst (child_step X t c here o n cur).
  Proof.
    intros. unfold child_step. skip. destruct a as [[[ov o'] n'] cur']. skip. skip.
    eapply okp_bind; [apply (top_shift _ _ _ _ _ _ H)|]. intros t' Ht. skip. exact Ht.
  Qed.
  Lemma top_single : forall t k p, top t -> okp top (set_single_key_pos t k p).
  Proof. intros [|tot c0 es] k p H; cbn [set_single_key_pos]; [exact Logic.I|]. skip. exact H. Qed.
  Lemma top_set_child : forall t c ch, top t -> okp top (set_child t c ch).
  Proof. intros [|tot c0 es] c ch H; cbn [set_child]; [exact Logic.I|]. destruct c; [exact H|]. skip. exact H. Qed.
  Lemma top_ikc : forall t k s ch, top t -> okp (fun q => top (fst q)) (insert_key_and_child M t k s ch).
  Proof. intros [|tot c0 es] k s ch H; unfold insert_key_and_child; [exact Logic.I|]. destruct (_ || _); [exact Logic.I|]. skip. exact H. Qed.
  Lemma top_ik : forall t k s, top t -> okp (fun q => top (fst q)) (insert_key M t k s).
  Proof. intros. apply top_ikc. auto. Qed.
  Lemma top_set_slice_at : forall p t k s, top t -> okp top (set_slice_at t p k s).
  Proof.
    intros [|c p] t k s H; cbn [set_slice_at].
    - destruct t as [|tot c0 es]; cbn [set_slice]; [exact Logic.I|]. skip. exact H.
    - skip. skip. apply top_set_child. exact H.
  Qed.

  Lemma top_bubble : forall t c here b, top t -> okp topst (bubble_step X M t c here b).
  Proof.
    intros t c here b H. unfold bubble_step. skip. skip. skip. skip. destruct (tlen t <? max_len M).
    - skip. destruct a3 as [[[ov o] n] lp]. eapply okp_bind; [apply (top_ikc _ _ _ _ H)|]. intros [t1 z] Ht. skip.
      eapply okp_bind; [apply (top_single _ _ _ Ht)|]. intros t2 Ht2. apply top_key_step. exact Ht2.
    - skip. skip. destruct a4 as [[p0 [mp ms]] r0]. skip. skip. skip. skip. skip. destruct (negb (c =? M)).
      + skips. exact Logic.I.
      + skips. exact Logic.I.
  Qed.
  Lemma top_up : forall t c here st, top t -> okp topst (up_step X M t c here st).
  Proof.
    intros t c here [n o w cur|b] H; cbn [up_step].
    - eapply okp_bind; [apply (top_set_child _ _ _ H)|]. intros t1 Ht. apply top_child_step. exact Ht.
    - eapply okp_bind; [apply (top_set_child _ _ _ H)|]. intros t1 Ht. eapply okp_bind; [apply (top_bubble _ _ _ _ Ht)|].
      intros st Hs. cbn [okp]. destruct here as [l|], st as [? ? ? ?|b']; cbn [remap_bubble topst] in *; auto. destruct (l_remap l); exact Logic.I.
  Qed.
  Lemma top_upd : forall F, (forall t, top t -> okp topst (F t)) -> forall p lhs t, top t -> okp topst (upd X M F lhs t p).
  Proof.
    intros F HF [|c p] lhs t H; cbn [upd]; [auto|]. skip. match goal with |- context [let '(_, _) := ?q in _] => destruct q as [here below] end.
    skip. apply top_up. exact H.
  Qed.
  Lemma top_no_join : forall remap k ov f s t, top t -> okp topst (no_join_leaf X M remap k ov f s t).
  Proof.
    intros remap k ov f s t H. unfold no_join_leaf. destruct (_ || _); [exact Logic.I|]. skip. cbv zeta.
    destruct (_ <=? tlen t); [skip; exact Logic.I|]. destruct ov as [nl|].
    - skip. skip. skip. eapply okp_bind; [apply (top_ik _ _ _ H)|]. intros [t1 z] Ht.
      eapply okp_bind; [apply (top_single _ _ _ Ht)|]. intros t2 Ht2.
      eapply okp_bind with (P := top).
      { destruct s as [[s2 z2]|]; [|exact Ht2]. eapply okp_bind; [apply (top_ik _ _ _ Ht2)|]. intros [u1 w] Hu. skip. apply top_single. exact Hu. }
      intros t3 Ht3. skip. apply top_key_step. exact Ht3.
    - eapply okp_bind; [apply (top_ik _ _ _ H)|]. intros [t1 z] Ht.
      eapply okp_bind with (P := fun q => top (fst q)).
      { destruct s as [[s2 z2]|]; [|exact Ht]. eapply okp_bind; [apply (top_ik _ _ _ Ht)|]. intros [u1 w] Hu. skip.
        eapply okp_bind; [apply (top_single _ _ _ Hu)|]. intros u2 Hu2. exact Hu2. }
      intros [t2 op] Ht2. apply top_key_step. exact Ht2.
  Qed.
  Lemma top_finish : forall h st, topst st -> okp (fun q => top (fst (fst q))) (finish_root X h st).
  Proof.
    intros h [n o w cur|b] H; cbn [finish_root]; [exact H|]. skip. skip. skip. skip. cbv zeta.
    eapply okp_bind with (P := top); [|intros n Hn; exact Hn].
    unfold make_new_parent. skip. skip. skip. eapply okp_bind with (P := fun z => (z <= MAX)%Z); [|intros z Hz; exact Hz].
    cbn [ix_add_right checked_ops]. match goal with |- context [Z.leb ?p ?q] => destruct (Z.leb_spec p q); cbn; auto end.
  Qed.
  Lemma top_insert_rhs : forall h t p hk k nl remap f s, top t -> okp (fun q => top (fst (fst q))) (insert_rhs X M h t p hk k nl remap f s).
  Proof.
    intros. unfold insert_rhs. skip. skip. skip. eapply okp_bind with (P := topst); [|intros st Hs; apply top_finish; exact Hs].
    destruct hk; apply top_upd; auto; intros; apply top_no_join; auto.
  Qed.
  Definition top4 (q : tree * nat * list nat * nat) : Prop := top (fst (fst (fst q))).
  Lemma top_split_key : forall nop h t p hk k q x n, top t -> okp top4 (insert_split_key X Y M nop h t p hk k q x n).
  Proof.
    intros nop h t p hk k q x n H. unfold insert_split_key. skip. skip. skip. destruct (sl_split_at Y a1 q) as [ls rs].
    eapply okp_bind; [apply (top_set_slice_at _ _ _ _ H)|]. intros t1 H1. skip.
    assert (R : forall t nl rm f s w, top t -> okp top4 (let* (t', h', cur) := insert_rhs X M h t p hk k nl rm f s in Ok (t', h', cur, w))).
    { intros. eapply okp_bind; [apply (top_insert_rhs h t0 p hk k nl rm f s); auto|]. intros [[t' h'] cur] Ht. exact Ht. }
    destruct (negb (sl_may_join Y)); [apply R; auto|].
    destruct (sl_try_join Y ls x) as [mid|[l s]].
    - skip. destruct (sl_try_join Y mid rs) as [new|[l r]].
      + eapply okp_bind; [apply (top_set_slice_at _ _ _ _ H1)|]. intros t2 H2. skip. skip.
        eapply okp_bind; [apply top_upd; [intros; apply top_key_step; auto|exact H2]|]. intros st Hs.
        eapply okp_bind; [apply (top_finish h st Hs)|]. intros [[t' h'] cur] Ht. exact Ht.
      + eapply okp_bind; [apply (top_set_slice_at _ _ _ _ H1)|]. intros t2 H2. apply R; auto.
    - eapply okp_bind; [apply (top_set_slice_at _ _ _ _ H1)|]. intros t2 H2.
      destruct (sl_try_join Y s rs) as [new|[m r]]; [skip|]; apply R; auto.
  Qed.
  Definition topj (j : @join_result Z V) : Prop := match j with Joined t _ _ => top t | NotJoined t _ => top t end.
  Lemma top_single_join : forall h t a o n, top t -> okp topj (single_join X M h t a o n).
  Proof.
    intros. unfold single_join. eapply okp_bind; [apply top_upd; [intros; apply top_key_step; auto|exact H]|]. intros st Hs.
    eapply okp_bind; [apply (top_finish h st Hs)|]. intros [[t' h'] cur] Ht. exact Ht.
  Qed.
  Ltac slice_at H := eapply okp_bind; [apply (top_set_slice_at _ _ _ _ H)|].
  Lemma top_try_join : forall h t a b x n, top t -> okp topj (edge_try_join X Y M h t a b x n).
  Proof.
    intros h t a b x n H. unfold edge_try_join. destruct (negb (sl_may_join Y)); [exact H|]. skip. skip.
    destruct a0 as [[lz la]|], a1 as [[rz ra]|]; [| | |exact Logic.I].
    - skip. destruct (sl_try_join Y a0 x) as [mid|[l s]].
      + skip. skip. destruct (sl_try_join Y mid a2) as [j|[m r]]; [skip; exact Logic.I|].
        slice_at H. intros t1 H1. slice_at H1. intros t2 H2. apply top_single_join; auto.
      + slice_at H. intros t1 H1. skip. destruct (sl_try_join Y s a1) as [j|[m r]]; slice_at H1; intros t2 H2; [skip; apply top_single_join; auto|exact H2].
    - skip. destruct (sl_try_join Y a0 x) as [j|[l s]]; slice_at H; intros t1 H1; [skip; apply top_single_join; auto|exact H1].
    - skip. destruct (sl_try_join Y x a0) as [j|[l s]]; slice_at H; intros t1 H1; [skip; apply top_single_join; auto|exact H1].
  Qed.
  Lemma top_edge : forall h t p k a b x n, top t -> okp top4 (insert_edge X Y M h t p k a b x n).
  Proof.
    intros. unfold insert_edge. skip. destruct (_ <? k); [exact Logic.I|]. eapply okp_bind; [apply (top_try_join h t a b x n H)|].
    intros [t' h' cur|t1 s] Ht; [exact Ht|].
    eapply okp_bind; [apply top_upd; [intros; apply top_no_join; auto|exact Ht]|]. intros st Hs.
    eapply okp_bind; [apply (top_finish h st Hs)|]. intros [[t' h'] cur] Ht'. exact Ht'.
  Qed.
  Definition rle_top (r : @rle Z V) : Prop := match r with None => True | Some r => top (r_node r) end.
  Lemma top_insert : forall nop r hints idx x n, rle_top r -> (n <= MAX)%Z -> okp (fun q => rle_top (fst q)) (insert_with_cursor X Y M nop r hints idx x n).
  Proof.
    intros nop r hints idx x n H Hn. unfold insert_with_cursor. skip. destruct (ix_ltb X a idx); [exact Logic.I|].
    destruct (ix_leb X n (ix_zero X)) eqn:El; [exact Logic.I|]. destruct r as [r|].
    - skip. eapply okp_bind with (P := top4); [|intros [[[t' h'] cur] added] Ht; exact Ht].
      destruct a0; [apply top_edge|apply top_split_key]; exact H.
    - unfold rle_new. rewrite El. exact Hn.
  Qed.
End Top.
