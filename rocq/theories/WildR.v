(** Insertion with any index type: a tree with the same nodes and lawful positions shows what happens.
    Proof support only. *)
From Coq Require Import List ZArith Bool Arith Lia.
From Verif Require Import Base Index Slice Tree Insert Hist Range Iter Validate Spec Zip Rep Path Find Ins OrderP Wild WildP WildQ.
Import ListNotations.

Lemma std_search_range : forall {I} (ltb eqb : I -> I -> bool) l t,
  match std_search ltb eqb l t with inl i => i < length l | inr i => i <= length l end.
Proof.
  intros I ltb eqb l t. unfold std_search.
  assert (G : forall fuel left right, left <= length l -> right <= length l ->
    match std_search_loop ltb eqb l t fuel left right with inl i => i < length l | inr i => i <= length l end).
  { induction fuel as [|f IH]; intros left right H1 H2; cbn [std_search_loop]; [exact H1|].
    destruct (left <? right); [|exact H1]. set (mid := left + (right - left) / 2).
    destruct (nth_error l mid) as [p|] eqn:E; [|exact H1].
    assert (mid < length l) by (apply nth_error_Some; congruence).
    destruct (ltb p t); [apply IH; lia|]. destruct (eqb p t); [exact H|]. apply IH; lia. }
  apply G; lia.
Qed.

Lemma wrapping_any : forall MAX, index_any (wrapping_ops MAX).
Proof. intros. constructor; intros; try discriminate. apply std_search_range. Qed.
Lemma checked_any : forall MAX, index_any (checked_ops MAX).
Proof.
  intros. constructor; intros; cbn; try apply std_search_range;
    match goal with |- (if ?c then _ else _) <> _ => destruct c; discriminate end.
Qed.
Lemma wrapping_total : forall MAX, index_total (wrapping_ops MAX).
Proof. intros. repeat split; intros; eexists; reflexivity. Qed.

Section Erase.
  Context {I V : Type} (M : nat).
  Notation tree := (tree I V).

  Lemma tree_ind4 : forall (P : tree -> Prop), P Nil ->
    (forall tot c0 es, P c0 -> Forall (fun e => P (snd e)) es -> P (Node tot c0 es)) -> forall t, P t.
  Proof.
    intros P H0 H1. fix F 1. intros [|tot c0 es]; [exact H0|]. apply H1; [apply F|].
    revert es. fix G 1. intros [|e es]; constructor; [apply F|apply G].
  Qed.
  Lemma erase_slices : forall t : tree, slices (erase t) = slices t.
  Proof.
    induction t as [|tot c0 es IH H] using tree_ind4; [reflexivity|]. rewrite erase_node. cbn [slices]. rewrite IH. f_equal.
    induction H as [|e es He H IHes]; [reflexivity|]. cbn [map flat_map]. unfold ere at 1 2. cbn [fst snd]. rewrite He, IHes. reflexivity.
  Qed.
  Lemma erase_count : forall t : tree, count (erase t) = count t.
  Proof.
    induction t as [|tot c0 es IH H] using tree_ind4; [reflexivity|]. rewrite erase_node, !count_Node, IH. f_equal.
    induction H as [|[k c] es He H IHes]; [reflexivity|]. cbn [map ere ecount fst snd] in *. rewrite He, IHes. reflexivity.
  Qed.
  Lemma slices_count : forall t : tree, length (slices t) = count t.
  Proof.
    induction t as [|tot c0 es IH H] using tree_ind4; [reflexivity|]. rewrite count_Node. cbn [slices]. rewrite app_length, IH. f_equal.
    induction H as [|[k c] es He H IHes]; [reflexivity|]. cbn [flat_map ecount fst snd app length] in *. rewrite app_length, He, IHes. reflexivity.
  Qed.
  Lemma erase_before : forall es c (c0 : tree), before (erase c0) (map ere es) c = before c0 es c.
  Proof.
    induction es as [|[k ch] es IH]; intros [|c] c0; cbn [map ere before]; try reflexivity.
    cbn [fst snd]. unfold ere. cbn [fst snd]. rewrite erase_count, <- IH. reflexivity.
  Qed.
  Lemma erase_child_of : forall (c0 : tree) es c,
    child_of (erase c0) (map ere es) c = match child_of c0 es c with Ok a => Ok (erase a) | Panic w => Panic w | UB => UB end.
  Proof.
    intros c0 es [|k]; cbn [child_of]; [reflexivity|]. unfold nth_ub. rewrite nth_error_map. destruct (nth_error es k); reflexivity.
  Qed.
  Lemma erase_rank : forall p (t : tree) k, rank (erase t) p k = rank t p k.
  Proof.
    induction p as [|c p IH]; intros [|tot c0 es] k; try reflexivity; rewrite erase_node; cbn [rank].
    - rewrite map_length, erase_before, erase_child_of. destruct (k <? length es); [|reflexivity].
      destruct (child_of c0 es k); try reflexivity. rewrite erase_count. reflexivity.
    - rewrite erase_child_of, erase_before. destruct (child_of c0 es c); try reflexivity. rewrite IH. reflexivity.
  Qed.
  Lemma erase_erank : forall p (t : tree) k, erank (erase t) p k = erank t p k.
  Proof.
    induction p as [|c p IH]; intros [|tot c0 es] k; try reflexivity; rewrite erase_node; cbn [erank].
    - rewrite map_length, erase_before. reflexivity.
    - rewrite erase_child_of, erase_before. destruct (child_of c0 es c); try reflexivity. rewrite IH. reflexivity.
  Qed.
  Lemma erase_shape : forall h lo (t : tree), Validate.shape M lo h (erase t) = Validate.shape M lo h t.
  Proof.
    induction h as [|h IH]; intros lo [|tot c0 es]; try reflexivity; rewrite erase_node, !shape_S, map_length, map_map; f_equal.
    - cbn [forallb]. f_equal; [destruct c0; reflexivity|]. induction es as [|e es IHe]; [reflexivity|].
      cbn [map forallb]. rewrite IHe. f_equal. unfold ere, e_child. cbn. destruct (snd e); reflexivity.
    - cbn [forallb]. rewrite IH. f_equal. induction es as [|e es IHe]; [reflexivity|]. cbn [map forallb]. rewrite IHe. f_equal. apply IH.
  Qed.
End Erase.

Section Wild.
  Context {V : Type} (M : nat).
  Notation gtree := (tree Z V).
  Notation rep := (@rep Z V (fun z => z) M).
  Definition two (s : V) : V * Z := (s, 2%Z).

  (** A tree with the nodes of a given one and every slice of size two. *)
  Lemma good_tree : forall {I} h lo (t : tree I V), Validate.shape M lo h t = true ->
    exists g : gtree, erase g = erase t /\ rep lo h g (map two (slices t)).
  Proof.
    intros I. induction h as [|h IH]; intros lo [|tot c0 es] H; try discriminate H; rewrite shape_S in H;
      apply andb_prop in H; destruct H as [Hl H]; apply andb_prop in Hl; destruct Hl as [H1 H2]; apply Nat.leb_le in H1, H2;
      cbn [forallb] in H; apply andb_prop in H; destruct H as [H0 H].
    - assert (G : forall es off, forallb (fun c : tree I V => match c with Nil => true | Node _ _ _ => false end) (map e_child es) = true ->
        exists gs, map ere gs = map ere es /\ seg (fun z => z) (leafR (I := Z)) off gs (map two (flat_map (fun e : I * V * tree I V => snd (fst e) :: slices (snd e)) es))).
      { clear. induction es as [|[[p s] c] es IHe]; intros off H; [exists []; split; [reflexivity|constructor]|].
        cbn [map forallb e_child snd] in H. apply andb_prop in H. destruct H as [Hc H]. destruct c; [|discriminate].
        destruct (IHe (off + 2 + 0)%Z H) as (gs & E & S). exists ((off, s, Nil) :: gs). split; [cbn [map]; rewrite E; reflexivity|].
        cbn [flat_map fst snd slices app map]. change (two s) with (s, 2%Z).
        exact (seg_cons (fun z => z) leafR off 2%Z s Nil [] gs _ eq_refl (conj eq_refl eq_refl) S). }
      destruct c0; [|discriminate]. destruct (G es 0%Z H) as (gs & E & S).
      eexists (Node _ Nil gs). split; [rewrite !erase_node, E; reflexivity|]. cbn [Rep.rep].
      exists Nil, gs, [], (map two (slices (Node tot Nil es))). split; [reflexivity|]. split; [|split; [split; reflexivity|split; [exact S|reflexivity]]].
      rewrite <- (map_length ere), E, map_length. lia.
    - assert (G : forall es off, forallb (Validate.shape M M h) (map e_child es) = true ->
        exists gs, map ere gs = map ere es /\ seg (fun z => z) (rep M h) off gs (map two (flat_map (fun e : I * V * tree I V => snd (fst e) :: slices (snd e)) es))).
      { clear - IH. induction es as [|[[p s] c] es IHe]; intros off H; [exists []; split; [reflexivity|constructor]|].
        cbn [map forallb e_child snd] in H. apply andb_prop in H. destruct H as [Hc H]. destruct (IH M c Hc) as (g & Eg & Rg).
        destruct (IHe (off + 2 + rsum (map two (slices c)))%Z H) as (gs & E & S). exists ((off, s, g) :: gs). split; [cbn [map]; unfold ere at 1 3; cbn [fst snd]; rewrite E, Eg; reflexivity|].
        cbn [flat_map fst snd app map]. rewrite map_app. change (two s) with (s, 2%Z).
        exact (seg_cons (fun z => z) (rep M h) off 2%Z s g _ gs _ eq_refl Rg S). }
      destruct (IH M c0 H0) as (g & Eg & Rg). destruct (G es (rsum (map two (slices c0))) H) as (gs & E & S).
      eexists (Node _ g gs). split; [rewrite !erase_node, E, Eg; reflexivity|]. cbn [Rep.rep].
      exists g, gs, (map two (slices c0)), (map two (flat_map (fun e : I * V * tree I V => snd (fst e) :: slices (snd e)) es)).
      split; [reflexivity|]. split; [|split; [exact Rg|split; [exact S|]]].
      + rewrite <- (map_length ere), E, map_length. lia.
      + cbn [slices]. apply map_app.
  Qed.

  Lemma rep_slices : forall h lo (g : gtree) l, rep lo h g l -> slices g = map fst l.
  Proof.
    assert (G : forall (R : gtree -> list (V * Z) -> Prop), (forall c l, R c l -> slices c = map fst l) -> forall off es l, seg (fun z => z) R off es l ->
      flat_map (fun e : Z * V * gtree => snd (fst e) :: slices (snd e)) es = map fst l).
    { intros R HR off es l H. induction H as [|off z s ch lc es l Hz Hc H IH]; [reflexivity|].
      cbn [flat_map fst snd map app]. rewrite map_app, IH, (HR _ _ Hc). reflexivity. }
    induction h as [|h IH]; intros lo g l (c0 & es & lc & l' & -> & _ & Hc & Hs & ->); cbn [slices]; rewrite map_app; f_equal.
    - destruct Hc as [-> ->]. reflexivity.
    - eapply G; [|exact Hs]. intros c l [-> ->]. reflexivity.
    - eapply IH, Hc.
    - eapply G; [|exact Hs]. intros c l. apply IH.
  Qed.

  Context {I : Type} (X : index_ops I) (Y : slice_ops I V).
  Hypothesis HX : index_any X.
  Hypothesis HM : 1 <= M.

  (** The slices after an insertion are what the flat specification makes of the slices before, at some
      place, with any lengths, and with [split_at] called at [q]. *)
  Definition spliced (old : list V) (x : V) (new : list V) : Prop :=
    exists (l : list (V * Z)) (i : Z) (q : I) l', map fst l = old /\ Forall (fun r => 0 < snd r)%Z l /\ (0 <= i <= rsum l)%Z /\
      insert_runs (cut_at Y q) (fun z => z) l i x 1 = Ok l' /\ new = map fst l'.

  Lemma two_fst : forall l, map fst (map two l) = l.
  Proof. intros. rewrite map_map. cbn. apply map_id. Qed.
  Lemma two_pos : forall l, Forall (fun r => 0 < snd r)%Z (map two l).
  Proof. intros. apply Forall_forall. intros r H. apply in_map_iff in H. destruct H as (s & <- & _). reflexivity. Qed.

  (** The place of an insertion: the number of slices before it, and the index in the tree of slices of size 2. *)
  Definition at_place (r : @rle I V) (hints : list nat) (idx : I) (e : nat) (i : Z) : Prop :=
    match r with
    | None => e = 0 /\ i = 0%Z
    | Some r =>
      match find_insertion_point X Y (r_height r) (r_node r) hints idx [] None None with
      | Ok (EdgeInsert p k _ _) => erank (r_node r) p k = Some e /\ i = (2 * Z.of_nat e)%Z
      | Ok (SplitKeyInsert p _ k _) => exists j, e = S j /\ rank (r_node r) p k = Some j /\ i = (2 * Z.of_nat j + 1)%Z
      | _ => False
      end
    end.
  Definition spliced_at (r : @rle I V) (hints : list nat) (idx : I) (x : V) (new : list V) : Prop :=
    exists e i q l', at_place r hints idx e i /\ e <= length (rle_slices r) /\
      insert_runs (cut_at Y q) (fun z => z) (map two (rle_slices r)) i x 1 = Ok l' /\ new = map fst l'.
  Lemma two_sum : forall l : list (V * Z), Forall (fun r => snd r = 2%Z) l -> rsum l = (2 * Z.of_nat (length l))%Z.
  Proof. intros l H. induction H as [|[s z] l Hz H IH]; [reflexivity|]. cbn [rsum length snd] in *. lia. Qed.

  Lemma wild_insert_at : forall nop r hints idx x n, rle_shape M r ->
    post (fun q => rle_shape M (fst q) /\ spliced (rle_slices r) x (rle_slices (fst q)) /\ spliced_at r hints idx x (rle_slices (fst q))) (insert_with_cursor X Y M nop r hints idx x n).
  Proof.
    intros nop r hints idx x n Hr. unfold insert_with_cursor. eapply post_bind; [eapply p_rle_size, rle_shape_sh, Hr|]. intros sz _ _.
    destruct (ix_ltb X sz idx); [exact Logic.I|]. destruct (ix_leb X n (ix_zero X)) eqn:En; [exact Logic.I|].
    destruct r as [[h t len]|].
    2: { unfold rle_new. rewrite En. cbn. split.
         - split; [|reflexivity]. destruct M as [|m]; [lia|]. cbn. reflexivity.
         - split; [exists [], 0%Z, idx, [(x, 1%Z)]; split; [reflexivity|]; split; [constructor|]; split; [cbn; lia|]; split; reflexivity|].
           exists 0, 0%Z, idx, [(x, 1%Z)]. split; [split; reflexivity|]. split; [cbn; lia|]. split; reflexivity. }
    destruct Hr as [Hs Hlen]. cbn [r_height r_node r_len] in *.
    eapply post_bind; [eapply (p_find_root X M M HX Y 1); rewrite shape_wshape; exact Hs|]. intros ip Eip Hip.
    destruct (good_tree h 1 t Hs) as (g & Eg & Rg). set (L := map two (slices t)) in *.
    assert (Lc : length L = count t) by (unfold L; rewrite map_length; apply slices_count).
    assert (Rk : forall p k, rank g p k = rank t p k) by (intros; rewrite <- (erase_rank p g), Eg; apply erase_rank).
    assert (Ek : forall p k, erank g p k = erank t p k) by (intros; rewrite <- (erase_erank p g), Eg; apply erase_erank).
    assert (L0 : (0 <= rsum L)%Z) by (eapply rep_nonneg, Rg).
    set (MAX := (rsum L + 1)%Z). set (W := wrapping_ops MAX).
    assert (LW : index_laws W MAX (fun z => z)) by (apply wrapping_laws; unfold MAX; lia).
    assert (Fin : forall (m : res (tree I V * nat * list nat * nat)) w (w' : res (gtree * nat * list nat * nat)) e i q l' gt h' cur added, at_place (Some {| r_height := h; r_node := t; r_len := len |}) hints idx e i -> e <= length L ->
      er X er4 m w -> er W er4 w' w -> w' = Ok (gt, h', cur, added) -> rep 1 h' gt l' -> length l' = length L + added ->
      (0 <= i <= rsum L)%Z -> insert_runs (cut_at Y q) (fun z => z) L i x 1 = Ok l' ->
      post (fun z => rle_shape M (fst z) /\ spliced (slices t) x (rle_slices (fst z)) /\ spliced_at (Some {| r_height := h; r_node := t; r_len := len |}) hints idx x (rle_slices (fst z)))
        (let* (t', h', cur, added) := m in Ok (Some {| r_height := h'; r_node := t'; r_len := len + added |}, cur))).
    { intros m w w' e i q l' gt h' cur added Hpl Hel Em Ew -> R' Len Hi Sp. cbn [er] in Ew. subst w.
      destruct m as [[[[t' h1] cur1] added1]|y|]; cbn [er] in Em; [|exact Logic.I|discriminate].
      unfold er4, er3 in Em. cbn [fst snd] in Em. inversion Em; subst h1 cur1 added1. cbn [bind post fst].
      assert (Sl : slices t' = map fst l') by (rewrite <- (rep_slices _ _ _ _ R'), <- erase_slices, <- (erase_slices gt); f_equal; congruence).
      split; [split; cbn [r_height r_node r_len]|].
      - rewrite <- erase_shape. replace (erase t') with (erase gt) by congruence. rewrite erase_shape. eapply OrderP.rep_shape; eauto.
      - rewrite Sl, map_length, Len, Hlen. f_equal. unfold L. rewrite map_length. reflexivity.
      - cbn [rle_slices r_node]. split; [|exists e, i, q, l'; split; [exact Hpl|]; cbn [rle_slices r_node]; fold L; split; [unfold L in Hel; rewrite map_length in Hel; exact Hel|]; split; [exact Sp|exact Sl]]. exists L, i, q, l'. repeat split; try tauto; [unfold L; apply two_fst|unfold L; apply two_pos]. }
    assert (L2 : Forall (fun r => snd r = 2%Z) L) by (unfold L; apply Forall_forall; intros r Hin; apply in_map_iff in Hin; destruct Hin as (s & <- & _); reflexivity).
    destruct ip as [p k a b|p hk k q].
    - destruct Hip as (e & E1 & E2 & E3 & E4).
      set (A := firstn e L). set (B := skipn e L).
      assert (EL : L = A ++ B) by (symmetry; apply firstn_skipn).
      assert (LA : length A = e) by (unfold A; rewrite firstn_length; lia).
      pose proof (er_insert_edge X M HX Y idx h t p k a b x n) as Sx.
      pose proof (er_insert_edge W M (wrapping_any MAX) (cut_at Y idx) 0%Z h g p k a b x 1%Z) as Sw. rewrite Eg in Sw.
      pose proof (insert_edge_ok W (cut_at Y idx) MAX (fun z => z) M LW HM h g A B p k a b x 1%Z) as K.
      rewrite <- EL in K. specialize (K Rg). rewrite Ek, LA in K. specialize (K E1 E2).
      assert (J : sl_may_join (cut_at (J := Z) Y idx) = true -> lhs_ok g a e /\ rhs_ok g b e (length L)).
      { intros J. destruct (E4 J) as [J1 J2]. rewrite Lc. split.
        - destruct a as [[pa ka]|]; cbn [lhs_ok] in *; [rewrite Rk|]; exact J1.
        - destruct b as [[pb kb]|]; cbn [rhs_ok] in *; [rewrite Rk|]; exact J2. }
      specialize (K J (rep_ne (fun z => z) M HM h g L Rg) ltac:(lia)). clear J.
      assert (Hs1 : (rsum L = rsum A + rsum B)%Z) by (rewrite EL; apply rsum_app).
      assert (PA : (0 <= rsum A)%Z /\ (0 <= rsum B)%Z).
      { pose proof (rep_pos _ _ _ _ _ _ Rg) as Pp. rewrite EL in Pp. apply pos_runs_app in Pp. destruct Pp; split; apply pos_runs_nonneg; assumption. }
      specialize (K ltac:(unfold MAX; lia)).
      destruct (insert_runs (cut_at Y idx) (fun z => z) L (rsum A) x 1) as [l'|y|] eqn:Sp; [| |destruct K].
      + destruct K as (gt & h' & cur & added & K1 & K2 & K3 & _).
        assert (Pl : at_place (Some {| r_height := h; r_node := t; r_len := len |}) hints idx e (rsum A)).
        { cbn [at_place r_height r_node]. rewrite Eip. split; [exact E1|]. rewrite <- LA. apply two_sum. rewrite EL in L2. apply Forall_app in L2. exact (proj1 L2). }
        eapply (Fin _ _ _ e (rsum A) idx l' gt h' cur added Pl ltac:(lia) Sx Sw K1 K2 K3); [lia|exact Sp].
      + rewrite K in Sw. cbn [er] in Sw. specialize (Sw (wrapping_total MAX)).
        match type of Sx with er _ _ ?m _ => destruct m as [q|y'|] end; cbn [er] in Sx; [|exact Logic.I|]; 
          change (cut_at (J := unit) Y idx) with (cut_at (J := unit) (cut_at (J := Z) Y idx) 0%Z) in Sx; rewrite Sw in Sx; discriminate.
    - destruct Hip as (r & E1 & E2 & E3).
      destruct (nth_error L r) as [[s z]|] eqn:Er; [|apply nth_error_None in Er; lia].
      destruct (nth_error_split L r Er) as (A & B & EL & LA).
      assert (Hz : z = 2%Z).
      { apply nth_error_In in Er. unfold L in Er. apply in_map_iff in Er. destruct Er as (s' & Er & _). inversion Er. reflexivity. }
      subst z.
      assert (Pl : at_place (Some {| r_height := h; r_node := t; r_len := len |}) hints idx (S r) (rsum A + 1)%Z).
      { cbn [at_place r_height r_node]. rewrite Eip. exists r. split; [reflexivity|]. split; [exact E1|]. rewrite <- LA. f_equal. apply two_sum. rewrite EL in L2. apply Forall_app in L2. exact (proj1 L2). }
      assert (Re : S r <= length L) by lia.
      pose proof (er_split_key X M HX Y nop h t p hk k q x n) as Sx.
      pose proof (er_split_key W M (wrapping_any MAX) (cut_at Y q) nop h g p hk k 1%Z x 1%Z) as Sw. rewrite Eg in Sw.
      pose proof (insert_split_key_ok W (cut_at Y q) MAX (fun z => z) M LW HM nop h g A s 2%Z B p k hk 1%Z x 1%Z) as K.
      rewrite <- EL in K. specialize (K Rg). rewrite Rk, LA in K. specialize (K E1 E2 ltac:(lia) ltac:(lia)).
      assert (Hs1 : (rsum L = rsum A + (2 + rsum B))%Z) by (rewrite EL at 1; rewrite rsum_app; reflexivity).
      pose proof (rep_pos _ _ _ _ _ _ Rg) as Pp. rewrite EL in Pp. apply pos_runs_app in Pp. destruct Pp as [PA PB].
      pose proof (pos_runs_nonneg _ PA). inversion PB as [|? ? _ PB']; subst. pose proof (pos_runs_nonneg _ PB').
      destruct K as (gt & h' & cur & added & K1 & K2 & K3 & _); [unfold MAX; lia|].
      assert (Sp : insert_runs (cut_at Y q) (fun z => z) L (rsum A + 1) x 1 = Ok (A ++ place_inside (cut_at Y q) (fun z => z) s 2 1 x 1 ++ B)).
      { rewrite EL. rewrite (spec_app (cut_at Y q) (fun z => z) M HM) by (auto; lia). reflexivity. }
      eapply (Fin _ _ _ _ (rsum A + 1)%Z q _ gt h' cur added Pl Re Sx Sw K1 K2); [|lia|exact Sp].
      rewrite EL, !app_length. cbn [length]. lia.
  Qed.

  Lemma wild_insert : forall nop r hints idx x n, rle_shape M r ->
    post (fun q => rle_shape M (fst q) /\ spliced (rle_slices r) x (rle_slices (fst q))) (insert_with_cursor X Y M nop r hints idx x n).
  Proof. intros nop r hints idx x n Hr. eapply post_imp; [exact (wild_insert_at nop r hints idx x n Hr)|]. intros q (A & B & _). split; assumption. Qed.

  Lemma wild_run : forall nop ops r, rle_shape M r -> post (rle_shape M) (run_ops X Y M nop r ops).
  Proof.
    intros nop. induction ops as [|o ops IH]; intros r Hr; cbn [run_ops]; [exact Hr|].
    eapply post_bind; [apply wild_insert, Hr|]. intros [r' cur] _ [Hr' _]. exact (IH r' Hr').
  Qed.
End Wild.
