(** What an insertion that panics leaves: keys, handles, and the slices after a key.  Proof support only. *)
From Coq Require Import List ZArith Bool Arith Lia Permutation.
From Verif Require Import Base Index Slice Tree Insert Crash Wild WildQ WildR Zip Rep Leaf Path Find Hist Unwind UnwindSpec UnwindP UnwindQ UnwindR UnwindS.
Import ListNotations.

Section Keys.
  Context {I V : Type} (X : index_ops I) (Cp : @cmp_panics I) (M lo : nat).
  Hypothesis HX : index_any X.
  Hypothesis HM : 1 <= M.
  Hypothesis Hlo : lo = 0 \/ lo = 1 /\ 3 <= M.
  Notation tree := (tree I V).
  Notation T1 := (fun _ => True).
  Notation wsh h t := (wshape M lo lo h t = true).
  Notation okn := (@okn I V M lo).
  Notation okc := (@okc I V M lo).
  Notation st_ok := (@st_ok I V M lo).
  Notation left_ok := (@left_ok I V M lo).

  Lemma leftmost : forall h (t : tree), wsh h t -> erank t (repeat 0 h) 0 = Some 0 /\ exists n, node_at t (repeat 0 h) = Ok n.
  Proof.
    induction h as [|h IH]; intros t H; (assert (Hn : t <> Nil) by (intros ->; discriminate H));
      destruct (WildQ.node_split t 0 ltac:(lia) Hn) as (tot & lft & ch & rgt & -> & E); destruct lft; try discriminate E.
    - cbn [repeat]. split; [apply (erank_here tot [] ch rgt)|]. eexists. reflexivity.
    - destruct (WildQ.shape_child _ _ _ _ _ 0 H ltac:(lia)) as (ch' & Ec & Wc). pose proof (node_child tot [] ch rgt) as Ec'. cbn [length] in Ec'.
      rewrite Ec' in Ec. inversion Ec; subst ch'. destruct (IH _ Wc) as [E1 [n E2]]. cbn [repeat]. split.
      + pose proof (erank_down tot [] ch rgt (repeat 0 h) 0) as D. cbn [length lcount] in D. rewrite D, E1. reflexivity.
      + exists n. cbn [node_at]. rewrite Ec'. exact E2.
  Qed.

  Lemma leaf_rank : forall (t : tree) k, wsh 0 t -> k < tlen t -> rank t [] k = Some k.
  Proof.
    intros t k H Hk. assert (Hn : t <> Nil) by (intros ->; discriminate H).
    destruct (WildQ.node_split t k ltac:(lia) Hn) as (tot & lft & ch & rgt & -> & E).
    rewrite node_tlen in Hk. destruct rgt as [|e rgt]; [cbn in Hk; lia|]. subst k. rewrite rank_here. f_equal.
    assert (Ec : ch = Nil) by (eapply (WildQ.shape_leaf_child M lo); [exact H|apply node_child]).
    subst ch. cbn [count]. rewrite Nat.add_0_r.
    assert (K : okn 0 (fst (asm lft Nil (e :: rgt))) (map kv (snd (asm lft Nil (e :: rgt))))).
    { unfold node in H. rewrite wshape_S in H. apply andb_prop in H. destruct H as [_ H]. apply (okc_forallb M lo 0). exact H. }
    apply (asm_ok M lo Hlo) in K. destruct K as [K _]. clear - K. induction K as [|[a k] l Ha K IH]; [reflexivity|]. cbn in *. subst a. cbn. lia.
  Qed.

  (** A key in its node. *)
  Lemma key_here : forall h (n : tree) k, wsh h n -> k < tlen n -> exists A s B, slices n = A ++ s :: B /\ rank n [] k = Some (length A) /\ slice_at n k = Ok s /\
    (forall s', exists n', set_slice n k s' = Ok n' /\ wsh h n' /\ slices n' = A ++ s' :: B /\ ss n n') /\
    (forall hc, h = S hc -> erank n ((k + 1) :: repeat 0 hc) 0 = Some (length A + 1) /\ exists f, node_at n ((k + 1) :: repeat 0 hc) = Ok f).
  Proof.
    intros h n k H Hk. assert (Hn : n <> Nil) by (intros ->; exact (WildQ.shape_nil _ _ _ _ H)).
    destruct (WildQ.node_split n k ltac:(lia) Hn) as (tot & lft & ch & rgt & -> & E). rewrite node_tlen in Hk. destruct rgt as [|[[p s] c'] rgt]; [cbn in Hk; lia|]. subst k.
    pose proof (WildQ.shape_len _ _ _ _ _ H) as Hl. rewrite node_tlen in Hl.
    assert (K : okn h (fst (asm lft ch ((p, s, c') :: rgt))) (map kv (snd (asm lft ch ((p, s, c') :: rgt))))).
    { unfold node in H. rewrite wshape_S in H. apply andb_prop in H. destruct H as [_ H]. apply (okc_forallb M lo h). exact H. }
    apply (asm_ok M lo Hlo) in K. destruct K as (K1 & K2 & K3).
    assert (Sl : forall s', slices (node tot lft ch ((p, s', c') :: rgt)) = (lsl lft ++ slices ch) ++ s' :: slices c' ++ fl (map kv rgt)).
    { intros s'. pose proof (asm_slices lft ch ((p, s', c') :: rgt)) as E. cbn [map] in E. unfold kv in E at 2. cbn [fst snd] in E. rewrite fl_cons in E.
      rewrite <- app_assoc, <- E.
      rewrite (is_slices _ _ _ (is_node tot lft ch ((p, s', c') :: rgt))). rewrite <- map_app, <- asm_snd, (asm_fst lft ch [] ((p, s', c') :: rgt)). reflexivity. }
    exists (lsl lft ++ slices ch), s, (slices c' ++ fl (map kv rgt)). split; [apply Sl|]. rewrite app_length, (lsl_length M lo HM Hlo), slices_count.
    split; [apply rank_here|]. split; [apply node_slice_at|]. split.
    - intros s'. exists (node tot lft ch ((p, s', c') :: rgt)). split; [apply node_set_slice|]. split; [|split; [apply Sl|]].
      + eapply is_wsh; [apply is_node|rewrite app_length, !map_length, asm_nil_length; exact Hl|].
        rewrite <- map_app, <- asm_snd, (asm_fst lft ch [] ((p, s', c') :: rgt)). apply (asm_ok M lo Hlo). split; [exact K1|]. split; [exact K2|].
        cbn [map] in *. constructor; [exact (Forall_inv K3)|exact (Forall_inv_tail K3)].
      + apply ss_zip; [apply ss_refl|]. constructor; [apply ss_refl|apply ssl_refl].
    - intros hc ->. pose proof (Forall_inv K3) as Wc. cbn in Wc. destruct (leftmost hc c' Wc) as [E1 [f E2]].
      assert (En : node tot lft ch ((p, s, c') :: rgt) = node tot (lft ++ [(ch, (p, s))]) c' rgt) by (rewrite node_snoc; reflexivity).
      rewrite En. replace (length lft + 1) with (length (lft ++ [(ch, (p, s))])) by (rewrite app_length; reflexivity). split.
      + rewrite erank_down, E1. cbn [option_map]. rewrite lcount_app. cbn [lcount]. f_equal. lia.
      + exists f. cbn [node_at]. rewrite node_child. exact E2.
  Qed.

  (** A key by its rank. *)
  Lemma key_at : forall h (t : tree) p k r, wsh h t -> rank t p k = Some r -> exists n A s B, node_at t p = Ok n /\ length p <= h /\ k < tlen n /\ wsh (h - length p) n /\
    slices t = A ++ s :: B /\ length A = r /\ slice_at n k = Ok s /\
    (forall s', exists t', set_slice_at t p k s' = Ok t' /\ wsh h t' /\ slices t' = A ++ s' :: B /\ ss t t').
  Proof.
    intros h t p k r H R. destruct (rank_node_at p t k r R) as [n E].
    assert (Hk : k < tlen n).
    { clear H. revert t r R E. induction p as [|c p IH]; intros t r R E; cbn [node_at] in E.
      - inversion E; subst. destruct n as [|tot c0 es]; [discriminate|]. cbn [rank] in R. unfold tlen. cbn [keys]. destruct (Nat.ltb_spec k (length es)); [assumption|discriminate].
      - destruct t as [|tot c0 es]; [discriminate|]. cbn [rank] in R. cbn [child] in E. destruct (child_of c0 es c) as [ch| |]; try discriminate. cbn [bind] in E.
        destruct (rank ch p k) eqn:E'; [|discriminate]. eapply IH; eauto. }
    destruct (WildQ.vh_shape _ _ _ _ _ _ _ _ H E Hk) as [Hp _].
    destruct (q_path X Cp M lo HX HM Hlo p h t n H E Hp) as (pre & suf & Es & Wn & R1 & _ & _ & SetP).
    destruct (key_here _ n k Wn Hk) as (A & s & B & En & Rn & Sn & SetN & _).
    exists n, (pre ++ A), s, (B ++ suf). split; [exact E|]. split; [exact Hp|]. split; [exact Hk|]. split; [exact Wn|].
    split; [rewrite Es, En, <- !app_assoc; reflexivity|]. split.
    { specialize (R1 [] k). rewrite app_nil_r, R, Rn in R1. cbn in R1. inversion R1. apply app_length. }
    split; [exact Sn|]. intros s'. destruct (SetN s') as (n' & En' & Wn' & Sn' & SS). destruct (SetP k s' n' En' Wn') as (t' & Et & Wt & St & SSt).
    exists t'. split; [exact Et|]. split; [exact Wt|]. split; [rewrite St, Sn', <- !app_assoc; reflexivity|auto].
  Qed.

  (** The positions after a key changed. *)
  Lemma q_key_upd : forall h (t : tree) p k r ov o nz cur, wsh h t -> rank t p k = Some r ->
    uspec (st_ok h (slices t)) (left_ok h (slices t)) (uupd X Cp M (fun n => ukey_step X Cp n k ov o nz cur) None t p).
  Proof.
    intros h t p k r ov o nz cur H R. destruct (key_at _ _ _ _ _ H R) as (n & A & s & B & E & Hp & Hk & Wn & _).
    destruct (q_path X Cp M lo HX HM Hlo p h t n H E Hp) as (pre & suf & Es & _ & _ & _ & U & _). rewrite Es. apply U.
    destruct (wsh_is _ _ _ _ Wn) as (c0 & l & It & Hl & K). rewrite (is_slices _ _ _ It).
    eapply (q_key_step X Cp M lo HX HM Hlo); [exact It|exact Hl|exact K|reflexivity|]. rewrite <- (is_tlen _ _ _ It). exact Hk.
  Qed.

  (** Slices put after a key. *)
  Lemma q_insert_rhs : forall h (t : tree) p k A s B z remap fs sn, wsh h t -> rank t p k = Some (length A) -> slices t = A ++ s :: B ->
    uspec (fin_ok M lo (A ++ s :: fst fs :: snds sn ++ B)) (left_ok h (A ++ s :: fst fs :: snds sn ++ B)) (uinsert_rhs X Cp M h t p (h - length p) k z remap fs sn).
  Proof.
    intros h t p k A s B z remap fs sn H R Es. destruct (key_at _ _ _ _ _ H R) as (n & A' & s' & B' & E & Hp & Hk & Wn & Es' & LA & _).
    rewrite Es in Es'. apply app_mid_inv in Es'; [|congruence]. destruct Es' as (<- & <- & <-).
    unfold uinsert_rhs. fold (snds sn). rewrite E. cbn [at_ ubind].
    destruct (wsh_is _ _ _ _ Wn) as (c0 & l & It & Hl & K). destruct (is_kp _ _ _ k It) as [kp Hkp]; [rewrite <- (is_tlen _ _ _ It); exact Hk|]. rewrite Hkp. cbn [at_ ubind].
    set (L := A ++ s :: fst fs :: snds sn ++ B).
    assert (Q0 : left_ok h L t (fst fs :: snds sn)). { split; [exact H|]. rewrite Es. unfold L. acct. }
    eapply u_at with (P := T1); [eapply p_slice_size; eauto|exact Q0|intros ols _].
    eapply u_bind; [|intros st Hst; apply (q_finish X M lo HX HM Hlo); exact Hst].
    destruct (h - length p) as [|hc] eqn:Eh.
    - destruct (q_path X Cp M lo HX HM Hlo p h t n H E Hp) as (pre & suf & Es' & _ & R1 & _ & U & _). rewrite Eh in U.
      specialize (R1 [] k). rewrite app_nil_r, R, (leaf_rank n k Wn Hk) in R1. cbn in R1. inversion R1 as [R2].
      destruct (wsh_leaf _ _ _ Wn) as (ln & Ln & Lln). rewrite (le_tlen _ _ Ln) in Hk. destruct (pick_mid ln k Hk) as (a & s' & b & -> & La).
      rewrite Es, (le_slices _ _ Ln) in Es'. replace (pre ++ (a ++ s' :: b) ++ suf) with ((pre ++ a) ++ s' :: b ++ suf) in Es' by (rewrite <- !app_assoc; reflexivity).
      apply app_mid_inv in Es'; [|rewrite app_length; lia]. destruct Es' as (-> & <- & ->).
      replace L with (pre ++ ((a ++ [s]) ++ fst fs :: snds sn ++ b) ++ suf) by (unfold L; blocks; reflexivity).
      apply U. replace (a ++ s :: b) with ((a ++ [s]) ++ b) in * by (rewrite <- app_assoc; reflexivity).
      apply (q_no_join X Cp M lo HX HM Hlo); [exact Ln|rewrite app_length; cbn; lia|exact Lln|lia].
    - destruct (key_here _ n k Wn Hk) as (a & s' & b & En & Rn & _ & _ & D). destruct (D hc eq_refl) as [D1 [f D2]]. clear D.
      assert (Ef : node_at t (p ++ (k + 1) :: repeat 0 hc) = Ok f) by (rewrite (WildQ.node_at_app _ _ _ _ E); exact D2).
      assert (Hpf : length (p ++ (k + 1) :: repeat 0 hc) <= h) by (rewrite app_length; cbn [length]; rewrite repeat_length; lia).
      destruct (q_path X Cp M lo HX HM Hlo p h t n H E Hp) as (pre0 & suf0 & _ & _ & R1 & R2 & _ & _).
      destruct (q_path X Cp M lo HX HM Hlo _ h t f H Ef Hpf) as (pre & suf & Es' & Wf & _ & R3 & U & _).
      assert (E0 : h - length (p ++ (k + 1) :: repeat 0 hc) = 0) by (rewrite app_length; cbn [length]; rewrite repeat_length; lia). rewrite E0 in U, Wf.
      destruct (wsh_leaf _ _ _ Wf) as (lf & Lf & Llf).
      assert (Lp : length pre = length A + 1).
      { specialize (R1 [] k). rewrite app_nil_r, R, Rn in R1. cbn in R1. inversion R1 as [R1'].
        specialize (R2 ((k + 1) :: repeat 0 hc) 0). rewrite D1 in R2. specialize (R3 [] 0). rewrite app_nil_r, R2 in R3.
        destruct f as [|tot f0 es]; [discriminate Wf|]. cbn [erank Nat.leb] in R3. replace (before f0 es 0) with 0 in R3 by (destruct es as [|[? ?] ?]; reflexivity). cbn in R3. inversion R3. lia. }
      rewrite Es in Es'. replace (A ++ s :: B) with ((A ++ [s]) ++ B) in Es' by (rewrite <- app_assoc; reflexivity).
      apply app_inv_length in Es'; [|rewrite app_length; cbn; lia]. destruct Es' as [<- ->].
      replace L with ((A ++ [s]) ++ ([] ++ fst fs :: snds sn ++ slices f) ++ suf) by (unfold L; blocks; reflexivity).
      rewrite (le_slices _ _ Lf). apply U.
      apply (q_no_join X Cp M lo HX HM Hlo); [exact Lf|reflexivity|exact Llf|congruence].
  Qed.
End Keys.
