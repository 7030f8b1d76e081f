(** Insertion on the pointer side, whole paths.  Proof support only. *)
From Coq Require Import List Bool Arith Lia Permutation.
From Verif Require Import Base Tree Insert Zip LTree LInsert LTreeP LUpP LLeafP LShape LShapeP LLenP.
Import ListNotations.

Lemma serank_le : forall p t c e, serank t p c = Some e -> e <= scount t.
Proof.
  induction p as [|i p IH]; intros t c e H; cbn [serank] in H.
  - destruct (Nat.ltb_spec c (length (kl t))) as [Hc|]; [|discriminate]. injection H as <-.
    destruct t as [|ks]; cbn [kl length] in *; [lia|]. unfold sbefore. cbn [scount].
    rewrite <- (firstn_skipn c ks) at 2. rewrite map_app, list_sum_app. lia.
  - destruct (nth_error (kl t) i) as [ch|] eqn:E; [|discriminate].
    destruct (serank ch p c) as [e'|] eqn:E'; [|discriminate]. injection H as <-. apply IH in E'.
    destruct t as [|ks]; cbn [kl] in *; [destruct i; discriminate|].
    apply nth_error_split in E. destruct E as (a & b & -> & <-). unfold sbefore. cbn [scount].
    rewrite firstn_app_len, map_app, list_sum_app, app_length. cbn [map length]. rewrite list_sum_cons. lia.
Qed.

Section Upd.
  Context (M : nat) (HM : 1 <= M).
  Notation lok := (lok M).
  Notation lgood := (lgood M).

  Lemma loks_lok : forall ks a i k, loks M a i ks -> In k ks -> exists j, lok (Some (a, j)) k.
  Proof.
    induction ks as [|x ks IH]; intros a i k H Hin; [destruct Hin|]. destruct H as [H1 H2]. destruct Hin as [->|Hin]; eauto.
  Qed.

  Lemma linord_len : forall t par, lok par t -> length (linord t) = scount (lshape t).
  Proof.
    induction t as [|a p rs ks IH] using ltree_ind2; intros par H; [reflexivity|].
    destruct H as (_ & _ & Hl & Hk). fold (loks M a 0 ks) in Hk.
    cbn [linord lshape scount]. rewrite !map_length.
    assert (G : forall k, In k ks -> length (linord k) = scount (lshape k)).
    { intros k Hin. destruct (loks_lok _ _ _ _ Hk Hin) as [j Hj]. rewrite Forall_forall in IH. exact (IH _ Hin _ Hj). }
    clear IH Hk p. replace (length ks - 1) with (length rs) by lia. revert rs Hl. generalize 0.
    induction ks as [|k ks IH]; intros i rs Hl; [discriminate|]. injection Hl as Hl.
    cbn [weave map]. rewrite list_sum_cons, app_length. rewrite (G k (or_introl eq_refl)).
    destruct rs as [|r rs]; [destruct ks; [cbn; lia|discriminate]|]. cbn [length].
    rewrite IH; [lia|auto with datatypes|cbn in Hl; lia].
  Qed.

  Lemma lrefs_scount : forall t par, lok par t -> length (lrefs t) = scount (lshape t).
  Proof. intros. rewrite lrefs_len. eapply linord_len; eassumption. Qed.

  Lemma wls_sbefore : forall a i rs ks rest, length rs = length ks -> loks M a i ks ->
    length (wls rs ks) = sbefore (map lshape ks ++ rest) (length ks).
  Proof.
    intros a i rs ks rest Hl Hk. unfold sbefore. rewrite <- (map_length lshape ks) at 2. rewrite firstn_app_len.
    revert a i rs Hl Hk. induction ks as [|k ks IH]; intros a i rs Hl Hk; destruct rs as [|r rs]; try discriminate; [reflexivity|].
    injection Hl as Hl. destruct Hk as [Hk1 Hk2]. cbn [wls map length]. rewrite list_sum_cons, app_length. cbn [length].
    rewrite (IH _ _ _ Hl Hk2), (lrefs_scount _ _ Hk1). lia.
  Qed.

  Lemma lshape_SX : forall k, lshape k = SX -> k = LNil.
  Proof. intros []; [reflexivity|discriminate]. Qed.
  Lemma map_SX : forall ks n, map lshape ks = repeat SX n -> ks = repeat LNil n.
  Proof.
    induction ks as [|k ks IH]; intros [|n] H; try discriminate; [reflexivity|]. injection H as H1 H2.
    cbn [repeat]. rewrite (lshape_SX _ H1), (IH _ H2). reflexivity.
  Qed.

  Lemma hsh0_lf : forall t par, lok par t -> hsh 0 (lshape t) -> exists a rs, t = lf a par rs.
  Proof.
    intros [|a p rs ks] par H [n Hn]; [discriminate|]. cbn [lshape] in Hn. injection Hn as Hn.
    destruct H as (-> & _ & Hl & _). change (SX :: repeat SX n) with (repeat SX (S n)) in Hn.
    pose proof (f_equal (@length _) Hn) as E. rewrite map_length, repeat_length in E. apply map_SX in Hn. exists a, rs. unfold lf. rewrite Hn. do 2 f_equal. lia.
  Qed.

  Lemma hsh_node : forall h t, hsh h (lshape t) -> is_node t.
  Proof. intros [|h] [|a p rs ks] H; try exact Logic.I; destruct H as [x H]; [discriminate|]. destruct H; discriminate. Qed.

  (** The child a path goes through. *)
  Lemma node_cut : forall a par rs ks c ch, lok par (LNode a par rs ks) -> nth_error ks c = Some ch ->
    exists r1 r2 k1 k2, rs = r1 ++ r2 /\ ks = k1 ++ ch :: k2 /\ length r1 = length k1 /\ length r2 = length k2 /\ c = length r1.
  Proof.
    intros a par rs ks c ch (_ & _ & Hl & _) E. apply nth_error_split in E. destruct E as (k1 & k2 & -> & <-).
    rewrite app_length in Hl. cbn in Hl. exists (firstn (length k1) rs), (skipn (length k1) rs), k1, k2.
    rewrite firstn_skipn. repeat split; [|rewrite skipn_length; lia|]; rewrite firstn_length_le; lia.
  Qed.

  (** Whether the reported key is passed over: it is in a full node, behind the middle, and the new
      key arrives there. *)
  Definition is_bub (st : sst) : bool := match st with SBub _ _ => true | SDone _ => false end.
  Fixpoint sstale (t : sh) (p : list nat) (j : nat) : bool :=
    match p with
    | [] => false
    | c :: p' =>
      match nth_error (kl t) c with
      | None => false
      | Some ch =>
        match serank ch p' j with
        | Some 0 => (M <? c) && (2 * M <=? length (kl t) - 1) && is_bub (s_upd M (s_leaf M j false) ch p')
        | _ => sstale ch p' j
        end
      end
    end.

  Definition lpre (t : ltree) (p : list nat) (j e : nat) (two : bool) (s : pst) (w : nat + loc) : Prop :=
    (w = inl e /\ p_ho s = None /\ p_present s = false /\ p_skip s = false) \/
    (exists l, w = inr l /\ p_ho s = Some l /\ p_present s = true /\ p_skip s = true /\ ~ In (fst l) (laddrs t) /\ fst l < p_next s) \/
    (exists e1 l r, e = S e1 /\ two = false /\ nth_error (linord t) e1 = Some (Some l, r) /\
        p_ho s = Some l /\ p_present s = true /\ p_skip s = true /\
        w = if sstale (lshape t) p j then inr l else inl e1).

  Definition tokst (st : lupstate) : nat := match st with LDone _ => 0 | LBubble _ => 1 end.

  (** The result of a stale report: its node has too few keys. *)
  Lemma lgood_trk : forall par t L w w' s st s', lgood par t L w s st s' -> trk w' st s' -> lgood par t L w' s st s'.
  Proof. intros par t L w w' s st s' [] H. constructor; auto. Qed.

  Lemma lgood_far : forall par t L w s st s' x n, lgood par t L w s st s' -> ~ In x (laddrs t) -> x < p_next s -> ~ In (x, n) (lensof st).
  Proof.
    intros par t L w s st s' x n G H1 H2 H3. destruct (g_next _ _ _ _ _ _ _ _ G) as (n1 & _ & N2).
    assert (H4 : In x (addrsof st)) by (rewrite <- lensof_addrs; apply in_map_iff; exists (x, n); auto).
    apply (Permutation_in _ N2) in H4. apply in_app_or in H4. destruct H4 as [H4|H4]; [auto|]. apply in_seq in H4. lia.
  Qed.

  Lemma rids_news : forall two A B, rids (A ++ news two ++ B) = rids (A ++ B).
  Proof. intros. apply news_rids. Qed.

  Lemma wl_last : forall r1 k1 a i, length r1 = length k1 -> r1 <> [] ->
    exists x r, wl a i r1 k1 = x ++ [(Some (a, i + length r1 - 1), r)].
  Proof.
    induction r1 as [|r r1 IH]; intros [|k k1] a i Hl Hne; try discriminate; [congruence|].
    injection Hl as Hl. cbn [wl]. destruct r1 as [|r' r1].
    - destruct k1; [|discriminate]. cbn [wl]. exists (linord k), r. replace (i + length [r] - 1) with i by (cbn; lia). reflexivity.
    - destruct (IH k1 a (S i) Hl) as (x & r0 & E); [discriminate|]. rewrite E.
      exists (linord k ++ (Some (a, i), r) :: x), r0. rewrite <- app_assoc. cbn [app].
      replace (i + length (r :: r' :: r1) - 1) with (S i + length (r' :: r1) - 1) by (cbn; lia). reflexivity.
  Qed.

  Lemma lupd_ok : forall p t par j (two : bool) s e w,
    lok par t -> hsh (length p) (lshape t) -> serank (lshape t) p j = Some e ->
    Sok (p_store s) (linord t) -> NoDup (rids (lrefs t)) -> NoDup (laddrs t) -> Forall (fun x => x < p_next s) (laddrs t) ->
    lpre t p j e two s w ->
    exists lst s', lupd M (l_no_join_leaf M j two) t p s = Ok (lst, s') /\
      lgood par t (firstn e (lrefs t) ++ news two ++ skipn e (lrefs t)) w s lst s' /\
      (forall l, w = inr l -> fst l < p_next s /\ forall n, In (fst l, n) (lensof lst) -> n <= snd l).
  Proof.
    induction p as [|c p IH]; intros t par j two s e w Hok Hh He Hs Hnd Hna Hlt Hw.
    - destruct (hsh0_lf _ _ Hok Hh) as (a & rs & ->). cbn [lupd].
      cbn [serank lshape lf kl] in He. rewrite map_length, repeat_length in He.
      destruct (Nat.ltb_spec j (S (length rs))) as [Hj|]; [|discriminate]. injection He as He.
      assert (Ee : sbefore (map lshape (repeat LNil (S (length rs)))) j = j).
      { unfold sbefore. rewrite firstn_map, map_map. replace (list_sum _) with 0; [lia|].
        symmetry. clear. generalize (S (length rs)). intros n. revert j. induction n as [|n IHn]; intros [|j]; cbn; auto. }
      cbn [repeat map lshape] in He, Ee. rewrite Ee in He. subst e. clear Ee.
      rewrite lrefs_lf in *. rewrite linord_lf in Hs. rewrite laddrs_lf in *.
      assert (Ej : length (firstn j rs) = j) by (apply firstn_length_le; lia).
      assert (Hcap : length rs <= 2 * M) by (destruct Hok as (_ & H & _); exact H).
      destruct (leaf_ok M HM a par (firstn j rs) (skipn j rs) two s w) as (lst & s' & E & G); rewrite ?firstn_skipn; auto.
      + inversion Hlt; auto.
      + rewrite Ej. destruct Hw as [Hw|[(l & Hw)|(e1 & l & r & -> & -> & E1 & Hw)]].
        * left. exact Hw.
        * right. right. exists l. destruct Hw as (H1 & H2 & H3 & H4 & H5 & H6). repeat split; auto; [|lia].
          intros Hx. apply H5. left. auto.
        * right. left. cbn [sstale] in Hw. rewrite linord_lf in E1. destruct (keyents_nth M HM rs a 0 e1) as (r' & E2); [lia|]. rewrite E2 in E1. cbn in E1. injection E1 as <- <-.
          exists e1. tauto.
      + rewrite Ej, firstn_skipn in *. exists lst, s'. split; [exact E|]. split; [exact G|]. intros l0 ->.
        destruct Hw as [(H1 & _)|[(l & H0 & H1 & H2 & H3 & H4 & H5)|(e1 & l & r & _ & _ & _ & _ & _ & _ & H1)]]; [discriminate| |cbn [sstale] in H1; discriminate].
        injection H0 as ->. split; [exact H5|]. intros n Hn. exfalso. exact (lgood_far _ _ _ _ _ _ _ _ _ G H4 H5 Hn).
    - destruct t as [|a q rs ks]; [destruct Hh as (? & ? & _); discriminate|].
      assert (q = par) by (destruct Hok as (H & _); exact H). subst q.
      cbn [lupd l_addr]. rewrite (sbind_ok (sret a) _ s a s eq_refl). rewrite (sbind_ok _ _ _ _ _ (touch_ok a s)).
      cbn [serank lshape kl] in He. rewrite nth_error_map in He.
      unfold l_child. cbn [l_kids]. destruct (nth_error ks c) as [ch|] eqn:Ec; [|discriminate]. cbn [option_map] in He.
      destruct (node_cut _ _ _ _ _ _ Hok Ec) as (r1 & r2 & k1 & k2 & -> & -> & Hl1 & Hl2 & ->).
      match goal with |- context [sbind (sret ch) ?f ?x] => rewrite (sbind_ok (sret ch) f x ch x eq_refl) end.
      destruct (serank (lshape ch) p j) as [e'|] eqn:Ee'; [|discriminate]. cbn [option_map] in He. injection He as He.
      assert (Hks : loks M a 0 (k1 ++ ch :: k2)) by (destruct Hok as (_ & _ & _ & H); exact H).
      apply alli_app in Hks. destruct Hks as [Hk1 [Hkc Hk2]]. cbn [plus] in Hkc. fold (loks M a 0 k1) in Hk1.
      assert (Eoff : sbefore (map lshape (k1 ++ ch :: k2)) (length r1) = length (wls r1 k1)).
      { rewrite map_app, Hl1. symmetry. apply (wls_sbefore a 0); auto. }
      rewrite Eoff in He. subst e.
      assert (Hle : e' <= length (lrefs ch)) by (rewrite (lrefs_scount _ _ Hkc); eapply serank_le; eassumption).
      set (t := LNode a par (r1 ++ r2) (k1 ++ ch :: k2)) in *.
      assert (Eord : linord t = wl a 0 r1 k1 ++ linord ch ++ wr a (length r1) r2 k2) by (apply linord_cut; auto).
      assert (Eref : lrefs t = wls r1 k1 ++ lrefs ch ++ wrs r2 k2).
      { unfold lrefs at 1. rewrite Eord, !map_app, wl_snd, wr_snd. reflexivity. }
      assert (Hh' : hsh (length p) (lshape ch)).
      { destruct Hh as (x & Ex & _ & Hf). cbn [lshape] in Ex. injection Ex as <-. rewrite Forall_forall in Hf. apply Hf.
        rewrite map_app. apply in_or_app. right. left. reflexivity. }
      assert (Hs' : Sok (p_store s) (linord ch)).
      { rewrite Eord in Hs. apply Sok_app in Hs. destruct Hs as [_ Hs]. apply Sok_app in Hs. tauto. }
      assert (Hnd' : NoDup (rids (lrefs ch))).
      { rewrite Eref, !rids_app in Hnd. apply nodup_cnt. intros x. rewrite nodup_cnt in Hnd. specialize (Hnd x). rewrite !cnt_app in Hnd. lia. }
      assert (Ead : forall x, In x (laddrs ch) -> In x (flat_map laddrs (k1 ++ ch :: k2))).
      { intros x Hx. rewrite flat_map_app. cbn [flat_map]. rewrite !in_app_iff. auto. }
      assert (Hna' : NoDup (laddrs ch)).
      { unfold t in Hna. rewrite laddrs_node in Hna. pose proof (proj2 (proj1 (NoDup_cons_iff a _) Hna)) as Hx. rewrite flat_map_app in Hx. cbn [flat_map] in Hx.
        apply nodup_cnt. intros x. rewrite nodup_cnt in Hx. specialize (Hx x). rewrite !cnt_app in Hx. lia. }
      assert (Ha : ~ In a (laddrs ch)).
      { unfold t in Hna. rewrite laddrs_node in Hna. pose proof (proj1 (proj1 (NoDup_cons_iff a _) Hna)) as Hx. intros Hi. apply Hx. apply Ead. exact Hi. }
      assert (Hlt' : Forall (fun x => x < p_next s) (laddrs ch)).
      { rewrite Forall_forall in *. intros x Hx. apply Hlt. unfold t. rewrite laddrs_node. right. apply Ead. exact Hx. }
      assert (Halt : a < p_next s) by (rewrite Forall_forall in Hlt; apply Hlt; left; reflexivity).
      (* the two ways the report can be about this node *)
      assert (Hin : forall x, In x (laddrs ch) -> x <> a /\ ~ In x (flat_map laddrs k1) /\ ~ In x (flat_map laddrs k2) /\ x < p_next s).
      { intros x Hx. split; [intros ->; auto|]. unfold t in Hna. rewrite laddrs_node in Hna. pose proof (proj2 (proj1 (NoDup_cons_iff a _) Hna)) as Hy.
        rewrite flat_map_app in Hy. cbn [flat_map] in Hy. rewrite nodup_cnt in Hy. specialize (Hy x). rewrite !cnt_app in Hy.
        rewrite !in_cnt. apply in_cnt in Hx as Hc. split; [lia|]. split; [lia|]. rewrite Forall_forall in Hlt'. apply Hlt'. exact Hx. }
      assert (Hout : forall x, ~ In x (laddrs t) -> x <> a /\ ~ In x (flat_map laddrs k1) /\ ~ In x (flat_map laddrs k2)).
      { intros x Hx. unfold t in Hx. rewrite laddrs_node, flat_map_app in Hx. cbn [In flat_map] in Hx. rewrite !in_app_iff in Hx.
        repeat split; intros Hy; apply Hx; subst; cbn [In]; auto. }
      assert (CASE : (exists w', lpre ch p j e' two (upst s [] 0 [a]) w' /\ w = shift_w (length (wls r1 k1)) w' /\
                        (forall l, w' = inr l -> fst l <> a /\ ~ In (fst l) (flat_map laddrs k1) /\ ~ In (fst l) (flat_map laddrs k2))) \/
                     (exists x r, two = false /\ e' = 0 /\ wl a 0 r1 k1 = x ++ [(Some (a, length r1 - 1), r)] /\
                        r1 <> [] /\
                        w = (if (M <? length r1) && (2 * M <=? length (r1 ++ r2)) && is_bub (s_upd M (s_leaf M j false) (lshape ch) p)
                             then inr (a, length r1 - 1) else inl (length (wls r1 k1) + e' - 1)) /\
                        lpre ch p j e' two (upst s [] 0 [a]) (inr (a, length r1 - 1)))).
      { destruct Hw as [(-> & Hw)|[(l & -> & Hw)|(e1 & l & r & Ee & -> & E1 & H1 & H2 & H3 & Hw)]].
        - left. exists (inl e'). split; [left; split; auto|]. split; [reflexivity|discriminate].
        - left. exists (inr l). split; [|split; [reflexivity|intros l0 E0; injection E0 as <-; apply Hout; tauto]]. right. left. exists l. cbn [upst p_ho p_present p_skip p_next plus].
          destruct Hw as (H1 & H2 & H3 & H4 & H5). repeat split; auto. intros Hx. apply H4. unfold t. rewrite laddrs_node. right. apply Ead. exact Hx.
        - cbn [sstale] in Hw.
          assert (Hn : nth_error (kl (lshape t)) (length r1) = Some (lshape ch)).
          { unfold t. cbn [lshape kl]. rewrite nth_error_map, Ec. reflexivity. }
          rewrite Hn, Ee' in Hw. destruct e' as [|e2].
          + right. assert (Hne : r1 <> []).
            { intros ->. destruct k1; [|discriminate]. cbn in Ee. discriminate. }
            destruct (wl_last r1 k1 a 0 Hl1 Hne) as (x & r0 & Ew). cbn [plus] in Ew. exists x, r0.
            assert (Hl : l = (a, length r1 - 1)).
            { rewrite Eord, Ew, <- !app_assoc in E1. rewrite <- (wl_len r1 k1 a 0), Ew, app_length in Ee. cbn [length] in Ee.
              replace e1 with (length x) in E1 by lia. rewrite nth_error_app2, Nat.sub_diag in E1 by lia. cbn in E1. congruence. }
            subst l. repeat split; auto.
            * rewrite Hw. unfold t. cbn [lshape kl]. rewrite map_length.
              replace (length (k1 ++ ch :: k2) - 1) with (length (r1 ++ r2)) by (rewrite !app_length; cbn; lia).
              replace (length (wls r1 k1) + 0 - 1) with e1 by lia. reflexivity.
            * right. left. exists (a, length r1 - 1). cbn [upst p_ho p_present p_skip p_next plus fst]. repeat split; auto.
          + left. exists (if sstale (lshape ch) p j then inr l else inl e2).
            assert (E1' : nth_error (linord ch) e2 = Some (Some l, r)).
            { rewrite Eord in E1. replace e1 with (length (wl a 0 r1 k1) + e2) in E1 by (rewrite wl_len; lia).
              rewrite nth_error_app2 in E1 by lia. replace (length (wl a 0 r1 k1) + e2 - length (wl a 0 r1 k1)) with e2 in E1 by lia.
              rewrite lrefs_len in Hle. rewrite nth_error_app1 in E1 by lia. exact E1. }
            split; [|split; [rewrite Hw; destruct (sstale _ p j); cbn [shift_w]; f_equal; lia|]].
            2:{ intros l0 E0. destruct (sstale _ p j); [|discriminate]. injection E0 as <-.
                destruct (linord_addr _ _ _ (nth_error_In _ _ E1')) as (a0 & j0 & E0 & Ha0). injection E0 as ->. destruct (Hin _ Ha0) as (H4 & H5 & H6 & _). auto. }
            right. right. exists e2, l, r. cbn [upst p_ho p_present p_skip]. repeat split; auto. }
      assert (EL : firstn (length (wls r1 k1) + e') (lrefs t) ++ news two ++ skipn (length (wls r1 k1) + e') (lrefs t) =
                   wls r1 k1 ++ (firstn e' (lrefs ch) ++ news two ++ skipn e' (lrefs ch)) ++ wrs r2 k2).
      { rewrite Eref. rewrite firstn_app, skipn_app.
        rewrite (firstn_all2 (wls r1 k1)) by lia. rewrite (skipn_all2 (wls r1 k1)) by lia.
        replace (length (wls r1 k1) + e' - length (wls r1 k1)) with e' by lia.
        rewrite firstn_app, skipn_app. replace (e' - length (lrefs ch)) with 0 by lia. rewrite firstn_O. cbn [skipn app].
        rewrite app_nil_r, <- !app_assoc. reflexivity. }
      assert (EHL : rids (firstn e' (lrefs ch) ++ news two ++ skipn e' (lrefs ch)) = rids (lrefs ch)).
      { rewrite rids_news, firstn_skipn. reflexivity. }
      rewrite EL.
      destruct CASE as [(w' & Hpre & -> & Hfar)|(x & r & -> & -> & Ew & Hne & -> & Hpre)].
      + destruct (IH ch (Some (a, length k1)) j two (upst s [] 0 [a]) e' w') as (lst & s1 & E & G & Gl); auto.
        rewrite (sbind_ok _ _ _ _ _ E). rewrite <- Hl1 in G.
        destruct (lup_step_ok M HM a par r1 r2 k1 ch k2 s s1 _ w' lst Hl1 Hl2 Hok Hs Hnd EHL G) as (lst' & s' & E' & G' & _).
        exists lst', s'. split; [exact E'|]. split; [exact G'|]. intros l0 E0. destruct w' as [|l']; [discriminate|]. cbn [shift_w] in E0. injection E0 as ->.
        destruct (Gl _ eq_refl) as [Gl1 Gl2]. destruct (Hfar _ eq_refl) as (F1 & F2 & F3). cbn [upst p_next plus] in Gl1. split; [exact Gl1|]. intros n Hn.
        destruct (up_lens M _ _ _ _ _ _ _ _ _ E' _ _ Hn) as [Hy|[Hy|[Hy|[Hy|Hy]]]]; auto; exfalso.
        * exact (F1 Hy).
        * destruct (g_next _ _ _ _ _ _ _ _ G) as (n1 & N1 & _). cbn [upst p_next plus] in N1. lia.
        * apply F2. rewrite Hl1, firstn_app_len in Hy. rewrite <- flat_lens. apply in_map_iff. exists (fst l0, n). auto.
        * apply F3. rewrite Hl1, skipn_S_len in Hy. rewrite <- flat_lens. apply in_map_iff. exists (fst l0, n). auto.
      + destruct (IH ch (Some (a, length k1)) j false (upst s [] 0 [a]) 0 (inr (a, length r1 - 1))) as (lst & s1 & E & G & _); auto.
        rewrite (sbind_ok _ _ _ _ _ E). rewrite <- Hl1 in G.
        destruct (lup_step_ok M HM a par r1 r2 k1 ch k2 s s1 _ _ lst Hl1 Hl2 Hok Hs Hnd EHL G) as (lst' & s' & E' & G' & Hgo & Hst).
        exists lst', s'. split; [exact E'|]. cbn [shift_w] in G'.
        destruct ((M <? length r1) && (2 * M <=? length (r1 ++ r2)) && is_bub (s_upd M (s_leaf M j false) (lshape ch) p)) eqn:Est.
        { split; [exact G'|]. intros l0 E0. injection E0 as <-. cbn [fst snd]. split; [exact Halt|]. intros n Hn.
          apply andb_true_iff in Est. destruct Est as [Est Est3]. apply andb_true_iff in Est. destruct Est as [Est1 Est2].
          apply Nat.ltb_lt in Est1. apply Nat.leb_le in Est2.
          assert (Hcap : length (r1 ++ r2) <= 2 * M) by (destruct Hok as (_ & H & _); exact H).
          assert (Hb : exists b, lst = LBubble b).
          { destruct lst as [m|b]; [|eauto]. exfalso.
            assert (Hshape : lshst (LDone m) = s_upd M (s_leaf M j false) (lshape ch) p) by (eapply lupd_shape; [|exact Hkc|exact E]; intros; eapply l_leaf_shape'; eassumption).
            rewrite <- Hshape in Est3. discriminate. }
          destruct (Hst (Nat.le_antisymm _ _ Hcap Est2) Est1 Hb) as (b' & rs' & ks' & -> & Eb & Elen).
          assert (Hm : In (a, M) (lensof (LBubble b'))) by (cbn [lensof]; rewrite Eb, lens_node, Elen; left; reflexivity).
          assert (Hu : n = M).
          { apply (nodup_fst (lensof (LBubble b')) a); auto. rewrite lensof_addrs. destruct (g_next _ _ _ _ _ _ _ _ G') as (n1 & _ & N2).
            apply (Permutation_NoDup (Permutation_sym N2)). apply nodup_app_iff. split; [exact Hna|]. split; [apply seq_NoDup|].
            intros y Hy Hq. apply in_seq in Hq. rewrite Forall_forall in Hlt. specialize (Hlt _ Hy). lia. }
          lia. }
        split; [|discriminate].
        eapply lgood_trk; [exact G'|]. destruct (g_trk _ _ _ _ _ _ _ _ G') as [Hf [Hho _]]. split; [exact Hf|].
        destruct Hgo as [rest Hr].
        { assert (Hcap : length (r1 ++ r2) <= 2 * M) by (destruct Hok as (_ & H & _); exact H).
          apply andb_false_iff in Est. destruct Est as [Est|Est].
          - apply andb_false_iff in Est. destruct Est as [Est|Est]; [apply Nat.ltb_ge in Est; auto|apply Nat.leb_gt in Est; lia].
          - right. right. destruct lst as [n|b]; [eauto|]. exfalso.
            assert (Hshape : lshst (LBubble b) = s_upd M (s_leaf M j false) (lshape ch) p) by (eapply lupd_shape; [|exact Hkc|exact E]; intros; eapply l_leaf_shape'; eassumption).
            rewrite <- Hshape in Est. discriminate. }
        exists r. rewrite Hr, Ew, <- app_assoc, Hho.
        assert (El : length (wls r1 k1) = length x + 1) by (rewrite <- (wl_len r1 k1 a 0), Ew, app_length; reflexivity).
        replace (length (wls r1 k1) + 0 - 1) with (length x) by lia.
        rewrite nth_error_app2, Nat.sub_diag by lia. reflexivity.
  Qed.
End Upd.
