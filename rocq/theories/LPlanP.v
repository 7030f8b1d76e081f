(** Whole insertions on the pointer side.  Proof support only. *)
From Coq Require Import List Bool Arith Lia Permutation.
From Verif Require Import Base Tree Insert Zip LTree LInsert LTreeP LUpP LLeafP LShape LShapeP LLenP LUpdP.
Import ListNotations.

Lemma sbefore_S : forall ks k ch, nth_error ks k = Some ch -> sbefore ks (S k) = S (sbefore ks k + scount ch).
Proof.
  intros ks k ch H. apply nth_error_split in H. destruct H as (a & b & -> & <-). unfold sbefore.
  rewrite firstn_app_len. replace (S (length a)) with (length (a ++ [ch])) at 2 by (rewrite app_length; cbn; lia).
  change (ch :: b) with ([ch] ++ b). rewrite app_assoc, firstn_app_len, map_app, list_sum_app. cbn. lia.
Qed.

Lemma leftmost : forall h s, hsh h s -> serank s (repeat 0 h) 0 = Some 0.
Proof.
  induction h as [|h IH]; intros s H.
  - destruct H as [n ->]. reflexivity.
  - destruct H as (ks & -> & Hn & Hf). destruct ks as [|k ks]; [congruence|]. cbn [repeat serank kl nth_error].
    rewrite IH by (inversion Hf; auto). reflexivity.
Qed.

Lemma srank_rhs : forall p s H k e, hsh H s -> length p <= H -> srank s p k = Some e ->
  forall q j, rhs_path p (H - length p) k = (q, j) -> length q = H /\ serank s q j = Some (S e).
Proof.
  induction p as [|c p IH]; intros s H k e Hh Hl E q j Eq.
  - cbn [length] in Eq. rewrite Nat.sub_0_r in Eq. cbn [srank] in E.
    destruct (Nat.ltb_spec (S k) (length (kl s))) as [Hk|]; [|discriminate].
    destruct (nth_error (kl s) k) as [ch|] eqn:Ec; [|discriminate]. injection E as <-.
    destruct H as [|h]; cbn [rhs_path] in Eq; injection Eq as <- <-.
    + split; [reflexivity|]. cbn [serank]. rewrite Nat.add_1_r. rewrite (proj2 (Nat.ltb_lt _ _)) by lia.
      rewrite (sbefore_S _ _ _ Ec). reflexivity.
    + cbn [app length]. rewrite repeat_length. split; [reflexivity|]. cbn [serank]. rewrite Nat.add_1_r.
      destruct Hh as (ks & -> & _ & Hf). cbn [kl] in *.
      destruct (nth_error ks (S k)) as [c2|] eqn:E2; [|apply nth_error_None in E2; lia].
      rewrite leftmost by (rewrite Forall_forall in Hf; apply Hf; eapply nth_error_In; eassumption).
      cbn [option_map]. rewrite (sbefore_S _ _ _ Ec). f_equal. lia.
  - cbn [length] in *. destruct H as [|h]; [lia|]. destruct Hh as (ks & -> & _ & Hf). cbn [srank kl] in E.
    destruct (nth_error ks c) as [ch|] eqn:Ec; [|discriminate].
    destruct (srank ch p k) as [e'|] eqn:Ee; [|discriminate]. injection E as <-.
    assert (Hch : hsh h ch) by (rewrite Forall_forall in Hf; apply Hf; eapply nth_error_In; eassumption).
    assert (Hl' : length p <= h) by lia.
    destruct (rhs_path p (h - length p) k) as [q' j'] eqn:Eq'.
    destruct (IH ch h k e' Hch Hl' Ee q' j' Eq') as [L1 L2].
    assert (Eqq : q = c :: q' /\ j = j').
    { cbn [Nat.sub] in Eq. unfold rhs_path in *. destruct (h - length p); injection Eq as <- <-; injection Eq' as <- <-; auto. }
    destruct Eqq as [-> ->]. split; [cbn; lia|]. cbn [serank kl]. rewrite Ec, L2. cbn [option_map]. f_equal. lia.
Qed.

Section Plan.
  Context (M : nat) (HM : 1 <= M).
  Notation lok := (lok M).
  Notation lgood := (lgood M).

  Record pgood (t : ltree) (L : list (option rid)) (w : nat + loc) (s : pst) (t' : ltree) (s' : pst) : Prop := {
    q_sok : Sok (p_store s') (linord t');
    q_refs : lrefs t' = L;
    q_len : length (p_store s') = length (p_store s);
    q_frame : forall r, ~ In r (rids (lrefs t)) -> nth_error (p_store s') r = nth_error (p_store s) r;
    q_next : exists n, p_next s' = n + p_next s /\ Permutation (laddrs t') (laddrs t ++ seq (p_next s) n);
    q_lok : lok None t' /\ is_node t';
    q_log : exists lg, p_log s' = lg ++ p_log s /\
              forall x, In x lg -> In x (laddrs t) \/ p_next s <= x < p_next s';
    q_trk : match w with
            | inl i => exists l r, p_ho s' = Some l /\ nth_error (linord t') i = Some (Some l, r)
            | inr l => p_ho s' = Some l /\ forall n, In (fst l, n) (lens t') -> n <= snd l
            end;
  }.

  Lemma fin_ok : forall t L w s st s1, lgood None t L w s st s1 -> NoDup (rids L) -> rids L = rids (lrefs t) ->
    (forall l, w = inr l -> fst l < p_next s /\ forall n, In (fst l, n) (lensof st) -> n <= snd l) ->
    exists t' s', l_finish_root st s1 = Ok (t', s') /\ pgood t L w s t' s'.
  Proof.
    intros t L w s st s1 G Hnd HL Hfl. destruct G as [Gsok Grefs Glen Gframe (n1 & Gn & Gp) Glok (lg1 & Glg & Glg') Gskip (Gf & Gw)].
    destruct st as [n|b]; cbn [entsof addrsof lokst l_finish_root] in *.
    - destruct Glok as [G1 G2]. destruct n as [|a p rs ks]; [destruct G2|]. assert (p = None) by (destruct G1 as (-> & _); reflexivity).
      subst p. cbn [l_par]. do 2 eexists. split; [reflexivity|]. constructor; auto.
      + exists n1. auto.
      + exists lg1. auto.
      + destruct w as [i|l]; [|split; [tauto|exact (proj2 (Hfl _ eq_refl))]]. destruct Gw as [r Gw]. destruct (p_ho s1) as [l|] eqn:E; [eauto|].
        exfalso. exact (linord_some _ _ _ _ Gw eq_refl).
    - destruct Glok as (G1 & G2 & G3 & G4).
      assert (P1 : l_par (lb_lhs b) = None) by (destruct (lb_lhs b); [reflexivity|destruct G1 as (-> & _); reflexivity]).
      assert (P2 : l_par (lb_rhs b) = None) by (destruct (lb_rhs b); [reflexivity|destruct G3 as (-> & _); reflexivity]).
      unfold l_make_new_parent. rewrite P1, P2.
      assert (Hkey : forall x, lb_key b = Some x -> x < length (p_store s1)).
      { intros x Hx. apply (Sok_lt _ _ x Gsok). apply in_rids. apply in_map_iff. exists (None, lb_key b). rewrite Hx. split; [reflexivity|].
        apply in_or_app. right. left. reflexivity. }
      set (a := p_next s1).
      destruct (set_par_ok (Some (a, 0)) (lb_lhs b) (upst s1 [] 1 [a])) as (l2 & E2 & I2).
      destruct (set_par_ok (Some (a, 1)) (lb_rhs b) (upst (upst s1 [] 1 [a]) [] 0 l2)) as (l3 & E3 & I3).
      assert (E : (do* a0 := alloc in do* l := set_par (Some (a0, 0)) (lb_lhs b) in do* r' := set_par (Some (a0, 1)) (lb_rhs b) in
                   do* _ := sr_update (lb_key b) (a0, 0) in sret (LNode a0 None [lb_key b] [l; r'])) s1 =
              Ok (LNode a None [lb_key b] [setp (Some (a, 0)) (lb_lhs b); setp (Some (a, 1)) (lb_rhs b)],
                  upst s1 [(Some (a, 0), lb_key b)] 1 (l3 ++ l2 ++ [a]))).
      { rewrite (sbind_ok _ _ _ _ _ (alloc_ok s1)). fold a. rewrite (sbind_ok _ _ _ _ _ E2), (sbind_ok _ _ _ _ _ E3).
        match goal with |- sbind (sr_update _ _) _ ?x = _ => assert (Hkey' : forall y, lb_key b = Some y -> y < length (p_store x)) by exact Hkey end.
        rewrite (sbind_ok _ _ _ _ _ (sr_update_ok _ _ (a, 0) Hkey')).
        unfold sret. rewrite !upst_upst. cbn [app plus]. rewrite <- ?app_assoc. reflexivity. }
      rewrite (sbind_ok _ _ _ _ _ E). cbn [l_addr]. clear E E2 E3.
      match goal with |- context [sbind (sret a) _ ?s2] => rewrite (sbind_ok (sret a) _ s2 a s2 eq_refl); set (s2' := s2) end.
      set (t' := LNode a None _ _).
      assert (Ee : linord t' = linord (lb_lhs b) ++ (Some (a, 0), lb_key b) :: linord (lb_rhs b)).
      { unfold t'. cbn [linord weave]. rewrite !setp_linord, app_nil_r. reflexivity. }
      assert (EX : exists s', (match p_ho s2' with None => Ok (t', with_ho s2' (Some (a, 0)) (p_present s2')) | Some _ => Ok (t', s2') end) = Ok (t', s')
                 /\ p_store s' = p_store s2' /\ p_next s' = p_next s2' /\ p_log s' = p_log s2'
                 /\ p_ho s' = Some (match p_ho s1 with Some h => h | None => (a, 0) end)).
      { change (p_ho s2') with (p_ho s1). destruct (p_ho s1) as [h|] eqn:Eh; eexists; (split; [reflexivity|]); cbn; auto. }
      destruct EX as (s' & EX & S1 & S2 & S3 & S4). exists t', s'. split; [exact EX|].
      subst s2'. cbn [upst p_store p_next p_log] in S1, S2, S3.
      constructor.
      + rewrite S1, Ee. eapply sok_upds; [exact Gsok| | | |].
        * rewrite !map_app. reflexivity.
        * rewrite <- Grefs in Hnd. rewrite !map_app in *. exact Hnd.
        * intros x [<-|[]]. apply in_or_app. right. left. reflexivity.
        * intros x Hx. apply in_app_or in Hx. destruct Hx as [Hx|[<-|Hx]]; [|left; left; reflexivity|]; right; apply in_or_app; cbn [In]; auto.
      + unfold lrefs. rewrite Ee, <- Grefs, !map_app. reflexivity.
      + rewrite S1, upds_length. exact Glen.
      + intros r Hr. rewrite S1, upds_other; [auto|]. intros Hi. cbn in Hi. rewrite app_nil_r in Hi. apply Hr.
        rewrite <- HL, <- Grefs, map_app, rids_app. apply in_or_app. right. cbn [map snd]. rewrite rids_cons. apply in_or_app. left. exact Hi.
      + exists (S n1). split; [rewrite S2; lia|]. unfold t'. rewrite laddrs_node. cbn [flat_map]. rewrite !setp_laddrs, app_nil_r.
        replace (S n1) with (n1 + 1) by lia. rewrite seq_app. cbn [seq]. replace (p_next s + n1) with a by (unfold a; lia).
        apply perm_trans with ((laddrs (lb_lhs b) ++ laddrs (lb_rhs b)) ++ [a]); [apply Permutation_app_comm|].
        rewrite (app_assoc (laddrs t)). apply Permutation_app_tail. exact Gp.
      + split; [|exact Logic.I]. unfold t'. apply (lok_intro M); [cbn; lia|reflexivity|].
        cbn. split; [eapply lok_setp; exact G1|]. split; [eapply lok_setp; exact G3|exact Logic.I].
      + exists ((l3 ++ l2 ++ [a]) ++ lg1). split; [rewrite S3, Glg, <- !app_assoc; reflexivity|]. rewrite S2.
        intros x Hx. apply in_app_or in Hx. destruct Hx as [Hx|Hx].
        * assert (Hb : In x (laddrs (lb_lhs b) ++ laddrs (lb_rhs b)) -> In x (laddrs t) \/ p_next s <= x < 1 + p_next s1).
          { intros Hi. apply (Permutation_in _ Gp) in Hi. apply in_app_or in Hi. destruct Hi as [Hi|Hi]; [auto|]. apply in_seq in Hi. lia. }
          apply in_app_or in Hx. destruct Hx as [Hx|Hx]; [apply Hb, in_or_app; right; apply I3; exact Hx|].
          apply in_app_or in Hx. destruct Hx as [Hx|[<-|[]]]; [apply Hb, in_or_app; left; apply I2; exact Hx|]. right. unfold a. lia.
        * destruct (Glg' x Hx); [auto|right; lia].
      + destruct w as [i|l].
        * destruct Gw as [r Gw]. destruct (nth_bubble M HM _ _ _ _ _ _ Gw) as [(E1 & E2 & E3)|(E1 & E2)].
          -- rewrite S4, E1. do 2 eexists. split; [reflexivity|]. rewrite Ee, E3, nth_error_app2, Nat.sub_diag by lia. reflexivity.
          -- rewrite S4, Ee. destruct (p_ho s1) as [h|]; [|congruence]. eauto.
        * rewrite S4. destruct Gw as [-> _]. split; [reflexivity|]. destruct (Hfl _ eq_refl) as [F1 F2]. intros n Hn. apply F2.
          unfold t' in Hn. rewrite lens_node in Hn. cbn [flat_map] in Hn. rewrite !setp_lens, app_nil_r in Hn.
          destruct Hn as [Hn|Hn]; [|exact Hn]. exfalso. injection Hn as Hn _. unfold a in Hn. lia.
  Qed.

  (** A merge changes no node. *)
  Lemma join_ok : forall p t par k e s, lok par t -> srank (lshape t) p k = Some e ->
    p_ho s = None -> p_present s = false -> p_skip s = false ->
    exists s' l r lg, lupd M (l_join_key k) t p s = Ok (LDone t, s') /\ nth_error (linord t) e = Some (Some l, r) /\ s' = with_ho (upst s [] 0 lg) (Some l) true /\ incl lg (laddrs t).
  Proof.
    induction p as [|c p IH]; intros t par k e s Hok He H1 H2 H3.
    - cbn [lupd]. destruct t as [|a q rs ks]; [discriminate|]. cbn [srank lshape kl] in He. rewrite map_length in He.
      assert (Hl : length ks = S (length rs)) by (destruct Hok as (_ & _ & H & _); exact H).
      destruct (Nat.ltb_spec (S k) (length ks)) as [Hk|]; [|discriminate].
      rewrite nth_error_map in He. destruct (nth_error ks k) as [ch|] eqn:Ec; [|discriminate]. cbn [option_map] in He. injection He as <-.
      assert (q = par) by (destruct Hok as (H & _); exact H). subst q.
      destruct (node_cut M HM a par _ _ _ _ Hok Ec) as (r1 & r2 & k1 & k2 & -> & -> & Hl1 & Hl2 & ->).
      unfold l_join_key, l_len. cbn [l_refs l_addr]. rewrite app_length in *. cbn [length] in *.
      rewrite (proj2 (Nat.leb_gt _ _)) by lia. rewrite (sbind_ok (sret a) _ s a s eq_refl). rewrite (sbind_ok _ _ _ _ _ (touch_ok a s)).
      unfold notify at 1, sbind, sret. cbn [upst p_skip p_ho p_present]. rewrite H1, H2, H3.
      assert (Hks : loks M a 0 (k1 ++ ch :: k2)) by (destruct Hok as (_ & _ & _ & H); exact H).
      apply alli_app in Hks. destruct Hks as [Hk1 [Hkc Hk2]]. cbn [plus] in Hkc. fold (loks M a 0 k1) in Hk1.
      destruct r2 as [|r r2]; [cbn in *; lia|]. destruct k2 as [|k0 k2]; [discriminate|].
      exists (with_ho (upst s [] 0 [a]) (Some (a, length r1)) true), (a, length r1), r, [a]. split; [reflexivity|]. split; [|split; [reflexivity|]].
      + rewrite linord_cut by (cbn in *; lia). rewrite map_app, Hl1. cbn [map].
        rewrite <- (wls_sbefore M HM a 0 r1 k1 _ Hl1 Hk1), <- (wl_len r1 k1 a 0), <- (linord_len M HM _ _ Hkc).
        apply (nth_place0 M HM). rewrite nth_error_app2, Nat.sub_diag by lia. reflexivity.
      + intros x [<-|[]]. left. reflexivity.
    - destruct t as [|a q rs ks]; [cbn [srank lshape kl] in He; destruct c; discriminate|].
      assert (q = par) by (destruct Hok as (H & _); exact H). subst q.
      cbn [lupd l_addr]. rewrite (sbind_ok (sret a) _ s a s eq_refl). rewrite (sbind_ok _ _ _ _ _ (touch_ok a s)).
      cbn [srank lshape kl] in He. rewrite nth_error_map in He.
      unfold l_child. cbn [l_kids]. destruct (nth_error ks c) as [ch|] eqn:Ec; [|discriminate]. cbn [option_map] in He.
      destruct (node_cut M HM a par _ _ _ _ Hok Ec) as (r1 & r2 & k1 & k2 & -> & -> & Hl1 & Hl2 & ->).
      match goal with |- context [sbind (sret ch) ?f ?x] => rewrite (sbind_ok (sret ch) f x ch x eq_refl) end.
      destruct (srank (lshape ch) p k) as [e'|] eqn:Ee'; [|discriminate]. cbn [option_map] in He. injection He as <-.
      assert (Hks : loks M a 0 (k1 ++ ch :: k2)) by (destruct Hok as (_ & _ & _ & H); exact H).
      apply alli_app in Hks. destruct Hks as [Hk1 [Hkc Hk2]]. cbn [plus] in Hkc. fold (loks M a 0 k1) in Hk1.
      destruct (IH ch _ k e' (upst s [] 0 [a]) Hkc Ee' H1 H2 H3) as (s' & l & r & lg & E & En & -> & Hi).
      rewrite (sbind_ok _ _ _ _ _ E). unfold lup_step. cbn [l_addr].
      match goal with |- context [sbind (sret a) ?f ?x] => rewrite (sbind_ok (sret a) f x a x eq_refl) end.
      assert (Hnode : is_node ch) by (destruct ch; [cbn in Ee'; destruct p as [|[|]]; discriminate|exact Logic.I]).
      rewrite <- Hl1 in Hkc.
      match goal with |- context [sbind (into_parent _ _ _) _ ?x] => rewrite (sbind_ok _ _ _ _ _ (into_parent_ok M _ _ _ x Hkc Hnode)) end.
      match goal with |- context [sbind (touch a) _ ?x] => rewrite (sbind_ok _ _ _ _ _ (touch_ok a x)) end.
      unfold l_set_child. rewrite (app_length k1). cbn [length]. rewrite (proj2 (Nat.ltb_lt _ _)) by lia.
      unfold sbind, sret. rewrite Hl1, replace_at_app.
      exists (with_ho (upst s [] 0 (a :: lg ++ [a])) (Some l) true), l, r, (a :: lg ++ [a]). split; [|split; [|split; [reflexivity|]]].
      + unfold upst, with_ho. cbn. rewrite <- app_assoc. reflexivity.
      + rewrite linord_cut by auto. rewrite map_app, ?Hl1. cbn [map].
        rewrite <- (wls_sbefore M HM a 0 r1 k1 _ Hl1 Hk1), <- (wl_len r1 k1 a 0).
        apply (nth_place M HM). exact En.
      + intros x [<-|Hx]; [left; reflexivity|]. apply in_app_or in Hx. destruct Hx as [Hx|[<-|[]]]; [|left; reflexivity].
        rewrite laddrs_node. apply in_or_app. right. rewrite flat_map_app. apply in_or_app. right. cbn [flat_map]. apply in_or_app. left. auto.
  Qed.

  Lemma key_addr_ok : forall p t par k e s, lok par t -> srank (lshape t) p k = Some e ->
    exists l r, l_key_addr t p k s = Ok (l, s) /\ nth_error (linord t) e = Some (Some l, r).
  Proof.
    induction p as [|c p IH]; intros t par k e s Hok He.
    - destruct t as [|a q rs ks]; [discriminate|]. cbn [srank lshape kl] in He. rewrite map_length in He.
      assert (Hl : length ks = S (length rs)) by (destruct Hok as (_ & _ & H & _); exact H).
      destruct (Nat.ltb_spec (S k) (length ks)) as [Hk|]; [|discriminate].
      rewrite nth_error_map in He. destruct (nth_error ks k) as [ch|] eqn:Ec; [|discriminate]. cbn [option_map] in He. injection He as <-.
      assert (q = par) by (destruct Hok as (H & _); exact H). subst q.
      destruct (node_cut M HM a par _ _ _ _ Hok Ec) as (r1 & r2 & k1 & k2 & -> & -> & Hl1 & Hl2 & ->).
      assert (Hks : loks M a 0 (k1 ++ ch :: k2)) by (destruct Hok as (_ & _ & _ & H); exact H).
      apply alli_app in Hks. destruct Hks as [Hk1 [Hkc Hk2]]. cbn [plus] in Hkc. fold (loks M a 0 k1) in Hk1.
      rewrite !app_length in *. cbn [length] in *.
      destruct r2 as [|r r2]; [cbn in *; lia|]. destruct k2 as [|k0 k2]; [discriminate|].
      exists (a, length r1), r. split.
      + unfold l_key_addr, l_len. cbn [l_refs l_addr]. rewrite app_length. cbn [length]. rewrite (proj2 (Nat.ltb_lt _ _)) by lia. reflexivity.
      + rewrite linord_cut by (cbn in *; lia). rewrite map_app, Hl1. cbn [map].
        rewrite <- (wls_sbefore M HM a 0 r1 k1 _ Hl1 Hk1), <- (wl_len r1 k1 a 0), <- (linord_len M HM _ _ Hkc).
        apply (nth_place0 M HM). rewrite nth_error_app2, Nat.sub_diag by lia. reflexivity.
    - destruct t as [|a q rs ks]; [cbn [srank lshape kl] in He; destruct c; discriminate|].
      assert (q = par) by (destruct Hok as (H & _); exact H). subst q.
      cbn [srank lshape kl] in He. rewrite nth_error_map in He.
      destruct (nth_error ks c) as [ch|] eqn:Ec; [|discriminate]. cbn [option_map] in He.
      destruct (node_cut M HM a par _ _ _ _ Hok Ec) as (r1 & r2 & k1 & k2 & -> & -> & Hl1 & Hl2 & ->).
      destruct (srank (lshape ch) p k) as [e'|] eqn:Ee'; [|discriminate]. cbn [option_map] in He. injection He as <-.
      assert (Hks : loks M a 0 (k1 ++ ch :: k2)) by (destruct Hok as (_ & _ & _ & H); exact H).
      apply alli_app in Hks. destruct Hks as [Hk1 [Hkc Hk2]]. cbn [plus] in Hkc. fold (loks M a 0 k1) in Hk1.
      destruct (IH ch _ k e' s Hkc Ee') as (l & r & E & En). exists l, r. split.
      + unfold l_key_addr in *. unfold l_child at 1. cbn [l_kids]. rewrite Ec.
        rewrite (sbind_ok (sret ch) _ s ch s eq_refl). exact E.
      + rewrite linord_cut by auto. rewrite map_app, ?Hl1. cbn [map].
        rewrite <- (wls_sbefore M HM a 0 r1 k1 _ Hl1 Hk1), <- (wl_len r1 k1 a 0).
        apply (nth_place M HM). exact En.
  Qed.

  (** What a plan does to the list of references and where it reports the new key. *)
  Definition plan_at (pl : plan) (t : sh) (L : list (option rid)) (L' : list (option rid)) (i : nat) : Prop :=
    match pl with
    | PNew => t = SX /\ L' = [None] /\ i = 0
    | PJoin p k => srank t p k = Some i /\ L' = L
    | PEdge p k => hsh (length p) t /\ serank t p k = Some i /\ L' = firstn i L ++ [None] ++ skipn i L
    | PRhs p hk k two lj => exists e, srank t p k = Some e /\ hsh (length p + hk) t /\ L' = firstn (S e) L ++ news two ++ skipn (S e) L /\ i = (if lj then e else S e) /\ (lj = true -> two = false)
    end.
  Definition plan_stale (pl : plan) (t : sh) : bool :=
    match pl with
    | PRhs p hk k _ true => let (q, j) := rhs_path p hk k in sstale M t q j
    | _ => false
    end.

  (** The condition for a passed over report, by shape. *)
  Fixpoint sfull (t : sh) : Prop :=
    match t with SX => True | SN ks => 2 * M <= length ks - 1 /\ match ks with [] => True | k :: _ => sfull k end end.
  Fixpoint snode (t : sh) (p : list nat) : sh :=
    match p with [] => t | c :: p' => match nth_error (kl t) c with Some ch => snode ch p' | None => SX end end.
  Definition scond (t : sh) (p : list nat) (k : nat) : Prop :=
    let ks := kl (snode t p) in
    2 * M <= length ks - 1 /\ M <= k /\ exists ch, nth_error ks (S k) = Some ch /\ ch <> SX /\ sfull ch.

  Lemma spine_full : forall h t, hsh h t -> (is_bub (s_upd M (s_leaf M 0 false) t (repeat 0 h)) = true <-> sfull t).
  Proof.
    induction h as [|h IH]; intros t Hh.
    - destruct Hh as [n ->]. change (repeat 0 0) with (@nil nat). cbn [s_upd]. unfold s_leaf. cbn [kl].
      assert (Hl : length (repeat SX (S n)) - 1 = n) by (rewrite repeat_length; lia).
      assert (Hs : sfull (SN (repeat SX (S n))) <-> 2 * M <= n).
      { change (sfull (SN (repeat SX (S n)))) with (2 * M <= length (repeat SX (S n)) - 1 /\ True). rewrite Hl. tauto. }
      rewrite Hs, Hl, Nat.sub_0_r. destruct (Nat.leb_spec (2 * M) n) as [H|H].
      + split; [auto|intros _]. destruct (_ && _); [reflexivity|]. destruct (choose_split M 0 n false) as [m [[]|[]]]; reflexivity.
      + cbn [is_bub]. split; [discriminate|]. lia.
    - destruct Hh as (ks & -> & Hn & Hf). destruct ks as [|k ks]; [congruence|]. cbn [repeat s_upd kl nth_error sfull].
      assert (Hk : hsh h k) by (inversion Hf; auto). specialize (IH k Hk).
      destruct (s_upd M (s_leaf M 0 false) k (repeat 0 h)) as [n|l r]; cbn [is_bub s_up] in *.
      + split; [discriminate|]. intros [_ H]. apply IH in H. discriminate.
      + change (replace_at 0 l (kl (SN (k :: ks)))) with (l :: ks). unfold s_bubble. cbn [length].
        destruct (Nat.ltb_spec (S (length ks) - 1) (2 * M)) as [H|H].
        * cbn [is_bub]. split; [discriminate|]. intros [? _]. lia.
        * split; [intros _; split; [lia|apply IH; reflexivity]|intros _]. destruct (negb _); [destruct (_ <? _)|]; reflexivity.
  Qed.

  Lemma stale_cond : forall p t hk k e q j, hsh (length p + hk) t -> srank t p k = Some e -> rhs_path p hk k = (q, j) ->
    (sstale M t q j = true <-> scond t p k).
  Proof.
    induction p as [|c p IH]; intros t hk k e q j Hh He Hq.
    - cbn [length plus] in Hh. cbn [srank] in He. destruct (Nat.ltb_spec (S k) (length (kl t))) as [Hk|]; [|discriminate]. clear He.
      unfold scond. cbn [snode]. destruct hk as [|hc]; cbn [rhs_path app] in Hq; injection Hq as <- <-; cbn [sstale].
      + split; [discriminate|]. intros (_ & _ & ch & Hc & Hx & _). destruct Hh as [n ->]. cbn [kl] in Hc. apply nth_error_In, repeat_spec in Hc. contradiction.
      + rewrite Nat.add_1_r. destruct (nth_error (kl t) (S k)) as [ch|] eqn:Ec; [|apply nth_error_None in Ec; lia].
        assert (Hch : hsh hc ch).
        { destruct Hh as (ks & -> & _ & Hf). rewrite Forall_forall in Hf. apply Hf. eapply nth_error_In. exact Ec. }
        rewrite leftmost by exact Hch. rewrite !andb_true_iff, Nat.ltb_lt, Nat.leb_le, spine_full by exact Hch.
        assert (Hx : ch <> SX) by (intros ->; destruct hc; destruct Hch as (? & Hc); [discriminate|destruct Hc; discriminate]).
        split.
        * intros ((H1 & H2) & H3). split; [exact H2|]. split; [lia|]. exists ch. auto.
        * intros (H1 & H2 & ch' & E & _ & H3). injection E as <-. repeat split; auto; lia.
    - assert (Hq' : exists q', rhs_path p hk k = (q', j) /\ q = c :: q').
      { destruct hk; cbn [rhs_path app] in Hq; injection Hq as <- <-; eexists; split; reflexivity. }
      destruct Hq' as (q' & Hq' & ->). cbn [length plus] in Hh. destruct Hh as (ks & -> & _ & Hf). cbn [srank kl] in He.
      destruct (nth_error ks c) as [ch|] eqn:Ec; [|discriminate]. destruct (srank ch p k) as [e'|] eqn:Ee; [|discriminate].
      assert (Hch : hsh (length p + hk) ch) by (rewrite Forall_forall in Hf; apply Hf; eapply nth_error_In; exact Ec).
      cbn [sstale kl]. rewrite Ec. unfold scond. cbn [snode kl]. rewrite Ec.
      destruct (srank_rhs p ch (length p + hk) k e' Hch ltac:(lia) Ee q' j) as [_ Es].
      { replace (length p + hk - length p) with hk by lia. exact Hq'. }
      rewrite Es. exact (IH ch hk k e' q' j Hch Ee Hq').
  Qed.

  Lemma run_plan_ok : forall pl t s L' i, lok None t -> plan_at pl (lshape t) (lrefs t) L' i ->
    Sok (p_store s) (linord t) -> NoDup (rids (lrefs t)) -> NoDup (laddrs t) -> Forall (fun x => x < p_next s) (laddrs t) ->
    p_ho s = None -> p_present s = false -> p_skip s = false ->
    exists t' s' w, run_plan M pl t s = Ok (t', s') /\ pgood t L' w s t' s' /\ (if plan_stale pl (lshape t) then exists l r, w = inr l /\ nth_error (linord t) i = Some (Some l, r) else w = inl i).
  Proof.
    intros pl t s L' i Hok Hpl Hs Hnd Hna Hlt H1 H2 H3. destruct pl as [|p k|p k|p hk k two lj]; cbn [plan_at plan_stale run_plan] in *.
    - destruct Hpl as (Ht & -> & ->). apply lshape_SX in Ht. subst t.
      exists (LNode (p_next s) None [None] [LNil; LNil]), (with_ho (upst s [] 1 [p_next s]) (Some (p_next s, 0)) true), (inl 0).
      split; [reflexivity|]. split; [|reflexivity]. constructor; cbn [upst with_ho p_store p_next p_log p_ho upds fold_left].
      + constructor; [exact Logic.I|constructor].
      + reflexivity.
      + reflexivity.
      + reflexivity.
      + exists 1. split; [reflexivity|]. cbn. constructor. constructor.
      + split; [|exact Logic.I]. cbn. repeat split; lia.
      + exists [p_next s]. split; [reflexivity|]. intros x [<-|[]]. right. lia.
      + exists (p_next s, 0), None. split; reflexivity.
    - destruct Hpl as (He & ->). destruct (join_ok p t None k i s Hok He H1 H2 H3) as (s' & l & r & lg & E & En & -> & Hi).
      rewrite (sbind_ok _ _ _ _ _ E). cbn [l_finish_root].
      assert (Hp : l_par t = None) by (destruct t; [reflexivity|destruct Hok as (-> & _); reflexivity]). rewrite Hp.
      exists t, (with_ho (upst s [] 0 lg) (Some l) true), (inl i). split; [reflexivity|]. split; [|reflexivity].
      constructor; cbn [upst with_ho p_store p_next p_log p_ho upds fold_left]; auto.
      + exists 0. cbn. rewrite app_nil_r. auto.
      + split; [exact Hok|]. destruct t; [destruct i; discriminate|exact Logic.I].
      + exists lg. split; [reflexivity|]. auto.
      + eauto.
    - destruct Hpl as (Hh & He & ->).
      destruct (lupd_ok M HM p t None k false s i (inl i) Hok Hh He Hs Hnd Hna Hlt) as (st & s1 & E & G & Gl); [left; auto|].
      rewrite (sbind_ok _ _ _ _ _ E).
      assert (ER : rids (firstn i (lrefs t) ++ news false ++ skipn i (lrefs t)) = rids (lrefs t)).
      { rewrite rids_news, firstn_skipn. reflexivity. }
      destruct (fin_ok _ _ _ _ _ _ G) as (t' & s' & E' & G'); [rewrite ER; exact Hnd|exact ER|exact Gl|].
      exists t', s', (inl i). auto.
    - destruct Hpl as (e & He & Hh & -> & -> & Hlj). destruct (rhs_path p hk k) as [q j] eqn:Eq.
      destruct (srank_rhs p (lshape t) (length p + hk) k e) with (q := q) (j := j) as [Lq Eqr]; auto; [lia| |].
      { replace (length p + hk - length p) with hk by lia. exact Eq. }
      rewrite <- Lq in Hh.
      destruct (key_addr_ok p t None k e s Hok He) as (l & r & Ek & En). rewrite (sbind_ok _ _ _ _ _ Ek).
      assert (ER : rids (firstn (S e) (lrefs t) ++ news two ++ skipn (S e) (lrefs t)) = rids (lrefs t)).
      { rewrite rids_news, firstn_skipn. reflexivity. }
      destruct lj.
      + specialize (Hlj eq_refl). subst two.
        unfold notify at 1. unfold sbind at 1 2. rewrite H1, H2, H3.
        set (s0 := with_skip (with_ho s (Some l) true) true).
        set (w := if sstale M (lshape t) q j then inr l else inl e).
        destruct (lupd_ok M HM q t None j false s0 (S e) w Hok Hh Eqr Hs Hnd Hna Hlt) as (st & s1 & E & G & Gl).
        { right. right. exists e, l, r. repeat split; auto. }
        rewrite (sbind_ok _ _ _ _ _ E).
        destruct (fin_ok _ _ _ _ _ _ G) as (t' & s' & E' & G'); [rewrite ER; exact Hnd|exact ER|exact Gl|].
        exists t', s', w. split; [exact E'|]. split.
        * destruct G' as [A1 A2 A3 A4 A5 A6 A7 A8]. constructor; assumption.
        * unfold w. destruct (sstale M (lshape t) q j); [eauto|reflexivity].
      + match goal with |- context [sbind (sret tt) ?f s] => rewrite (sbind_ok (sret tt) f s tt s eq_refl) end.
        destruct (lupd_ok M HM q t None j two s (S e) (inl (S e)) Hok Hh Eqr Hs Hnd Hna Hlt) as (st & s1 & E & G & Gl); [left; auto|].
        rewrite (sbind_ok _ _ _ _ _ E).
        destruct (fin_ok _ _ _ _ _ _ G) as (t' & s' & E' & G'); [rewrite ER; exact Hnd|exact ER|exact Gl|].
        exists t', s', (inl (S e)). auto.
  Qed.
End Plan.
