(** The pointer side of inserting into a leaf. *)
From Coq Require Import List Bool Arith Lia Permutation.
From Verif Require Import Base Zip Insert LTree LInsert LTreeP LUpP.
Import ListNotations.

Section Leaf.
  Context (M : nat).
  Hypothesis HM : 1 <= M.
  Notation lok := (lok M).
  Notation loks := (loks M).
  Notation lgood := (lgood M).

  Definition lf (a : addr) (p : option loc) (rs : list (option rid)) : ltree := LNode a p rs (repeat LNil (S (length rs))).

  Lemma linord_lf : forall rs a p, linord (lf a p rs) = keyents a 0 rs.
  Proof.
    intros rs a p. unfold lf. cbn [linord]. generalize 0. induction rs as [|r rs IH]; intros i; [reflexivity|].
    cbn [length repeat weave keyents linord app] in *. rewrite <- (IH (S i)). reflexivity.
  Qed.
  Lemma laddrs_lf : forall a p rs, laddrs (lf a p rs) = [a].
  Proof.
    intros. unfold lf. cbn [laddrs]. f_equal. induction (S (length rs)); cbn; auto.
  Qed.
  Lemma loks_nil : forall n a i, loks a i (repeat LNil n).
  Proof. induction n; intros; cbn; auto. Qed.
  Lemma lok_lf : forall a p rs, length rs <= 2 * M -> lok p (lf a p rs).
  Proof. intros. unfold lf. apply lok_intro; [auto|rewrite repeat_length; auto|apply loks_nil]. Qed.

  Lemma repeat_cut : forall a b : nat, repeat LNil (a + b) = repeat LNil a ++ repeat LNil b.
  Proof. intros. apply repeat_app. Qed.

  Lemma lf_insert : forall a p A B s, length (A ++ B) < 2 * M -> (forall x, In x (rids B) -> x < length (p_store s)) ->
    l_insert_key M (lf a p (A ++ B)) (length A) s =
      Ok (lf a p (A ++ None :: B), upst s (keyents a (S (length A)) B) 0 [a]).
  Proof.
    intros a p A B s Hl Hr. unfold lf.
    replace (S (length (A ++ B))) with (S (length A) + length B) by (rewrite app_length; lia).
    replace (S (length (A ++ None :: B))) with (S (length A) + S (length B)) by (rewrite app_length; cbn; lia).
    rewrite !repeat_cut. rewrite insert_key_ok; auto. rewrite repeat_length. reflexivity.
  Qed.
  Lemma lf_push : forall a p rs r s, length rs < 2 * M -> (forall x, r = Some x -> x < length (p_store s)) ->
    l_push_key M (lf a p rs) r s = Ok (lf a p (rs ++ [r]), upst s [(Some (a, length rs), r)] 0 [a]).
  Proof.
    intros a p rs r s Hl Hr. unfold lf. rewrite push_key_ok by auto.
    replace (S (length (rs ++ [r]))) with (S (length rs) + 1) by (rewrite app_length; cbn; lia).
    rewrite repeat_cut. reflexivity.
  Qed.
  Lemma setps_nil : forall n a i, setps a i (repeat LNil n) = repeat LNil n.
  Proof. induction n; intros; cbn; [|rewrite IHn]; reflexivity. Qed.
  Lemma laddrs_nils : forall n, flat_map laddrs (repeat LNil n) = [].
  Proof. induction n; cbn; auto. Qed.
  Lemma lf_split : forall a p A mid B s, (forall x, In x (rids B) -> x < length (p_store s)) ->
    (forall x, mid = Some x -> ~ In x (rids B) /\ exists l, nth_error (p_store s) x = Some (Some l)) ->
    exists lg, l_split (lf a p (A ++ mid :: B)) (length A) s =
      Ok ((lf a p A, mid, lf (p_next s) None B), upst s (keyents (p_next s) 0 B ++ [(None, mid)]) 1 lg) /\
      incl lg [p_next s; a].
  Proof.
    intros a p A mid B s Hr Hm. unfold lf.
    replace (S (length (A ++ mid :: B))) with (S (length A) + S (length B)) by (rewrite app_length; cbn; lia).
    rewrite repeat_cut.
    destruct (split_ok M HM a p A mid B (repeat LNil (S (length A))) (repeat LNil (S (length B))) s) as (lg & E & Hlg); auto.
    { apply repeat_length. }
    exists lg. split.
    - rewrite E, setps_nil. reflexivity.
    - intros x Hx. apply Hlg in Hx. cbn [In] in Hx |- *.
      rewrite laddrs_nils in Hx. cbn in Hx. tauto.
  Qed.

  (** ** The store when keys move inside leaves *)
  Definition lfs (P Q : list ent) : list (option rid) := map snd (P ++ Q).

  Lemma sok_upds2 : forall st F0 F E, Sok st F0 -> rids (map snd F) = rids (map snd F0) -> NoDup (rids (map snd F)) ->
    incl E F -> (forall x, In x F -> In x E \/ In x F0 \/ snd x = None) -> Sok (upds st E) F.
  Proof.
    intros st F0 F E H0 Em Hd Hi Hc. unfold Sok. rewrite Forall_forall. intros [l [r|]] Hin; [|exact Logic.I].
    cbn [fst snd].
    assert (Hr : r < length st).
    { apply (Sok_lt st F0); auto. rewrite <- Em. apply in_rids. apply in_map_iff. exists (l, Some r). auto. }
    destruct (in_dec Nat.eq_dec r (rids (map snd E))) as [Hx|Hx].
    - apply upds_in; auto. intros l' Hl. exact (rids_unique F l' l r Hd (Hi _ Hl) Hin).
    - rewrite upds_other by exact Hx. destruct (Hc _ Hin) as [Hc'|[Hc'|Hc']]; [|exact (Sok_in _ _ _ _ H0 Hc')|discriminate].
      exfalso. apply Hx. apply in_rids. apply in_map_iff. exists (l, Some r). auto.
  Qed.

  Ltac ins := rewrite ?in_app_iff; cbn [In]; rewrite ?in_app_iff; cbn [In].
  Ltac rl := rewrite ?map_app, ?map_cons; cbn [snd map]; rewrite ?keyents_snd, ?rids_app, ?rids_cons; cbn [orid app]; rewrite ?rids_nil, ?rids_app, ?rids_cons; cbn [orid app]; rewrite ?app_nil_r.

  Lemma sok_ins : forall st P Q a A B, Sok st (P ++ keyents a 0 (A ++ B) ++ Q) ->
    NoDup (rids (map snd (P ++ keyents a 0 (A ++ B) ++ Q))) ->
    Sok (upds st (keyents a (S (length A)) B)) (P ++ keyents a 0 (A ++ None :: B) ++ Q).
  Proof.
    intros st P Q a A B H Hd.
    assert (E : rids (map snd (P ++ keyents a 0 (A ++ None :: B) ++ Q)) = rids (map snd (P ++ keyents a 0 (A ++ B) ++ Q))).
    { rl. reflexivity. }
    apply (sok_upds2 st _ _ _ H E).
    - rewrite E. exact Hd.
    - intros x Hx. rewrite keyents_app. cbn [keyents plus]. ins. tauto.
    - intros x. rewrite !keyents_app. cbn [keyents plus]. ins. intros [Hx|[[Hx|[<-|Hx]]|Hx]]; cbn [snd]; tauto.
  Qed.

  Lemma sok_push : forall st P Q a rs r, Sok st (P ++ keyents a 0 rs ++ (None, r) :: Q) ->
    NoDup (rids (map snd (P ++ keyents a 0 rs ++ (None, r) :: Q))) ->
    Sok (upds st [(Some (a, length rs), r)]) (P ++ keyents a 0 (rs ++ [r]) ++ Q).
  Proof.
    intros st P Q a rs r H Hd.
    assert (E : rids (map snd (P ++ keyents a 0 (rs ++ [r]) ++ Q)) = rids (map snd (P ++ keyents a 0 rs ++ (None, r) :: Q))).
    { rl. rewrite <- ?app_assoc. reflexivity. }
    apply (sok_upds2 st _ _ _ H E).
    - rewrite E. exact Hd.
    - intros x Hx. rewrite keyents_app. cbn [keyents plus]. ins. destruct Hx as [<-|[]]. tauto.
    - intros x. rewrite !keyents_app. cbn [keyents plus]. ins. tauto.
  Qed.

  Lemma sok_push0 : forall st P Q a rs, Sok st (P ++ keyents a 0 rs ++ Q) -> Sok st (P ++ keyents a 0 (rs ++ [None]) ++ Q).
  Proof.
    intros st P Q a rs H. rewrite keyents_app. apply Sok_app in H. destruct H as [H1 H2]. apply Sok_app in H2. destruct H2 as [H2 H3].
    repeat (apply Sok_app; split; auto). repeat constructor.
  Qed.

  Lemma sok_split : forall st a a' A mid B, Sok st (keyents a 0 (A ++ mid :: B)) -> NoDup (rids (A ++ mid :: B)) ->
    Sok (upds st (keyents a' 0 B ++ [(None, mid)])) (keyents a 0 A ++ (None, mid) :: keyents a' 0 B).
  Proof.
    intros st a a' A mid B H Hd.
    assert (E : rids (map snd (keyents a 0 A ++ (None, mid) :: keyents a' 0 B)) = rids (map snd (keyents a 0 (A ++ mid :: B)))).
    { rl. reflexivity. }
    apply (sok_upds2 st _ _ _ H E).
    - rewrite E, keyents_snd. exact Hd.
    - intros x Hx. apply in_app_or in Hx. ins. cbn [In] in Hx. tauto.
    - intros x. rewrite keyents_app. ins. tauto.
  Qed.

  (** ** The callback *)
  Definition ntf (ho : option loc) (pr sk : bool) (u : tupdate) : option (option loc * bool) :=
    match u, ho with
    | UInsertion l, _ =>
      if sk then Some (ho, pr) else match ho with Some _ => None | None => if pr then None else Some (Some l, true) end
    | UMove _ _ _ _ _, None => Some (None, pr)
    | UMove old from len new to, Some (a, i) =>
      if (old =? a) && (from <=? i) && (i <? from + len) then Some (Some (new, (i - from) + to), pr) else Some (ho, pr)
    | URemove _, None => if pr then None else Some (None, pr)
    | URemove l, Some h => if loc_eqb l h then Some (None, pr) else Some (ho, pr)
    | UPutBack _, Some _ => Some (ho, pr)
    | UPutBack l, None => if pr then Some (Some l, pr) else Some (None, pr)
    end.

  Lemma with_ho_id : forall s, with_ho s (p_ho s) (p_present s) = s.
  Proof. intros []; reflexivity. Qed.

  Lemma ntf_ok : forall u s h pr, ntf (p_ho s) (p_present s) (p_skip s) u = Some (h, pr) -> notify u s = Ok (tt, with_ho s h pr).
  Proof.
    intros u s h pr H. pose proof (with_ho_id s) as Hid. unfold notify.
    destruct u as [l|old from len new to|l|l]; cbn [ntf] in H.
    - destruct (p_skip s); [injection H as <- <-; rewrite Hid; reflexivity|].
      destruct (p_ho s); [discriminate|]. destruct (p_present s); [discriminate|]. injection H as <- <-. reflexivity.
    - destruct (p_ho s) as [[a i]|].
      + destruct ((old =? a) && (from <=? i) && (i <? from + len)); injection H as <- <-; [|rewrite Hid]; reflexivity.
      + injection H as <- <-. rewrite Hid. reflexivity.
    - destruct (p_ho s) as [h0|].
      + destruct (loc_eqb l h0); injection H as <- <-; [|rewrite Hid]; reflexivity.
      + destruct (p_present s); [discriminate|]. injection H as <- <-. rewrite Hid. reflexivity.
    - destruct (p_ho s) as [h0|].
      + injection H as <- <-. rewrite Hid. reflexivity.
      + destruct (p_present s); injection H as <- <-; [|rewrite Hid]; reflexivity.
  Qed.

  Lemma with_ho_upst : forall s E n lg h pr, with_ho (upst s E n lg) h pr = upst (with_ho s h pr) E n lg.
  Proof. reflexivity. Qed.
  Lemma with_ho_twice : forall s h pr h' pr', with_ho (with_ho s h pr) h' pr' = with_ho s h' pr'.
  Proof. reflexivity. Qed.

  (** The situations in which a leaf is changed: nothing reported yet; the key before the edge reported
      (the new slice was merged into it); a key of a node further up reported. *)
  Definition tpre (a k : nat) (two : bool) (s : pst) (w : nat + loc) : Prop :=
    (w = inl k /\ p_ho s = None /\ p_present s = false /\ p_skip s = false) \/
    (exists j, k = S j /\ w = inl j /\ two = false /\ p_ho s = Some (a, j) /\ p_present s = true /\ p_skip s = true) \/
    (exists l, w = inr l /\ p_ho s = Some l /\ p_present s = true /\ p_skip s = true /\ fst l <> a /\ fst l <> p_next s).

  Definition news (two : bool) : list (option rid) := if two then [None; None] else [None].

  Lemma lrefs_lf : forall a p rs, lrefs (lf a p rs) = rs.
  Proof. intros. unfold lrefs. rewrite linord_lf, keyents_snd. reflexivity. Qed.

  Lemma leaf_fin : forall par a rs L w s lst s' E n lg h pr,
    s' = upst (with_ho s h pr) E n lg ->
    Sok (upds (p_store s) E) (entsof lst) -> map snd (entsof lst) = L ->
    (forall r, In r (rids (map snd E)) -> In r (rids rs)) ->
    Permutation (addrsof lst) (a :: seq (p_next s) n) -> lokst M par lst ->
    (forall x, In x lg -> x = a \/ p_next s <= x < n + p_next s) ->
    trk w lst s' -> lgood par (lf a par rs) L w s lst s'.
  Proof.
    intros par a rs L w s lst s' E n lg h pr -> H1 H2 H3 H4 H5 H6 H7.
    apply (fin_good M HM) with (s1 := s) (n1 := 0) (E := E) (n := n) (lg := lg); auto.
    - exists []. split; [reflexivity|intros x []].
    - rewrite lrefs_lf. exact H3.
    - rewrite laddrs_lf, Nat.add_0_r. exact H4.
    - intros x Hx. rewrite laddrs_lf. destruct (H6 x Hx); [left; left; auto|right; lia].
  Qed.

  Lemma upst0 : forall s, upst s [] 0 [] = s.
  Proof. intros []; reflexivity. Qed.

  Ltac ntac := unfold ntf, loc_eqb; cbn [fst snd];
    repeat match goal with
           | |- context [?x =? ?y] => first [rewrite (proj2 (Nat.eqb_eq x y)) by lia | rewrite (proj2 (Nat.eqb_neq x y)) by lia]
           | |- context [?x <=? ?y] => first [rewrite (proj2 (Nat.leb_le x y)) by lia | rewrite (proj2 (Nat.leb_gt x y)) by lia]
           | |- context [?x <? ?y] => first [rewrite (proj2 (Nat.ltb_lt x y)) by lia | rewrite (proj2 (Nat.ltb_ge x y)) by lia]
           end; cbn [andb]; reflexivity.
  Ltac hos := cbn [upst with_ho p_ho p_present p_skip];
    repeat match goal with
           | H : p_ho ?s = _ |- context [p_ho ?s] => rewrite H
           | H : p_present ?s = _ |- context [p_present ?s] => rewrite H
           | H : p_skip ?s = _ |- context [p_skip ?s] => rewrite H
           end.
  Ltac nt := erewrite sbind_ok; [|apply ntf_ok; hos; ntac]; rewrite ?with_ho_upst, ?with_ho_twice.


  Lemma lt_sok : forall st F x, Sok st F -> In x (rids (map snd F)) -> x < length st.
  Proof. intros. apply (Sok_lt st F); auto. Qed.

  Lemma lf_len : forall a p rs, l_len (lf a p rs) = length rs.
  Proof. reflexivity. Qed.

  Ltac rin := repeat (rewrite rids_app || rewrite rids_cons || rewrite in_app_iff); cbn [orid In app].
  Ltac dom H := intros ?x ?Hx; apply (lt_sok _ _ _ H); revert Hx; rewrite ?keyents_snd, ?map_app; rin; tauto.


  Lemma keyents_nth : forall rs a i j, j < length rs -> exists r, nth_error (keyents a i rs) j = Some (Some (a, i + j), r).
  Proof.
    induction rs as [|r rs IH]; intros a i j H; cbn [length] in H; [lia|]. destruct j as [|j]; cbn [keyents nth_error].
    - rewrite Nat.add_0_r. eauto.
    - destruct (IH a (S i) j) as (r' & E); [lia|]. rewrite E. exists r'. do 3 f_equal. f_equal. lia.
  Qed.
  Lemma keyents_len : forall rs a i, length (keyents a i rs) = length rs.
  Proof. induction rs; intros; cbn; auto. Qed.
  Lemma keyents_nth1 : forall rs a j Q, j < length rs -> exists r, nth_error (keyents a 0 rs ++ Q) j = Some (Some (a, j), r).
  Proof.
    intros rs a j Q H. destruct (keyents_nth rs a 0 j H) as (r & E). exists r. rewrite nth_error_app1; [exact E|]. rewrite keyents_len. exact H.
  Qed.
  Lemma keyents_nth2 : forall A a x j, j = length A -> nth_error (keyents a 0 A ++ x) j = nth_error x 0.
  Proof. intros A a x j ->. rewrite nth_error_app2, keyents_len, Nat.sub_diag by (rewrite keyents_len; lia). reflexivity. Qed.
  Lemma keyents_nth3 : forall A a x rs a' j j', j' < length rs -> j = S (length A) + j' ->
    exists r, nth_error (keyents a 0 A ++ x :: keyents a' 0 rs) j = Some (Some (a', j'), r).
  Proof.
    intros A a x rs a' j j' H ->. destruct (keyents_nth rs a' 0 j' H) as (r & E). exists r.
    rewrite nth_error_app2, keyents_len by (rewrite keyents_len; lia).
    replace (S (length A) + j' - length A) with (S j') by lia. exact E.
  Qed.

  Lemma news_len : forall two, length (news two) = if two then 2 else 1.
  Proof. intros []; reflexivity. Qed.
  Lemma news_rids : forall two A B, rids (A ++ news two ++ B) = rids (A ++ B).
  Proof. intros [] A B; unfold news; cbn [app]; rewrite ?rids_app, ?rids_cons; reflexivity. Qed.

  Lemma ins2 : forall a p A B (two : bool) s, length (A ++ B) + (if two then 1 else 0) < 2 * M ->
    (forall x, In x (rids B) -> x < length (p_store s)) ->
    exists E lg, (forall T (K : ltree -> sm T),
      sbind (l_insert_key M (lf a p (A ++ B)) (length A))
            (fun i1 => sbind (if two then l_insert_key M i1 (length A + 1) else sret i1) K) s =
      K (lf a p (A ++ news two ++ B)) (upst s E 0 lg)) /\
      incl lg [a] /\ incl (rids (map snd E)) (rids B) /\
      forall P Q, Sok (p_store s) (P ++ keyents a 0 (A ++ B) ++ Q) ->
        NoDup (rids (map snd (P ++ keyents a 0 (A ++ B) ++ Q))) ->
        Sok (upds (p_store s) E) (P ++ keyents a 0 (A ++ news two ++ B) ++ Q).
  Proof.
    intros a p A B two s Hl Hs. destruct two.
    - exists (keyents a (S (length A)) B ++ keyents a (S (S (length A))) B), [a; a]. split; [|split; [|split]].
      + intros T K. erewrite sbind_ok; [|apply lf_insert; [lia|exact Hs]].
        erewrite sbind_ok; [reflexivity|].
        change (A ++ news true ++ B) with (A ++ None :: None :: B).
        replace (length A + 1) with (length (A ++ [@None rid])) by (rewrite app_length; cbn; lia).
        replace (A ++ None :: B) with ((A ++ [None]) ++ B) by (rewrite <- app_assoc; reflexivity).
        rewrite lf_insert.
        * rewrite upst_upst, <- app_assoc. replace (length (A ++ [None])) with (S (length A)) by (rewrite app_length; cbn; lia). reflexivity.
        * rewrite !app_length in *. cbn. lia.
        * intros x Hx. cbn [upst p_store]. rewrite upds_length. auto.
      + intros x. cbn. tauto.
      + rewrite map_app, !keyents_snd, rids_app. intros x. rewrite in_app_iff. tauto.
      + intros P Q H1 H2. rewrite upds_app.
        assert (H := sok_ins (upds (p_store s) (keyents a (S (length A)) B)) P Q a (A ++ [None]) B).
        rewrite <- !app_assoc in H. rewrite app_length, Nat.add_1_r in H. cbn [app length] in H. apply H.
        * apply sok_ins; auto.
        * revert H2. rl. auto.
    - exists (keyents a (S (length A)) B), [a]. split; [|split; [|split]].
      + intros T K. erewrite sbind_ok; [|apply lf_insert; [lia|exact Hs]]. reflexivity.
      + intros x. cbn. tauto.
      + rewrite keyents_snd. apply incl_refl.
      + intros P Q H1 H2. apply sok_ins; auto.
  Qed.

  Ltac la := unfold l_addr at 1; unfold lf at 1; unfold sbind at 1; unfold sret at 1.

  Lemma leaf_easy : forall a par A B (two : bool) s w, length (A ++ B) + (if two then 1 else 0) < 2 * M ->
    Sok (p_store s) (keyents a 0 (A ++ B)) -> NoDup (rids (A ++ B)) -> tpre a (length A) two s w ->
    exists lst s', l_no_join_leaf M (length A) two (lf a par (A ++ B)) s = Ok (lst, s') /\
      lgood par (lf a par (A ++ B)) (A ++ news two ++ B) w s lst s'.
  Proof.
    intros a par A B two s w Hl Hs Hd Hw. unfold l_no_join_leaf. rewrite lf_len.
    replace (length (A ++ B) <? length A) with false by (symmetry; apply Nat.ltb_ge; rewrite app_length; lia).
    replace (2 * M - (if two then 1 else 0) <=? length (A ++ B)) with false by (symmetry; apply Nat.leb_gt; destruct two; lia).
    destruct (ins2 a par A B two s Hl) as (E & lg & HK & Hlg & HE & HS); [dom Hs|].
    rewrite HK. la.
    specialize (HS [] []). cbn [app] in HS. rewrite !app_nil_r in HS. rewrite keyents_snd in HS. specialize (HS Hs Hd).
    assert (Hfin : forall h pr, (let s' := upst (with_ho s h pr) E 0 lg in trk w (LDone (lf a par (A ++ news two ++ B))) s') ->
              lgood par (lf a par (A ++ B)) (A ++ news two ++ B) w s (LDone (lf a par (A ++ news two ++ B))) (upst (with_ho s h pr) E 0 lg)).
    { intros h pr Ht. eapply leaf_fin with (n := 0); [reflexivity|..]; auto.
      - cbn [entsof]. rewrite linord_lf. exact HS.
      - cbn [entsof]. rewrite linord_lf, keyents_snd. reflexivity.
      - intros r Hr. apply HE in Hr. rin. auto.
      - cbn [addrsof]. rewrite laddrs_lf. reflexivity.
      - cbn [lokst]. split; [apply lok_lf|exact Logic.I]. rewrite !app_length in *. rewrite news_len. destruct two; lia.
      - intros x Hx. apply Hlg in Hx. cbn in Hx. destruct Hx as [<-|[]]. auto. }
    assert (Hnth : forall j, j <= length A -> exists r, nth_error (keyents a 0 (A ++ news two ++ B)) j = Some (Some (a, j), r)).
    { intros j Hj. apply keyents_nth. rewrite !app_length, news_len. destruct two; lia. }
    destruct Hw as [(-> & W1 & W2 & W3)|[(j & Hj & -> & -> & W1 & W2 & W3)|(l & -> & W1 & W2 & W3 & W4)]].
    all: nt; eexists _, _; (split; [reflexivity|apply Hfin; split; cbn [flags upst with_ho p_ho p_present p_skip]; auto]).
    - cbn [entsof]. rewrite linord_lf. apply Hnth. lia.
    - cbn [entsof]. rewrite linord_lf. apply Hnth. lia.
  Qed.

  Lemma bub_fin : forall par a rs R1 key R2 L w s E lg h pr ins,
    Sok (upds (p_store s) E) (keyents a 0 R1 ++ (None, key) :: keyents (p_next s) 0 R2) ->
    R1 ++ key :: R2 = L -> length R1 <= 2 * M -> length R2 <= 2 * M -> incl (rids (map snd E)) (rids rs) ->
    incl lg [a; p_next s] ->
    (let s' := upst (with_ho s h pr) E 1 lg in
     flags s' (LBubble {| lb_lhs := lf a par R1; lb_key := key; lb_rhs := lf (p_next s) None R2; lb_ins := ins |}) /\
     match w with
     | inl i => exists r, nth_error (keyents a 0 R1 ++ (None, key) :: keyents (p_next s) 0 R2) i = Some (h, r)
     | inr l => h = Some l /\ p_skip s = true
     end) ->
    lgood par (lf a par rs) L w s
      (LBubble {| lb_lhs := lf a par R1; lb_key := key; lb_rhs := lf (p_next s) None R2; lb_ins := ins |})
      (upst (with_ho s h pr) E 1 lg).
  Proof.
    intros par a rs R1 key R2 L w s E lg h pr ins H1 H2 H3 H4 H5 H6 [H7 H8].
    eapply leaf_fin with (n := 1); [reflexivity|..]; auto.
    - cbn [entsof lb_lhs lb_key lb_rhs]. rewrite !linord_lf. exact H1.
    - cbn [entsof lb_lhs lb_key lb_rhs]. rewrite !linord_lf, map_app. cbn [map snd]. rewrite !keyents_snd. exact H2.
    - cbn [addrsof lb_lhs lb_rhs]. rewrite !laddrs_lf. reflexivity.
    - cbn [lokst lb_lhs lb_rhs]. repeat split; try exact Logic.I; apply lok_lf; auto.
    - intros x Hx. apply H6 in Hx. cbn in Hx. destruct Hx as [<-|[<-|[]]]; [auto|right; lia].
    - split; [exact H7|]. cbn [entsof lb_lhs lb_key lb_rhs]. rewrite !linord_lf. destruct w; auto.
  Qed.

  (** The split itself, in any state that agrees with [s] on the store. *)
  Lemma mid_dom : forall s a A mid B, Sok (p_store s) (keyents a 0 (A ++ mid :: B)) -> NoDup (rids (A ++ mid :: B)) ->
    forall x, mid = Some x -> ~ In x (rids B) /\ exists l, nth_error (p_store s) x = Some (Some l).
  Proof.
    intros s a A mid B Hs Hd x ->. split.
    - rewrite rids_app, rids_cons in Hd. cbn [orid app] in Hd. apply NoDup_remove_2 in Hd. rewrite in_app_iff in Hd. tauto.
    - eexists. apply (Sok_in _ _ (Some (a, length A)) x Hs). rewrite keyents_app. cbn [keyents plus]. ins. auto.
  Qed.

  Ltac sub1 := erewrite sbind_ok; [|reflexivity].

  Lemma sp_inlL : forall a par A B1 mid B2 (two : bool) s w, a < p_next s ->
    length (A ++ B1) + (if two then 1 else 0) < 2 * M -> length B2 <= 2 * M ->
    Sok (p_store s) (keyents a 0 ((A ++ B1) ++ mid :: B2)) -> NoDup (rids ((A ++ B1) ++ mid :: B2)) -> tpre a (length A) two s w ->
    exists lst s',
      (do* (n0, mid, r0) := l_split (lf a par ((A ++ B1) ++ mid :: B2)) (length (A ++ B1)) in
       do* a := l_addr n0 in
       do* a' := l_addr r0 in
       do* _ := notify (UMove a (length (A ++ B1) + 1) (l_len r0) a' 0) in
       do* _ := notify (URemove (a, l_len n0)) in
       do* i1 := l_insert_key M n0 (length A) in
       do* i2 := if two then l_insert_key M i1 (length A + 1) else sret i1 in
       do* _ := notify (UInsertion (a, length A)) in
       sret {| lb_lhs := i2; lb_key := mid; lb_rhs := r0; lb_ins := true |}) s = Ok (lst, s') /\
      lgood par (lf a par ((A ++ B1) ++ mid :: B2)) (A ++ news two ++ B1 ++ mid :: B2) w s (LBubble lst) s'.
  Proof.
    intros a par A B1 mid B2 two s w Ha Hl Hl2 Hs Hd Hw.
    destruct (lf_split a par (A ++ B1) mid B2 s) as (lg & Esp & Hlg); [dom Hs|eapply mid_dom; eassumption|].
    rewrite (sbind_ok _ _ _ _ _ Esp). cbn beta iota. la. la.
    assert (HS1 := sok_split _ a (p_next s) _ _ _ Hs Hd).
    assert (Hfin : forall h pr E2 lg2, incl lg2 [a] -> incl (rids (map snd E2)) (rids B1) ->
       Sok (upds (p_store s) ((keyents (p_next s) 0 B2 ++ [(None, mid)]) ++ E2))
           ([] ++ keyents a 0 (A ++ news two ++ B1) ++ (None, mid) :: keyents (p_next s) 0 B2) ->
       (let s' := upst (with_ho s h pr) ((keyents (p_next s) 0 B2 ++ [(None, mid)]) ++ E2) 1 (lg2 ++ lg) in
        flags s' (LBubble {| lb_lhs := lf a par (A ++ news two ++ B1); lb_key := mid; lb_rhs := lf (p_next s) None B2; lb_ins := true |}) /\
        match w with
        | inl i => exists r, nth_error (keyents a 0 (A ++ news two ++ B1) ++ (None, mid) :: keyents (p_next s) 0 B2) i = Some (h, r)
        | inr l => h = Some l /\ p_skip s = true
        end) ->
       lgood par (lf a par ((A ++ B1) ++ mid :: B2)) (A ++ news two ++ B1 ++ mid :: B2) w s
        (LBubble {| lb_lhs := lf a par (A ++ news two ++ B1); lb_key := mid; lb_rhs := lf (p_next s) None B2; lb_ins := true |})
        (upst (with_ho s h pr) ((keyents (p_next s) 0 B2 ++ [(None, mid)]) ++ E2) 1 (lg2 ++ lg))).
    { intros h pr E2 lg2 G1 G2 G3 G4. apply bub_fin; auto.
      - rewrite <- !app_assoc. reflexivity.
      - rewrite !app_length in *. rewrite news_len. destruct two; lia.
      - intros x. rewrite map_app, rids_app, in_app_iff. intros [Hx|Hx]; [|apply G2 in Hx; rin; tauto].
        revert Hx. rl. rin. tauto.
      - intros x Hx. apply in_app_or in Hx. destruct Hx as [Hx|Hx]; [apply G1 in Hx|apply Hlg in Hx]; cbn in *; tauto. }
    assert (Hnth : forall j, j <= length A -> exists r, nth_error (keyents a 0 (A ++ news two ++ B1) ++ (None, mid) :: keyents (p_next s) 0 B2) j = Some (Some (a, j), r)).
    { intros j Hj. apply keyents_nth1. rewrite !app_length, news_len. destruct two; lia. }
    assert (HlA : length A <= length (A ++ B1)) by (rewrite app_length; lia).
    rewrite ?lf_len.
    destruct Hw as [(-> & W1 & W2 & W3)|[(j & Hj & -> & -> & W1 & W2 & W3)|([l0 li] & -> & W1 & W2 & W3 & W4 & W5)]]; [..|cbn [fst] in W4, W5].
    - nt. nt.
      match goal with |- context [sbind _ _ (upst ?s0 ?E0 1 lg)] => destruct (ins2 a par A B1 two (upst s0 E0 1 lg) Hl) as (E & lg2 & HK & Hlg2 & HE & HS) end.
      { cbn [upst with_ho p_store]. rewrite upds_length. dom Hs. }
      rewrite HK, upst_upst. nt. eexists _, _. split; [reflexivity|]. apply Hfin; auto.
      + rewrite upds_app. apply HS; [exact HS1|]. revert Hd. rl. auto.
      + split; [cbn [flags upst with_ho p_ho p_present]; auto|]. apply Hnth. lia.
    - nt. nt.
      match goal with |- context [sbind _ _ (upst ?s0 ?E0 1 lg)] => destruct (ins2 a par A B1 false (upst s0 E0 1 lg) Hl) as (E & lg2 & HK & Hlg2 & HE & HS) end.
      { cbn [upst with_ho p_store]. rewrite upds_length. dom Hs. }
      rewrite HK, upst_upst. nt. eexists _, _. split; [reflexivity|]. apply Hfin; auto.
      + rewrite upds_app. apply HS; [exact HS1|]. revert Hd. rl. auto.
      + split; [cbn [flags upst with_ho p_ho p_present]; auto|]. apply Hnth. lia.
    - nt. nt.
      match goal with |- context [sbind _ _ (upst ?s0 ?E0 1 lg)] => destruct (ins2 a par A B1 two (upst s0 E0 1 lg) Hl) as (E & lg2 & HK & Hlg2 & HE & HS) end.
      { cbn [upst with_ho p_store]. rewrite upds_length. dom Hs. }
      rewrite HK, upst_upst. nt. eexists _, _. split; [reflexivity|]. apply Hfin; auto.
      + rewrite upds_app. apply HS; [exact HS1|]. revert Hd. rl. auto.
      + split; [cbn [flags upst with_ho p_ho p_present]; auto|]. auto.
  Qed.

  Lemma sp_inlR : forall a par R1 mid A2 B (two : bool) s w, a < p_next s ->
    length R1 <= 2 * M -> length (A2 ++ B) + (if two then 1 else 0) < 2 * M ->
    Sok (p_store s) (keyents a 0 (R1 ++ mid :: A2 ++ B)) -> NoDup (rids (R1 ++ mid :: A2 ++ B)) ->
    tpre a (S (length R1) + length A2) two s w ->
    exists lst s',
      (do* (n0, mid, r0) := l_split (lf a par (R1 ++ mid :: A2 ++ B)) (length R1) in
       do* a := l_addr n0 in
       do* a' := l_addr r0 in
       do* _ := notify (UMove a (length R1 + 1) (l_len r0) a' 0) in
       do* _ := notify (URemove (a, l_len n0)) in
       do* i1 := l_insert_key M r0 (length A2) in
       do* i2 := if two then l_insert_key M i1 (length A2 + 1) else sret i1 in
       do* _ := notify (UInsertion (a', length A2)) in
       sret {| lb_lhs := n0; lb_key := mid; lb_rhs := i2; lb_ins := true |}) s = Ok (lst, s') /\
      lgood par (lf a par (R1 ++ mid :: A2 ++ B)) (R1 ++ mid :: A2 ++ news two ++ B) w s (LBubble lst) s'.
  Proof.
    intros a par R1 mid A2 B two s w Ha Hl Hl2 Hs Hd Hw.
    destruct (lf_split a par R1 mid (A2 ++ B) s) as (lg & Esp & Hlg); [dom Hs|eapply mid_dom; eassumption|].
    rewrite (sbind_ok _ _ _ _ _ Esp). cbn beta iota. la. la.
    assert (HS1 := sok_split _ a (p_next s) _ _ _ Hs Hd).
    set (E1 := keyents (p_next s) 0 (A2 ++ B) ++ [(None, mid)]) in *.
    assert (Hfin : forall h pr E2 lg2, incl lg2 [p_next s] -> incl (rids (map snd E2)) (rids B) ->
       Sok (upds (p_store s) (E1 ++ E2))
           ((keyents a 0 R1 ++ [(None, mid)]) ++ keyents (p_next s) 0 (A2 ++ news two ++ B) ++ []) ->
       (let s' := upst (with_ho s h pr) (E1 ++ E2) 1 (lg2 ++ lg) in
        flags s' (LBubble {| lb_lhs := lf a par R1; lb_key := mid; lb_rhs := lf (p_next s) None (A2 ++ news two ++ B); lb_ins := true |}) /\
        match w with
        | inl i => exists r, nth_error (keyents a 0 R1 ++ (None, mid) :: keyents (p_next s) 0 (A2 ++ news two ++ B)) i = Some (h, r)
        | inr l => h = Some l /\ p_skip s = true
        end) ->
       lgood par (lf a par (R1 ++ mid :: A2 ++ B)) (R1 ++ mid :: A2 ++ news two ++ B) w s
        (LBubble {| lb_lhs := lf a par R1; lb_key := mid; lb_rhs := lf (p_next s) None (A2 ++ news two ++ B); lb_ins := true |})
        (upst (with_ho s h pr) (E1 ++ E2) 1 (lg2 ++ lg))).
    { intros h pr E2 lg2 G1 G2 G3 G4. apply bub_fin; auto.
      - rewrite app_nil_r, <- !app_assoc in G3. exact G3.
      - rewrite !app_length in *. rewrite news_len. destruct two; lia.
      - intros x. rewrite map_app, rids_app, in_app_iff. intros [Hx|Hx]; [|apply G2 in Hx; rin; tauto].
        revert Hx. unfold E1. rl. rin. tauto.
      - intros x Hx. apply in_app_or in Hx. destruct Hx as [Hx|Hx]; [apply G1 in Hx|apply Hlg in Hx]; cbn in *; tauto. }
    assert (Hin : forall h pr E2, (forall P Q, Sok (upds (p_store s) E1) (P ++ keyents (p_next s) 0 (A2 ++ B) ++ Q) ->
              NoDup (rids (map snd (P ++ keyents (p_next s) 0 (A2 ++ B) ++ Q))) ->
              Sok (upds (p_store (upst (with_ho s h pr) E1 1 lg)) E2) (P ++ keyents (p_next s) 0 (A2 ++ news two ++ B) ++ Q)) ->
            Sok (upds (p_store s) (E1 ++ E2))
              ((keyents a 0 R1 ++ [(None, mid)]) ++ keyents (p_next s) 0 (A2 ++ news two ++ B) ++ [])).
    { intros h pr E2 H. rewrite upds_app. apply H; rewrite app_nil_r, <- app_assoc; [exact HS1|]. revert Hd. rl. auto. }
    rewrite ?lf_len.
    assert (Hdm : forall x : nat, In x (rids B) -> x < length (upds (p_store s) E1)) by (rewrite upds_length; dom Hs).
    assert (HlB : length (A2 ++ B) = length A2 + length B) by apply app_length.
    destruct Hw as [(-> & W1 & W2 & W3)|[(j & Hj & -> & -> & W1 & W2 & W3)|([l0 li] & -> & W1 & W2 & W3 & W4 & W5)]]; [..|cbn [fst] in W4, W5].
    - nt. nt.
      match goal with |- context [sbind _ _ (upst ?s0 ?E0 1 lg)] => destruct (ins2 (p_next s) None A2 B two (upst s0 E0 1 lg) Hl2 Hdm) as (E & lg2 & HK & Hlg2 & HE & HS) end.
      rewrite HK, upst_upst. nt. eexists _, _. split; [reflexivity|]. apply Hfin; auto.
      + eapply Hin. exact HS.
      + split; [cbn [flags upst with_ho p_ho p_present]; auto|]. apply keyents_nth3; [|lia]. rewrite !app_length, news_len; destruct two; lia.
    - destruct (Nat.eq_dec j (length R1)) as [->|Hne].
      + nt. nt.
        match goal with |- context [sbind _ _ (upst ?s0 ?E0 1 lg)] => destruct (ins2 (p_next s) None A2 B false (upst s0 E0 1 lg) Hl2 Hdm) as (E & lg2 & HK & Hlg2 & HE & HS) end.
        rewrite HK, upst_upst. nt. eexists _, _. split; [reflexivity|]. apply Hfin; auto.
        * eapply Hin. exact HS.
        * split; [cbn [flags upst with_ho p_ho p_present]; auto|]. rewrite keyents_nth2 by auto. cbn. eauto.
      + nt. nt.
        match goal with |- context [sbind _ _ (upst ?s0 ?E0 1 lg)] => destruct (ins2 (p_next s) None A2 B false (upst s0 E0 1 lg) Hl2 Hdm) as (E & lg2 & HK & Hlg2 & HE & HS) end.
        rewrite HK, upst_upst. nt. eexists _, _. split; [reflexivity|]. apply Hfin; auto.
        * eapply Hin. exact HS.
        * split; [cbn [flags upst with_ho p_ho p_present]; auto|]. apply keyents_nth3; [|lia]. rewrite !app_length, news_len; lia.
    - nt. nt.
      match goal with |- context [sbind _ _ (upst ?s0 ?E0 1 lg)] => destruct (ins2 (p_next s) None A2 B two (upst s0 E0 1 lg) Hl2 Hdm) as (E & lg2 & HK & Hlg2 & HE & HS) end.
      rewrite HK, upst_upst. nt. eexists _, _. split; [reflexivity|]. apply Hfin; auto.
      + eapply Hin. exact HS.
      + split; [cbn [flags upst with_ho p_ho p_present]; auto|]. auto.
  Qed.

  Lemma sp_inrR : forall a par R1 mid B (two : bool) s w, a < p_next s ->
    length R1 < 2 * M -> length B < 2 * M ->
    Sok (p_store s) (keyents a 0 (R1 ++ mid :: B)) -> NoDup (rids (R1 ++ mid :: B)) ->
    tpre a (S (length R1)) two s w ->
    exists lst s',
      (do* (n0, mid, r0) := l_split (lf a par (R1 ++ mid :: B)) (length R1) in
       do* a := l_addr n0 in
       do* a' := l_addr r0 in
       do* _ := notify (UMove a (length R1 + 1) (l_len r0) a' 0) in
       do* _ := notify (URemove (a, l_len n0)) in
       do* n1 := l_push_key M n0 mid in
       do* _ := notify (UPutBack (a, l_len n1 - 1)) in
       do* r1 := if two then l_insert_key M r0 0 else sret r0 in
       sret {| lb_lhs := n1; lb_key := None; lb_rhs := r1; lb_ins := false |}) s = Ok (lst, s') /\
      lgood par (lf a par (R1 ++ mid :: B)) (R1 ++ mid :: news two ++ B) w s (LBubble lst) s'.
  Proof.
    intros a par R1 mid B two s w Ha Hl Hl2 Hs Hd Hw.
    destruct (lf_split a par R1 mid B s) as (lg & Esp & Hlg); [dom Hs|eapply mid_dom; eassumption|].
    rewrite (sbind_ok _ _ _ _ _ Esp). cbn beta iota. la. la.
    assert (HS1 := sok_split _ a (p_next s) _ _ _ Hs Hd).
    set (E1 := keyents (p_next s) 0 B ++ [(None, mid)]) in *.
    assert (HS2 := sok_push (upds (p_store s) E1) [] (keyents (p_next s) 0 B) a R1 mid HS1).
    assert (HS3 : Sok (upds (upds (p_store s) E1) [(Some (a, length R1), mid)]) (keyents a 0 (R1 ++ [mid]) ++ (None, None) :: keyents (p_next s) 0 B)).
    { cbn [app] in HS2. apply Sok_app in HS2; [|revert Hd; rl; auto]. destruct HS2 as [G1 G2]. apply Sok_app. split; [exact G1|].
      constructor; [exact Logic.I|exact G2]. }
    set (R2 := if two then None :: B else B).
    set (E3 := if two then keyents (p_next s) 1 B else []).
    assert (Hrun : forall h pr, (if two then l_insert_key M (lf (p_next s) None B) 0 else sret (lf (p_next s) None B))
                     (upst (with_ho s h pr) (E1 ++ [(Some (a, length R1), mid)]) 1 (a :: lg)) =
                   Ok (lf (p_next s) None R2, upst (with_ho s h pr) ((E1 ++ [(Some (a, length R1), mid)]) ++ E3) 1 ((if two then [p_next s] else []) ++ a :: lg))).
    { intros h pr. unfold R2, E3. destruct two.
      - assert (G := lf_insert (p_next s) None [] B). cbn [length app] in G. rewrite G; [rewrite upst_upst; reflexivity|exact Hl2|].
        cbn [upst with_ho p_store]. rewrite upds_length. dom Hs.
      - rewrite app_nil_r. reflexivity. }
    assert (HS4 : Sok (upds (p_store s) ((E1 ++ [(Some (a, length R1), mid)]) ++ E3)) (keyents a 0 (R1 ++ [mid]) ++ (None, None) :: keyents (p_next s) 0 R2)).
    { rewrite !upds_app. unfold R2, E3. destruct two; [|exact HS3].
      assert (G := sok_ins (upds (upds (p_store s) E1) [(Some (a, length R1), mid)]) (keyents a 0 (R1 ++ [mid]) ++ [(None, None)]) [] (p_next s) [] B).
      rewrite !app_nil_r, <- !app_assoc in G. apply G; [exact HS3|]. revert Hd. rl. rewrite <- ?app_assoc. auto. }
    assert (Hlen : length (R1 ++ [mid]) = S (length R1)) by (rewrite app_length; cbn; lia).
    assert (Hfin : forall h pr, 
       (let s' := upst (with_ho s h pr) ((E1 ++ [(Some (a, length R1), mid)]) ++ E3) 1 ((if two then [p_next s] else []) ++ a :: lg) in
        flags s' (LBubble {| lb_lhs := lf a par (R1 ++ [mid]); lb_key := None; lb_rhs := lf (p_next s) None R2; lb_ins := false |}) /\
        match w with
        | inl i => exists r, nth_error (keyents a 0 (R1 ++ [mid]) ++ (None, None) :: keyents (p_next s) 0 R2) i = Some (h, r)
        | inr l => h = Some l /\ p_skip s = true
        end) ->
       lgood par (lf a par (R1 ++ mid :: B)) (R1 ++ mid :: news two ++ B) w s
        (LBubble {| lb_lhs := lf a par (R1 ++ [mid]); lb_key := None; lb_rhs := lf (p_next s) None R2; lb_ins := false |})
        (upst (with_ho s h pr) ((E1 ++ [(Some (a, length R1), mid)]) ++ E3) 1 ((if two then [p_next s] else []) ++ a :: lg))).
    { intros h pr G4. apply bub_fin; auto.
      - rewrite <- !app_assoc. unfold R2. destruct two; reflexivity.
      - lia.
      - unfold R2. destruct two; cbn [length]; lia.
      - intros x. unfold E1, E3. destruct two; rl; rin; tauto.
      - intros x Hx. apply in_app_or in Hx. cbn [In] in Hx |- *. destruct Hx as [Hx|[Hx|Hx]]; [destruct two; cbn in Hx; tauto|tauto|apply Hlg in Hx; cbn in Hx; tauto]. }
    rewrite ?lf_len.
    assert (Hm : forall x, mid = Some x -> x < length (upds (p_store s) E1)).
    { intros x ->. rewrite upds_length. apply (lt_sok _ _ _ Hs). rewrite keyents_snd. rin. auto. }
    destruct Hw as [(-> & W1 & W2 & W3)|[(j & Hj & -> & -> & W1 & W2 & W3)|([l0 li] & -> & W1 & W2 & W3 & W4 & W5)]]; [..|cbn [fst] in W4, W5].
    - nt. nt. erewrite sbind_ok; [|apply lf_push; [exact Hl|exact Hm]]. rewrite upst_upst. nt.
      erewrite sbind_ok; [|apply Hrun].
      eexists _, _. split; [reflexivity|]. apply Hfin; auto.
      split; [cbn [flags upst with_ho p_ho p_present p_skip lb_ins]; auto|]. rewrite keyents_nth2 by lia. cbn. eauto.
    - assert (j = length R1) as -> by lia.
      nt. nt. erewrite sbind_ok; [|apply lf_push; [exact Hl|exact Hm]]. rewrite upst_upst. rewrite lf_len, Hlen. cbn [Nat.sub]. rewrite ?Nat.sub_0_r. nt.
      erewrite sbind_ok; [|apply Hrun].
      eexists _, _. split; [reflexivity|]. apply Hfin; auto.
      split; [cbn [flags upst with_ho p_ho p_present p_skip lb_ins]; auto|]. apply keyents_nth1. lia.
    - nt. nt. erewrite sbind_ok; [|apply lf_push; [exact Hl|exact Hm]]. rewrite upst_upst. nt.
      erewrite sbind_ok; [|apply Hrun].
      eexists _, _. split; [reflexivity|]. apply Hfin; auto.
      split; [cbn [flags upst with_ho p_ho p_present p_skip lb_ins]; auto|]. auto.
  Qed.

  Lemma sp_inrL : forall a par R1 mid B s w, a < p_next s ->
    length R1 + 1 < 2 * M -> length B <= 2 * M ->
    Sok (p_store s) (keyents a 0 (R1 ++ mid :: B)) -> NoDup (rids (R1 ++ mid :: B)) ->
    tpre a (S (length R1)) true s w ->
    exists lst s',
      (do* (n0, mid, r0) := l_split (lf a par (R1 ++ mid :: B)) (length R1) in
       do* a := l_addr n0 in
       do* a' := l_addr r0 in
       do* _ := notify (UMove a (length R1 + 1) (l_len r0) a' 0) in
       do* _ := notify (URemove (a, l_len n0)) in
       let mp := l_len n0 in
       do* n1 := l_push_key M n0 mid in
       do* n2 := l_push_key M n1 None in
       do* _ := notify (UPutBack (a, mp)) in
       do* _ := notify (UInsertion (a, mp + 1)) in
       sret {| lb_lhs := n2; lb_key := None; lb_rhs := r0; lb_ins := true |}) s = Ok (lst, s') /\
      lgood par (lf a par (R1 ++ mid :: B)) (R1 ++ mid :: news true ++ B) w s (LBubble lst) s'.
  Proof.
    intros a par R1 mid B s w Ha Hl Hl2 Hs Hd Hw.
    destruct (lf_split a par R1 mid B s) as (lg & Esp & Hlg); [dom Hs|eapply mid_dom; eassumption|].
    rewrite (sbind_ok _ _ _ _ _ Esp). cbn beta iota zeta. la. la.
    assert (HS1 := sok_split _ a (p_next s) _ _ _ Hs Hd).
    set (E1 := keyents (p_next s) 0 B ++ [(None, mid)]) in *.
    assert (HS2 := sok_push (upds (p_store s) E1) [] (keyents (p_next s) 0 B) a R1 mid HS1).
    assert (Hlen : length (R1 ++ [mid]) = S (length R1)) by (rewrite app_length; cbn; lia).
    assert (Hlen2 : length ((R1 ++ [mid]) ++ [None]) = S (S (length R1))) by (rewrite app_length, Hlen; cbn; lia).
    assert (HS4 : Sok (upds (p_store s) ((E1 ++ [(Some (a, length R1), mid)]) ++ [(Some (a, S (length R1)), None)]))
       (keyents a 0 ((R1 ++ [mid]) ++ [None]) ++ (None, None) :: keyents (p_next s) 0 B)).
    { rewrite !upds_app. cbn [app] in HS2. apply Sok_app in HS2; [|revert Hd; rl; auto]. destruct HS2 as [G1 G2].
      rewrite keyents_app. cbn [keyents]. repeat (apply Sok_app; split); auto; repeat constructor. exact G2. }
    assert (Hfin : forall h pr, 
       (let s' := upst (with_ho s h pr) ((E1 ++ [(Some (a, length R1), mid)]) ++ [(Some (a, S (length R1)), None)]) 1 (a :: a :: lg) in
        flags s' (LBubble {| lb_lhs := lf a par ((R1 ++ [mid]) ++ [None]); lb_key := None; lb_rhs := lf (p_next s) None B; lb_ins := true |}) /\
        match w with
        | inl i => exists r, nth_error (keyents a 0 ((R1 ++ [mid]) ++ [None]) ++ (None, None) :: keyents (p_next s) 0 B) i = Some (h, r)
        | inr l => h = Some l /\ p_skip s = true
        end) ->
       lgood par (lf a par (R1 ++ mid :: B)) (R1 ++ mid :: news true ++ B) w s
        (LBubble {| lb_lhs := lf a par ((R1 ++ [mid]) ++ [None]); lb_key := None; lb_rhs := lf (p_next s) None B; lb_ins := true |})
        (upst (with_ho s h pr) ((E1 ++ [(Some (a, length R1), mid)]) ++ [(Some (a, S (length R1)), None)]) 1 (a :: a :: lg))).
    { intros h pr G4. apply bub_fin; auto.
      - rewrite <- !app_assoc. reflexivity.
      - lia.
      - intros x. unfold E1. rl; rin; tauto.
      - intros x Hx. cbn [In] in Hx |- *. destruct Hx as [Hx|[Hx|Hx]]; [tauto|tauto|apply Hlg in Hx; cbn in Hx; tauto]. }
    rewrite ?lf_len.
    assert (Hm : forall x, mid = Some x -> x < length (upds (p_store s) E1)).
    { intros x ->. rewrite upds_length. apply (lt_sok _ _ _ Hs). rewrite keyents_snd. rin. auto. }
    destruct Hw as [(-> & W1 & W2 & W3)|[(j & Hj & -> & Hf & W1 & W2 & W3)|([l0 li] & -> & W1 & W2 & W3 & W4 & W5)]]; [|discriminate|cbn [fst] in W4, W5].
    - nt. nt. erewrite sbind_ok; [|apply lf_push; [lia|exact Hm]]. rewrite upst_upst.
      erewrite sbind_ok; [|apply lf_push; [lia|discriminate]]. rewrite upst_upst, Hlen. nt. nt.
      eexists _, _. split; [reflexivity|].
      rewrite Nat.add_1_r. apply Hfin; auto. split; [cbn [flags upst with_ho p_ho p_present p_skip lb_ins]; auto|]. apply keyents_nth1. lia.
    - nt. nt. erewrite sbind_ok; [|apply lf_push; [lia|exact Hm]]. rewrite upst_upst.
      erewrite sbind_ok; [|apply lf_push; [lia|discriminate]]. rewrite upst_upst, Hlen. nt. nt.
      eexists _, _. split; [reflexivity|].
      apply Hfin; auto. split; [cbn [flags upst with_ho p_ho p_present p_skip lb_ins]; auto|]. auto.
  Qed.

  Lemma sp_small : forall a par A B mid s w, A ++ B = [mid] -> M = 1 -> a < p_next s ->
    Sok (p_store s) (keyents a 0 (A ++ B)) -> NoDup (rids (A ++ B)) -> tpre a (length A) true s w ->
    exists lst s', l_split_leaf_small_m M (lf a par (A ++ B)) (length A) s = Ok (lst, s') /\
      lgood par (lf a par (A ++ B)) (A ++ news true ++ B) w s (LBubble lst) s'.
  Proof.
    intros a par A B mid s w EAB EM Ha Hs Hd Hw. unfold l_split_leaf_small_m. rewrite lf_len.
    replace (M =? 1) with true by (symmetry; apply Nat.eqb_eq; exact EM).
    assert (Hk : length A <= 1) by (apply (f_equal (@length _)) in EAB; rewrite app_length in EAB; cbn in EAB; lia).
    replace (length (A ++ B) =? 1) with true by (rewrite EAB; reflexivity).
    replace (1 <? length A) with false by (symmetry; apply Nat.ltb_ge; exact Hk). cbn [Nat.eqb negb orb].
    rewrite EAB in *.
    destruct (lf_split a par [] mid [] s) as (lg & Esp & Hlg); [dom Hs|apply (mid_dom s a [] mid []); assumption|].
    cbn [app length] in Esp. rewrite (sbind_ok _ _ _ _ _ Esp). cbn beta iota zeta. la. la.
    assert (HS1 := sok_split (p_store s) a (p_next s) [] mid [] Hs Hd). cbn [keyents app] in *.
    assert (Hm : forall x, mid = Some x -> x < length (upds (p_store s) [(None, mid)])).
    { intros x ->. rewrite upds_length. apply (lt_sok _ _ _ Hs). cbn. auto. }
    assert (Hd0 : NoDup (rids [mid])) by exact Hd.
    assert (H2 : length [mid] <= 2 * M) by (cbn; lia).
    assert (H3 : length [@None rid] <= 2 * M) by (cbn; lia).
    rewrite rids_cons, rids_nil, app_nil_r in Hd.
    destruct (Nat.eqb_spec (length A) 0) as [E0|E0].
    - destruct A as [|x A]; [|discriminate]. cbn [app length] in *. subst B.
      erewrite sbind_ok; [|apply lf_push; [cbn [length]; lia|discriminate]]. rewrite upst_upst.
      erewrite sbind_ok; [|apply lf_push; [cbn [length]; lia|]; cbn [upst p_store]; rewrite upds_app, upds_length; exact Hm]. rewrite upst_upst.
      cbn [length app].
      assert (HS3 : Sok (upds (p_store s) [(None, mid); (Some (a, 0), None); (Some (p_next s, 0), mid)])
                (keyents a 0 [None] ++ (None, None) :: keyents (p_next s) 0 [mid])).
      { change [(None, mid); (Some (a, 0), None); (Some (p_next s, 0), mid)] with ([(None, mid)] ++ [(Some (a, 0), None)] ++ [(Some (p_next s, 0), mid)]).
        rewrite !upds_app. change (upds (upds (p_store s) [(None, mid)]) [(Some (a, 0), None)]) with (upds (p_store s) [(None, mid)]).
        apply Sok_app. split; [repeat constructor|]. constructor; [exact Logic.I|].
        assert (G := sok_push (upds (p_store s) [(None, mid)]) [] [] (p_next s) [] mid HS1).
        cbn [app keyents length] in G. apply G. cbn [map snd]. exact Hd0. }
      destruct Hw as [(-> & W1 & W2 & W3)|[(j & Hj & -> & Hf & W1 & W2 & W3)|([l0 li] & -> & W1 & W2 & W3 & W4 & W5)]]; [|discriminate|cbn [fst] in W4, W5].
      + nt. nt. eexists _, _. split; [reflexivity|]. apply bub_fin; auto.
        * intros x. cbn [map snd]. rin. tauto.
        * intros x Hx. cbn [In] in *. destruct Hx as [Hx|[Hx|Hx]]; [tauto|tauto|apply Hlg in Hx; cbn in Hx; tauto].
        * split; [cbn [flags upst with_ho p_ho p_present p_skip lb_ins]; auto|]. apply keyents_nth1. cbn; lia.
      + nt. nt. eexists _, _. split; [reflexivity|]. apply bub_fin; auto.
        * intros x. cbn [map snd]. rin. tauto.
        * intros x Hx. cbn [In] in *. destruct Hx as [Hx|[Hx|Hx]]; [tauto|tauto|apply Hlg in Hx; cbn in Hx; tauto].
        * split; [cbn [flags upst with_ho p_ho p_present p_skip lb_ins]; auto|]. auto.
    - destruct A as [|x [|y A]]; [cbn in E0; lia| |cbn in Hk; lia]. injection EAB as -> EB. cbn [app] in EB. subst B. cbn [app length] in *.
      erewrite sbind_ok; [|apply lf_push; [cbn [length]; lia|exact Hm]]. rewrite upst_upst.
      erewrite sbind_ok; [|apply lf_push; [cbn [length]; lia|discriminate]]. rewrite upst_upst.
      cbn [length app].
      assert (HS3 : Sok (upds (p_store s) [(None, mid); (Some (a, 0), mid); (Some (p_next s, 0), None)])
                (keyents a 0 [mid] ++ (None, None) :: keyents (p_next s) 0 [None])).
      { change [(None, mid); (Some (a, 0), mid); (Some (p_next s, 0), None)] with ([(None, mid)] ++ [(Some (a, 0), mid)] ++ [(Some (p_next s, 0), None)]).
        rewrite !upds_app. cbn [upds]. 
        assert (G := sok_push (upds (p_store s) [(None, mid)]) [] [] a [] mid HS1).
        cbn [app keyents length] in G. apply Sok_app. split; [apply G; cbn [map snd]; exact Hd0|]. repeat constructor. }
      destruct Hw as [(-> & W1 & W2 & W3)|[(j & Hj & -> & Hf & W1 & W2 & W3)|([l0 li] & -> & W1 & W2 & W3 & W4 & W5)]]; [|discriminate|cbn [fst] in W4, W5].
      all: eexists _, _; split; [reflexivity|];
        match goal with |- lgood _ _ _ _ _ _ (upst ?z ?E ?n ?l) =>
          replace (upst z E n l) with (upst (with_ho z (p_ho z) (p_present z)) E n l) by (rewrite with_ho_id; reflexivity) end;
        apply bub_fin; auto.
      all: try (intros x Hx; cbn [In] in *; destruct Hx as [Hx|[Hx|Hx]]; [tauto|tauto|apply Hlg in Hx; cbn in Hx; tauto]).
      all: try (intros x; cbn [map snd]; rin; tauto).
      + split; [hos; cbn [flags upst with_ho p_ho p_present p_skip lb_ins]; hos; auto|]. hos. rewrite keyents_nth2 by reflexivity. cbn. eauto.
      + split; [hos; cbn [flags upst with_ho p_ho p_present p_skip lb_ins]; hos; auto|]. hos. auto.
  Qed.

  Lemma leaf_ok : forall a par A B (two : bool) s w, length (A ++ B) <= 2 * M -> a < p_next s ->
    Sok (p_store s) (keyents a 0 (A ++ B)) -> NoDup (rids (A ++ B)) -> tpre a (length A) two s w ->
    exists lst s', l_no_join_leaf M (length A) two (lf a par (A ++ B)) s = Ok (lst, s') /\
      lgood par (lf a par (A ++ B)) (A ++ news two ++ B) w s lst s'.
  Proof.
    intros a par A B two s w Hl Ha Hs Hd Hw.
    destruct (Nat.lt_ge_cases (length (A ++ B) + (if two then 1 else 0)) (2 * M)) as [Hlt|Hge]; [apply leaf_easy; auto|].
    unfold l_no_join_leaf. rewrite lf_len.
    replace (length (A ++ B) <? length A) with false by (symmetry; apply Nat.ltb_ge; rewrite app_length; lia).
    replace (2 * M - (if two then 1 else 0) <=? length (A ++ B)) with true by (symmetry; apply Nat.leb_le; destruct two; lia).
    cut (exists b s', l_split_leaf M (lf a par (A ++ B)) (length A) two s = Ok (b, s') /\
            lgood par (lf a par (A ++ B)) (A ++ news two ++ B) w s (LBubble b) s').
    { intros (b & s' & E & G). exists (LBubble b), s'. split; [|exact G]. rewrite (sbind_ok _ _ _ _ _ E). reflexivity. }
    unfold l_split_leaf. rewrite lf_len.
    destruct ((M =? 1) && (length (A ++ B) =? 1)) eqn:Esm.
    { apply andb_prop in Esm. destruct Esm as [E1 E2]. apply Nat.eqb_eq in E1, E2. destruct two; [|lia].
      destruct (A ++ B) as [|mid [|y l]] eqn:EAB; try discriminate. rewrite <- EAB in *. apply (sp_small a par A B mid); auto. }
    assert (Hsm : M <> 1 \/ length (A ++ B) <> 1).
    { apply andb_false_iff in Esm. destruct Esm as [E|E]; apply Nat.eqb_neq in E; auto. }
    unfold choose_split, Tree.max_len.
    rewrite app_length in *.
    destruct (Nat.compare_spec (length A) M) as [HkM2|HkM|HkM].
    - destruct (cut1_at M HM A (M - 1)) as (R1 & mid & A2 & -> & EA); [lia|]. rewrite app_length in *. cbn [length] in *.
        assert (A2 = []) as -> by (destruct A2; [auto|cbn in *; lia]). cbn [length] in *.
        replace (length R1 + 1) with (S (length R1)) in * by lia. replace (M - 1) with (length R1) by lia.
        rewrite <- !app_assoc in *. cbn [app] in *.
        destruct (two && (S (length R1) + length B =? 2 * M)) eqn:E2.
        * apply andb_prop in E2. destruct E2 as [-> E2]. apply Nat.eqb_eq in E2. apply (sp_inrL a par R1 mid B s w); auto; lia.
        * apply (sp_inrR a par R1 mid B two s w); auto; lia.
    - destruct (two && (length A + length B <? 2 * M)) eqn:E2.
      + apply andb_prop in E2. destruct E2 as [-> E2]. apply Nat.ltb_lt in E2.
        destruct (Nat.ltb_spec (length A) (M - 1)) as [Hk|Hk].
        * destruct (cut1_at M HM B (M - 2 - length A)) as (B1 & mid & B2 & -> & EB); [lia|]. rewrite app_length in *. cbn [length] in *.
          replace (M - 2) with (length (A ++ B1)) by (rewrite app_length; lia). rewrite (app_assoc A B1 (mid :: B2)) in *.
          apply (sp_inlL a par A B1 mid B2 true s w); auto; rewrite ?app_length, <- ?app_assoc; auto; lia.
        * destruct (cut1_at M HM A (M - 2)) as (R1 & mid & A2 & -> & EA); [lia|]. rewrite app_length in *. cbn [length] in *.
          assert (A2 = []) as -> by (destruct A2; [auto|cbn in *; lia]). cbn [length] in *.
          replace (length R1 + 1) with (S (length R1)) by lia.
          replace (M - 2) with (length R1) by lia. rewrite <- !app_assoc. cbn [app].
          apply (sp_inrL a par R1 mid B s w); auto; try lia; rewrite <- ?app_assoc in *; auto. rewrite ?Nat.add_1_r in Hw. exact Hw.
      + destruct (cut1_at M HM B (M - 1 - length A)) as (B1 & mid & B2 & -> & EB); [destruct two; lia|]. rewrite app_length in *. cbn [length] in *.
        replace (M - 1) with (length (A ++ B1)) by (rewrite app_length; lia). rewrite (app_assoc A B1 (mid :: B2)) in *.
        apply (sp_inlL a par A B1 mid B2 two s w); auto; rewrite ?app_length, <- ?app_assoc; auto; try lia. destruct two; lia.
    - destruct (cut1_at M HM A M) as (R1 & mid & A2 & -> & EA); [lia|]. rewrite app_length in *. cbn [length] in *.
      rewrite <- !app_assoc in *. cbn [app] in *. cbv beta iota zeta.
      replace (length R1 + S (length A2) - (M + 1)) with (length A2) by lia.
      assert (G := sp_inlR a par R1 mid A2 B two s w). rewrite app_length in G. rewrite EA in G. apply G; auto; try lia; [destruct two; lia|].
      replace (S M + length A2) with (length R1 + S (length A2)) by lia. exact Hw.
  Qed.
End Leaf.
