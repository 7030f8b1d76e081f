(** The pointer side of the upward steps of an insertion. *)
From Coq Require Import List Bool Arith Lia Permutation.
From Verif Require Import Base Zip LTree LInsert LTreeP.
Import ListNotations.

(** Counting elements, to decide permutations of concatenations. *)
Definition cnt (x : nat) (l : list nat) : nat := count_occ Nat.eq_dec l x.
Lemma cnt_app : forall x a b, cnt x (a ++ b) = cnt x a + cnt x b.
Proof. intros. apply count_occ_app. Qed.
Lemma cnt_cons : forall x a b, cnt x (a :: b) = cnt x [a] + cnt x b.
Proof. intros. apply (cnt_app x [a] b). Qed.
Lemma perm_cnt : forall a b, Permutation a b <-> (forall x, cnt x a = cnt x b).
Proof. intros. apply Permutation_count_occ. Qed.

Lemma nodup_cnt : forall l, NoDup l <-> (forall x, cnt x l <= 1).
Proof. intros. apply NoDup_count_occ. Qed.
Lemma in_cnt : forall x l, In x l <-> 0 < cnt x l.
Proof. intros. apply count_occ_In. Qed.

Ltac cnts :=
  repeat match goal with
  | |- context [cnt ?x (?a ++ ?b)] => rewrite (cnt_app x a b)
  | |- context [cnt ?x (?a :: ?b :: ?c)] => rewrite (cnt_cons x a (b :: c))
  | H : context [cnt ?x (?a ++ ?b)] |- _ => rewrite (cnt_app x a b) in H
  | H : context [cnt ?x (?a :: ?b :: ?c)] |- _ => rewrite (cnt_cons x a (b :: c)) in H
  end.

Section Up.
  Context (M : nat).
  Hypothesis HM : 1 <= M.
  Notation lok := (lok M).
  Notation loks := (loks M).

  (** ** Node operations *)
  Ltac ifd b v := replace b with v by (symmetry; first [apply Nat.ltb_lt | apply Nat.ltb_ge | apply Nat.leb_le | apply Nat.leb_gt | apply Nat.eqb_eq | apply Nat.eqb_neq]; lia).

  Lemma split_ok : forall a p r1 mid r2 k1 k2 s, length k1 = S (length r1) ->
    (forall x, In x (rids r2) -> x < length (p_store s)) ->
    (forall x, mid = Some x -> ~ In x (rids r2) /\ exists l, nth_error (p_store s) x = Some (Some l)) ->
    exists lg, l_split (LNode a p (r1 ++ mid :: r2) (k1 ++ k2)) (length r1) s =
      Ok ((LNode a p r1 k1, mid, LNode (p_next s) None r2 (setps (p_next s) 0 k2)),
          upst s (keyents (p_next s) 0 r2 ++ [(None, mid)]) 1 lg) /\
      incl lg (p_next s :: a :: flat_map laddrs k2).
  Proof.
    intros a p r1 mid r2 k1 k2 s Hl Hr Hm. unfold l_split.
    rewrite nth_error_app2, Nat.sub_diag by lia. cbn [nth_error].
    rewrite (sbind_ok _ _ _ _ _ (touch_ok a s)), (sbind_ok _ _ _ _ _ (alloc_ok _)).
    replace (skipn (length r1 + 1) (r1 ++ mid :: r2)) with r2
      by (rewrite skipn_app, skipn_all2 by lia; replace (length r1 + 1 - length r1) with 1 by lia; reflexivity).
    replace (firstn (length r1) (r1 ++ mid :: r2)) with r1 by (rewrite firstn_app, firstn_all, Nat.sub_diag; cbn; rewrite app_nil_r; reflexivity).
    replace (length r1 + 1) with (length k1) by lia.
    rewrite skipn_app, skipn_all, Nat.sub_diag, firstn_app, firstn_all, Nat.sub_diag. cbn [skipn firstn app].
    rewrite app_nil_r.
    erewrite sbind_ok; [|apply sr_updates_ok; exact Hr].
    erewrite sbind_ok.
    2:{ apply sr_suspend_ok. intros x Hx. destruct (Hm x Hx) as (H1 & l & H2). exists l. cbn [upst p_store upds fold_left].
        change (fold_left upd1 ?E ?st) with (upds st E). rewrite upds_other by (rewrite keyents_snd; exact H1). exact H2. }
    match goal with |- context [sbind (set_pars ?b 0 k2) _ ?s1] => destruct (set_pars_ok k2 b 0 s1) as (lg & E & Hi) end.
    rewrite (sbind_ok _ _ _ _ _ E). unfold sret. rewrite !upst_upst. eexists. split.
    - cbn [upst p_next plus app]. rewrite app_nil_r. reflexivity.
    - intros x Hx. rewrite !in_app_iff in Hx. cbn [In upst p_next plus] in Hx |- *.
      specialize (Hi x). tauto.
  Qed.

  Lemma ikc_ok : forall a p r1 r r2 k1 k2 ch s, length k1 = S (length r1) -> length (r1 ++ r2) < 2 * M ->
    loks a (length k1) k2 -> (forall x, In x (rids (r :: r2)) -> x < length (p_store s)) ->
    exists lg, l_insert_key_and_child M (LNode a p (r1 ++ r2) (k1 ++ k2)) (length r1) r ch s =
      Ok (LNode a p (r1 ++ r :: r2) (k1 ++ setp (Some (a, length r1 + 1)) ch :: setps a (length r1 + 2) k2),
          upst s (keyents a (length r1) (r :: r2)) 0 lg) /\
      incl lg (a :: laddrs ch ++ flat_map laddrs k2).
  Proof.
    intros a p r1 r r2 k1 k2 ch s Hl Hlen Hk Hr. unfold l_insert_key_and_child.
    rewrite app_length in Hlen. rewrite app_length.
    ifd (length r1 + length r2 <? length r1) false. ifd (2 * M <=? length r1 + length r2) false. cbn [orb].
    rewrite (sbind_ok _ _ _ _ _ (touch_ok a s)).
    rewrite skipn_app, skipn_all, Nat.sub_diag. cbn [skipn app].
    erewrite sbind_ok; [|apply (sr_updates_ok (r :: r2)); exact Hr].
    match goal with |- context [sbind (set_par ?q ch) _ ?s1] => destruct (set_par_ok q ch s1) as (l1 & E1 & H1) end.
    rewrite (sbind_ok _ _ _ _ _ E1).
    replace (length r1 + 1) with (length k1) by lia.
    rewrite skipn_app, skipn_all, Nat.sub_diag, firstn_app, firstn_all, Nat.sub_diag. cbn [skipn firstn app].
    match goal with |- context [sbind (set_idxs ?q k2) _ ?s1] => destruct (set_idxs_ok M k2 a (length k1) q s1 Hk) as (l2 & E2 & H2) end.
    rewrite (sbind_ok _ _ _ _ _ E2). unfold sret. rewrite !upst_upst. eexists. split.
    - unfold insert_at. rewrite firstn_app, firstn_all, Nat.sub_diag, skipn_app, skipn_all, Nat.sub_diag.
      cbn [firstn skipn app plus]. rewrite !app_nil_r. reflexivity.
    - intros x Hx. rewrite !in_app_iff in Hx. cbn [In] in Hx |- *. rewrite in_app_iff.
      specialize (H1 x). specialize (H2 x). tauto.
  Qed.

  Lemma insert_key_ok : forall a p r1 r2 k1 k2 s, length k1 = S (length r1) -> length (r1 ++ r2) < 2 * M ->
    (forall x, In x (rids r2) -> x < length (p_store s)) ->
    l_insert_key M (LNode a p (r1 ++ r2) (k1 ++ k2)) (length r1) s =
      Ok (LNode a p (r1 ++ None :: r2) (k1 ++ LNil :: k2), upst s (keyents a (S (length r1)) r2) 0 [a]).
  Proof.
    intros a p r1 r2 k1 k2 s Hl Hlen Hr. unfold l_insert_key.
    rewrite app_length in Hlen. rewrite app_length.
    ifd (length r1 + length r2 <? length r1) false. ifd (2 * M <=? length r1 + length r2) false. cbn [orb].
    rewrite (sbind_ok _ _ _ _ _ (touch_ok a s)).
    unfold insert_at. replace (length r1 + 1) with (length k1) by lia.
    rewrite !firstn_app, !firstn_all, !skipn_app, !skipn_all, !Nat.sub_diag. cbn [skipn firstn app]. rewrite !app_nil_r.
    erewrite sbind_ok; [|apply (sr_updates_ok r2); exact Hr].
    unfold sret. rewrite upst_upst. cbn [plus app]. rewrite Hl. reflexivity.
  Qed.

  Lemma push_key_ok : forall a p rs ks r s, length rs < 2 * M -> (forall x, r = Some x -> x < length (p_store s)) ->
    l_push_key M (LNode a p rs ks) r s =
      Ok (LNode a p (rs ++ [r]) (ks ++ [LNil]), upst s [(Some (a, length rs), r)] 0 [a]).
  Proof.
    intros a p rs ks r s Hlen Hr. unfold l_push_key. ifd (2 * M <=? length rs) false.
    rewrite (sbind_ok _ _ _ _ _ (touch_ok a s)).
    erewrite sbind_ok; [|apply sr_update_ok; exact Hr]. unfold sret. rewrite upst_upst. reflexivity.
  Qed.

  Lemma pkc_ok : forall a p rs ks r ch s, length rs < 2 * M -> (forall x, r = Some x -> x < length (p_store s)) ->
    exists lg, l_push_key_and_child M (LNode a p rs ks) r ch s =
      Ok (LNode a p (rs ++ [r]) (ks ++ [setp (Some (a, length rs + 1)) ch]), upst s [(Some (a, length rs), r)] 0 lg) /\
      incl lg (a :: laddrs ch).
  Proof.
    intros a p rs ks r ch s Hlen Hr. unfold l_push_key_and_child. ifd (2 * M <=? length rs) false.
    rewrite (sbind_ok _ _ _ _ _ (touch_ok a s)).
    match goal with |- context [sbind (set_par ?q ch) _ ?s1] => destruct (set_par_ok q ch s1) as (l1 & E1 & H1) end.
    rewrite (sbind_ok _ _ _ _ _ E1).
    erewrite sbind_ok; [|apply sr_update_ok; exact Hr]. unfold sret. rewrite !upst_upst. eexists. split; [reflexivity|].
    intros x Hx. rewrite !in_app_iff in Hx. cbn [In] in *. specialize (H1 x). tauto.
  Qed.

  Lemma rfc_ok : forall a p rs c0 ks ch s, exists lg,
    l_replace_first_child (LNode a p rs (c0 :: ks)) ch s =
      Ok ((LNode a p rs (setp (Some (a, 0)) ch :: ks), c0), upst s [] 0 lg) /\ incl lg (a :: laddrs ch).
  Proof.
    intros. unfold l_replace_first_child. rewrite (sbind_ok _ _ _ _ _ (touch_ok a s)).
    match goal with |- context [sbind (set_par ?q ch) _ ?s1] => destruct (set_par_ok q ch s1) as (l1 & E1 & H1) end.
    rewrite (sbind_ok _ _ _ _ _ E1). unfold sret. rewrite !upst_upst. eexists. split; [reflexivity|].
    intros x Hx. rewrite !in_app_iff in Hx. cbn [In] in *. specialize (H1 x). tauto.
  Qed.

  (** ** What a step leaves behind *)
  Definition is_node (t : ltree) : Prop := match t with LNil => False | LNode _ _ _ _ => True end.
  Definition entsof (st : lupstate) : list ent :=
    match st with
    | LDone n => linord n
    | LBubble b => linord (lb_lhs b) ++ (None, lb_key b) :: linord (lb_rhs b)
    end.
  Definition addrsof (st : lupstate) : list addr :=
    match st with LDone n => laddrs n | LBubble b => laddrs (lb_lhs b) ++ laddrs (lb_rhs b) end.
  Definition lokst (par : option loc) (st : lupstate) : Prop :=
    match st with
    | LDone n => lok par n /\ is_node n
    | LBubble b => lok par (lb_lhs b) /\ is_node (lb_lhs b) /\ lok None (lb_rhs b) /\ is_node (lb_rhs b)
    end.

  (** The reported handle: [inl i] is the [i]-th key in order; [inr l] a handle into a node further up. *)
  Definition flags (s : pst) (st : lupstate) : Prop :=
    match p_ho s, st with
    | Some _, LDone _ => p_present s = true
    | Some _, LBubble b => p_present s = true /\ (lb_ins b = true \/ p_skip s = true)
    | None, LDone _ => False
    | None, LBubble b => p_present s = true /\ lb_ins b = true \/
                         p_present s = false /\ lb_ins b = false /\ p_skip s = false
    end.
  Definition trk (w : nat + loc) (st : lupstate) (s : pst) : Prop :=
    flags s st /\
    match w with
    | inl i => exists r, nth_error (entsof st) i = Some (p_ho s, r)
    | inr l => p_ho s = Some l /\ p_skip s = true
    end.
  Definition shift_w (n : nat) (w : nat + loc) : nat + loc := match w with inl i => inl (n + i) | inr l => inr l end.

  Record lgood (par : option loc) (t : ltree) (L : list (option rid)) (w : nat + loc)
         (s : pst) (st : lupstate) (s' : pst) : Prop := {
    g_sok : Sok (p_store s') (entsof st);
    g_refs : map snd (entsof st) = L;
    g_len : length (p_store s') = length (p_store s);
    g_frame : forall r, ~ In r (rids (lrefs t)) -> nth_error (p_store s') r = nth_error (p_store s) r;
    g_next : exists n, p_next s' = n + p_next s /\ Permutation (addrsof st) (laddrs t ++ seq (p_next s) n);
    g_lok : lokst par st;
    g_log : exists lg, p_log s' = lg ++ p_log s /\
              forall x, In x lg -> In x (laddrs t) \/ p_next s <= x < p_next s';
    g_skip : p_skip s' = p_skip s;
    g_trk : trk w st s';
  }.

  Lemma linord_some : forall t i ol r, nth_error (linord t) i = Some (ol, r) -> ol <> None.
  Proof. intros t i ol r H. apply nth_error_In in H. destruct (linord_addr _ _ _ H) as (a & j & -> & _). discriminate. Qed.

  Lemma nth_mid : forall {T} (A : list T) x B i v, nth_error (A ++ x :: B) i = Some v ->
    (i = length A /\ v = x) \/ forall y, nth_error (A ++ y :: B) i = Some v.
  Proof.
    intros T A x B i v H. destruct (Nat.lt_trichotomy i (length A)) as [Hi|[->|Hi]].
    - right. intros y. rewrite nth_error_app1 in * by lia. exact H.
    - left. rewrite nth_error_app2, Nat.sub_diag in H by lia. cbn in H. split; congruence.
    - right. intros y. rewrite nth_error_app2 in * by lia. destruct (i - length A) as [|d] eqn:E; [lia|]. exact H.
  Qed.

  Lemma nth_bubble : forall A B key i ho r,
    nth_error (linord A ++ (None, key) :: linord B) i = Some (ho, r) ->
    (ho = None /\ r = key /\ i = length (linord A)) \/
    (ho <> None /\ forall x, nth_error (linord A ++ x :: linord B) i = Some (ho, r)).
  Proof.
    intros A B key i ho r H. destruct (nth_mid _ _ _ _ _ H) as [[-> E]|E].
    - left. injection E as -> ->. auto.
    - right. split; [|exact E]. specialize (E (Some (0, 0), None)).
      destruct (Nat.lt_trichotomy i (length (linord A))) as [Hi|[->|Hi]].
      + rewrite nth_error_app1 in E by lia. eapply linord_some; eauto.
      + rewrite nth_error_app2, Nat.sub_diag in E by lia. cbn in E. injection E as <- <-. discriminate.
      + rewrite nth_error_app2 in E by lia. destruct (i - length (linord A)) as [|d] eqn:Ed; [lia|].
        cbn in E. eapply linord_some; eauto.
  Qed.

  Lemma nth_place : forall {T} (P Q R : list T) i v, nth_error Q i = Some v -> nth_error (P ++ Q ++ R) (length P + i) = Some v.
  Proof.
    intros T P Q R i v H. rewrite nth_error_app2 by lia. replace (length P + i - length P) with i by lia.
    rewrite nth_error_app1; auto. apply nth_error_Some. congruence.
  Qed.
  Lemma nth_place0 : forall {T} (P Q : list T) i v, nth_error Q i = Some v -> nth_error (P ++ Q) (length P + i) = Some v.
  Proof. intros T P Q i v H. rewrite nth_error_app2 by lia. replace (length P + i - length P) with i by lia. exact H. Qed.

  Lemma laddrs_node : forall a p rs ks, laddrs (LNode a p rs ks) = [a] ++ flat_map laddrs ks.
  Proof. reflexivity. Qed.

  Lemma notify_put : forall s b l, flags s (LBubble b) -> exists s', notify (put (lb_ins b) l) s = Ok (tt, s') /\
    p_store s' = p_store s /\ p_next s' = p_next s /\ p_log s' = p_log s /\ p_skip s' = p_skip s /\
    p_present s' = true /\ p_ho s' = Some (match p_ho s with Some h => h | None => l end).
  Proof.
    intros s b l H. unfold flags in H. unfold notify, put.
    destruct (p_ho s) as [h|] eqn:Eh.
    - destruct H as [Hp [Hi|Hs]].
      + rewrite Hi. exists s. repeat split; auto.
      + destruct (lb_ins b); [|rewrite Hs]; exists s; repeat split; auto.
    - destruct H as [[Hp Hi]|(Hp & Hi & Hs)]; rewrite Hi.
      + rewrite Hp. eexists. split; [reflexivity|]. repeat split; auto.
      + rewrite Hs, Hp. eexists. split; [reflexivity|]. repeat split; auto.
  Qed.

  Lemma fin_good : forall par t L w s0 s1 n1 lst E n lg s',
    p_next s1 = n1 + p_next s0 -> length (p_store s1) = length (p_store s0) ->
    (forall r, ~ In r (rids (lrefs t)) -> nth_error (p_store s1) r = nth_error (p_store s0) r) ->
    (exists lg1, p_log s1 = lg1 ++ p_log s0 /\ forall x, In x lg1 -> In x (laddrs t) \/ p_next s0 <= x < p_next s1) ->
    p_skip s1 = p_skip s0 ->
    p_store s' = upds (p_store s1) E -> p_next s' = n + p_next s1 -> p_log s' = lg ++ p_log s1 -> p_skip s' = p_skip s1 ->
    Sok (upds (p_store s1) E) (entsof lst) -> map snd (entsof lst) = L ->
    (forall r, In r (rids (map snd E)) -> In r (rids (lrefs t))) ->
    Permutation (addrsof lst) (laddrs t ++ seq (p_next s0) (n + n1)) -> lokst par lst ->
    (forall x, In x lg -> In x (laddrs t) \/ p_next s0 <= x < n + n1 + p_next s0) ->
    trk w lst s' -> lgood par t L w s0 lst s'.
  Proof.
    intros par t L w s0 s1 n1 lst E n lg s' H1 H2 H3 (lg1 & H4 & H4') H5 A1 A2 A3 A4 B1 B2 B3 B4 B5 B6 B7.
    constructor; auto.
    - rewrite A1. exact B1.
    - rewrite A1, upds_length. exact H2.
    - intros r Hr. rewrite A1, upds_other; auto.
    - exists (n + n1). split; [lia|exact B4].
    - exists (lg ++ lg1). split; [rewrite A3, H4, app_assoc; reflexivity|].
      intros x Hx. apply in_app_or in Hx. destruct Hx as [Hx|Hx].
      + destruct (B6 x Hx); [auto|right; lia].
      + destruct (H4' x Hx); [auto|right; lia].
    - congruence.
  Qed.

  Lemma trk_up : forall w b s P R o s', trk w (LBubble b) s ->
    p_skip s' = p_skip s ->
    p_ho s' = match p_ho s with Some h => Some h | None => o end ->
    forall st', flags s' st' ->
      entsof st' = P ++ (linord (lb_lhs b) ++ (o, lb_key b) :: linord (lb_rhs b)) ++ R ->
      trk (shift_w (length P) w) st' s'.
  Proof.
    intros w b s P R o s' [Hf Hw] Hs Ho st' Hf' He. split; [exact Hf'|].
    destruct w as [i|l]; cbn [shift_w].
    - destruct Hw as [r Hw]. cbn [entsof] in Hw. exists r. rewrite He. apply nth_place.
      destruct (nth_bubble _ _ _ _ _ _ Hw) as [(E1 & E2 & E3)|(E1 & E2)].
      + rewrite E1 in Ho. rewrite Ho, E2, E3, nth_error_app2, Nat.sub_diag by lia. reflexivity.
      + rewrite Ho. destruct (p_ho s) as [h|]; [|congruence]. apply E2.
    - destruct Hw as [E1 E2]. rewrite Ho, E1. split; congruence.
  Qed.

  Lemma into_parent_ok : forall n a c s, lok (Some (a, c)) n -> is_node n -> into_parent n a c s = Ok (tt, s).
  Proof.
    intros [|b p rs ks] a c s H1 H2; [destruct H2|]. destruct H1 as (-> & _). unfold into_parent, loc_eqb. cbn [l_par fst snd].
    rewrite !Nat.eqb_refl. reflexivity.
  Qed.

  Lemma perm_in : forall (a b : list nat) x, Permutation a b -> In x a -> In x b.
  Proof. intros a b x H. apply Permutation_in. exact H. Qed.

  Ltac ins := rewrite ?in_app_iff; cbn [In]; rewrite ?in_app_iff; cbn [In].

  Lemma lok_intro : forall a par rs ks, length rs <= 2 * M -> length ks = S (length rs) -> loks a 0 ks -> lok par (LNode a par rs ks).
  Proof. intros. repeat split; auto. Qed.

  Lemma rids_cons : forall x l, rids (x :: l) = orid x ++ rids l.
  Proof. reflexivity. Qed.
  Lemma cnt_wls : forall rs ks x, length rs = length ks -> cnt x (rids (wls rs ks)) = cnt x (rids rs) + cnt x (rids (flat_map lrefs ks)).
  Proof.
    induction rs as [|r rs IH]; intros [|k ks] x H; try discriminate; [reflexivity|]. injection H as H.
    cbn [wls flat_map]. rewrite !rids_app, !rids_cons, !cnt_app, (IH ks x H). lia.
  Qed.
  Lemma cnt_wrs : forall rs ks x, length rs = length ks -> cnt x (rids (wrs rs ks)) = cnt x (rids rs) + cnt x (rids (flat_map lrefs ks)).
  Proof.
    induction rs as [|r rs IH]; intros [|k ks] x H; try discriminate; [reflexivity|]. injection H as H.
    cbn [wrs flat_map]. rewrite !rids_cons, !rids_app, !cnt_app, (IH ks x H). lia.
  Qed.
  Lemma rids_nil : rids [] = [].
  Proof. reflexivity. Qed.
  Lemma cnt_nil : forall x, cnt x [] = 0.
  Proof. reflexivity. Qed.
  Lemma cnt_orid : forall x, cnt x (orid (Some x)) = 1.
  Proof. intros x. unfold cnt. cbn. destruct (Nat.eq_dec x x); congruence. Qed.
  Lemma cut_at : forall {T} (l : list T) n, n <= length l -> exists a b, l = a ++ b /\ length a = n.
  Proof. intros T l n H. exists (firstn n l), (skipn n l). rewrite firstn_skipn, firstn_length_le by lia. auto. Qed.
  Lemma cut1_at : forall {T} (l : list T) n, n < length l -> exists a x b, l = a ++ x :: b /\ length a = n.
  Proof.
    intros T l n H. destruct (cut_at l n) as (a & [|x b] & -> & <-); [lia| |].
    - rewrite app_nil_r in H. lia.
    - exists a, x, b. auto.
  Qed.

  Ltac rc := rewrite ?map_app, ?map_cons, ?rids_app, ?rids_cons, ?cnt_app; cbn [snd]; rewrite ?map_app, ?map_cons, ?rids_app, ?rids_cons, ?cnt_app; cbn [map]; rewrite ?rids_nil, ?cnt_nil.

  Lemma lup_step_ok : forall a par r1 r2 k1 ch k2 s0 s1 L w lst,
    length r1 = length k1 -> length r2 = length k2 ->
    lok par (LNode a par (r1 ++ r2) (k1 ++ ch :: k2)) ->
    Sok (p_store s0) (linord (LNode a par (r1 ++ r2) (k1 ++ ch :: k2))) ->
    NoDup (rids (lrefs (LNode a par (r1 ++ r2) (k1 ++ ch :: k2)))) ->
    rids L = rids (lrefs ch) ->
    lgood (Some (a, length r1)) ch L w (upst s0 [] 0 [a]) lst s1 ->
    exists lst' s', lup_step M (LNode a par (r1 ++ r2) (k1 ++ ch :: k2)) (length r1) lst s1 = Ok (lst', s') /\
      lgood par (LNode a par (r1 ++ r2) (k1 ++ ch :: k2)) (wls r1 k1 ++ L ++ wrs r2 k2)
            (shift_w (length (wls r1 k1)) w) s0 lst' s' /\
      (length (r1 ++ r2) < 2 * M \/ length r1 <= M \/ (exists n, lst = LDone n) ->
         exists rest, entsof lst' = wl a 0 r1 k1 ++ rest) /\
      (length (r1 ++ r2) = 2 * M -> M < length r1 -> (exists b, lst = LBubble b) ->
         exists b' rs' ks', lst' = LBubble b' /\ lb_lhs b' = LNode a par rs' ks' /\ length rs' = M).
  Proof.
    intros a par r1 r2 k1 ch k2 s0 s1 L w lst Hl1 Hl2 Hok HS Hnd HL G.
    set (t := LNode a par (r1 ++ r2) (k1 ++ ch :: k2)) in *.
    destruct G as [Gsok Grefs Glen Gframe (n1 & Gn & Gp) Glok (lg1 & Glg & Glg') Gskip Gtrk].
    cbn [upst p_store p_next p_log p_skip upds fold_left plus app] in *.
    assert (Eord : linord t = wl a 0 r1 k1 ++ linord ch ++ wr a (length r1) r2 k2) by (apply linord_cut; auto).
    assert (Eref : lrefs t = wls r1 k1 ++ lrefs ch ++ wrs r2 k2).
    { unfold lrefs at 1. rewrite Eord, !map_app, wl_snd, wr_snd. reflexivity. }
    assert (EL : rids (wls r1 k1 ++ L ++ wrs r2 k2) = rids (lrefs t)) by (rewrite Eref, !rids_app, HL; reflexivity).
    assert (Hfr : forall r, ~ In r (rids (lrefs t)) -> nth_error (p_store s1) r = nth_error (p_store s0) r).
    { intros r Hr. apply Gframe. intros Hi. apply Hr. rewrite Eref, !rids_app, !in_app_iff. auto. }
    assert (HF0 : Sok (p_store s1) (wl a 0 r1 k1 ++ entsof lst ++ wr a (length r1) r2 k2)).
    { rewrite Eord in HS. apply Sok_app in HS. destruct HS as [HS1 HS2]. apply Sok_app in HS2. destruct HS2 as [_ HS2].
      rewrite Eref, !rids_app in Hnd.
      assert (D : forall r, In r (rids (wls r1 k1)) \/ In r (rids (wrs r2 k2)) -> ~ In r (rids (lrefs ch))).
      { intros r Hr Hc. rewrite nodup_cnt in Hnd. specialize (Hnd r). rewrite !in_cnt in *. cnts. lia. }
      apply Sok_app. split; [|apply Sok_app; split; [exact Gsok|]].
      - apply (Sok_frame _ _ _ HS1). intros r Hr. rewrite wl_snd in Hr. apply Gframe. apply D. auto.
      - apply (Sok_frame _ _ _ HS2). intros r Hr. rewrite wr_snd in Hr. apply Gframe. apply D. auto. }
    assert (EmF0 : map snd (wl a 0 r1 k1 ++ entsof lst ++ wr a (length r1) r2 k2) = wls r1 k1 ++ L ++ wrs r2 k2).
    { rewrite !map_app, wl_snd, wr_snd, Grefs. reflexivity. }
    assert (Hlt : forall r, In r (rids (wls r1 k1 ++ L ++ wrs r2 k2)) -> r < length (p_store s1)).
    { intros r Hr. rewrite <- EmF0 in Hr. exact (Sok_lt _ _ _ HF0 Hr). }
    assert (Hlog : exists lg1, p_log s1 = lg1 ++ p_log s0 /\ forall x, In x lg1 -> In x (laddrs t) \/ p_next s0 <= x < p_next s1).
    { exists (lg1 ++ [a]). split; [rewrite Glg, <- app_assoc; reflexivity|].
      intros x Hx. apply in_app_or in Hx. destruct Hx as [Hx|[<-|[]]]; [|left; left; reflexivity].
      destruct (Glg' x Hx) as [Hx'|Hx']; [left|right; exact Hx']. unfold t. cbn [laddrs]. right.
      rewrite flat_map_app, in_app_iff. right. cbn [flat_map]. apply in_or_app. auto. }
    destruct Hok as (_ & Hcap & Hkl & Hks). fold (loks a 0 (k1 ++ ch :: k2)) in Hks. apply alli_app in Hks.
    destruct Hks as [Hk1 [Hkc Hk2]]. cbn [plus] in *. fold (loks a 0 k1) in Hk1.
    fold (loks a (S (length k1)) k2) in Hk2.
    assert (Erep : forall x, replace_at (length r1) x (k1 ++ ch :: k2) = k1 ++ x :: k2)
      by (intros x; rewrite Hl1; apply replace_at_app).
    unfold lup_step. cbn [l_addr]. rewrite (sbind_ok (sret a) _ s1 a s1 eq_refl).
    destruct lst as [nn|b].
    - (* Done *)
      destruct Glok as [Glok Gnode]. rewrite (sbind_ok _ _ _ _ _ (into_parent_ok _ _ _ s1 Glok Gnode)).
      rewrite (sbind_ok _ _ _ _ _ (touch_ok a s1)). unfold t, l_set_child.
      rewrite app_length in Hkl |- *. cbn [length] in Hkl |- *.
      rewrite (proj2 (Nat.ltb_lt (length r1) (length k1 + S (length k2)))) by lia.
      rewrite Erep.
      rewrite (sbind_ok (sret _) _ _ _ _ eq_refl). unfold sret. do 2 eexists. split; [reflexivity|].
      assert (Ee : linord (LNode a par (r1 ++ r2) (k1 ++ nn :: k2)) = wl a 0 r1 k1 ++ linord nn ++ wr a (length r1) r2 k2)
        by (apply linord_cut; auto).
      split; [|split; [intros _; eexists; exact Ee|intros _ _ [b0 Hb0]; discriminate]].
      eapply (fin_good par t _ _ s0 s1 n1 (LDone _) [] 0 [a]); try reflexivity; auto.
      + cbn [entsof upds fold_left]. rewrite Ee. exact HF0.
      + cbn [entsof]. rewrite Ee. exact EmF0.
      + intros r [].
      + cbn [addrsof] in Gp. apply perm_cnt. intros x. pose proof (proj1 (perm_cnt _ _) Gp x) as Hx.
        unfold t. cbn [addrsof plus]. rewrite !laddrs_node, !flat_map_app. cbn [flat_map]. cnts. lia.
      + cbn [lokst]. split; [|exact Logic.I]. cbn [LTreeP.lok]. rewrite !app_length in *. cbn [length]. repeat split; try lia.
        fold (loks a 0 (k1 ++ nn :: k2)). apply alli_app. split; [exact Hk1|]. split; [|exact Hk2]. rewrite Hl1 in Glok. exact Glok.
      + intros x [<-|[]]. left. left. reflexivity.
      + destruct Gtrk as [Gf Gw]. split; [exact Gf|]. destruct w as [i|l]; [|exact Gw].
        destruct Gw as [r Gw]. exists r. cbn [shift_w entsof] in *. rewrite Ee, <- (wl_len r1 k1 a 0). apply nth_place. exact Gw.
    - (* Bubble *)
      destruct Glok as (Gl1 & Gl2 & Gl3 & Gl4).
      rewrite (sbind_ok _ _ _ _ _ (into_parent_ok _ _ _ s1 Gl1 Gl2)). unfold t, l_set_child.
      assert (Hkl' := Hkl). rewrite !app_length in Hkl. cbn [length] in Hkl.
      rewrite (app_length k1 (ch :: k2)). cbn [length].
      rewrite (proj2 (Nat.ltb_lt (length r1) (length k1 + S (length k2)))) by lia.
      rewrite Erep.
      rewrite (sbind_ok (sret _) _ _ _ _ eq_refl).
      cbn [entsof addrsof] in *.
      set (lhs := lb_lhs b) in *. set (rhs := lb_rhs b) in *. set (key := lb_key b) in *.
      assert (Hbad : forall x, In x (laddrs lhs) \/ In x (laddrs rhs) -> In x (laddrs t) \/ p_next s0 <= x < n1 + p_next s0).
      { intros x Hx. assert (Hx' : In x (laddrs ch ++ seq (p_next s0) n1)) by (apply (perm_in _ _ _ Gp), in_or_app; exact Hx).
        apply in_app_or in Hx'. destruct Hx' as [Hx'|Hx'].
        - left. unfold t. rewrite laddrs_node, flat_map_app. cbn [flat_map]. rewrite !in_app_iff. auto.
        - right. apply in_seq in Hx'. lia. }
      assert (Hkad : forall x, In x (flat_map laddrs k1) \/ In x (flat_map laddrs k2) \/ x = a -> In x (laddrs t)).
      { intros x Hx. unfold t. rewrite laddrs_node, flat_map_app. cbn [flat_map In app]. rewrite !in_app_iff. intuition. }
      assert (Hlt2 : forall r, In r (rids (key :: r2)) -> r < length (p_store s1)).
      { intros r Hr. apply Hlt. rewrite <- Grefs, !map_app. cbn [map]. rewrite !rids_app, !in_app_iff.
        change (rids (snd (@None loc, key) :: map snd (linord rhs))) with (orid key ++ rids (map snd (linord rhs))).
        rewrite in_app_iff. cbn in Hr. apply in_app_or in Hr. destruct Hr as [Hr|Hr]; [tauto|]. right. right.
        apply in_rids. apply in_rids in Hr. rewrite <- (wr_snd r2 k2 a 0). apply in_map_iff.
        rewrite <- (keyents_snd r2 a 0) in Hr. apply in_map_iff in Hr. destruct Hr as (e & E1 & E2).
        exists e. split; [exact E1|]. apply in_wr; auto. }
      unfold lbubble_step. cbn [l_addr]. rewrite (sbind_ok (sret a) _ s1 a s1 eq_refl).
      unfold l_len. cbn [l_refs]. destruct (length (r1 ++ r2) <? 2 * M) eqn:Hroom.
      + (* room *)
        apply Nat.ltb_lt in Hroom.
        destruct (ikc_ok a par r1 key r2 (k1 ++ [lhs]) k2 rhs s1) as (lg & E & Hlg); auto.
        { rewrite app_length. cbn. lia. }
        { rewrite app_length, Nat.add_1_r. exact Hk2. }
        rewrite <- app_assoc in E. cbn [app] in E.
        rewrite (sbind_ok _ _ _ _ _ E). clear E.
        match goal with |- context [sbind (notify _) _ ?s2] => destruct (notify_put s2 b (a, length r1) (proj1 Gtrk)) as (s' & E & S1 & S2 & S3 & S4 & S5 & S6) end.
        rewrite (sbind_ok _ _ _ _ _ E). clear E. unfold sret. do 2 eexists. split; [reflexivity|].
        rewrite <- app_assoc. cbn [app].
        fold t. set (t' := LNode a par (r1 ++ key :: r2) _).
        assert (Ee : linord t' = wl a 0 r1 k1 ++ (linord lhs ++ (Some (a, length r1), key) :: linord rhs) ++ wr a (S (length r1)) r2 k2).
        { unfold t'. rewrite linord_cut by (cbn [length]; rewrite ?setps_len; lia). cbn [wr].
          rewrite setp_linord, wr_setps, <- !app_assoc. reflexivity. }
        cbn [upst p_store p_next p_log p_skip p_ho plus] in *.
        split; [|split; [intros _; eexists; exact Ee|intros; lia]].
        eapply (fin_good par t _ _ s0 s1 n1 (LDone t') _ 0 lg); eauto.
        * cbn [entsof]. rewrite Ee. eapply sok_upds; [exact HF0| | | |].
          -- rewrite !map_app. cbn [map snd]. rewrite !wl_snd, !wr_snd. reflexivity.
          -- rewrite !map_app, wl_snd, wr_snd. cbn [map snd].
             rewrite map_app in Grefs. cbn [map snd] in Grefs. rewrite Grefs, EL. exact Hnd.
          -- intros x Hx. cbn [keyents] in Hx. ins. destruct Hx as [<-|Hx]; [tauto|]. do 2 right. apply in_wr; auto.
          -- intros x Hx. revert Hx. cbn [keyents]. ins. rewrite !(in_wr r2 k2) by auto. tauto.
        * cbn [entsof]. rewrite Ee, <- EmF0, !map_app. cbn [map snd]. rewrite !wr_snd. reflexivity.
        * intros r Hr. rewrite keyents_snd in Hr. rewrite <- EL, <- EmF0. rewrite !map_app. cbn [map snd].
          cbn in Hr. apply in_app_or in Hr. rewrite !rids_app, !in_app_iff.
          change (rids (key :: map snd (linord rhs))) with (orid key ++ rids (map snd (linord rhs))).
          rewrite in_app_iff. destruct Hr as [Hr|Hr]; [tauto|]. right. right.
          rewrite wr_snd. apply in_rids. apply in_rids in Hr. rewrite <- (wr_snd r2 k2 a 0). apply in_map_iff.
          rewrite <- (keyents_snd r2 a 0) in Hr. apply in_map_iff in Hr. destruct Hr as (e & E1 & E2).
          exists e. split; [exact E1|]. apply in_wr; auto.
        * apply perm_cnt. intros x. pose proof (proj1 (perm_cnt _ _) Gp x) as Hx.
          unfold t, t'. cbn [addrsof plus]. rewrite !laddrs_node, !flat_map_app. cbn [flat_map].
          rewrite setp_laddrs, setps_laddrs. cnts. lia.
        * cbn [lokst]. split; [|exact Logic.I]. unfold t'. cbn [LTreeP.lok].
          rewrite !app_length in *. cbn [length]. rewrite setps_len. repeat split; try lia.
          fold (loks a 0 (k1 ++ lhs :: setp (Some (a, length r1 + 1)) rhs :: setps a (length r1 + 2) k2)).
          apply alli_app. split; [exact Hk1|]. split; [rewrite Hl1 in Gl1; exact Gl1|]. split.
          -- rewrite Hl1, Nat.add_1_r. eapply lok_setp. exact Gl3.
          -- rewrite Hl1. replace (length k1 + 2) with (S (S (length k1))) by lia. eapply loks_setps. exact Hk2.
        * intros x Hx. apply Hlg in Hx. cbn [In] in Hx. rewrite in_app_iff in Hx.
          destruct Hx as [<-|[Hx|Hx]]; [left; apply Hkad; auto | apply Hbad; auto | left; apply Hkad; auto].
        * rewrite <- (wl_len r1 k1 a 0). eapply trk_up; [exact Gtrk|auto| | |exact Ee].
          -- rewrite S6. destruct (p_ho s1); reflexivity.
          -- unfold flags. rewrite S6. exact S5.
      + (* the node is split *)
        apply Nat.ltb_ge in Hroom. assert (Hfull : length r1 + length r2 = 2 * M) by (rewrite app_length in *; lia).
        assert (HnL : forall x, cnt x (rids (wls r1 k1 ++ L ++ wrs r2 k2)) <= 1) by (apply nodup_cnt; rewrite EL; exact Hnd).
        set (a' := p_next s1).
        assert (Ea' : [a'] = seq (p_next s0 + n1) 1) by (unfold a'; cbn; f_equal; lia).
        destruct (Nat.lt_trichotomy (length r1) M) as [HcM|[HcM|HcM]].
        * (* into the left half *)
          destruct (cut1_at r2 (M - 1 - length r1)) as (ra & mid & rb & Er2 & Hra); [lia|].
          assert (Hrb : length rb = M) by (rewrite Er2, app_length in Hfull; cbn in Hfull; lia).
          destruct (cut1_at k2 (M - 1 - length r1)) as (ka & kk & kb & Ek2 & Hka); [lia|].
          assert (Hkb : length kb = M) by (rewrite Er2, Ek2, !app_length in Hl2; cbn in Hl2; lia).
          assert (Hka' : length ra = length ka) by lia. assert (Hkb' : length rb = length kb) by lia.
          rewrite (proj2 (Nat.ltb_ge M (length r1))) by lia.
          replace (M - 1) with (length (r1 ++ ra)) by (rewrite app_length; lia).
          assert (Ewr : forall b i, wr b i r2 k2 = wr b i ra ka ++ (Some (b, i + length ra), mid) :: linord kk ++ wr b (S (i + length ra)) rb kb).
          { intros b' i. rewrite Er2, Ek2, wr_app by auto. reflexivity. }
          assert (Ewrs : wrs r2 k2 = wrs ra ka ++ mid :: lrefs kk ++ wrs rb kb).
          { rewrite <- (wr_snd r2 k2 0 0), Ewr, map_app. cbn [map snd]. rewrite map_app, !wr_snd. reflexivity. }
          assert (Hmid : forall x, mid = Some x -> ~ In x (rids rb) /\ exists l, nth_error (p_store s1) x = Some (Some l)).
          { intros x ->. split.
            - intros Hx. specialize (HnL x). rewrite Ewrs in HnL. revert HnL. rc. rewrite (cnt_wrs rb kb) by auto.
              rewrite cnt_orid. apply in_cnt in Hx. lia.
            - exists (a, length r1 + length ra). apply (Sok_in _ _ _ _ HF0). rewrite Ewr. ins. tauto. }
          assert (Hltb : forall x, In x (rids rb) -> x < length (p_store s1)).
          { intros x Hx. apply Hlt. apply in_cnt. apply in_cnt in Hx. rewrite Ewrs. rc. rewrite (cnt_wrs rb kb) by auto. lia. }
          destruct (split_ok a par (r1 ++ ra) mid rb (k1 ++ lhs :: ka) (kk :: kb) s1) as (lg & E & Hlg); auto.
          { rewrite !app_length. cbn [length]. lia. }
          rewrite <- !app_assoc in E. cbn [app] in E. rewrite <- Er2, <- Ek2 in E.
          rewrite (sbind_ok _ _ _ _ _ E). clear E. fold a'. fold a' in Hlg.
          rewrite (proj2 (Nat.eqb_neq (length r1) M)) by lia. cbn [negb].
          match goal with |- context [sbind (l_insert_key_and_child _ _ _ _ _) _ ?s2] =>
            destruct (ikc_ok a par r1 key ra (k1 ++ [lhs]) ka rhs s2) as (lg2 & E & Hlg2) end; auto.
          { rewrite app_length. cbn. lia. }
          { rewrite app_length. lia. }
          { rewrite app_length, Nat.add_1_r. cbn [length]. rewrite Ek2 in Hk2. apply alli_app in Hk2. apply Hk2. }
          { intros x Hx. cbn [upst p_store]. rewrite upds_length. apply Hlt2. apply in_cnt. apply in_cnt in Hx. rewrite Er2.
            revert Hx. rc. lia. }
          rewrite <- app_assoc in E. cbn [app] in E.
          rewrite (sbind_ok _ _ _ _ _ E). clear E. rewrite upst_upst.
          match goal with |- context [sbind (notify _) _ ?s2] => destruct (notify_put s2 b (a, length r1) (proj1 Gtrk)) as (s' & E & S1 & S2 & S3 & S4 & S5 & S6) end.
          rewrite (sbind_ok _ _ _ _ _ E). clear E. unfold sret. do 2 eexists. split; [reflexivity|].
          rewrite <- app_assoc. cbn [app]. fold t. set (t' := LNode a par (r1 ++ key :: ra) _). set (t2 := LNode a' None rb _).
          assert (Ee1 : linord t' = wl a 0 r1 k1 ++ (linord lhs ++ (Some (a, length r1), key) :: linord rhs) ++ wr a (S (length r1)) ra ka).
          { unfold t'. rewrite linord_cut by (cbn [length]; rewrite ?setps_len; lia). cbn [wr].
            rewrite setp_linord, wr_setps, <- !app_assoc. reflexivity. }
          assert (Ee2 : linord t2 = linord kk ++ wr a' 0 rb kb).
          { unfold t2. cbn [linord setps]. rewrite weave_wr by (rewrite setps_len; auto). rewrite setp_linord, wr_setps. reflexivity. }
          set (st' := LBubble _).
          assert (Ee : entsof st' = wl a 0 r1 k1 ++ (linord lhs ++ (Some (a, length r1), key) :: linord rhs) ++
                                    wr a (S (length r1)) ra ka ++ (None, mid) :: linord kk ++ wr a' 0 rb kb).
          { unfold st'. cbn [entsof lb_lhs lb_rhs lb_key]. rewrite Ee1, Ee2, <- !app_assoc. reflexivity. }
          cbn [upst p_store p_next p_log p_skip p_ho plus] in *.
          assert (EmF : map snd (entsof st') = wls r1 k1 ++ L ++ wrs r2 k2).
          { rewrite Ee, Ewrs, <- Grefs. rewrite !map_app. cbn [map snd]. rewrite !map_app, wl_snd, !wr_snd. reflexivity. }
          split; [|split; [intros _; eexists; exact Ee|intros; lia]].
          eapply (fin_good par t _ _ s0 s1 n1 st' _ 1 (lg2 ++ lg)); eauto.
          -- set (F1 := wl a 0 r1 k1 ++ (linord lhs ++ (None, key) :: linord rhs) ++ wr a (length r1) ra ka ++ (None, mid) :: linord kk ++ wr a' 0 rb kb).
             assert (EmF1 : map snd F1 = wls r1 k1 ++ L ++ wrs r2 k2).
             { unfold F1. rewrite Ewrs, <- Grefs. rewrite !map_app. cbn [map snd]. rewrite !map_app, wl_snd, !wr_snd. reflexivity. }
             assert (HF1 : Sok (upds (p_store s1) (keyents a' 0 rb ++ [(None, mid)])) F1).
             { eapply sok_upds; [exact HF0|congruence|rewrite EmF1, EL; exact Hnd| |].
               - intros x Hx. unfold F1. apply in_app_or in Hx. ins. rewrite (in_wr rb kb) by auto. cbn [In] in Hx. tauto.
               - intros x Hx. revert Hx. unfold F1. rewrite (Ewr a (length r1)). ins. rewrite !(in_wr rb kb) by auto. tauto. }
             rewrite upds_app. eapply sok_upds; [exact HF1|congruence|rewrite EmF, EL; exact Hnd| |].
             ++ intros x Hx. cbn [keyents In] in Hx. rewrite Ee. ins. rewrite (in_wr ra ka) by auto. tauto.
             ++ intros x Hx. revert Hx. rewrite Ee. unfold F1. cbn [keyents]. ins. rewrite !(in_wr ra ka) by auto. tauto.
          -- intros r Hr. apply in_cnt. apply in_cnt in Hr. rewrite <- EL, <- Grefs. rewrite Ewrs. revert Hr.
             cbn [keyents]. rc. rewrite !keyents_snd, (cnt_wrs ra ka), (cnt_wrs rb kb) by auto. cbn [orid]. lia.
          -- apply perm_cnt. intros x. pose proof (proj1 (perm_cnt _ _) Gp x) as Hx.
             unfold st'. cbn [addrsof lb_lhs lb_rhs]. replace (1 + n1) with (n1 + 1) by lia. rewrite seq_app, <- Ea'.
             unfold t, t', t2. rewrite Ek2. rewrite !laddrs_node, !flat_map_app. cbn [flat_map setps].
             rewrite !setp_laddrs, !setps_laddrs, !flat_map_app. cbn [flat_map]. cnts. lia.
          -- cbn [lokst st' lb_lhs lb_rhs]. rewrite Ek2 in Hk2. apply alli_app in Hk2. destruct Hk2 as [Hk2 Hk3].
             split; [|split; [exact Logic.I|split; [|exact Logic.I]]].
             ++ unfold t'. cbn [LTreeP.lok]. rewrite !app_length in *. cbn [length]. rewrite setps_len. repeat split; try lia.
                fold (loks a 0 (k1 ++ lhs :: setp (Some (a, length r1 + 1)) rhs :: setps a (length r1 + 2) ka)).
                apply alli_app. split; [exact Hk1|]. split; [rewrite Hl1 in Gl1; exact Gl1|]. split.
                ** rewrite Hl1, Nat.add_1_r. eapply lok_setp. exact Gl3.
                ** rewrite Hl1. replace (length k1 + 2) with (S (S (length k1))) by lia. eapply loks_setps. exact Hk2.
             ++ apply lok_intro; [lia|rewrite setps_len; cbn [length]; lia|]. eapply loks_setps. exact Hk3.
          -- intros x Hx. apply in_app_or in Hx. destruct Hx as [Hx|Hx].
             ++ apply Hlg2 in Hx. cbn [In] in Hx. rewrite in_app_iff in Hx.
                destruct Hx as [<-|[Hx|Hx]]; [left; apply Hkad; auto | destruct (Hbad x (or_intror Hx)); [auto|right; lia] | left; apply Hkad].
                rewrite Ek2, flat_map_app, in_app_iff. auto.
             ++ apply Hlg in Hx. destruct Hx as [<-|[<-|Hx]].
                ** right. unfold a'. lia.
                ** left. apply Hkad. auto.
                ** left. apply Hkad. rewrite Ek2, flat_map_app, in_app_iff. auto.
          -- rewrite <- (wl_len r1 k1 a 0). eapply trk_up; [exact Gtrk|auto| | |exact Ee].
             ++ rewrite S6. destruct (p_ho s1); reflexivity.
             ++ unfold flags. rewrite S6. split; [exact S5|left; reflexivity].
        * (* the bubbled key is the new midpoint *)
          destruct (cut1_at r1 (M - 1)) as (ra & mid & rb & Er1 & Hra); [lia|].
          assert (rb = []) by (destruct rb; auto; rewrite Er1, app_length in HcM; cbn in HcM; lia). subst rb.
          destruct (cut1_at k1 (M - 1)) as (ka & kk & kb & Ek1 & Hka); [lia|].
          assert (kb = []) by (destruct kb; auto; rewrite Ek1, app_length in Hl1; cbn in Hl1; lia). subst kb.
          assert (Hka' : length ra = length ka) by lia.
          rewrite (proj2 (Nat.ltb_ge M (length r1))) by lia.
          replace (M - 1) with (length ra) by lia.
          assert (Ewl : wl a 0 r1 k1 = wl a 0 ra ka ++ linord kk ++ [(Some (a, length ra), mid)]).
          { rewrite Er1, Ek1, wl_app by auto. reflexivity. }
          assert (Ewls : wls r1 k1 = wls ra ka ++ lrefs kk ++ [mid]).
          { rewrite <- (wl_snd r1 k1 a 0), Ewl, !map_app, wl_snd. reflexivity. }
          assert (Hmid : forall x, mid = Some x -> ~ In x (rids r2) /\ exists l, nth_error (p_store s1) x = Some (Some l)).
          { intros x ->. split.
            - intros Hx. specialize (HnL x). rewrite Ewls in HnL. revert HnL. rc. rewrite (cnt_wrs r2 k2) by auto.
              rewrite cnt_orid. apply in_cnt in Hx. lia.
            - exists (a, length ra). apply (Sok_in _ _ _ _ HF0). rewrite Ewl. ins. tauto. }
          destruct (split_ok a par ra mid r2 k1 (lhs :: k2) s1) as (lg & E & Hlg); auto.
          { lia. }
          { intros x Hx. apply Hlt2. cbn. apply in_or_app. auto. }
          replace (ra ++ mid :: r2) with (r1 ++ r2) in E by (rewrite Er1, <- app_assoc; reflexivity).
          rewrite (sbind_ok _ _ _ _ _ E). clear E. fold a'. fold a' in Hlg.
          rewrite (proj2 (Nat.eqb_eq (length r1) M)) by lia. cbn [negb setps].
          match goal with |- context [sbind (l_replace_first_child (LNode a' ?q ?rs (?c :: ?ks)) _) _ ?s2] =>
            destruct (rfc_ok a' q rs c ks rhs s2) as (lg2 & E & Hlg2) end.
          rewrite (sbind_ok _ _ _ _ _ E). clear E.
          match goal with |- context [sbind (l_push_key_and_child _ _ _ ?c) _ ?s2] =>
            destruct (pkc_ok a par ra k1 mid c s2) as (lg3 & E & Hlg3) end; [lia| |].
          { intros x ->. cbn [upst p_store]. rewrite !upds_length. destruct (Hmid x eq_refl) as (_ & l & Hx). apply nth_error_Some. congruence. }
          rewrite (sbind_ok _ _ _ _ _ E). clear E. unfold sret. rewrite !upst_upst.
          do 2 eexists. split; [reflexivity|]. fold t.
          set (t' := LNode a par (ra ++ [mid]) _). set (t2 := LNode a' None r2 _).
          assert (Ee1 : linord t' = wl a 0 r1 k1 ++ linord lhs).
          { unfold t'. rewrite <- Er1. rewrite <- (app_nil_r r1) at 1. rewrite linord_cut by auto.
            cbn [wr]. rewrite !setp_linord, app_nil_r. reflexivity. }
          assert (Ee2 : linord t2 = linord rhs ++ wr a' 0 r2 k2).
          { unfold t2. cbn [linord]. rewrite weave_wr by (rewrite setps_len; auto). rewrite setp_linord, wr_setps. reflexivity. }
          set (st' := LBubble _).
          assert (Ee : entsof st' = wl a 0 r1 k1 ++ (linord lhs ++ (None, key) :: linord rhs) ++ wr a' 0 r2 k2).
          { unfold st'. cbn [entsof lb_lhs lb_rhs lb_key]. rewrite Ee1, Ee2, <- !app_assoc. reflexivity. }
          assert (EmF : map snd (entsof st') = wls r1 k1 ++ L ++ wrs r2 k2).
          { rewrite Ee, <- Grefs. rewrite !map_app. cbn [map snd]. rewrite wl_snd, !wr_snd. reflexivity. }
          split; [|split; [intros _; eexists; exact Ee|intros; lia]].
          eapply (fin_good par t _ _ s0 s1 n1 st' ((keyents a' 0 r2 ++ [(None, mid)]) ++ [(Some (a, length ra), mid)]) 1 ((lg3 ++ lg2) ++ lg)); try reflexivity; auto.
          -- set (F1 := wl a 0 ra ka ++ linord kk ++ [(None, mid)] ++ (linord lhs ++ (None, key) :: linord rhs) ++ wr a' 0 r2 k2).
             assert (EmF1 : map snd F1 = wls r1 k1 ++ L ++ wrs r2 k2).
             { unfold F1. rewrite Ewls, <- Grefs. rewrite !map_app. cbn [map snd]. rewrite wl_snd, !wr_snd, <- !app_assoc. reflexivity. }
             assert (HF1 : Sok (upds (p_store s1) (keyents a' 0 r2 ++ [(None, mid)])) F1).
             { eapply sok_upds; [exact HF0|congruence|rewrite EmF1, EL; exact Hnd| |].
               - intros x Hx. unfold F1. apply in_app_or in Hx. ins. rewrite (in_wr r2 k2) by auto. cbn [In] in Hx. tauto.
               - intros x Hx. revert Hx. unfold F1. rewrite Ewl. ins. rewrite !(in_wr r2 k2) by auto. tauto. }
             rewrite upds_app. eapply sok_upds; [exact HF1|congruence|rewrite EmF, EL; exact Hnd| |].
             ++ intros x Hx. cbn [In] in Hx. rewrite Ee, Ewl. ins. tauto.
             ++ intros x Hx. revert Hx. rewrite Ee, Ewl. unfold F1. ins. tauto.
          -- intros r Hr. apply in_cnt. apply in_cnt in Hr. rewrite <- EL, <- Grefs. rewrite Ewls. revert Hr.
             rc. rewrite !keyents_snd, (cnt_wrs r2 k2) by auto. lia.
          -- apply perm_cnt. intros x. pose proof (proj1 (perm_cnt _ _) Gp x) as Hx.
             unfold st'. cbn [addrsof lb_lhs lb_rhs]. replace (1 + n1) with (n1 + 1) by lia. rewrite seq_app, <- Ea'.
             unfold t, t', t2. rewrite !laddrs_node, !flat_map_app. cbn [flat_map].
             rewrite !setp_laddrs, !setps_laddrs, app_nil_r. cnts. lia.
          -- cbn [lokst st' lb_lhs lb_rhs]. split; [|split; [exact Logic.I|split; [|exact Logic.I]]].
             ++ apply lok_intro; [rewrite app_length; cbn; lia|rewrite !app_length; cbn; lia|].
                apply alli_app. split; [exact Hk1|]. split; [|exact Logic.I]. cbn [plus].
                replace (length ra + 1) with (length k1) by lia. eapply lok_setp. eapply lok_setp. exact Gl1.
             ++ unfold t2. apply lok_intro; [lia|cbn [length]; rewrite setps_len; lia|]. split; [eapply lok_setp; exact Gl3|]. eapply loks_setps. exact Hk2.
          -- intros x Hx. rewrite !in_app_iff in Hx. destruct Hx as [[Hx|Hx]|Hx].
             ++ apply Hlg3 in Hx. rewrite setp_laddrs in Hx. destruct Hx as [<-|Hx]; [left; apply Hkad; auto|].
                destruct (Hbad x (or_introl Hx)); [auto|right; lia].
             ++ apply Hlg2 in Hx. destruct Hx as [<-|Hx]; [right; unfold a'; lia|].
                destruct (Hbad x (or_intror Hx)); [auto|right; lia].
             ++ apply Hlg in Hx. cbn [In flat_map] in Hx. rewrite in_app_iff in Hx. destruct Hx as [<-|[<-|[Hx|Hx]]].
                ** right. unfold a'. lia.
                ** left. apply Hkad. auto.
                ** destruct (Hbad x (or_introl Hx)); [auto|right; lia].
                ** left. apply Hkad. auto.
          -- rewrite <- (wl_len r1 k1 a 0). eapply trk_up; [exact Gtrk|reflexivity| | |exact Ee].
             ++ cbn [upst p_ho]. destruct (p_ho s1); reflexivity.
             ++ exact (proj1 Gtrk).
        * (* into the right half *)
          destruct (cut1_at r1 M) as (ra & mid & rb & Er1 & Hra); [lia|].
          destruct (cut1_at k1 M) as (ka & kk & kb & Ek1 & Hka); [lia|].
          assert (Hka' : length ra = length ka) by lia.
          assert (Hkb' : length rb = length kb) by (rewrite Er1, Ek1, !app_length in Hl1; cbn in Hl1; lia).
          assert (Hc : length r1 = M + 1 + length rb) by (rewrite Er1, app_length; cbn; lia).
          rewrite (proj2 (Nat.ltb_lt M (length r1))) by lia.
          assert (Ewl : wl a 0 r1 k1 = wl a 0 ra ka ++ linord kk ++ (Some (a, length ra), mid) :: wl a (S (length ra)) rb kb).
          { rewrite Er1, Ek1, wl_app by auto. reflexivity. }
          assert (Ewls : wls r1 k1 = wls ra ka ++ lrefs kk ++ mid :: wls rb kb).
          { rewrite <- (wl_snd r1 k1 a 0), Ewl, !map_app. cbn [map snd]. rewrite !wl_snd. reflexivity. }
          assert (Hmid : forall x, mid = Some x -> ~ In x (rids (rb ++ r2)) /\ exists l, nth_error (p_store s1) x = Some (Some l)).
          { intros x ->. split.
            - intros Hx. specialize (HnL x). rewrite Ewls in HnL. revert HnL. rc. rewrite (cnt_wrs r2 k2), (cnt_wls rb kb) by auto.
              rewrite cnt_orid. apply in_cnt in Hx. revert Hx. rc. lia.
            - exists (a, length ra). apply (Sok_in _ _ _ _ HF0). rewrite Ewl. ins. tauto. }
          destruct (split_ok a par ra mid (rb ++ r2) (ka ++ [kk]) (kb ++ lhs :: k2) s1) as (lg & E & Hlg); auto.
          { rewrite app_length. cbn. lia. }
          { intros x Hx. apply Hlt. apply in_cnt. apply in_cnt in Hx. rewrite Ewls. revert Hx. rc.
            rewrite (cnt_wrs r2 k2), (cnt_wls rb kb) by auto. lia. }
          replace (ra ++ mid :: rb ++ r2) with (r1 ++ r2) in E by (rewrite Er1, <- app_assoc; reflexivity).
          replace ((ka ++ [kk]) ++ kb ++ lhs :: k2) with (k1 ++ lhs :: k2) in E by (rewrite Ek1, <- !app_assoc; reflexivity).
          rewrite Hra in E.
          rewrite (sbind_ok _ _ _ _ _ E). clear E. fold a'. fold a' in Hlg.
          rewrite (proj2 (Nat.eqb_neq (length r1) M)) by lia. cbn [negb].
          replace (length r1 - (M + 1)) with (length rb) by lia.
          rewrite setps_app. cbn [setps plus].
          set (kb' := setps a' 0 kb). set (lhs' := setp (Some (a', length kb)) lhs). set (k2' := setps a' (S (length kb)) k2).
          assert (Hk2' : loks a' (length (kb' ++ [lhs'])) k2').
          { rewrite app_length. unfold kb'. rewrite setps_len, Nat.add_1_r. eapply loks_setps. exact Hk2. }
          match goal with |- context [sbind (l_insert_key_and_child _ _ _ _ _) _ ?s2] =>
            destruct (ikc_ok a' None rb key r2 (kb' ++ [lhs']) k2' rhs s2) as (lg2 & E & Hlg2) end; auto.
          { rewrite app_length. unfold kb'. rewrite setps_len. cbn. lia. }
          { rewrite app_length. lia. }
          { intros x Hx. cbn [upst p_store]. rewrite upds_length. apply Hlt2. exact Hx. }
          rewrite <- app_assoc in E. cbn [app] in E.
          rewrite (sbind_ok _ _ _ _ _ E). clear E. rewrite upst_upst. cbn [l_addr].
          match goal with |- context [sbind (sret a') _ ?s2] => rewrite (sbind_ok (sret a') _ s2 a' s2 eq_refl) end.
          match goal with |- context [sbind (notify _) _ ?s2] => destruct (notify_put s2 b (a', length rb) (proj1 Gtrk)) as (s' & E & S1 & S2 & S3 & S4 & S5 & S6) end.
          rewrite (sbind_ok _ _ _ _ _ E). clear E. unfold sret. do 2 eexists. split; [reflexivity|].
          rewrite <- app_assoc. cbn [app]. fold t. set (t' := LNode a par ra _). set (t2 := LNode a' None (rb ++ key :: r2) _).
          assert (Ee1 : linord t' = wl a 0 ra ka ++ linord kk).
          { unfold t'. rewrite <- (app_nil_r ra) at 1. rewrite linord_cut by auto. cbn [wr]. rewrite app_nil_r. reflexivity. }
          assert (Ee2 : linord t2 = wl a' 0 rb kb ++ (linord lhs ++ (Some (a', length rb), key) :: linord rhs) ++ wr a' (S (length rb)) r2 k2).
          { unfold t2. rewrite linord_cut by (unfold kb', k2'; cbn [length]; rewrite ?setps_len; lia). cbn [wr].
            unfold kb', k2', lhs'. rewrite !setp_linord, !wl_setps, !wr_setps, <- !app_assoc. reflexivity. }
          set (st' := LBubble _).
          assert (Ee : entsof st' = (wl a 0 ra ka ++ linord kk ++ (None, mid) :: wl a' 0 rb kb) ++
                                    (linord lhs ++ (Some (a', length rb), key) :: linord rhs) ++ wr a' (S (length rb)) r2 k2).
          { unfold st'. cbn [entsof lb_lhs lb_rhs lb_key]. rewrite Ee1, Ee2, <- !app_assoc. reflexivity. }
          cbn [upst p_store p_next p_log p_skip p_ho plus] in *.
          assert (EmF : map snd (entsof st') = wls r1 k1 ++ L ++ wrs r2 k2).
          { rewrite Ee, Ewls, <- Grefs. rewrite !map_app. cbn [map snd]. rewrite !wl_snd, !wr_snd. reflexivity. }
          split; [|split; [rewrite app_length; intros [Hx|[Hx|[n0 Hx]]]; [lia|lia|discriminate]|]].
          2:{ intros _ _ _. unfold st'. do 3 eexists. split; [reflexivity|]. split; [reflexivity|exact Hra]. }
          eapply (fin_good par t _ _ s0 s1 n1 st' _ 1 (lg2 ++ lg)); eauto.
          -- set (F1 := (wl a 0 ra ka ++ linord kk ++ (None, mid) :: wl a' 0 rb kb) ++ (linord lhs ++ (None, key) :: linord rhs) ++ wr a' (length rb) r2 k2).
             assert (EmF1 : map snd F1 = wls r1 k1 ++ L ++ wrs r2 k2).
             { unfold F1. rewrite Ewls, <- Grefs. rewrite !map_app. cbn [map snd]. rewrite !wl_snd, !wr_snd. reflexivity. }
             assert (Eke : keyents a' 0 (rb ++ r2) = keyents a' 0 rb ++ keyents a' (length rb) r2).
             { apply keyents_app. }
             assert (HF1 : Sok (upds (p_store s1) (keyents a' 0 (rb ++ r2) ++ [(None, mid)])) F1).
             { eapply sok_upds; [exact HF0|congruence|rewrite EmF1, EL; exact Hnd| |].
               - intros x Hx. unfold F1. rewrite Eke in Hx. rewrite !in_app_iff in Hx. ins. rewrite (in_wr r2 k2), (in_wl rb kb) by auto. cbn [In] in Hx. tauto.
               - intros x Hx. revert Hx. unfold F1. rewrite Ewl, Eke. ins. rewrite !(in_wr r2 k2), !(in_wl rb kb) by auto. tauto. }
             rewrite upds_app. eapply sok_upds; [exact HF1|congruence|rewrite EmF, EL; exact Hnd| |].
             ++ intros x Hx. cbn [keyents In] in Hx. rewrite Ee. ins. rewrite (in_wr r2 k2) by auto. tauto.
             ++ intros x Hx. revert Hx. rewrite Ee. unfold F1. cbn [keyents]. ins. rewrite !(in_wr r2 k2) by auto. tauto.
          -- intros r Hr. apply in_cnt. apply in_cnt in Hr. rewrite <- EL, <- Grefs. rewrite Ewls. revert Hr.
             cbn [keyents]. rc. rewrite !keyents_snd. rc. rewrite (cnt_wrs r2 k2), (cnt_wls rb kb) by auto. lia.
          -- apply perm_cnt. intros x. pose proof (proj1 (perm_cnt _ _) Gp x) as Hx.
             unfold st'. cbn [addrsof lb_lhs lb_rhs]. replace (1 + n1) with (n1 + 1) by lia. rewrite seq_app, <- Ea'.
             unfold t, t', t2, kb', k2', lhs'. rewrite Ek1. rewrite !laddrs_node, !flat_map_app. cbn [flat_map].
             rewrite !setp_laddrs, !setps_laddrs, ?flat_map_app. cbn [flat_map]. rewrite ?app_nil_r. cnts. lia.
          -- cbn [lokst st' lb_lhs lb_rhs]. rewrite Ek1 in Hk1. apply alli_app in Hk1. destruct Hk1 as [Hk1a [Hk1b Hk1c]].
             split; [|split; [exact Logic.I|split; [|exact Logic.I]]].
             ++ apply lok_intro; [lia|rewrite app_length; cbn; lia|]. apply alli_app. split; [exact Hk1a|]. split; [exact Hk1b|exact Logic.I].
             ++ apply lok_intro; [rewrite app_length; cbn [length]; lia| |].
                { unfold kb', k2'. rewrite !app_length. cbn [length]. rewrite !setps_len. lia. }
                apply alli_app. split; [eapply loks_setps; exact Hk1c|]. unfold kb'. rewrite setps_len. cbn [plus]. split; [eapply lok_setp; exact Gl1|].
                split.
                ** rewrite Hkb', Nat.add_1_r. eapply lok_setp. exact Gl3.
                ** replace (length rb + 2) with (S (S (length kb))) by lia. eapply loks_setps. exact Hk2'.
          -- intros x Hx. apply in_app_or in Hx. destruct Hx as [Hx|Hx].
             ++ apply Hlg2 in Hx. cbn [In] in Hx. unfold k2' in Hx. rewrite in_app_iff, setps_laddrs in Hx.
                destruct Hx as [<-|[Hx|Hx]]; [right; unfold a'; lia | destruct (Hbad x (or_intror Hx)); [auto|right; lia] | left; apply Hkad; auto].
             ++ apply Hlg in Hx. rewrite flat_map_app in Hx. cbn [flat_map In] in Hx. rewrite !in_app_iff in Hx.
                destruct Hx as [<-|[<-|[Hx|[Hx|Hx]]]].
                ** right. unfold a'. lia.
                ** left. apply Hkad. auto.
                ** left. apply Hkad. left. rewrite Ek1, flat_map_app, in_app_iff. right. cbn [flat_map]. apply in_or_app. auto.
                ** destruct (Hbad x (or_introl Hx)); [auto|right; lia].
                ** left. apply Hkad. auto.
          -- replace (length (wls r1 k1)) with (length (wl a 0 ra ka ++ linord kk ++ (None, mid) :: wl a' 0 rb kb)).
             2:{ rewrite Ewls, !app_length. cbn [length]. rewrite !wl_len, lrefs_len. reflexivity. }
             eapply trk_up; [exact Gtrk|auto| | |exact Ee].
             ++ rewrite S6. destruct (p_ho s1); reflexivity.
             ++ unfold flags. rewrite S6. split; [exact S5|left; reflexivity].
  Qed.
End Up.
