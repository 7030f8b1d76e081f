(** Facts about the pointer side of nodes. *)
From Coq Require Import List Bool Arith Lia Permutation.
From Verif Require Import Base Zip LTree.
Import ListNotations.

(** ** Lists *)
Definition alli {A} (P : nat -> A -> Prop) : nat -> list A -> Prop :=
  fix go i l := match l with [] => True | x :: l' => P i x /\ go (S i) l' end.

Lemma alli_app : forall {A} (P : nat -> A -> Prop) a i b, alli P i (a ++ b) <-> alli P i a /\ alli P (i + length a) b.
Proof.
  induction a as [|x a IH]; intros i b; cbn [alli app length].
  - rewrite Nat.add_0_r. tauto.
  - rewrite IH. rewrite <- plus_n_Sm. cbn [plus]. tauto.
Qed.

Definition orid (o : option rid) : list rid := match o with Some r => [r] | None => [] end.
Definition rids (l : list (option rid)) : list rid := flat_map orid l.

Lemma rids_app : forall a b, rids (a ++ b) = rids a ++ rids b.
Proof. intros. apply flat_map_app. Qed.

Lemma in_rids : forall l r, In r (rids l) <-> In (Some r) l.
Proof.
  intros l r. unfold rids. rewrite in_flat_map. split.
  - intros ([x|] & H & Hx); [destruct Hx as [->|[]]; exact H | destruct Hx].
  - intros H. exists (Some r). split; [exact H | left; reflexivity].
Qed.

(** ** In-order list of keys: where each is and its reference *)
Notation ent := (prod (option loc) (option rid)) (only parsing).

Definition weave (f : ltree -> list ent) (a : addr) : nat -> list (option rid) -> list ltree -> list ent :=
  fix go i rs ks {struct ks} :=
    match ks with
    | [] => []
    | k :: ks' => f k ++ match rs with [] => [] | r :: rs' => (Some (a, i), r) :: go (S i) rs' ks' end
    end.

Fixpoint linord (t : ltree) : list ent :=
  match t with LNil => [] | LNode a _ rs ks => weave linord a 0 rs ks end.

Fixpoint wl (a : addr) (i : nat) (rs : list (option rid)) (ks : list ltree) : list ent :=
  match rs, ks with
  | r :: rs', k :: ks' => linord k ++ (Some (a, i), r) :: wl a (S i) rs' ks'
  | _, _ => []
  end.
Fixpoint wr (a : addr) (i : nat) (rs : list (option rid)) (ks : list ltree) : list ent :=
  match rs, ks with
  | r :: rs', k :: ks' => (Some (a, i), r) :: linord k ++ wr a (S i) rs' ks'
  | _, _ => []
  end.

Lemma weave_wr : forall rs ks a i k, length rs = length ks ->
  weave linord a i rs (k :: ks) = linord k ++ wr a i rs ks.
Proof.
  induction rs as [|r rs IH]; intros [|k' ks] a i k H; try discriminate.
  - cbn. rewrite app_nil_r. reflexivity.
  - injection H as H. specialize (IH ks a (S i) k' H). cbn [weave wr] in *. rewrite IH. reflexivity.
Qed.

Lemma weave_cut : forall r1 k1 a i r2 k k2, length r1 = length k1 -> length r2 = length k2 ->
  weave linord a i (r1 ++ r2) (k1 ++ k :: k2) = wl a i r1 k1 ++ linord k ++ wr a (i + length r1) r2 k2.
Proof.
  induction r1 as [|r r1 IH]; intros [|x k1] a i r2 k k2 H1 H2; try discriminate.
  - cbn [app wl length]. rewrite Nat.add_0_r. apply weave_wr. exact H2.
  - injection H1 as H1. specialize (IH k1 a (S i) r2 k k2 H1 H2).
    cbn [app wl length weave] in *. rewrite IH. rewrite <- app_assoc. cbn [app].
    replace (i + S (length r1)) with (S i + length r1) by lia. reflexivity.
Qed.

Lemma linord_cut : forall a p r1 r2 k1 k k2, length r1 = length k1 -> length r2 = length k2 ->
  linord (LNode a p (r1 ++ r2) (k1 ++ k :: k2)) = wl a 0 r1 k1 ++ linord k ++ wr a (length r1) r2 k2.
Proof. intros. cbn [linord]. rewrite weave_cut by auto. reflexivity. Qed.

Lemma wl_app : forall r1 k1 a i r2 k2, length r1 = length k1 ->
  wl a i (r1 ++ r2) (k1 ++ k2) = wl a i r1 k1 ++ wl a (i + length r1) r2 k2.
Proof.
  induction r1 as [|r r1 IH]; intros [|k k1] a i r2 k2 H; try discriminate.
  - cbn [app length]. rewrite Nat.add_0_r. reflexivity.
  - injection H as H. cbn [app length wl]. rewrite IH by auto. rewrite <- app_assoc. cbn [app].
    replace (i + S (length r1)) with (S i + length r1) by lia. reflexivity.
Qed.

Lemma wr_app : forall r1 k1 a i r2 k2, length r1 = length k1 ->
  wr a i (r1 ++ r2) (k1 ++ k2) = wr a i r1 k1 ++ wr a (i + length r1) r2 k2.
Proof.
  induction r1 as [|r r1 IH]; intros [|k k1] a i r2 k2 H; try discriminate.
  - cbn [app length]. rewrite Nat.add_0_r. reflexivity.
  - injection H as H. cbn [app length wr]. rewrite IH by auto. rewrite <- app_assoc.
    replace (i + S (length r1)) with (S i + length r1) by lia. reflexivity.
Qed.

(** The keys of one node. *)
Fixpoint keyents (a : addr) (i : nat) (rs : list (option rid)) : list ent :=
  match rs with [] => [] | r :: rs' => (Some (a, i), r) :: keyents a (S i) rs' end.

Lemma keyents_snd : forall rs a i, map snd (keyents a i rs) = rs.
Proof. induction rs as [|r rs IH]; intros a i; cbn; [|rewrite IH]; reflexivity. Qed.

Lemma keyents_app : forall r1 a i r2, keyents a i (r1 ++ r2) = keyents a i r1 ++ keyents a (i + length r1) r2.
Proof.
  induction r1 as [|r r1 IH]; intros a i r2; cbn [app keyents length].
  - rewrite Nat.add_0_r. reflexivity.
  - rewrite IH. replace (i + S (length r1)) with (S i + length r1) by lia. reflexivity.
Qed.

Lemma in_wr : forall rs ks a i x, length rs = length ks ->
  (In x (wr a i rs ks) <-> In x (keyents a i rs) \/ In x (flat_map linord ks)).
Proof.
  induction rs as [|r rs IH]; intros [|k ks] a i x H; try discriminate; cbn [wr keyents flat_map].
  - cbn. tauto.
  - injection H as H. cbn [In]. rewrite !in_app_iff, (IH ks a (S i) x H). tauto.
Qed.
Lemma in_wl : forall rs ks a i x, length rs = length ks ->
  (In x (wl a i rs ks) <-> In x (keyents a i rs) \/ In x (flat_map linord ks)).
Proof.
  induction rs as [|r rs IH]; intros [|k ks] a i x H; try discriminate; cbn [wl keyents flat_map].
  - cbn. tauto.
  - injection H as H. rewrite !in_app_iff. cbn [In]. rewrite (IH ks a (S i) x H). tauto.
Qed.

(** References only. *)
Definition lrefs (t : ltree) : list (option rid) := map snd (linord t).
Fixpoint wls (rs : list (option rid)) (ks : list ltree) : list (option rid) :=
  match rs, ks with r :: rs', k :: ks' => lrefs k ++ r :: wls rs' ks' | _, _ => [] end.
Fixpoint wrs (rs : list (option rid)) (ks : list ltree) : list (option rid) :=
  match rs, ks with r :: rs', k :: ks' => r :: lrefs k ++ wrs rs' ks' | _, _ => [] end.

Lemma wl_snd : forall rs ks a i, map snd (wl a i rs ks) = wls rs ks.
Proof.
  induction rs as [|r rs IH]; intros [|k ks] a i; try reflexivity.
  cbn [wl wls]. rewrite map_app. cbn [map snd]. rewrite IH. reflexivity.
Qed.
Lemma wr_snd : forall rs ks a i, map snd (wr a i rs ks) = wrs rs ks.
Proof.
  induction rs as [|r rs IH]; intros [|k ks] a i; try reflexivity.
  cbn [wr wrs map snd]. rewrite map_app, IH. reflexivity.
Qed.

Lemma wl_len : forall rs ks a i, length (wl a i rs ks) = length (wls rs ks).
Proof. intros. rewrite <- (wl_snd rs ks a i), map_length. reflexivity. Qed.
Lemma wr_len : forall rs ks a i, length (wr a i rs ks) = length (wrs rs ks).
Proof. intros. rewrite <- (wr_snd rs ks a i), map_length. reflexivity. Qed.
Lemma lrefs_len : forall t, length (lrefs t) = length (linord t).
Proof. intros. apply map_length. Qed.

(** ** Addresses *)
(** Every entry of the in-order list is in one of the nodes. *)
Section Ltree_ind2.
  Variable P : ltree -> Prop.
  Hypothesis H0 : P LNil.
  Hypothesis H1 : forall a p rs ks, Forall P ks -> P (LNode a p rs ks).
  Fixpoint ltree_ind2 (t : ltree) : P t :=
    match t with
    | LNil => H0
    | LNode a p rs ks =>
      H1 a p rs ks ((fix go ks : Forall P ks :=
                       match ks with [] => Forall_nil P | k :: ks' => Forall_cons k (ltree_ind2 k) (go ks') end) ks)
    end.
End Ltree_ind2.

Lemma linord_addr : forall t ol r, In (ol, r) (linord t) -> exists a i, ol = Some (a, i) /\ In a (laddrs t).
Proof.
  induction t as [|a p rs ks IH] using ltree_ind2; intros ol r H; [destruct H|].
  cbn [linord laddrs] in *.
  assert (G : forall j rs, In (ol, r) (weave linord a j rs ks) ->
              exists b i, ol = Some (b, i) /\ (b = a \/ In b (flat_map laddrs ks))).
  { clear H rs. induction IH as [|k ks Hk IH IH2]; intros j rs H; [destruct H|].
    cbn [weave] in H. apply in_app_or in H. destruct H as [H|H].
    - destruct (Hk _ _ H) as (b & i & E & Hin). exists b, i. split; auto. right. cbn. apply in_or_app. auto.
    - destruct rs as [|x rs]; [destruct H|]. destruct H as [H|H].
      + injection H as <- <-. exists a, j. auto.
      + destruct (IH2 _ _ H) as (b & i & E & [Hin|Hin]); exists b, i; split; auto. right. cbn. apply in_or_app. auto. }
  destruct (G 0 rs H) as (b & i & E & [Hb|Hb]); exists b, i; split; auto; [left|right]; auto.
Qed.

(** ** Well-formed nodes: stored parents and sizes *)
Section Lok.
  Context (M : nat).

  Fixpoint lok (par : option loc) (t : ltree) : Prop :=
    match t with
    | LNil => True
    | LNode a p rs ks =>
      p = par /\ length rs <= 2 * M /\ length ks = S (length rs) /\ alli (fun i k => lok (Some (a, i)) k) 0 ks
    end.
  Definition loks (a : addr) : nat -> list ltree -> Prop := alli (fun i k => lok (Some (a, i)) k).

  Definition setp (p : option loc) (t : ltree) : ltree :=
    match t with LNil => LNil | LNode a _ rs ks => LNode a p rs ks end.
  Fixpoint setps (a : addr) (i : nat) (ts : list ltree) : list ltree :=
    match ts with [] => [] | t :: ts' => setp (Some (a, i)) t :: setps a (S i) ts' end.

  Lemma lok_setp : forall p q t, lok p t -> lok q (setp q t).
  Proof. intros p q [|a p' rs ks] H; [exact H|]. destruct H as (_ & H). split; auto. Qed.

  Lemma loks_setps : forall ts a i b j, loks a i ts -> loks b j (setps b j ts).
  Proof.
    induction ts as [|t ts IH]; intros a i b j H; [exact H|]. destruct H as [H1 H2].
    split; [eapply lok_setp; eauto | eapply IH; eauto].
  Qed.

  Lemma setps_len : forall ts a i, length (setps a i ts) = length ts.
  Proof. induction ts as [|t ts IH]; intros; cbn; auto. Qed.
  Lemma setp_linord : forall p t, linord (setp p t) = linord t.
  Proof. intros p [|a q rs ks]; reflexivity. Qed.
  Lemma setp_lrefs : forall p t, lrefs (setp p t) = lrefs t.
  Proof. intros. unfold lrefs. rewrite setp_linord. reflexivity. Qed.
  Lemma setp_laddrs : forall p t, laddrs (setp p t) = laddrs t.
  Proof. intros p [|a q rs ks]; reflexivity. Qed.
  Lemma setps_linord : forall ts a i, flat_map linord (setps a i ts) = flat_map linord ts.
  Proof. induction ts as [|t ts IH]; intros; cbn; [|rewrite setp_linord, IH]; reflexivity. Qed.
  Lemma setps_laddrs : forall ts a i, flat_map laddrs (setps a i ts) = flat_map laddrs ts.
  Proof. induction ts as [|t ts IH]; intros; cbn; [|rewrite setp_laddrs, IH]; reflexivity. Qed.
  Lemma wl_setps : forall rs ts a i b j, wl a i rs (setps b j ts) = wl a i rs ts.
  Proof.
    induction rs as [|r rs IH]; intros [|t ts] a i b j; try reflexivity.
    cbn [setps wl]. rewrite setp_linord, IH. reflexivity.
  Qed.
  Lemma wr_setps : forall rs ts a i b j, wr a i rs (setps b j ts) = wr a i rs ts.
  Proof.
    induction rs as [|r rs IH]; intros [|t ts] a i b j; try reflexivity.
    cbn [setps wr]. rewrite setp_linord, IH. reflexivity.
  Qed.
  Lemma wls_setps : forall rs ts b j, wls rs (setps b j ts) = wls rs ts.
  Proof. intros. rewrite <- (wl_snd rs (setps b j ts) 0 0), wl_setps, wl_snd. reflexivity. Qed.
  Lemma wrs_setps : forall rs ts b j, wrs rs (setps b j ts) = wrs rs ts.
  Proof. intros. rewrite <- (wr_snd rs (setps b j ts) 0 0), wr_setps, wr_snd. reflexivity. Qed.
  Lemma setps_app : forall ts a i us, setps a i (ts ++ us) = setps a i ts ++ setps a (i + length ts) us.
  Proof.
    induction ts as [|t ts IH]; intros; cbn [setps app length]; [rewrite Nat.add_0_r; reflexivity|].
    rewrite IH. do 2 f_equal. f_equal; lia.
  Qed.
End Lok.

(** ** The store *)
Definition upd1 (st : list (option loc)) (e : ent) : list (option loc) :=
  match snd e with None => st | Some r => replace_at r (fst e) st end.
Definition upds (st : list (option loc)) (E : list ent) : list (option loc) := fold_left upd1 E st.

Definition Sok (st : list (option loc)) (L : list ent) : Prop :=
  Forall (fun x => match snd x with None => True | Some r => nth_error st r = Some (fst x) end) L.

Lemma replace_at_length : forall {A} i (a : A) l, length (replace_at i a l) = length l.
Proof.
  intros A i a l. unfold replace_at. destruct (skipn i l) as [|x r] eqn:E; [reflexivity|].
  rewrite <- (firstn_skipn i l) at 2. rewrite E, !app_length. reflexivity.
Qed.
Lemma replace_at_nth : forall {A} i (a : A) l, i < length l -> nth_error (replace_at i a l) i = Some a.
Proof.
  intros A i a l H. unfold replace_at. destruct (skipn i l) as [|x r] eqn:E.
  - exfalso. apply (f_equal (@length A)) in E. rewrite skipn_length in E. cbn in E. lia.
  - rewrite nth_error_app2; rewrite firstn_length_le by lia; [|lia]. rewrite Nat.sub_diag. reflexivity.
Qed.
Lemma replace_at_other : forall {A} i j (a : A) l, i <> j -> nth_error (replace_at i a l) j = nth_error l j.
Proof.
  intros A i j a l H. unfold replace_at. destruct (skipn i l) as [|x r] eqn:E; [reflexivity|].
  assert (Hl : i < length l).
  { destruct (Nat.lt_ge_cases i (length l)); auto. rewrite skipn_all2 in E by lia. discriminate. }
  rewrite <- (firstn_skipn i l) at 2. rewrite E.
  destruct (Nat.lt_ge_cases j i).
  - rewrite !nth_error_app1 by (rewrite firstn_length_le; lia). reflexivity.
  - rewrite !nth_error_app2 by (rewrite firstn_length_le; lia). rewrite !firstn_length_le by lia.
    destruct (j - i) as [|d] eqn:Ed; [lia|]. reflexivity.
Qed.

Lemma upds_length : forall E st, length (upds st E) = length st.
Proof.
  induction E as [|[l [r|]] E IH]; intros st; cbn; [reflexivity| |apply IH].
  unfold upds in IH. rewrite IH. apply replace_at_length.
Qed.
Lemma upds_app : forall st E F, upds st (E ++ F) = upds (upds st E) F.
Proof. intros. apply fold_left_app. Qed.
Lemma upds_other : forall E st r, ~ In r (rids (map snd E)) -> nth_error (upds st E) r = nth_error st r.
Proof.
  induction E as [|[l [r'|]] E IH]; intros st r H; [reflexivity| |].
  - cbn in H. change (upds st ((l, Some r') :: E)) with (upds (replace_at r' l st) E).
    rewrite IH by tauto. apply replace_at_other. tauto.
  - cbn in H. change (upds st ((l, None) :: E)) with (upds st E). auto.
Qed.
Lemma upds_in : forall E st l r, (forall l', In (l', Some r) E -> l' = l) -> In r (rids (map snd E)) -> r < length st ->
  nth_error (upds st E) r = Some l.
Proof.
  induction E as [|[l' r'] E IH]; intros st l r H Hin Hr; [destruct Hin|].
  destruct r' as [r'|].
  - change (upds st ((l', Some r') :: E)) with (upds (replace_at r' l' st) E).
    destruct (in_dec Nat.eq_dec r (rids (map snd E))) as [Hx|Hx].
    + apply IH; auto; [intros; apply H; right; auto | rewrite replace_at_length; exact Hr].
    + destruct Hin as [->|Hin]; [|contradiction]. rewrite upds_other by exact Hx.
      rewrite (H l') by (left; reflexivity). apply replace_at_nth. exact Hr.
  - change (upds st ((l', None) :: E)) with (upds st E). apply IH; auto. intros; apply H; right; auto.
Qed.

Lemma Sok_app : forall st a b, Sok st (a ++ b) <-> Sok st a /\ Sok st b.
Proof. intros. apply Forall_app. Qed.
Lemma Sok_in : forall st L l r, Sok st L -> In (l, Some r) L -> nth_error st r = Some l.
Proof. intros st L l r H Hin. unfold Sok in H. rewrite Forall_forall in H. exact (H _ Hin). Qed.
Lemma Sok_lt : forall st L r, Sok st L -> In r (rids (map snd L)) -> r < length st.
Proof.
  intros st L r H Hin. apply in_rids in Hin. apply in_map_iff in Hin. destruct Hin as ([l x] & E & Hin).
  cbn in E. subst x. apply nth_error_Some. rewrite (Sok_in _ _ _ _ H Hin). discriminate.
Qed.

(** A distinct id occurs in one entry only. *)
Lemma rids_unique : forall (L : list ent) l l' r, NoDup (rids (map snd L)) -> In (l, Some r) L -> In (l', Some r) L -> l = l'.
Proof.
  induction L as [|[x [y|]] L IH]; intros l l' r H H1 H2; [destruct H1| |].
  - cbn in H. inversion H as [|? ? Hn Hd]; subst.
    assert (Hq : forall z, In (z, Some y) L -> False).
    { intros z Hz. apply Hn. apply in_rids. apply in_map_iff. exists (z, Some y). auto. }
    destruct H1 as [H1|H1], H2 as [H2|H2].
    + congruence.
    + injection H1 as -> ->. destruct (Hq _ H2).
    + injection H2 as -> ->. destruct (Hq _ H1).
    + eauto.
  - destruct H1 as [H1|H1]; [discriminate|]. destruct H2 as [H2|H2]; [discriminate|]. exact (IH l l' r H H1 H2).
Qed.

Lemma sok_upds : forall st F0 F E, Sok st F0 -> map snd F = map snd F0 -> NoDup (rids (map snd F)) ->
  incl E F -> (forall x, In x F -> In x E \/ In x F0) -> Sok (upds st E) F.
Proof.
  intros st F0 F E H0 Em Hd Hi Hc. unfold Sok. rewrite Forall_forall. intros [l [r|]] Hin; [|exact Logic.I].
  cbn [fst snd].
  assert (Hr : r < length st).
  { apply (Sok_lt st F0); auto. rewrite <- Em. apply in_rids. apply in_map_iff. exists (l, Some r). auto. }
  destruct (in_dec Nat.eq_dec r (rids (map snd E))) as [Hx|Hx].
  - apply upds_in; auto. intros l' Hl. exact (rids_unique F l' l r Hd (Hi _ Hl) Hin).
  - rewrite upds_other by exact Hx. destruct (Hc _ Hin) as [Hc'|Hc'].
    + exfalso. apply Hx. apply in_rids. apply in_map_iff. exists (l, Some r). auto.
    + exact (Sok_in _ _ _ _ H0 Hc').
Qed.

Lemma Sok_frame : forall st st' L, Sok st L ->
  (forall r, In r (rids (map snd L)) -> nth_error st' r = nth_error st r) -> Sok st' L.
Proof.
  intros st st' L H Hf. unfold Sok in *. rewrite Forall_forall in *. intros [l [r|]] Hin; [|exact Logic.I].
  cbn [fst snd]. rewrite Hf; [exact (H _ Hin)|]. apply in_rids. apply in_map_iff. exists (l, Some r). auto.
Qed.

(** ** Effect of the primitives *)
Definition upst (s : pst) (E : list ent) (n : nat) (lg : list addr) : pst :=
  {| p_store := upds (p_store s) E; p_next := n + p_next s; p_log := lg ++ p_log s;
     p_ho := p_ho s; p_present := p_present s; p_skip := p_skip s |}.

Lemma upst_upst : forall s E n lg E' n' lg', upst (upst s E n lg) E' n' lg' = upst s (E ++ E') (n' + n) (lg' ++ lg).
Proof. intros. unfold upst; cbn. rewrite upds_app, <- app_assoc, Nat.add_assoc. reflexivity. Qed.

Lemma sbind_ok : forall {A B} (m : sm A) (k : A -> sm B) s a s', m s = Ok (a, s') -> sbind m k s = k a s'.
Proof. intros A B m k s a s' H. unfold sbind. rewrite H. reflexivity. Qed.

Lemma touch_ok : forall a s, touch a s = Ok (tt, upst s [] 0 [a]).
Proof. reflexivity. Qed.
Lemma alloc_ok : forall s, alloc s = Ok (p_next s, upst s [] 1 [p_next s]).
Proof. reflexivity. Qed.

Lemma sr_update_ok : forall s r l, (forall x, r = Some x -> x < length (p_store s)) ->
  sr_update r l s = Ok (tt, upst s [(Some l, r)] 0 []).
Proof.
  intros [st nx lg ho pr sk] [r|] l H; [|reflexivity]. unfold sr_update. cbn [p_store] in *.
  destruct (nth_error st r) eqn:E; [reflexivity|]. apply nth_error_None in E. specialize (H r eq_refl). lia.
Qed.

Lemma sr_suspend_ok : forall s r, (forall x, r = Some x -> exists l, nth_error (p_store s) x = Some (Some l)) ->
  sr_suspend r s = Ok (tt, upst s [(None, r)] 0 []).
Proof.
  intros [st nx lg ho pr sk] [r|] H; [|reflexivity]. unfold sr_suspend. cbn [p_store] in *.
  destruct (H r eq_refl) as [l ->]. reflexivity.
Qed.

Lemma sr_updates_ok : forall rs a i s, (forall x, In x (rids rs) -> x < length (p_store s)) ->
  sr_updates a i rs s = Ok (tt, upst s (keyents a i rs) 0 []).
Proof.
  induction rs as [|r rs IH]; intros a i s H.
  - destruct s; reflexivity.
  - cbn [sr_updates keyents].
    assert (H1 : forall x, r = Some x -> x < length (p_store s)).
    { intros x ->. apply H. left. reflexivity. }
    rewrite (sbind_ok _ _ _ _ _ (sr_update_ok s r (a, i) H1)).
    rewrite IH.
    + rewrite upst_upst. reflexivity.
    + intros x Hx. cbn [upst p_store]. rewrite upds_length. apply H. cbn. apply in_or_app. auto.
Qed.

Lemma set_par_ok : forall p t s, exists lg, set_par p t s = Ok (setp p t, upst s [] 0 lg) /\ incl lg (laddrs t).
Proof.
  intros p [|a q rs ks] s.
  - exists []. split; [destruct s; reflexivity | intros x []].
  - exists [a]. split; [reflexivity|]. intros x [<-|[]]. left. reflexivity.
Qed.

Lemma set_pars_ok : forall ts a i s, exists lg,
  set_pars a i ts s = Ok (setps a i ts, upst s [] 0 lg) /\ incl lg (flat_map laddrs ts).
Proof.
  induction ts as [|t ts IH]; intros a i s.
  - exists []. split; [destruct s; reflexivity | intros x []].
  - destruct (set_par_ok (Some (a, i)) t s) as (l1 & E1 & I1).
    destruct (IH a (S i) (upst s [] 0 l1)) as (l2 & E2 & I2).
    exists (l2 ++ l1). split.
    + cbn [set_pars]. rewrite (sbind_ok _ _ _ _ _ E1), (sbind_ok _ _ _ _ _ E2). rewrite upst_upst. reflexivity.
    + cbn [flat_map]. apply incl_app; [apply incl_appr | apply incl_appl]; auto.
Qed.

Lemma set_idxs_ok : forall M ts a j i s, loks M a j ts -> exists lg,
  set_idxs i ts s = Ok (setps a i ts, upst s [] 0 lg) /\ incl lg (flat_map laddrs ts).
Proof.
  intros M. induction ts as [|t ts IH]; intros a j i s H.
  - exists []. split; [destruct s; reflexivity | intros x []].
  - destruct H as [H1 H2].
    assert (E1 : exists lg, set_idx i t s = Ok (setp (Some (a, i)) t, upst s [] 0 lg) /\ incl lg (laddrs t)).
    { destruct t as [|b q rs ks].
      - exists []. split; [destruct s; reflexivity | intros x []].
      - destruct H1 as (-> & _). exists [b]. split; [reflexivity|]. intros x [<-|[]]. left. reflexivity. }
    destruct E1 as (l1 & E1 & I1).
    destruct (IH a (S j) (S i) (upst s [] 0 l1) H2) as (l2 & E2 & I2).
    exists (l2 ++ l1). split.
    + cbn [set_idxs]. rewrite (sbind_ok _ _ _ _ _ E1), (sbind_ok _ _ _ _ _ E2). rewrite upst_upst. reflexivity.
    + cbn [flat_map]. apply incl_app; [apply incl_appr | apply incl_appl]; auto.
Qed.
