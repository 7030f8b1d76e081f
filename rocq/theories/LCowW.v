(** Histories of trees that share nodes: the memory stays consistent.  Proof support only. *)
From Coq Require Import List ZArith Lia Bool Arith.
From Verif Require Import Base Index Slice Tree Insert Spec Zip Rep Upd Leaf Path Ops Find Ins IterP Iter IterQ HistP LTree LInsert LTreeP LUpP LLeafP LShape LShapeP LUpdP LPlanP LEffP
  RefSpec LRef LSpec LMemP LInvP LHistP LMemHistP LCow LCowSpec LCowIter LCowG LCowP LCowQ LCowR.
Import ListNotations.

(** ** Cells *)
Section Cells.
  Context {I V : Type}.
  Notation tree := (tree I V).
  Notation cell := (nat * (nat * tree * ltree))%type.

  Lemma cells_go_inv : forall (f : ltree -> tree -> list cell) ks (cs : list tree) e,
    In e ((fix go ks cs := match ks, cs with k :: ks', c :: cs' => f k c ++ go ks' cs' | _, _ => [] end) ks cs) ->
    exists c k x, nth_error ks c = Some k /\ nth_error cs c = Some x /\ In e (f k x).
  Proof.
    induction ks as [|k ks IH]; intros [|x cs] e H; try destruct H. apply in_app_or in H. destruct H as [H|H].
    - exists 0, k, x. auto.
    - destruct (IH _ _ H) as (c & k' & x' & H1 & H2 & H3). exists (S c), k', x'. auto.
  Qed.
  Lemma cells_node : forall h a p rs ks (t : tree) e, In e (cells h (LNode a p rs ks) t) <->
    e = (a, (h, t, LNode a p rs ks)) \/ exists c k x, nth_error ks c = Some k /\ nth_error (kids_of t) c = Some x /\ In e (cells (h - 1) k x).
  Proof.
    intros. cbn [cells In]. split.
    - intros [H|H]; [left; auto|right; exact (cells_go_inv _ _ _ _ H)].
    - intros [H|(c & k & x & H1 & H2 & H3)]; [left; auto|right]. exact (in_cells_go _ _ _ _ _ _ _ H1 H2 H3).
  Qed.

  (** A tree whose pointers fit its contents, with every node and every stored parent in the log. *)
  Fixpoint W (L : list (addr * nat)) (h : nat) (t : tree) (lt : ltree) : Prop :=
    exists a par rs ks, lt = LNode a par rs ks /\ In (a, h) L /\ par_ok L h par /\ S (length rs) = length (kids_of t) /\
      Forall2 (match h with 0 => nilR | S h' => fun t lt => W L h' t lt /\ l_par lt <> None end) (kids_of t) ks.
  Definition WK (L : list (addr * nat)) (h : nat) : tree -> ltree -> Prop :=
    match h with 0 => nilR | S h' => fun t lt => W L h' t lt /\ l_par lt <> None end.
  Lemma W_eq : forall L h t lt, W L h t lt <-> exists a par rs ks, lt = LNode a par rs ks /\ In (a, h) L /\ par_ok L h par /\ S (length rs) = length (kids_of t) /\ Forall2 (WK L h) (kids_of t) ks.
  Proof. intros L [|h] t lt; reflexivity. Qed.
  Lemma W_mono : forall L L', incl L L' -> forall h t lt, W L h t lt -> W L' h t lt.
  Proof.
    intros L L' Hi. induction h as [|h IH]; intros t lt (a & par & rs & ks & H1 & H2 & H3 & H4 & H5); exists a, par, rs, ks;
      (split; [exact H1|split; [apply Hi; exact H2|split; [eapply par_mono; eassumption|split; [exact H4|]]]]).
    - exact H5.
    - eapply f2_impl; [|exact H5]. intros x y [Q1 Q2]. auto.
  Qed.

  (** Every cell of a tree is such a tree, and its children are cells too. *)
  Lemma W_cells : forall L h t lt, W L h t lt -> forall a h' t' lt', In (a, (h', t', lt')) (cells h lt t) ->
    W L h' t' lt' /\ (exists par rs ks, lt' = LNode a par rs ks) /\
    (forall c x k, h' = S (h' - 1) -> nth_error (kids_of t') c = Some x -> nth_error (l_kids lt') c = Some k ->
       exists b par rs ks, k = LNode b par rs ks /\ In (b, (h' - 1, x, k)) (cells h lt t)).
  Proof.
    intros L. induction h as [|h IH]; intros t lt HW a h' t' lt' Hin; pose proof HW as (b & par & rs & ks & -> & H2 & H3 & H4 & H5);
      apply cells_node in Hin; destruct Hin as [E|(c & k & x & E1 & E2 & E3)].
    - injection E as -> -> -> ->. split; [exact HW|]. split; [eauto|]. intros c x k Hh. lia.
    - destruct (f2_nth _ _ _ _ _ H5 E2) as (k' & Ek & [-> ->]). rewrite E1 in Ek. injection Ek as ->. destruct E3.
    - injection E as -> -> -> ->. split; [exact HW|]. split; [eauto|]. intros c x k _ Hx Hk. cbn [l_kids] in Hk. cbn [Nat.sub]. rewrite Nat.sub_0_r.
      destruct (f2_nth _ _ _ _ _ H5 Hx) as (k' & Ek & [Hw _]). rewrite Hk in Ek. injection Ek as <-.
      pose proof Hw as Hw2. apply W_eq in Hw2. destruct Hw2 as (b' & p' & r' & ks' & -> & _). exists b', p', r', ks'. split; [reflexivity|].
      apply cells_node. right. exists c, (LNode b' p' r' ks'), x. split; [exact Hk|]. split; [exact Hx|]. cbn [Nat.sub]. rewrite Nat.sub_0_r. apply cells_node. left. reflexivity.
    - cbn [Nat.sub] in E3. rewrite Nat.sub_0_r in E3. destruct (f2_nth _ _ _ _ _ H5 E2) as (k' & Ek & [Hw _]). rewrite E1 in Ek. injection Ek as <-.
      destruct (IH _ _ Hw _ _ _ _ E3) as (Q1 & Q2 & Q3). split; [exact Q1|]. split; [exact Q2|]. intros c' x' k' Hh Hx Hk.
      destruct (Q3 c' x' k' Hh Hx Hk) as (b' & p' & r' & ks' & R1 & R2). exists b', p', r', ks'. split; [exact R1|].
      apply cells_node. right. exists c, k, x. split; [exact E1|]. split; [exact E2|]. cbn [Nat.sub]. rewrite Nat.sub_0_r. exact R2.
  Qed.

  Lemma W_addrs : forall L h t lt, W L h t lt -> map fst (cells h lt t) = laddrs lt.
  Proof.
    intros L. induction h as [|h IH]; intros t lt (a & par & rs & ks & -> & H2 & H3 & H4 & H5); cbn [cells laddrs map fst]; f_equal; apply cells_kids.
    - intros k c Hin. apply In_nth_error in Hin. destruct Hin as [i Hin].
      assert (Q : nilR c k) by (clear - H5 Hin; revert i Hin; induction H5; intros [|i] Hin; try discriminate; cbn in Hin; [injection Hin as <- <-; assumption|eauto]).
      destruct Q as [-> ->]. reflexivity.
    - symmetry. exact (f2_len _ _ _ H5).
    - intros k c Hin. apply In_nth_error in Hin. destruct Hin as [i Hin]. cbn [Nat.sub]. rewrite Nat.sub_0_r. apply IH.
      assert (Q : W L h c k /\ l_par k <> None) by (clear - H5 Hin; revert i Hin; induction H5; intros [|i] Hin; try discriminate; cbn in Hin; [injection Hin as <- <-; assumption|eauto]).
      exact (proj1 Q).
    - symmetry. exact (f2_len _ _ _ H5).
  Qed.

  Lemma keys_unique : forall {T} (l : list (nat * T)) a x y, NoDup (map fst l) -> In (a, x) l -> In (a, y) l -> x = y.
  Proof.
    induction l as [|[b z] l IH]; intros a x y Hn Hx Hy; [destruct Hx|]. cbn [map fst] in Hn. apply NoDup_cons_iff in Hn. destruct Hn as [Hn Hn'].
    assert (N : forall w, In (b, w) l -> False) by (intros w Hw; apply Hn; apply in_map_iff; exists (b, w); auto).
    destruct Hx as [Ex|Hx]; destruct Hy as [Ey|Hy].
    - congruence.
    - injection Ex as -> ->. destruct (N _ Hy).
    - injection Ey as -> ->. destruct (N _ Hx).
    - eauto.
  Qed.
End Cells.

(** ** One insertion *)
Section Step.
  Context {I V : Type} (others : list addr) (L0 : list (addr * nat)).
  Notation tree := (tree I V).
  Notation cell := (nat * (nat * tree * ltree))%type.
  Context (D : list cell).
  (** The cells [D] of the other trees. *)
  Hypothesis D_addr : forall a, In a others <-> In a (map fst D).
  Hypothesis D_W : forall a h t lt, In (a, (h, t, lt)) D -> W L0 h t lt /\ (exists par rs ks, lt = LNode a par rs ks) /\
    (forall c x k, h = S (h - 1) -> nth_error (kids_of t) c = Some x -> nth_error (l_kids lt) c = Some k ->
       exists b par rs ks, k = LNode b par rs ks /\ In (b, (h - 1, x, k)) D).
  Definition C0 (h : nat) (t : tree) (lt : ltree) : Prop := exists a, In (a, (h, t, lt)) D.

  Lemma C0_open : forall h t lt, C0 h t lt -> exists a par rs ks, lt = LNode a par rs ks /\ In a others /\ In (a, h) L0 /\
    par_ok L0 h par /\ S (length rs) = length (kids_of t) /\ Forall2 (CK C0 h) (kids_of t) ks.
  Proof.
    intros h t lt (a & Hin). destruct (D_W _ _ _ _ Hin) as (HW & (par & rs & ks & ->) & Hk). apply W_eq in HW. destruct HW as (a' & par' & rs' & ks' & E & H2 & H3 & H4 & H5).
    injection E as <- <- <- <-. exists a, par, rs, ks. split; [reflexivity|]. split; [apply D_addr; apply in_map_iff; eexists; split; [|exact Hin]; reflexivity|].
    split; [exact H2|]. split; [exact H3|]. split; [exact H4|].
    destruct h as [|h]; [exact H5|]. cbn [l_kids] in Hk.
    assert (Hk' : forall c x k, nth_error (kids_of t) c = Some x -> nth_error ks c = Some k -> C0 h x k).
    { intros c x k E1 E2. destruct (Hk c x k ltac:(lia) E1 E2) as (b & ? & ? & ? & _ & Q). cbn [Nat.sub] in Q. rewrite Nat.sub_0_r in Q. exists b. exact Q. }
    clear - H5 Hk'. revert Hk'. induction H5 as [|x k K ks [H1 H2] H5 IH]; intros Hk'; constructor.
    - split; [exact (Hk' 0 x k eq_refl eq_refl)|exact H2].
    - apply IH. intros c y k' E1 E2. exact (Hk' (S c) y k' E1 E2).
  Qed.
  Lemma C0_W : forall h t lt, C0 h t lt -> W L0 h t lt.
  Proof. intros h t lt (a & H). exact (proj1 (D_W _ _ _ _ H)). Qed.

  (** The tree to be changed. *)
  Lemma W_J : forall h t lt, W L0 h t lt -> (forall a e e', In (a, e) (cells h lt t) -> In (a, e') D -> e = e') -> J others C0 L0 h t lt.
  Proof.
    assert (A : forall (h : nat) (t : tree) lt a par rs ks, lt = LNode a par rs ks -> (forall a e e', In (a, e) (cells h lt t) -> In (a, e') D -> e = e') ->
      C0 h t lt \/ ~ In a others).
    { intros h t lt a par rs ks -> HC. destruct (in_dec Nat.eq_dec a others) as [Ha|Ha]; [left|right; exact Ha].
      apply D_addr in Ha. apply in_map_iff in Ha. destruct Ha as ([a' e] & E & Hin). cbn in E. subst a'. exists a.
      rewrite (HC a (h, t, LNode a par rs ks) e); [exact Hin| |exact Hin]. left. reflexivity. }
    induction h as [|h IH]; intros t lt HW HC; pose proof HW as (a & par & rs & ks & E & H2 & H3 & H4 & H5);
      destruct (A _ t lt a par rs ks E HC) as [H|Ha]; [left; exact H| |left; exact H|]; right; exists par, a, rs, ks;
      (split; [exact E|split; [exact Ha|split; [exact H2|split; [exact H3|split; [exact H4|]]]]]).
    - exact H5.
    - assert (Hk : forall c x k, nth_error (kids_of t) c = Some x -> nth_error ks c = Some k -> forall a e e', In (a, e) (cells h k x) -> In (a, e') D -> e = e').
      { intros c x k E1 E2 a' e e' He. apply (HC a' e e'). subst lt. apply cells_node. right. exists c, k, x. cbn [Nat.sub]. rewrite Nat.sub_0_r. auto. }
      clear - H5 Hk IH. revert Hk. induction H5 as [|x k K ks [H1 H2] H5 IH5]; intros Hk; constructor.
      + split; [apply IH; [exact H1|exact (Hk 0 x k eq_refl eq_refl)]|exact H2].
      + apply IH5. intros c y k' E1 E2. exact (Hk (S c) y k' E1 E2).
  Qed.

  (** The changed tree. *)
  Lemma J_W : forall L, incl L0 L -> forall h t lt, J others C0 L h t lt -> W L h t lt.
  Proof.
    intros L Hi. induction h as [|h IH]; intros t lt [H|(par & a & rs & ks & E & Ha & H2 & H3 & H4 & H5)].
    - eapply W_mono; [exact Hi|apply C0_W; exact H].
    - exists a, par, rs, ks. auto.
    - eapply W_mono; [exact Hi|apply C0_W; exact H].
    - exists a, par, rs, ks. split; [exact E|]. split; [exact H2|]. split; [exact H3|]. split; [exact H4|]. eapply f2_impl; [|exact H5]. intros x y [Q1 Q2]. auto.
  Qed.
  Lemma C0_cells : forall h t lt, C0 h t lt -> forall e, In e (cells h lt t) -> In e D.
  Proof.
    induction h as [|h IH]; intros t lt (b & Hb) e He; destruct (D_W _ _ _ _ Hb) as (HW & (par & rs & ks & ->) & Hk); apply cells_node in He; destruct He as [->|(c & k & x & E1 & E2 & E3)]; try exact Hb.
    - destruct HW as (a' & par' & rs' & ks' & E & _ & _ & _ & H5). injection E as <- <- <- <-.
      destruct (f2_nth _ _ _ _ _ H5 E2) as (k' & Ek & [-> ->]). rewrite E1 in Ek. injection Ek as ->. destruct E3.
    - cbn [Nat.sub] in E3. rewrite Nat.sub_0_r in E3. destruct (Hk c x k ltac:(lia) E2 E1) as (b' & ? & ? & ? & _ & Q). cbn [Nat.sub] in Q. rewrite Nat.sub_0_r in Q.
      apply (IH x k); [exists b'; exact Q|exact E3].
  Qed.
  Lemma J_cells : forall L h t lt, J others C0 L h t lt -> forall a e, In (a, e) (cells h lt t) -> In (a, e) D \/ ~ In a others.
  Proof.
    intros L. induction h as [|h IH]; intros t lt [H|(par & b & rs & ks & -> & Hb & H2 & H3 & H4 & H5)] a e He.
    - left. eapply C0_cells; eassumption.
    - apply cells_node in He. destruct He as [E|(c & k & x & E1 & E2 & E3)]; [injection E as -> ->; auto|].
      destruct (f2_nth _ _ _ _ _ H5 E2) as (k' & Ek & [-> ->]). rewrite E1 in Ek. injection Ek as ->. destruct E3.
    - left. eapply C0_cells; eassumption.
    - apply cells_node in He. destruct He as [E|(c & k & x & E1 & E2 & E3)]; [injection E as -> ->; auto|].
      cbn [Nat.sub] in E3. rewrite Nat.sub_0_r in E3. destruct (f2_nth _ _ _ _ _ H5 E2) as (k' & Ek & [Hw _]). rewrite E1 in Ek. injection Ek as <-. eapply IH; eassumption.
  Qed.
End Step.

(** ** Histories *)
Section Hist.
  Context {I V : Type} (X : index_ops I) (Y : slice_ops I V) (MAX : Z) (inj : Z -> I) (M : nat) (L : index_laws X MAX inj) (HM : 1 <= M).
  Notation tree := (tree I V).
  Notation ptree := (ptree I V).
  Notation run := (prod V Z) (only parsing).
  Notation rle_rep := (rle_rep inj M).

  Definition WR (Lg : list (addr * nat)) (t : ptree) : Prop :=
    match pt_rle t with None => pt_nodes t = LNil | Some r => W Lg (r_height r) (r_node r) (pt_nodes t) end.
  Record tW (Lg : list (addr * nat)) (b : Z) (t : ptree) (l : list run) : Prop := {
    tw_rep : rle_rep (pt_rle t) l;
    tw_max : (rsum l <= b)%Z;
    tw_W : WR Lg t;
    tw_nodup : NoDup (laddrs (pt_nodes t));
  }.
  Definition oW (Lg : list (addr * nat)) (b : Z) (t : option ptree) (l : option (list run)) : Prop :=
    match t, l with Some t, Some l => tW Lg b t l | None, None => True | _, _ => False end.
  Definition coh (D : list (nat * (nat * tree * ltree))) : Prop := forall a e e', In (a, e) D -> In (a, e') D -> e = e'.
  Definition ocells (o : option ptree) : list (nat * (nat * tree * ltree)) := match o with Some t => p_cells t | None => [] end.
  Record winv (w : world I V) (b : Z) (ls : list (option (list run))) : Prop := {
    wi_trees : Forall2 (oW (w_log w) b) (w_trees w) ls;
    wi_coh : coh (w_cells w);
  }.

  Lemma oW_more : forall Lg Lg' b b' t l, incl Lg Lg' -> (b <= b')%Z -> oW Lg b t l -> oW Lg' b' t l.
  Proof.
    intros Lg Lg' b b' [t|] [l|] Hi Hb H; cbn [oW] in *; auto. destruct H as [H1 H2 H3 H4]. constructor; auto; [lia|].
    unfold WR in *. destruct (pt_rle t); [eapply W_mono; eassumption|exact H3].
  Qed.
  Lemma oWs_more : forall Lg Lg' b b' ts ls, incl Lg Lg' -> (b <= b')%Z -> Forall2 (oW Lg b) ts ls -> Forall2 (oW Lg' b') ts ls.
  Proof. intros Lg Lg' b b' ts ls Hi Hb H. eapply f2_impl; [|exact H]. intros t l. apply oW_more; assumption. Qed.

  Lemma WR_addrs : forall Lg t, WR Lg t -> map fst (p_cells t) = laddrs (pt_nodes t).
  Proof. intros Lg t H. unfold WR, p_cells in *. destruct (pt_rle t); [eapply W_addrs; eassumption|rewrite H; reflexivity]. Qed.
  Lemma WR_cells : forall Lg t, WR Lg t -> forall a h' t' lt', In (a, (h', t', lt')) (p_cells t) ->
    W Lg h' t' lt' /\ (exists par rs ks, lt' = LNode a par rs ks) /\
    (forall c x k, h' = S (h' - 1) -> nth_error (kids_of t') c = Some x -> nth_error (l_kids lt') c = Some k ->
       exists b par rs ks, k = LNode b par rs ks /\ In (b, (h' - 1, x, k)) (p_cells t)).
  Proof. intros Lg t H a h' t' lt' Hin. unfold WR, p_cells in *. destruct (pt_rle t); [eapply W_cells; eassumption|destruct Hin]. Qed.

  Lemma oW_addrs : forall Lg b ts ls, Forall2 (oW Lg b) ts ls -> live ts = map fst (flat_map ocells ts).
  Proof.
    intros Lg b ts ls H. induction H as [|t l ts ls H1 H2 IH]; [reflexivity|]. unfold live in *. cbn [flat_map]. rewrite map_app, <- IH. f_equal.
    destruct t as [t|]; destruct l as [l|]; cbn [oW ocells] in *; try contradiction; [|reflexivity]. symmetry. exact (WR_addrs _ _ (tw_W _ _ _ _ H1)).
  Qed.
  Lemma oW_cells : forall Lg b ts ls, Forall2 (oW Lg b) ts ls -> forall a h' t' lt', In (a, (h', t', lt')) (flat_map ocells ts) ->
    W Lg h' t' lt' /\ (exists par rs ks, lt' = LNode a par rs ks) /\
    (forall c x k, h' = S (h' - 1) -> nth_error (kids_of t') c = Some x -> nth_error (l_kids lt') c = Some k ->
       exists b par rs ks, k = LNode b par rs ks /\ In (b, (h' - 1, x, k)) (flat_map ocells ts)).
  Proof.
    intros Lg b ts ls H. induction H as [|t l ts ls H1 H2 IH]; intros a h' t' lt' Hin; [destruct Hin|]. cbn [flat_map] in Hin. apply in_app_or in Hin. destruct Hin as [Hin|Hin].
    - destruct t as [t|]; destruct l as [l|]; cbn [oW ocells] in *; try contradiction.
      destruct (WR_cells _ _ (tw_W _ _ _ _ H1) _ _ _ _ Hin) as (Q1 & Q2 & Q3). split; [exact Q1|]. split; [exact Q2|].
      intros c x k Hh Hx Hk. destruct (Q3 c x k Hh Hx Hk) as (b' & p' & r' & k' & R1 & R2). exists b', p', r', k'. split; [exact R1|]. cbn [flat_map]. apply in_or_app. left. exact R2.
    - destruct (IH _ _ _ _ Hin) as (Q1 & Q2 & Q3). split; [exact Q1|]. split; [exact Q2|].
      intros c x k Hh Hx Hk. destruct (Q3 c x k Hh Hx Hk) as (b' & p' & r' & k' & R1 & R2). exists b', p', r', k'. split; [exact R1|]. cbn [flat_map]. apply in_or_app. right. exact R2.
  Qed.
  Lemma in_replace : forall (ts : list (option ptree)) j x y e, nth_error ts j = Some x ->
    In e (flat_map ocells (replace_at j y ts)) <-> In e (ocells y) \/ In e (flat_map ocells (replace_at j None ts)).
  Proof.
    induction ts as [|t ts IH]; intros [|j] x y e E; try discriminate; cbn [nth_error] in E.
    - rewrite !replace_at_0. cbn [flat_map ocells app]. rewrite in_app_iff. reflexivity.
    - rewrite !replace_at_S. cbn [flat_map]. rewrite !in_app_iff, (IH j x y e E). tauto.
  Qed.
  Lemma replace_id : forall {T} (ts : list T) j x, nth_error ts j = Some x -> replace_at j x ts = ts.
  Proof. induction ts as [|t ts IH]; intros [|j] x E; try discriminate; cbn [nth_error] in E; [injection E as ->; reflexivity|]. rewrite replace_at_S, (IH j x E). reflexivity. Qed.

  Lemma fresh_once : forall al n, (forall i k : nat, al i = al k -> i = k) -> forall x, count_occ Nat.eq_dec (rev (map al (seq 0 n))) x <= 1.
  Proof.
    intros al n Hal x. apply NoDup_count_occ. apply NoDup_rev. apply FinFun.Injective_map_NoDup; [intros i k; apply Hal|apply seq_NoDup].
  Qed.

  Lemma f2_none : forall Lg b ts ls j, Forall2 (oW Lg b) ts ls -> Forall2 (oW Lg b) (replace_at j None ts) (replace_at j None ls).
  Proof. intros. apply f2_replace; [assumption|exact Logic.I]. Qed.

  Lemma w_insert_ok : forall nop w b ls j hints idx x n al t l l', winv w b ls -> nth_error (w_trees w) j = Some (Some t) -> nth_error ls j = Some (Some l) ->
    (0 <= idx <= MAX)%Z -> (0 <= n)%Z -> (b + n <= MAX)%Z -> spec_insert Y inj l idx x n = Ok l' ->
    alloc_ok w (WInsert j hints idx x n al) ->
    exists w' t', w_call X Y M inj nop w (WInsert j hints idx x n al) = Ok w' /\ winv w' (b + n) (set_nth j (Some l') ls) /\
      w_trees w' = replace_at j (Some t') (w_trees w) /\
      Forall (fun a => ~ In a (live (replace_at j None (w_trees w)))) (w_writes w').
  Proof.
    intros nop w b ls j hints idx x n al t l l' [Ht Hc] Et El Hi Hn Hb Es [Hal1 Hal2].
    destruct (forall2_nth _ _ _ _ _ Ht Et) as (y & Ey & Hy). rewrite El in Ey. injection Ey as <-. cbn [oW] in Hy. destruct Hy as [Hr Hl HW Hnd].
    pose proof (insert_full_ok X Y MAX inj M L HM nop _ _ hints idx x n Hr Hi Hn ltac:(lia)) as G. rewrite Es in G. destruct G as (r' & cur & Ei & Hr' & _).
    destruct (insert_shape X Y M nop _ _ _ _ _ _ _ Ei) as (pl & Ep & _).
    assert (Ef : exists fp, find_path X Y (pt_rle t) hints (inj idx) = Ok fp).
    { unfold find_path. clear - Ei. unfold insert_with_cursor in Ei. destruct (rle_size X (pt_rle t)) as [sz| |]; cbn [bind] in Ei; try discriminate.
      destruct (ix_ltb X sz (inj idx)); [discriminate|]. destruct (ix_leb X (inj n) (ix_zero X)); [discriminate|]. destruct (pt_rle t) as [r|]; [|eauto].
      destruct (find_insertion_point X Y (r_height r) (r_node r) hints (inj idx) [] None None) as [ip| |]; cbn [bind] in *; try discriminate. eauto. }
    destruct Ef as [fp Ef].
    set (others := live (replace_at j None (w_trees w))). set (D := flat_map ocells (replace_at j None (w_trees w))).
    pose proof (f2_none _ _ _ _ j Ht) as HtN.
    assert (HDa : forall a, In a others <-> In a (map fst D)) by (intros a; unfold others, D; rewrite (oW_addrs _ _ _ _ HtN); reflexivity).
    pose proof (oW_cells _ _ _ _ HtN) as HDW. fold D in HDW.
    assert (Hwc : forall e, In e (w_cells w) <-> In e (p_cells t) \/ In e D).
    { intros e. unfold w_cells. fold ocells. rewrite <- (replace_id _ _ _ Et) at 1. rewrite (in_replace _ _ _ (Some t) e Et). reflexivity. }
    assert (Hlv : forall a, In a (live (w_trees w)) <-> In a (laddrs (pt_nodes t)) \/ In a others).
    { intros a. rewrite (oW_addrs _ _ _ _ Ht), HDa, <- (WR_addrs _ _ HW), !in_map_iff. change (flat_map ocells (w_trees w)) with (w_cells w). split.
      - intros (e & <- & He). apply Hwc in He. destruct He; [left|right]; eauto.
      - intros [(e & <- & He)|(e & <- & He)]; exists e; (split; [reflexivity|]); apply Hwc; auto. }
    set (s0 := {| k_al := al; k_i := 0; k_log := []; k_writes := [] |}).
    assert (Hs0 : sok others s0).
    { split; [|split; [constructor|reflexivity]]. intros i Hin. apply (Hal2 i). apply Hlv. right. exact Hin. }
    assert (HJ : JR others (C0 D) (Lg (w_log w) s0) (pt_rle t) (pt_nodes t)).
    { unfold JR, Lg. cbn [s0 k_log app]. unfold WR in HW. unfold p_cells in Hwc. destruct (pt_rle t) as [r|]; [|exact HW].
      apply (W_J others (w_log w) D HDa). exact HW. intros a e e' H1 H2. apply (Hc a); apply Hwc; auto. }
    destruct (run_ok X Y M others (C0 D) (w_log w) (C0_open others (w_log w) D HDa HDW) s0 nop (pt_rle t) hints (inj idx) x (inj n) r' cur pl fp (pt_nodes t) Hs0 HJ Ei Ep Ef)
      as (lt' & s' & root & Er & -> & Ho & Hs' & Hx & Hcnt).
    set (t' := {| pt_rle := Some root; pt_nodes := lt' |}).
    cbn [w_call]. rewrite Et. unfold c_insert. rewrite Ei. cbn [bind]. rewrite Ep. cbn [bind]. rewrite Ef. cbn [bind]. fold others. fold s0.
    change (p_height t) with (rheight (pt_rle t)). rewrite Er. cbn [bind]. fold t'.
    eexists. exists t'. split; [reflexivity|]. cbn [w_trees w_log w_writes].
    split; [|split; [reflexivity|exact (proj1 (proj2 Hs'))]].
    assert (Hincl : incl (w_log w) (k_log s' ++ w_log w)) by (apply incl_appr, incl_refl).
    change (k_log s' ++ w_log w) with (Lg (w_log w) s') in *.
    assert (HJ' : J others (C0 D) (Lg (w_log w) s') (r_height root) (r_node root) lt') by (eapply own_J; exact Ho).
    assert (HW' : WR (Lg (w_log w) s') t') by (apply (J_W others (w_log w) D HDW _ Hincl); exact HJ').
    assert (Hnd' : NoDup (laddrs lt')).
    { apply (NoDup_count_occ Nat.eq_dec). intros a. specialize (Hcnt a). fold (cnt a lt'). unfold fc in Hcnt. cbn [s0 k_log map count_occ] in Hcnt.
      destruct Hs' as (_ & _ & Hlog). rewrite Hlog in Hcnt. destruct Hx as [Hx _]. cbn [s0 k_al] in Hx. rewrite Hx in Hcnt.
      pose proof (fresh_once al (k_i s') Hal1 a) as H1. pose proof (proj1 (NoDup_count_occ Nat.eq_dec _) Hnd a) as H2. fold (cnt a (pt_nodes t)) in H2.
      destruct (count_occ Nat.eq_dec (rev (map al (seq 0 (k_i s')))) a) eqn:Ea; [lia|].
      assert (Hin : In a (rev (map al (seq 0 (k_i s'))))) by (apply (count_occ_In Nat.eq_dec); lia). apply in_rev, in_map_iff in Hin. destruct Hin as (i & <- & _).
      assert (H3 : cnt (al i) (pt_nodes t) = 0). { apply count_occ_not_In. intros Q. apply (Hal2 i). apply Hlv. left. exact Q. } lia. }
    constructor; cbn [w_trees w_log w_writes].
    - eapply forall2_set; [|exact Et|].
      + eapply oWs_more; [exact Hincl| |exact Ht]. lia.
      + cbn [oW]. destruct (spec_insert_sum _ _ _ _ _ _ _ Es) as (Hsum & _). constructor; cbn [t' pt_rle pt_nodes]; auto. lia.
    - intros a e e'. unfold w_cells. cbn [w_trees]. fold ocells. rewrite !(in_replace _ _ _ (Some t') _ Et). fold D. cbn [ocells].
      assert (Hself : forall e e', In (a, e) (p_cells t') -> In (a, e') (p_cells t') -> e = e').
      { intros e1 e2. apply keys_unique. rewrite (WR_addrs _ _ HW'). exact Hnd'. }
      assert (HDD : forall e e', In (a, e) D -> In (a, e') D -> e = e') by (intros e1 e2 Q1 Q2; apply (Hc a); apply Hwc; auto).
      assert (Hmix : forall e e', In (a, e) (p_cells t') -> In (a, e') D -> e = e').
      { intros e1 e2 Q1 Q2. destruct (J_cells others (w_log w) D HDW _ _ _ _ HJ' a e1 Q1) as [Q|Q]; [exact (HDD _ _ Q Q2)|].
        destruct Q. apply HDa. apply in_map_iff. exists (a, e2). auto. }
      intros [H1|H1] [H2|H2]; auto. symmetry. auto.
  Qed.

  Definition wcalls_ok (w : world I V) (nop : bool) (calls : list (@wcall V)) (b : Z) (o : res (@values V)) : Prop :=
    match o with
    | Ok st => exists w', w_run X Y M inj nop w calls = Ok w' /\ winv w' b (fst st)
    | Panic p => w_run X Y M inj nop w calls = Panic p
    | UB => False
    end.

  Lemma cells_app : forall a b : list (option ptree), flat_map ocells (a ++ b) = flat_map ocells a ++ flat_map ocells b.
  Proof. intros. apply flat_map_app. Qed.

  Lemma w_run_ok : forall nop calls w b st, winv w b (fst st) -> mcalls_fit MAX (map forget calls) -> (b + isum (map forget calls) <= MAX)%Z -> (0 <= b)%Z ->
    allocs_ok X Y M inj nop w calls ->
    wcalls_ok w nop calls (b + isum (map forget calls)) (val_run Y inj st (map forget calls)).
  Proof.
    intros nop. induction calls as [|c calls IH]; intros w b st Hinv [Hf Hs] Hb Hb0 Hal; unfold wcalls_ok; cbn [val_run w_run isum map] in *.
    - rewrite Z.add_0_r. eauto.
    - inversion Hf as [|? ? Hc Hf']; subst. pose proof (isum_nonneg MAX M HM _ Hf') as Hn. pose proof Hinv as [Ht Hcoh]. cbn [allocs_ok] in Hal. destruct Hal as [Hal Hal'].
      assert (K : forall w' n' st', w_call X Y M inj nop w c = Ok w' -> val_call Y inj st (forget c) = Ok st' -> winv w' n' (fst st') -> (n' + isum (map forget calls) = b + isum (forget c :: map forget calls))%Z -> (0 <= n')%Z ->
        match (let* st' := val_call Y inj st (forget c) in val_run Y inj st' (map forget calls)) with
        | Ok st' => exists w', (let* w' := w_call X Y M inj nop w c in w_run X Y M inj nop w' calls) = Ok w' /\ winv w' (b + isum (forget c :: map forget calls)) (fst st')
        | Panic p => (let* w' := w_call X Y M inj nop w c in w_run X Y M inj nop w' calls) = Panic p
        | UB => False
        end).
      { intros w' n' st' E1 E2 Hi En Hn'. rewrite E1, E2. cbn [bind]. rewrite E1 in Hal'. rewrite <- En. apply IH; auto; [split; auto|]; cbn [isum] in *; destruct c; cbn [forget] in *; lia. }
      destruct st as [ts d]. cbn [fst snd] in *.
      destruct c as [|j hints idx x n al|j|j]; cbn [isum forget] in *.
      + eapply (K _ b); [reflexivity|reflexivity| |reflexivity|lia]. constructor; cbn [w_trees w_log w_writes fst].
        * apply Forall2_app; [exact Ht|]. constructor; [|constructor]. cbn [oW]. constructor; cbn; auto; try constructor; lia.
        * unfold coh, w_cells in *. cbn [w_trees]. fold ocells in *. rewrite cells_app. cbn. rewrite app_nil_r. exact Hcoh.
      + destruct (nth_error (w_trees w) j) as [[t|]|] eqn:Et.
        * destruct (forall2_nth _ _ _ _ _ Ht Et) as ([l|] & El & Hy); [|destruct Hy].
          destruct (spec_insert Y inj l idx x n) as [l'|p|] eqn:Es.
          -- destruct (w_insert_ok nop w b ts j hints idx x n al t l l' Hinv Et El ltac:(lia) ltac:(lia) ltac:(lia) Es Hal) as (w' & t' & E1 & I1 & _).
             eapply (K w' (b + n)%Z); [exact E1|cbn [val_call fst]; rewrite El, Es; reflexivity|exact I1|lia|lia].
          -- cbn [val_call]. rewrite El, Es. cbn [bind w_call]. rewrite Et. unfold c_insert.
             destruct Hy as [Hr Hl _ _]. pose proof (insert_full_ok X Y MAX inj M L HM nop _ _ hints idx x n Hr ltac:(lia) ltac:(lia) ltac:(lia)) as G. rewrite Es in G. rewrite G. reflexivity.
          -- exfalso. destruct Hy as [Hr Hl _ _]. pose proof (insert_full_ok X Y MAX inj M L HM nop _ _ hints idx x n Hr ltac:(lia) ltac:(lia) ltac:(lia)) as G. rewrite Es in G. exact G.
        * destruct (forall2_nth _ _ _ _ _ Ht Et) as ([l|] & El & Hy); [destruct Hy|].
          eapply (K _ (b + n)%Z); [cbn [w_call]; rewrite Et; reflexivity|cbn [val_call]; rewrite El; reflexivity| |lia|lia].
          constructor; [|exact Hcoh]. eapply oWs_more; [apply incl_refl| |exact Ht]. lia.
        * pose proof (forall2_nth_none _ _ _ _ Ht Et) as El.
          eapply (K _ (b + n)%Z); [cbn [w_call]; rewrite Et; reflexivity|cbn [val_call]; rewrite El; reflexivity| |lia|lia].
          constructor; [|exact Hcoh]. eapply oWs_more; [apply incl_refl| |exact Ht]. lia.
      + destruct (nth_error (w_trees w) j) as [[t|]|] eqn:Et.
        * destruct (forall2_nth _ _ _ _ _ Ht Et) as ([l|] & El & Hy); [|destruct Hy].
          eapply (K _ b); [cbn [w_call]; rewrite Et; reflexivity|cbn [val_call]; rewrite El; reflexivity| |lia|lia].
          constructor; cbn [w_trees w_log w_writes fst].
          -- apply Forall2_app; [exact Ht|]. constructor; [exact Hy|constructor].
          -- intros a e e'. unfold w_cells. cbn [w_trees]. fold ocells. rewrite cells_app. cbn [flat_map ocells]. rewrite app_nil_r.
             assert (Hsub : forall q, In q (flat_map ocells (w_trees w) ++ p_cells t) -> In q (w_cells w)).
             { intros q Hq. apply in_app_or in Hq. destruct Hq as [Hq|Hq]; [exact Hq|]. unfold w_cells. apply in_flat_map. exists (Some t). split; [eapply nth_error_In; exact Et|exact Hq]. }
             intros H1 H2. exact (Hcoh a e e' (Hsub _ H1) (Hsub _ H2)).
        * destruct (forall2_nth _ _ _ _ _ Ht Et) as ([l|] & El & Hy); [destruct Hy|].
          eapply (K _ b); [cbn [w_call]; rewrite Et; reflexivity|cbn [val_call]; rewrite El; reflexivity|constructor; auto|lia|lia].
        * pose proof (forall2_nth_none _ _ _ _ Ht Et) as El.
          eapply (K _ b); [cbn [w_call]; rewrite Et; reflexivity|cbn [val_call]; rewrite El; reflexivity|constructor; auto|lia|lia].
      + destruct (nth_error (w_trees w) j) as [[t|]|] eqn:Et.
        * destruct (forall2_nth _ _ _ _ _ Ht Et) as ([l|] & El & Hy); [|destruct Hy].
          eapply (K _ b); [cbn [w_call]; rewrite Et; reflexivity|cbn [val_call]; rewrite El; reflexivity| |lia|lia].
          constructor; cbn [w_trees w_log w_writes fst].
          -- eapply forall2_set; [exact Ht|exact Et|exact Logic.I].
          -- intros a e e' H1 H2. assert (Hsub : forall q, In q (flat_map ocells (replace_at j None (w_trees w))) -> In q (w_cells w)).
             { intros q Hq. unfold w_cells. fold ocells. rewrite <- (replace_id _ _ _ Et). apply (in_replace _ _ _ (Some t) q Et). right. exact Hq. }
             exact (Hcoh a e e' (Hsub _ H1) (Hsub _ H2)).
        * destruct (forall2_nth _ _ _ _ _ Ht Et) as ([l|] & El & Hy); [destruct Hy|].
          eapply (K _ b); [cbn [w_call]; rewrite Et; reflexivity|cbn [val_call]; rewrite El; reflexivity|constructor; auto|lia|lia].
        * pose proof (forall2_nth_none _ _ _ _ Ht Et) as El.
          eapply (K _ b); [cbn [w_call]; rewrite Et; reflexivity|cbn [val_call]; rewrite El; reflexivity|constructor; auto|lia|lia].
  Qed.

  Lemma winv_new : winv w_new 0 [].
  Proof. constructor; [constructor|]. intros a e e' []. Qed.
End Hist.
