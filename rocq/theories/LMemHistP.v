(** Clones, destructors and histories of several trees in one memory.  Proof support only. *)
From Coq Require Import List ZArith Lia Bool Arith Permutation.
From Verif Require Import Base Index Slice Tree Insert Spec Zip Rep Upd Leaf Path Ops Find Ins IterP LTree LInsert LTreeP LUpP LLeafP LShape LShapeP LUpdP LPlanP LEffP Iter IterQ HistP RefSpec LRef LSpec LMemP LClimbP LInvP LHistP.
Import ListNotations.

(** ** Clones *)
Lemma no_rids_Sok : forall st E, rids (map snd E) = [] -> Sok st E.
Proof.
  intros st E H. unfold Sok. rewrite Forall_forall. intros [l [r|]] Hin; [|exact Logic.I]. exfalso.
  assert (Hr : In r (rids (map snd E))) by (apply in_rids; apply in_map_iff; exists (l, Some r); auto). rewrite H in Hr. destruct Hr.
Qed.

Lemma weave_none : forall a ks, Forall (fun k => rids (lrefs k) = []) ks -> forall (rs : list (option rid)) j,
  rids (map snd (weave linord a j (map (fun _ => None) rs) ks)) = [].
Proof.
  intros a ks H. induction H as [|k ks Hk H IH]; intros rs j; [reflexivity|]. cbn [weave]. rewrite map_app, rids_app.
  unfold lrefs in Hk. rewrite Hk. destruct rs as [|r rs]; [reflexivity|]. cbn [map snd app]. exact (IH rs (S j)).
Qed.

Lemma seq_perm : forall a b n m (A B : list nat), Permutation A (seq a n) -> Permutation B (seq b m) -> b = n + a -> Permutation (A ++ B) (seq a (m + n)).
Proof. intros a b n m A B HA HB ->. rewrite (Nat.add_comm m n), seq_app, (Nat.add_comm a n). apply Permutation_app; auto. Qed.

Section Clone.
  Context (M : nat).

  Definition clone_ok (lt : ltree) : Prop := forall s par, lok M par lt ->
    exists lt' n lg, l_clone lt s = Ok (lt', upst s [] n lg) /\ lok M None lt' /\ lshape lt' = lshape lt /\
      Permutation (laddrs lt') (seq (p_next s) n) /\ (forall x, In x lg -> p_next s <= x < n + p_next s) /\ rids (lrefs lt') = [].

  Lemma loks_fresh : forall ks a i, Forall (lok M None) ks -> loks M a i (setps a i ks).
  Proof. intros ks a i H. revert i. induction H as [|k ks Hk H IH]; intros i; [exact Logic.I|]. split; [eapply lok_setp; eauto|exact (IH (S i))]. Qed.

  Lemma clone_kids : forall ks, Forall clone_ok ks -> forall s a i, loks M a i ks ->
    exists ks' n lg, (fix go ks : sm (list ltree) :=
                    match ks with
                    | [] => sret []
                    | k :: ks' => do* k1 := l_clone k in do* r := go ks' in sret (k1 :: r)
                    end) ks s = Ok (ks', upst s [] n lg) /\ Forall (lok M None) ks' /\ map lshape ks' = map lshape ks /\
      Permutation (flat_map laddrs ks') (seq (p_next s) n) /\ (forall x, In x lg -> p_next s <= x < n + p_next s) /\ Forall (fun k => rids (lrefs k) = []) ks'.
  Proof.
    intros ks H. induction H as [|k ks Hk H IH]; intros s a i Hok.
    - exists [], 0, []. split; [destruct s; reflexivity|]. split; [constructor|]. split; [reflexivity|]. split; [reflexivity|]. split; [intros x []|constructor].
    - destruct Hok as [Hok1 Hok2]. destruct (Hk s _ Hok1) as (k' & n1 & lg1 & E1 & O1 & S1 & P1 & L1 & R1).
      destruct (IH (upst s [] n1 lg1) a (S i) Hok2) as (ks' & n2 & lg2 & E2 & O2 & S2 & P2 & L2 & R2).
      cbn [upst p_next] in P2, L2. exists (k' :: ks'), (n2 + n1), (lg2 ++ lg1).
      split; [|split; [constructor; auto|split; [cbn [map]; rewrite S1, S2; reflexivity|split; [|split]]]].
      + rewrite (sbind_ok _ _ _ _ _ E1), (sbind_ok _ _ _ _ _ E2), upst_upst. reflexivity.
      + cbn [flat_map]. eapply seq_perm; eauto.
      + intros x Hx. apply in_app_or in Hx. destruct Hx as [Hx|Hx]; [specialize (L2 _ Hx)|specialize (L1 _ Hx)]; lia.
      + constructor; auto.
  Qed.

  Lemma l_clone_ok : forall lt, clone_ok lt.
  Proof.
    induction lt as [|a q rs ks IH] using ltree_ind2; intros s par Hok.
    - exists LNil, 0, []. split; [destruct s; reflexivity|]. split; [exact Logic.I|]. split; [reflexivity|]. split; [reflexivity|]. split; [intros x []|reflexivity].
    - destruct Hok as (_ & H2 & H3 & H4).
      destruct (clone_kids ks IH s a 0 H4) as (ks' & n & lg & E & O & Sh & P & Lg & R).
      assert (Hlen : length ks' = length ks) by (apply (f_equal (@length _)) in Sh; rewrite !map_length in Sh; exact Sh).
      set (s1 := upst s [] n lg) in *. set (b := p_next s1) in *.
      destruct (set_pars_ok ks' b 0 (upst s1 [] 1 [b])) as (lg' & E' & I').
      exists (LNode b None (map (fun _ => None) rs) (setps b 0 ks')), (S n), (lg' ++ b :: lg).
      split; [|split; [|split; [|split; [|split]]]].
      + cbn [l_clone]. rewrite (sbind_ok _ _ _ _ _ E).
        assert (Ea : alloc s1 = Ok (b, upst s1 [] 1 [b])) by reflexivity.
        rewrite (sbind_ok _ _ _ _ _ Ea), (sbind_ok _ _ _ _ _ E'). unfold s1. rewrite !upst_upst. unfold sret. do 3 f_equal. rewrite <- app_assoc. reflexivity.
      + cbn [lok]. rewrite map_length, setps_len, Hlen. split; [reflexivity|]. split; [exact H2|]. split; [exact H3|]. apply loks_fresh. exact O.
      + cbn [lshape]. f_equal. rewrite <- Sh. clear. generalize 0. induction ks' as [|k ks' IH]; intros i; [reflexivity|]. cbn [setps map]. rewrite IH. f_equal. destruct k; reflexivity.
      + cbn [laddrs]. rewrite setps_laddrs. change (S n) with (1 + n). rewrite Nat.add_1_l, seq_S. unfold b, s1. cbn [upst p_next]. rewrite (Nat.add_comm (p_next s) n).
        apply Permutation_cons_app. rewrite app_nil_r. exact P.
      + intros x Hx. unfold b, s1 in *. cbn [upst p_next] in *. apply in_app_or in Hx. destruct Hx as [Hx|[<-|Hx]].
        * apply I' in Hx. apply (Permutation_in _ P) in Hx. apply in_seq in Hx. lia.
        * lia.
        * specialize (Lg _ Hx). lia.
      + unfold lrefs. cbn [linord]. assert (R2 : Forall (fun k => rids (lrefs k) = []) (setps b 0 ks')).
        { clear - R. generalize 0. induction R as [|k ks Hk R IHR]; intros i; [constructor|]. cbn [setps]. constructor; [rewrite setp_lrefs; exact Hk|apply IHR]. }
        apply weave_none. exact R2.
  Qed.
End Clone.

(** ** The destructor *)
Section Drop.
  Context {I V : Type} (inj : Z -> I) (M : nat).
  Notation tree := (tree I V).

  Lemma drops_app : forall a b : list (@dev V), drops (a ++ b) = drops a ++ drops b.
  Proof. intros. apply flat_map_app. Qed.
  Lemma frees_app : forall a b : list (@dev V), frees (a ++ b) = frees a ++ frees b.
  Proof. intros. apply flat_map_app. Qed.
  Lemma drops_keys : forall es : list (I * V * tree), drops (map (fun e => DSlice (e_slice e)) es) = map e_slice es.
  Proof. induction es as [|e es IH]; [reflexivity|]. cbn [map]. change (drops (DSlice (e_slice e) :: ?l)) with (e_slice e :: drops l). cbn. f_equal. exact IH. Qed.
  Lemma frees_keys : forall es : list (I * V * tree), frees (map (fun e => DSlice (e_slice e)) es) = [].
  Proof. induction es as [|e es IH]; [reflexivity|exact IH]. Qed.

  Lemma drop_kids : forall (R : tree -> list (V * Z) -> Prop) (f : tree -> ltree -> list (@dev V)),
    (forall c l k, R c l -> shape c = lshape k -> Permutation (drops (f c k)) (map fst l) /\ Permutation (frees (f c k)) (laddrs k)) ->
    forall ks (cs : list tree) ls, map shape cs = map lshape ks -> Forall2 R cs ls ->
    Permutation (drops ((fix go ks cs := match ks, cs with k :: ks', c :: cs' => f c k ++ go ks' cs' | _, _ => [] end) ks cs)) (map fst (concat ls)) /\
    Permutation (frees ((fix go ks cs := match ks, cs with k :: ks', c :: cs' => f c k ++ go ks' cs' | _, _ => [] end) ks cs)) (flat_map laddrs ks).
  Proof.
    intros R f Hf. induction ks as [|k ks IH]; intros [|c cs] ls E H; try discriminate; inversion H; subst; [split; reflexivity|].
    injection E as E1 E2. rewrite drops_app, frees_app. cbn [concat flat_map]. rewrite map_app.
    destruct (Hf _ _ _ H2 E1) as [Ha Hb]. destruct (IH cs l' E2 H4) as [Hc Hd]. split; apply Permutation_app; auto.
  Qed.

  Lemma seg_perm : forall (R : tree -> list (V * Z) -> Prop) off es l, seg inj R off es l ->
    exists ls, Forall2 R (map e_child es) ls /\ Permutation (map fst l) (map e_slice es ++ map fst (concat ls)).
  Proof.
    intros R off es l H. induction H as [off|off z s ch lc es l Hz Hc H (ls & IH1 & IH2)]; [exists []; split; [constructor|reflexivity]|].
    exists (lc :: ls). split; [constructor; auto|]. cbn [map fst concat]. unfold e_slice at 1. cbn [fst snd app]. constructor. rewrite !map_app.
    rewrite IH2, !app_assoc. apply Permutation_app_tail. apply Permutation_app_comm.
  Qed.

  Lemma do_drop_ok : forall h lo (t : tree) l lt, rep inj M lo h t l -> shape t = lshape lt ->
    Permutation (drops (do_drop h t lt)) (map fst l) /\ Permutation (frees (do_drop h t lt)) (laddrs lt).
  Proof.
    induction h as [|h IH]; intros lo t l lt R Es; rewrite rep_nrep in R; destruct R as (c0 & es & lc & l' & -> & _ & Hc & Hs & ->).
    all: destruct lt as [|a q rs ks]; [discriminate|]; cbn [do_drop keys]; rewrite drops_app, frees_app, drops_keys, frees_keys; cbn [laddrs].
    all: pose proof (shape_kids _ _ _ _ _ Es) as Ek; cbn [kids_of] in Ek.
    all: destruct (seg_perm _ _ _ _ Hs) as (ls & H1 & H2).
    - change (drops [DFree a]) with (@nil V). change (frees [DFree a]) with [a]. cbn [childR] in *. destruct Hc as [-> ->]. cbn [app].
      assert (E : concat ls = []) by (clear - H1; induction H1 as [|x y xs ys [_ ->] H IH]; [reflexivity|exact IH]).
      rewrite E in H2. cbn [map] in H2. split; [symmetry; exact H2|].
      assert (E2 : flat_map laddrs ks = []).
      { assert (Hk : Forall (fun k => lshape k = SX) ks).
        { assert (Hk : Forall (fun x => x = SX) (map lshape ks)); [|clear - Hk; induction ks; inversion Hk; constructor; auto].
          rewrite <- Ek. constructor; [reflexivity|]. clear - H1. induction H1 as [|x y xs ys [-> _] H IH]; constructor; auto. }
        clear - Hk. induction Hk as [|k ks Hk1 Hk2 IH]; [reflexivity|]. cbn [flat_map]. destruct k; [exact IH|discriminate]. }
      rewrite E2. reflexivity.
    - change (drops (DFree a :: ?x)) with (drops x). change (frees (DFree a :: ?x)) with (a :: frees x). cbn [childR] in *.
      destruct (drop_kids (rep inj M M h) (do_drop h) (fun c l k Hr He => IH M c l k Hr He) ks (c0 :: map e_child es) (lc :: ls) Ek (Forall2_cons _ _ Hc H1)) as [Ha Hb].
      cbn [kids_of]. split; [|cbn [app]; constructor; exact Hb].
      rewrite Ha. cbn [concat]. rewrite !map_app, H2, !app_assoc. apply Permutation_app_tail. apply Permutation_app_comm.
  Qed.
End Drop.

(** ** Several trees *)
Section Several.
  Context {I V : Type} (X : index_ops I) (MAX : Z) (inj : Z -> I) (M : nat) (L : index_laws X MAX inj) (HM : 1 <= M) (Y : slice_ops I V).
  Notation run := (prod V Z) (only parsing).
  Notation pinv := (@pinv I V MAX inj M).
  Notation mem := (@mem I V).

  Definition own (t : option (ptree I V)) : list nat := match t with Some t => laddrs (pt_nodes t) | None => [] end.
  Definition live (m : mem) : list nat := flat_map own (m_trees m).
  Definition at_next (n : nat) : heap := {| hp_store := []; hp_next := n |}.
  Definition tree_ok (n : nat) (b : Z) (t : option (ptree I V)) (l : option (list run)) : Prop :=
    match t, l with
    | Some t, Some l => pinv t (at_next n) l /\ (rsum l <= b)%Z
    | None, None => True
    | _, _ => False
    end.
  Record minv (m : mem) (b : Z) (st : @values V) : Prop := {
    mi_trees : Forall2 (tree_ok (m_next m) b) (m_trees m) (fst st);
    mi_mem : Permutation (live m ++ m_freed m) (seq 0 (m_next m));
    mi_drops : Permutation (m_dropped m) (snd st);
  }.

  Lemma pinv_more : forall t n n' l, n <= n' -> pinv t (at_next n) l -> pinv t (at_next n') l.
  Proof.
    intros t n n' l H []. constructor; auto. cbn [at_next hp_next] in *. eapply Forall_impl; [|exact pi_next]. cbn. intros. lia.
  Qed.
  Lemma tree_ok_more : forall n n' b b' t l, n <= n' -> (b <= b')%Z -> tree_ok n b t l -> tree_ok n' b' t l.
  Proof. intros n n' b b' [t|] [l|] H Hb; cbn; auto. intros [H1 H2]. split; [eapply pinv_more; eauto|lia]. Qed.
  Lemma trees_more : forall n n' b b' ts ls, n <= n' -> (b <= b')%Z -> Forall2 (tree_ok n b) ts ls -> Forall2 (tree_ok n' b') ts ls.
  Proof. intros n n' b b' ts ls H Hb HF. induction HF; constructor; auto. eapply tree_ok_more; eauto. Qed.

  Lemma forall2_nth : forall {A B} (R : A -> B -> Prop) l1 l2 j x, Forall2 R l1 l2 -> nth_error l1 j = Some x -> exists y, nth_error l2 j = Some y /\ R x y.
  Proof. intros A B R l1 l2 j x H. revert j. induction H; intros [|j] E; try discriminate; cbn in *; [injection E as <-; eauto|eauto]. Qed.
  Lemma forall2_nth_none : forall {A B} (R : A -> B -> Prop) l1 l2 j, Forall2 R l1 l2 -> nth_error l1 j = None -> nth_error l2 j = None.
  Proof. intros A B R l1 l2 j H. revert j. induction H; intros [|j] E; try discriminate; cbn in *; auto. Qed.
  Lemma forall2_set : forall {A B} (R : A -> B -> Prop) l1 l2 j x y x', Forall2 R l1 l2 -> nth_error l1 j = Some x' -> R x y -> Forall2 R (replace_at j x l1) (set_nth j y l2).
  Proof.
    intros A B R l1 l2 j x y x' H. revert j. induction H; intros [|j] E HR; try discriminate; cbn in E.
    - constructor; auto.
    - rewrite replace_at_S. unfold set_nth. cbn [firstn skipn app]. constructor; auto. exact (IHForall2 j E HR).
  Qed.
  Lemma live_set : forall (ts : list (option (ptree I V))) j x y, nth_error ts j = Some x ->
    Permutation (flat_map own ts) (own x ++ flat_map own (replace_at j None ts)) /\
    Permutation (flat_map own (replace_at j y ts)) (own y ++ flat_map own (replace_at j None ts)).
  Proof.
    induction ts as [|t ts IH]; intros [|j] x y E; try discriminate; cbn [nth_error] in E.
    - injection E as ->. split; reflexivity.
    - destruct (IH j x y E) as [H1 H2]. rewrite !replace_at_S. cbn [flat_map]. split; [rewrite H1|rewrite H2]; rewrite !app_assoc; apply Permutation_app_tail; apply Permutation_app_comm.
  Qed.

  Definition calls_ok (m : mem) (nop : bool) (calls : list (@mcall V)) (b : Z) (o : res (@values V)) : Prop :=
    match o with
    | Ok st => exists m', m_run X Y M inj nop m calls = Ok m' /\ minv m' b st
    | Panic w => m_run X Y M inj nop m calls = Panic w
    | UB => False
    end.

  Lemma m_insert_ok : forall nop m b st j hints idx x n t l l', minv m b st -> nth_error (m_trees m) j = Some (Some t) -> nth_error (fst st) j = Some (Some l) ->
    (0 <= idx)%Z -> (b + n <= MAX)%Z -> spec_insert Y inj l idx x n = Ok l' ->
    exists m' t', m_call X Y M inj nop m (MInsert j hints idx x n) = Ok m' /\ minv m' (b + n) (set_nth j (Some l') (fst st), snd st) /\
      m_trees m' = replace_at j (Some t') (m_trees m) /\
      m_next m <= m_next m' /\ Forall (fun a => In a (laddrs (pt_nodes t)) \/ m_next m <= a < m_next m') (m_writes m').
  Proof.
    intros nop m b st j hints idx x n t l l' [Ht Hm Hd] Et El Hi Hb Es.
    destruct (forall2_nth _ _ _ _ _ Ht Et) as (y & Ey & Hy). rewrite El in Ey. injection Ey as <-. cbn [tree_ok] in Hy. destruct Hy as [P Hl].
    destruct (spec_ok_inv inj Y _ _ _ _ _ Es) as (Hi2 & Hn & Er).
    destruct (p_insert_ok X MAX inj M L HM Y nop t (at_next (m_next m)) l hints idx x n l' P) as (t' & hp' & lc & log & i & Ep & P' & _ & _ & Hst & _ & (k & Hk & Hpm) & Hlog); auto; try lia.
    cbn [m_call]. rewrite Et. unfold at_next in Ep. rewrite Ep. cbn [bind]. eexists. exists t'. split; [reflexivity|]. cbn [at_next hp_next hp_store length] in *.
    assert (Ehp : hp' = at_next (hp_next hp')) by (destruct hp' as [[|? ?] ?]; cbn in *; [reflexivity|lia]).
    split; [|split; [reflexivity|split; [cbn [m_next]; lia|exact Hlog]]].
    constructor; cbn [m_trees m_next m_freed m_dropped fst snd].
    - eapply forall2_set; [|exact Et|].
      + eapply trees_more; [| |exact Ht]; lia.
      + cbn [tree_ok]. rewrite Ehp in P'. split; [exact P'|]. pose proof (insert_runs_sum Y inj l idx x n l' Er). lia.
    - unfold live in *. cbn [m_trees]. destruct (live_set (m_trees m) j _ (Some t') Et) as [H1 H2]. rewrite H2. cbn [own].
      rewrite H1 in Hm. cbn [own] in Hm. rewrite Hpm, Hk. rewrite Nat.add_comm, seq_app. cbn [plus].
      rewrite <- Hm. rewrite <- !app_assoc. apply Permutation_app_head.
      rewrite !app_assoc. rewrite <- (Permutation_app_comm (seq (m_next m) k)). rewrite !app_assoc. reflexivity.
    - exact Hd.
  Qed.

  Lemma p_drop_ok : forall t hp l, pinv t hp l -> Permutation (drops (p_drop t)) (map fst l) /\ Permutation (frees (p_drop t)) (laddrs (pt_nodes t)).
  Proof.
    intros t hp l P. unfold p_drop. pose proof (pi_rep _ _ _ _ _ _ P) as Hr. pose proof (pi_shape _ _ _ _ _ _ P) as Hs.
    destruct (pt_rle t) as [r|]; cbn [Ins.rle_rep rshape] in *.
    - destruct Hr as [Hr _]. exact (do_drop_ok inj M _ _ _ _ _ Hr Hs).
    - symmetry in Hs. apply lshape_SX in Hs. rewrite Hs, Hr. split; reflexivity.
  Qed.

  Lemma m_drop_ok : forall nop m b st j t l, minv m b st -> nth_error (m_trees m) j = Some (Some t) -> nth_error (fst st) j = Some (Some l) ->
    exists m' f d, m_call X Y M inj nop m (MDrop j) = Ok m' /\ minv m' b (set_nth j None (fst st), snd st ++ map fst l) /\
      m_freed m' = m_freed m ++ f /\ Permutation f (laddrs (pt_nodes t)) /\ m_dropped m' = m_dropped m ++ d /\ Permutation d (map fst l) /\
      m_trees m' = replace_at j None (m_trees m).
  Proof.
    intros nop m b st j t l [Ht Hm Hd] Et El.
    destruct (forall2_nth _ _ _ _ _ Ht Et) as (y & Ey & Hy). rewrite El in Ey. injection Ey as <-. cbn [tree_ok] in Hy. destruct Hy as [P Hl].
    pose proof (p_drop_ok _ _ _ P) as HD.
    destruct HD as [D1 D2]. cbn [m_call]. rewrite Et. eexists. exists (frees (p_drop t)), (drops (p_drop t)). split; [reflexivity|].
    split; [|cbn [m_freed m_dropped]; auto 10].
    constructor; cbn [m_trees m_next m_freed m_dropped fst snd].
    - eapply forall2_set; [exact Ht|exact Et|exact Logic.I].
    - rewrite <- Hm. unfold live. cbn [m_trees]. destruct (live_set (m_trees m) j _ None Et) as [H1 _]. rewrite H1. cbn [own].
      rewrite D2. rewrite <- !app_assoc. rewrite (Permutation_app_comm (laddrs (pt_nodes t))). rewrite <- !app_assoc. apply Permutation_app_head. apply Permutation_refl.
    - apply Permutation_app; auto.
  Qed.

  Lemma m_clone_ok : forall nop m b st j t l, minv m b st -> nth_error (m_trees m) j = Some (Some t) -> nth_error (fst st) j = Some (Some l) ->
    exists m' t', m_call X Y M inj nop m (MClone j) = Ok m' /\ minv m' b (fst st ++ [Some l], snd st) /\
      m_trees m' = m_trees m ++ [Some t'] /\ pt_rle t' = pt_rle t /\ m_next m <= m_next m' /\ Forall (fun a => m_next m <= a < m_next m') (m_writes m').
  Proof.
    intros nop m b st j t l [Ht Hm Hd] Et El.
    destruct (forall2_nth _ _ _ _ _ Ht Et) as (y & Ey & Hy). rewrite El in Ey. injection Ey as <-. cbn [tree_ok] in Hy. destruct Hy as [P Hl].
    set (s0 := {| p_store := []; p_next := m_next m; p_log := []; p_ho := None; p_present := false; p_skip := false |}).
    destruct (l_clone_ok M (pt_nodes t) s0 _ (pi_lok _ _ _ _ _ _ P)) as (lt' & n & lg & E & Hok & Hs & Hpm & Hlg & Hr).
    cbn [m_call]. rewrite Et. unfold p_clone. fold s0. rewrite E. cbn [bind]. eexists. eexists. split; [reflexivity|].
    cbn [upst p_next p_log s0 m_trees m_next m_writes pt_rle] in *.
    split; [|split; [reflexivity|split; [reflexivity|split; [lia|]]]].
    - constructor; cbn [m_trees m_next m_freed m_dropped fst snd].
      + apply Forall2_app; [eapply trees_more; [| |exact Ht]; lia|]. constructor; [|constructor]. cbn [tree_ok]. split; [|exact Hl].
        constructor; cbn [pt_nodes pt_rle at_next hp_store hp_next].
        * exact (pi_rep _ _ _ _ _ _ P).
        * exact (pi_max _ _ _ _ _ _ P).
        * rewrite Hs. exact (pi_shape _ _ _ _ _ _ P).
        * exact Hok.
        * apply (Permutation_NoDup (Permutation_sym Hpm)). apply seq_NoDup.
        * rewrite Forall_forall. intros a Ha. apply (Permutation_in _ Hpm) in Ha. apply in_seq in Ha. lia.
        * apply no_rids_Sok. exact Hr.
        * rewrite Hr. constructor.
        * cbn. intros r H. lia.
      + unfold live in *. cbn [m_trees]. rewrite flat_map_app. cbn [flat_map own pt_nodes]. rewrite app_nil_r, Hpm.
        rewrite Nat.add_comm, seq_app. cbn [plus]. rewrite <- Hm, <- !app_assoc. apply Permutation_app_head. apply Permutation_app_comm.
      + exact Hd.
    - rewrite app_nil_r, Forall_forall. intros a Ha. apply Hlg in Ha. lia.
  Qed.

  Lemma isum_nonneg : forall calls : list (@mcall V), Forall (fun c => match c with MInsert _ _ i _ n => 0 <= i <= MAX /\ 0 <= n | _ => True end)%Z calls -> (0 <= isum calls)%Z.
  Proof. induction 1 as [|c calls H _ IH]; cbn [isum]; [lia|]. destruct c; lia. Qed.

  Lemma m_run_ok : forall nop calls m b st, minv m b st -> mcalls_fit MAX calls -> (b + isum calls <= MAX)%Z -> (0 <= b)%Z ->
    calls_ok m nop calls (b + isum calls) (val_run Y inj st calls).
  Proof.
    intros nop. induction calls as [|c calls IH]; intros m b st Hinv [Hf Hs] Hb Hb0; unfold calls_ok; cbn [val_run m_run isum].
    - rewrite Z.add_0_r. eauto.
    - inversion Hf as [|? ? Hc Hf']; subst. pose proof (isum_nonneg _ Hf') as Hn. pose proof Hinv as [Ht Hm Hd].
      assert (K : forall m' n' st', m_call X Y M inj nop m c = Ok m' -> val_call Y inj st c = Ok st' -> minv m' n' st' -> (n' + isum calls = b + isum (c :: calls))%Z -> (0 <= n')%Z ->
        match (let* st' := val_call Y inj st c in val_run Y inj st' calls) with
        | Ok st' => exists m', (let* m' := m_call X Y M inj nop m c in m_run X Y M inj nop m' calls) = Ok m' /\ minv m' (b + isum (c :: calls)) st'
        | Panic w => (let* m' := m_call X Y M inj nop m c in m_run X Y M inj nop m' calls) = Panic w
        | UB => False
        end).
      { intros m' n' st' E1 E2 Hi En Hn'. rewrite E1, E2. cbn [bind]. rewrite <- En. apply IH; auto; [split; auto|]; cbn [isum] in *; destruct c; lia. }
      destruct st as [ts d]. cbn [fst snd] in *.
      destruct c as [|j hints idx x n|j|j]; cbn [isum] in *.
      + eapply (K _ b); [reflexivity|reflexivity| |reflexivity|lia]. constructor; cbn [m_trees m_next m_freed m_dropped fst snd].
        * apply Forall2_app; [exact Ht|]. constructor; [|constructor]. cbn [tree_ok]. split; [apply pinv_empty; auto; lia|cbn; lia].
        * unfold live. cbn [m_trees]. rewrite flat_map_app. cbn. rewrite app_nil_r. exact Hm.
        * exact Hd.
      + destruct (nth_error (m_trees m) j) as [[t|]|] eqn:Et.
        * destruct (forall2_nth _ _ _ _ _ Ht Et) as ([l|] & El & Hy); [|destruct Hy]. destruct Hy as [P Hl].
          destruct (spec_insert Y inj l idx x n) as [l'|w|] eqn:Es.
          -- destruct (m_insert_ok nop m b (ts, d) j hints idx x n t l l' Hinv Et El ltac:(lia) ltac:(lia) Es) as (m' & t' & E1 & I1 & _).
             eapply (K m' (b + n)%Z); [exact E1| |exact I1|lia|lia]. cbn [val_call fst]. rewrite El, Es. reflexivity.
          -- cbn [val_call]. rewrite El, Es. cbn [bind m_call]. rewrite Et.
             pose proof (p_insert_panic X MAX inj M L HM Y nop t (at_next (m_next m)) l hints idx x n w P ltac:(lia) ltac:(lia) ltac:(lia) Es) as Ep. unfold at_next in Ep. rewrite Ep. reflexivity.
          -- exfalso. pose proof (insert_full_ok X Y MAX inj M L HM nop _ _ hints idx x n (pi_rep _ _ _ _ _ _ P) ltac:(lia) ltac:(lia) ltac:(lia)) as G. rewrite Es in G. exact G.
        * destruct (forall2_nth _ _ _ _ _ Ht Et) as ([l|] & El & Hy); [destruct Hy|].
          eapply (K (m_idle m) (b + n)%Z); [cbn [m_call]; rewrite Et; reflexivity|cbn [val_call]; rewrite El; reflexivity| |lia|lia].
          constructor; auto. eapply (trees_more (m_next m) _ b); [apply le_n|lia|exact Ht].
        * pose proof (forall2_nth_none _ _ _ _ Ht Et) as El.
          eapply (K (m_idle m) (b + n)%Z); [cbn [m_call]; rewrite Et; reflexivity|cbn [val_call]; rewrite El; reflexivity| |lia|lia].
          constructor; auto. eapply (trees_more (m_next m) _ b); [apply le_n|lia|exact Ht].
      + destruct (nth_error (m_trees m) j) as [[t|]|] eqn:Et.
        * destruct (forall2_nth _ _ _ _ _ Ht Et) as ([l|] & El & Hy); [|destruct Hy].
          destruct (m_clone_ok nop m b (ts, d) j t l Hinv Et El) as (m' & t' & E1 & I1 & _).
          eapply (K m' b); [exact E1| |exact I1|lia|lia]. cbn [val_call]. rewrite El. reflexivity.
        * destruct (forall2_nth _ _ _ _ _ Ht Et) as ([l|] & El & Hy); [destruct Hy|].
          eapply (K (m_idle m) b); [cbn [m_call]; rewrite Et; reflexivity|cbn [val_call]; rewrite El; reflexivity|constructor; auto|lia|lia].
        * pose proof (forall2_nth_none _ _ _ _ Ht Et) as El.
          eapply (K (m_idle m) b); [cbn [m_call]; rewrite Et; reflexivity|cbn [val_call]; rewrite El; reflexivity|constructor; auto|lia|lia].
      + destruct (nth_error (m_trees m) j) as [[t|]|] eqn:Et.
        * destruct (forall2_nth _ _ _ _ _ Ht Et) as ([l|] & El & Hy); [|destruct Hy].
          destruct (m_drop_ok nop m b (ts, d) j t l Hinv Et El) as (m' & f & dd & E1 & I1 & _).
          eapply (K m' b); [exact E1| |exact I1|lia|lia]. cbn [val_call]. rewrite El. reflexivity.
        * destruct (forall2_nth _ _ _ _ _ Ht Et) as ([l|] & El & Hy); [destruct Hy|].
          eapply (K (m_idle m) b); [cbn [m_call]; rewrite Et; reflexivity|cbn [val_call]; rewrite El; reflexivity|constructor; auto|lia|lia].
        * pose proof (forall2_nth_none _ _ _ _ Ht Et) as El.
          eapply (K (m_idle m) b); [cbn [m_call]; rewrite Et; reflexivity|cbn [val_call]; rewrite El; reflexivity|constructor; auto|lia|lia].
  Qed.

  Lemma minv_new : (0 <= MAX)%Z -> minv mem_new 0 ([], []).
  Proof. intros H. constructor; cbn; constructor. Qed.
End Several.
