(** Proofs about destructors that panic. *)
From Coq Require Import List ZArith Bool Arith Lia Permutation.
From Verif Require Import Base Index Slice Tree Insert Range Spec Iter Hist LTree LInsert LRef LSpec LShape LShapeP LLenP LInvP LMemHistP LPropsP DropPanic Samples LSamples.
Import ListNotations.

Section Cut.
  Context {I V : Type} (bad : V -> bool).
  Notation dev := (@dev V).

  (** The events of a destructor without panics, cut where a panic ends them. *)
  Fixpoint cut (unw : bool) (es : list dev) : list dev * dend :=
    match es with
    | [] => ([], if unw then DUnwound else DReturned)
    | DFree a :: r => if unw then ([], DUnwound) else let (x, e) := cut false r in (DFree a :: x, e)
    | DSlice s :: r =>
      if bad s && unw then ([DSlice s], DAborted) else let (x, e) := cut (unw || bad s) r in (DSlice s :: x, e)
    end.

  (** Ends with a freed node. *)
  Definition settled (es : list dev) : Prop := es = [] \/ exists l a, es = l ++ [DFree a].

  Lemma settled_app : forall a b, settled a -> settled b -> settled (a ++ b).
  Proof.
    intros a b Ha [->|(l & x & ->)]; [rewrite app_nil_r; exact Ha|]. right. exists (a ++ l), x. rewrite app_assoc. reflexivity.
  Qed.

  Lemma cut_block : forall vs unw a r,
    cut unw (map DSlice vs ++ DFree a :: r) =
    match drop_in_place bad unw vs with
    | (l, DReturned) => let (x, e) := cut false r in (map DSlice l ++ DFree a :: x, e)
    | (l, e) => (map DSlice l, e)
    end.
  Proof.
    induction vs as [|v vs IH]; intros unw a r; cbn [map app cut drop_in_place].
    - destruct unw; reflexivity.
    - destruct (bad v && unw); [reflexivity|]. rewrite IH.
      destruct (drop_in_place bad (unw || bad v) vs) as [l e]. destruct e; try reflexivity. destruct (cut false r). reflexivity.
  Qed.

  Lemma cut_free_end : forall l unw a y,
    match cut unw (l ++ [DFree a]) with
    | (x, DReturned) => x = l ++ [DFree a] /\ cut unw ((l ++ [DFree a]) ++ y) = (let (z, e) := cut false y in (x ++ z, e))
    | (x, e) => cut unw ((l ++ [DFree a]) ++ y) = (x, e)
    end.
  Proof.
    induction l as [|d l IH]; intros unw a y; cbn [app cut].
    - destruct unw; [reflexivity|]. split; [reflexivity|]. destruct (cut false y). reflexivity.
    - destruct d as [s|b].
      + destruct (bad s && unw); [reflexivity|]. specialize (IH (unw || bad s) a y).
        destruct (cut (unw || bad s) (l ++ [DFree a])) as [x e]. destruct e.
        * destruct IH as [-> ->]. split; [reflexivity|]. destruct (cut false y). reflexivity.
        * rewrite IH. reflexivity.
        * rewrite IH. reflexivity.
      + destruct unw; [reflexivity|]. specialize (IH false a y).
        destruct (cut false (l ++ [DFree a])) as [x e]. destruct e.
        * destruct IH as [-> ->]. split; [reflexivity|]. destruct (cut false y). reflexivity.
        * rewrite IH. reflexivity.
        * rewrite IH. reflexivity.
  Qed.

  Lemma cut_app : forall x y, settled x ->
    cut false (x ++ y) = match cut false x with
                         | (x', DReturned) => let (z, e) := cut false y in (x' ++ z, e)
                         | (x', e) => (x', e)
                         end.
  Proof.
    intros x y [->|(l & a & ->)]; [cbn [app cut]; destruct (cut false y); reflexivity|].
    pose proof (cut_free_end l false a y) as H. destruct (cut false (l ++ [DFree a])) as [x' e]. destruct e; try exact H. destruct H as [_ ->]. reflexivity.
  Qed.

  Lemma do_drop_settled : forall h (t : tree I V) lt, settled (do_drop h t lt).
  Proof.
    induction h as [|h IH]; intros t [|a p rs ks]; cbn [do_drop]; try (left; reflexivity).
    - right. exists (map (fun e => DSlice (e_slice e)) (keys t)), a. reflexivity.
    - assert (G : forall ks (cs : list (tree I V)), settled ((fix go ks cs := match ks, cs with k :: ks', c :: cs' => do_drop h c k ++ go ks' cs' | _, _ => [] end) ks cs)).
      { clear ks. induction ks as [|k ks IHk]; intros [|c cs]; try (left; reflexivity). apply settled_app; auto. }
      destruct (G ks (kids_of t)) as [-> |(l & x & ->)].
      + right. exists (map (fun e => DSlice (e_slice e)) (keys t)), a. reflexivity.
      + right. exists (map (fun e => DSlice (e_slice e)) (keys t) ++ DFree a :: l), x. rewrite <- app_assoc. reflexivity.
  Qed.

  Lemma pdo_drop_cut : forall h (t : tree I V) lt, pdo_drop bad h t lt = cut false (do_drop h t lt).
  Proof.
    induction h as [|h IH]; intros t [|a p rs ks]; try reflexivity.
    - cbn [pdo_drop do_drop].
      replace (map (fun e => DSlice (e_slice e)) (keys t)) with (map (@DSlice V) (map e_slice (keys t))) by (rewrite map_map; reflexivity).
      rewrite cut_block. destruct (drop_in_place bad false (map e_slice (keys t))) as [l e]. destruct e; reflexivity.
    - cbn [pdo_drop do_drop].
      replace (map (fun e => DSlice (e_slice e)) (keys t)) with (map (@DSlice V) (map e_slice (keys t))) by (rewrite map_map; reflexivity).
      rewrite cut_block. destruct (drop_in_place bad false (map e_slice (keys t))) as [l e]. destruct e; try reflexivity.
      assert (G : forall ks (cs : list (tree I V)),
        (fix go ks cs := match ks, cs with k :: ks', c :: cs' => let (x, e1) := pdo_drop bad h c k in match e1 with DReturned => let (y, e2) := go ks' cs' in (x ++ y, e2) | _ => (x, e1) end | _, _ => ([], DReturned) end) ks cs =
        cut false ((fix go ks cs := match ks, cs with k :: ks', c :: cs' => do_drop h c k ++ go ks' cs' | _, _ => [] end) ks cs)).
      { clear ks. induction ks as [|k ks IHk]; intros [|c cs]; try reflexivity.
        rewrite cut_app by apply do_drop_settled. rewrite IH. destruct (cut false (do_drop h c k)) as [x e]. destruct e; try reflexivity. rewrite IHk. reflexivity. }
      rewrite G. reflexivity.
  Qed.

  Lemma pp_drop_cut : forall t : ptree I V, pp_drop bad t = cut false (p_drop t).
  Proof. intros t. unfold pp_drop, p_drop. destruct (pt_rle t); [apply pdo_drop_cut|reflexivity]. Qed.

  Definition nbad (es : list dev) : nat := length (filter bad (drops es)).

  Lemma cut_facts : forall es unw ev e, cut unw es = (ev, e) ->
    exists rest, es = ev ++ rest /\
    match e with
    | DReturned => rest = [] /\ unw = false /\ nbad es = 0
    | DUnwound => nbad ev + (if unw then 1 else 0) = 1 /\ (rest = [] \/ exists a r, rest = DFree a :: r)
    | DAborted => nbad ev + (if unw then 1 else 0) = 2
    end.
  Proof.
    unfold nbad. induction es as [|[s|a] es IH]; intros unw ev e E; cbn [cut] in E.
    - injection E as <- <-. exists []. split; [reflexivity|]. destruct unw; cbn; auto.
    - destruct (bad s) eqn:Eb; cbn [andb orb] in E.
      + destruct unw; cbn [andb orb] in E.
        * injection E as <- <-. exists es. split; [reflexivity|]. cbn. rewrite Eb. reflexivity.
        * destruct (cut true es) as [x e'] eqn:Ec. injection E as <- <-. destruct (IH _ _ _ Ec) as (rest & -> & H). exists rest. split; [reflexivity|].
          change (drops (DSlice s :: ?l)) with (s :: drops l). cbn [filter]. rewrite Eb. cbn [length]. destruct e'; [destruct H as (_ & H & _); discriminate|destruct H as [H1 H2]; split; [lia|exact H2]|lia].
      + rewrite orb_false_r in E. destruct (cut unw es) as [x e'] eqn:Ec. injection E as <- <-. destruct (IH _ _ _ Ec) as (rest & -> & H). exists rest. split; [reflexivity|].
        change (drops (DSlice s :: ?l)) with (s :: drops l). cbn [filter app]. change (drops (DSlice s :: ?l)) with (s :: drops l). cbn [filter]. rewrite Eb. exact H.
    - destruct unw.
      + injection E as <- <-. exists (DFree a :: es). split; [reflexivity|]. split; [reflexivity|]. right. eauto.
      + destruct (cut false es) as [x e'] eqn:Ec. injection E as <- <-. destruct (IH _ _ _ Ec) as (rest & -> & H). exists rest. split; [reflexivity|].
        change (drops ((DFree a :: x) ++ rest)) with (drops (x ++ rest)). change (drops (DFree a :: x)) with (drops x). exact H.
  Qed.

  Lemma settled_rest : forall (es ev rest : list dev) d l, es = ev ++ rest -> settled es -> rest = d :: l -> frees rest <> [].
  Proof.
    intros es ev rest d l -> [E|(l' & a & E)] ->; [destruct ev; discriminate|].
    destruct (@exists_last _ (d :: l)) as (l2 & x & Ex); [discriminate|]. rewrite Ex in E. rewrite app_assoc in E. apply app_inj_tail in E as [_ ->].
    rewrite Ex. unfold frees. rewrite flat_map_app. cbn. intros H. apply app_eq_nil in H as [_ H]. discriminate.
  Qed.

  Lemma nbad_zero : forall es, nbad es = 0 <-> forall x, In x (drops es) -> bad x = false.
  Proof.
    intros es. unfold nbad. induction (drops es) as [|v l IH]; cbn [filter In]; [split; [contradiction|reflexivity]|].
    destruct (bad v) eqn:E; cbn [length]; split.
    - discriminate.
    - intros H. rewrite (H v (or_introl eq_refl)) in E. discriminate.
    - intros H x [<-|Hx]; [exact E|]. apply IH; auto.
    - intros H. apply IH. auto.
  Qed.

  (** What is claimed of a destructor whose events without panics are [es]. *)
  Lemma cut_claim : forall es ev e (ds : list V) (ns : list addr), cut false es = (ev, e) -> settled es ->
    Permutation (drops es) ds -> Permutation (frees es) ns ->
    exists lost_s lost_n, Permutation (drops ev ++ lost_s) ds /\ Permutation (frees ev ++ lost_n) ns /\
      (e = DReturned <-> forall x, In x ds -> bad x = false) /\
      match e with
      | DReturned => lost_s = [] /\ lost_n = []
      | DUnwound => length (filter bad (drops ev)) = 1 /\ lost_n <> []
      | DAborted => length (filter bad (drops ev)) = 2 /\ lost_n <> []
      end.
  Proof.
    intros es ev e ds ns E Hs Hd Hn. destruct (cut_facts _ _ _ _ E) as (rest & Er & H).
    exists (drops rest), (frees rest). split; [rewrite <- Hd, Er, drops_app; reflexivity|]. split; [rewrite <- Hn, Er, frees_app; reflexivity|].
    assert (Hb : nbad es = 0 <-> forall x, In x ds -> bad x = false).
    { rewrite nbad_zero. split; intros G x Hx; apply G; [apply Permutation_sym in Hd|]; eapply Permutation_in; eauto. }
    assert (Hlt : nbad ev <= nbad es) by (unfold nbad; rewrite Er, drops_app, filter_app, app_length; lia).
    unfold nbad in *. destruct e.
    - destruct H as (-> & _ & H0). split; [|split; reflexivity]. split; [intros _; apply Hb; exact H0|reflexivity].
    - destruct H as [H1 H2]. assert (Hx : length (filter bad (drops ev)) = 1) by lia. split; [split; [discriminate|intros G; apply Hb in G; lia]|]. split; [exact Hx|].
      destruct H2 as [->|(a & r & ->)].
      + exfalso. rewrite app_nil_r in Er. subst ev. clear - E Hs. destruct Hs as [->|(l & a & ->)]; [discriminate E|].
        (* ends with a freed node: not cut at the end *)
        assert (G : forall l unw, cut unw (l ++ [DFree a]) <> (l ++ [DFree a], DUnwound)).
        { clear l E. induction l as [|[s|b] l IH]; intros unw E; cbn [app cut] in E.
          - destruct unw; discriminate.
          - destruct (bad s && unw); [injection E as E _; destruct l; discriminate|].
            destruct (cut (unw || bad s) (l ++ [DFree a])) as [x e] eqn:Ec. injection E as -> ->. exact (IH _ Ec).
          - destruct unw; [discriminate|]. destruct (cut false (l ++ [DFree a])) as [x e] eqn:Ec. injection E as -> ->. exact (IH _ Ec). }
        exact (G _ _ E).
      + eapply settled_rest; eauto.
    - assert (Hx : length (filter bad (drops ev)) = 2) by lia. split; [split; [discriminate|intros G; apply Hb in G; lia]|]. split; [exact Hx|].
      destruct rest as [|d l]; [|eapply settled_rest; eauto].
      exfalso. rewrite app_nil_r in Er. subst ev. clear - E Hs. destruct Hs as [->|(l & a & ->)]; [discriminate E|].
      assert (G : forall l unw, cut unw (l ++ [DFree a]) <> (l ++ [DFree a], DAborted)).
      { clear l E. induction l as [|[s|b] l IH]; intros unw E; cbn [app cut] in E.
        - destruct unw; discriminate.
        - destruct (bad s && unw); [injection E as E; destruct l; discriminate|].
          destruct (cut (unw || bad s) (l ++ [DFree a])) as [x e] eqn:Ec. injection E as -> ->. exact (IH _ Ec).
        - destruct unw; [discriminate|]. destruct (cut false (l ++ [DFree a])) as [x e] eqn:Ec. injection E as -> ->. exact (IH _ Ec). }
      exact (G _ _ E).
  Qed.

  Lemma p_drop_settled : forall t : ptree I V, settled (p_drop t).
  Proof. intros t. unfold p_drop. destruct (pt_rle t); [apply do_drop_settled|left; reflexivity]. Qed.
End Cut.

(** A destructor that panics: no slice is dropped twice and no node freed twice, nothing of another tree is touched; it
    returns exactly if no slice panics, and then nothing is left over.  One panic unwinds, a second one aborts;
    either way at least one node is never freed. *)
Lemma C49_drop_panic_partial_proof : forall (I V : Type) (X : index_ops I) (Y : slice_ops I V) (MAX : Z) (inj : Z -> I) (M : nat) (nop : bool)
    (m : @mem I V) (st : @values V) (j : nat) (t : ptree I V) (l : list (V * Z)) (bad : V -> bool) (ev : list (@dev V)) (e : dend),
  index_laws X MAX inj -> (1 <= M)%nat -> mem_reaches X Y MAX inj M nop m st ->
  nth_error (m_trees m) j = Some (Some t) -> nth_error (fst st) j = Some (Some l) -> pp_drop bad t = (ev, e) ->
  (exists lost_s lost_n, Permutation (drops ev ++ lost_s) (map fst l) /\ Permutation (frees ev ++ lost_n) (laddrs (pt_nodes t)) /\
     NoDup (frees ev ++ lost_n) /\ (forall a, In a (frees ev) -> ~ In a (m_freed m)) /\
     (e = DReturned <-> forall x, In x (map fst l) -> bad x = false) /\
     match e with
     | DReturned => lost_s = [] /\ lost_n = []
     | DUnwound => length (filter bad (drops ev)) = 1%nat /\ lost_n <> []
     | DAborted => length (filter bad (drops ev)) = 2%nat /\ lost_n <> []
     end) /\
  (forall j2 t2 a, j2 <> j -> nth_error (m_trees m) j2 = Some (Some t2) -> In a (frees ev) -> ~ In a (laddrs (pt_nodes t2))).
Proof.
  intros I V X Y MAX inj M nop m st j t l bad ev e L HM Hr Et El E.
  destruct (mem_reaches_inv X Y MAX inj M L HM nop m st Hr) as (b & Hb & Hi).
  destruct Hi as [Ht Hm Hd] eqn:EHi. clear EHi.
  pose proof (live_nodup _ _ _ _ _ _ Hi) as Hnd.
  destruct (forall2_nth _ _ _ _ _ Ht Et) as (y & Ey & Hy). rewrite El in Ey. injection Ey as <-. cbn [tree_ok] in Hy. destruct Hy as [P Hl].
  destruct (p_drop_ok MAX inj M _ _ _ P) as [D1 D2].
  rewrite pp_drop_cut in E. destruct (cut_claim bad _ _ _ _ _ E (p_drop_settled t) D1 D2) as (ls & ln & Q1 & Q2 & Q3 & Q4).
  assert (Hin : forall a, In a (frees ev) -> In a (laddrs (pt_nodes t))).
  { intros a Ha. apply (Permutation_in _ Q2). apply in_or_app. left. exact Ha. }
  split.
  - exists ls, ln. split; [exact Q1|]. split; [exact Q2|]. split; [|split; [|split; [exact Q3|exact Q4]]].
    + apply (Permutation_NoDup (Permutation_sym Q2)). exact (pi_nodup _ _ _ _ _ _ P).
    + intros a Ha Hf. apply nodup_app_iff in Hnd. destruct Hnd as (_ & _ & N). apply (N a); [|exact Hf].
      apply Hin in Ha. clear - Et Ha. unfold live. apply in_flat_map. exists (Some t). split; [eapply nth_error_In; eauto|exact Ha].
  - intros j2 t2 a Hj E2 Ha Ha2. exact (live_apart _ _ _ _ _ _ Hnd (not_eq_sym Hj) Et E2 (Hin a Ha) Ha2).
Qed.

(** The events come in the same order as without panics.  One panic: all slices of the node are dropped, and that node
    would have been the next to be freed.  Two panics in one node: the second is the last thing that happens. *)
Lemma C49_order_proof : forall (I V : Type) (t : ptree I V) (bad : V -> bool) (ev : list (@dev V)) (e : dend),
  pp_drop bad t = (ev, e) ->
  exists rest, p_drop t = ev ++ rest /\
  match e with
  | DReturned => rest = []
  | DUnwound => exists a r, rest = DFree a :: r
  | DAborted => exists ev' x, ev = ev' ++ [DSlice x] /\ bad x = true
  end.
Proof.
  intros I V t bad ev e E. rewrite pp_drop_cut in E. pose proof (p_drop_settled t) as Hs. revert E Hs. generalize (p_drop t). intros es E Hs.
  destruct (cut_facts bad _ _ _ _ E) as (rest & Er & H). exists rest. split; [exact Er|]. destruct e.
  - exact (proj1 H).
  - destruct H as [Hb [->|H]]; [|exact H]. exfalso.
    destruct (cut_claim bad _ _ _ _ _ E Hs (Permutation_refl _) (Permutation_refl _)) as (ls & ln & _ & Q2 & _ & _ & Q4).
    rewrite app_nil_r in Er. subst es. apply Q4. apply Permutation_length in Q2. rewrite app_length in Q2. destruct ln; [reflexivity|cbn [length] in Q2; lia].
  - clear - E. revert E. generalize false. revert ev. induction es as [|[s|a] es IH]; intros ev unw E; cbn [cut] in E.
    + destruct unw; discriminate.
    + destruct (bad s && unw) eqn:Eb.
      * injection E as <-. exists [], s. split; [reflexivity|]. apply andb_prop in Eb. tauto.
      * destruct (cut bad (unw || bad s) es) as [x e'] eqn:Ec. injection E as <- ->. destruct (IH _ _ Ec) as (ev' & y & -> & Hy). exists (DSlice s :: ev'), y. auto.
    + destruct unw; [discriminate|]. destruct (cut bad false es) as [x e'] eqn:Ec. injection E as <- ->. destruct (IH _ _ Ec) as (ev' & y & -> & Hy). exists (DFree a :: ev'), y. auto.
Qed.

(** A panic in the root: no node is freed and no slice of another node dropped. *)
Lemma C49_root_leaks_all_proof : forall (I V : Type) (X : index_ops I) (Y : slice_ops I V) (MAX : Z) (inj : Z -> I) (M : nat) (nop : bool)
    (m : @mem I V) (st : @values V) (j : nat) (t : ptree I V) (r : @root I V) (bad : V -> bool) (x : V) (ev : list (@dev V)) (e : dend),
  index_laws X MAX inj -> (1 <= M)%nat -> mem_reaches X Y MAX inj M nop m st ->
  nth_error (m_trees m) j = Some (Some t) -> pt_rle t = Some r -> In x (map e_slice (keys (r_node r))) -> bad x = true ->
  pp_drop bad t = (ev, e) ->
  e <> DReturned /\ frees ev = [] /\ exists rest, map e_slice (keys (r_node r)) = drops ev ++ rest /\ (e = DUnwound -> rest = []).
Proof.
  intros I V X Y MAX inj M nop m st j t r bad x ev e L HM Hr Et Er Hx Hbx E.
  destruct (mem_reaches_inv X Y MAX inj M L HM nop m st Hr) as (b & Hb & Hi). destruct Hi as [Ht Hm Hd].
  destruct (forall2_nth _ _ _ _ _ Ht Et) as ([l|] & El & Hy); [|destruct Hy]. destruct Hy as [P Hl].
  assert (G : forall vs unw l' e', drop_in_place bad unw vs = (l', e') ->
    exists rest, vs = l' ++ rest /\ (e' <> DAborted -> rest = []) /\ (e' = DReturned -> forall y, In y vs -> bad y = false)).
  { clear. induction vs as [|v vs IH]; intros unw l' e' E; cbn [drop_in_place] in E.
    - injection E as <- <-. exists []. split; [reflexivity|]. split; [reflexivity|intros _ y []].
    - destruct (bad v && unw) eqn:Eb.
      + injection E as <- <-. exists vs. split; [reflexivity|]. split; [congruence|discriminate].
      + destruct (drop_in_place bad (unw || bad v) vs) as [l e] eqn:Ed. injection E as <- <-. destruct (IH _ _ _ Ed) as (rest & -> & H1 & H2).
        exists rest. split; [reflexivity|]. split; [exact H1|]. intros He y [<-|Hy]; [|auto].
        assert (Hu : forall vs l', drop_in_place bad true vs <> (l', DReturned)).
        { clear. induction vs as [|v vs IH]; intros l' E; cbn [drop_in_place] in E; [discriminate|]. destruct (bad v && true); [discriminate|].
          destruct (drop_in_place bad (true || bad v) vs) as [l e] eqn:Ed. injection E as _ ->. exact (IH _ Ed). }
        destruct (bad v) eqn:Ev; [|reflexivity]. exfalso. rewrite orb_true_r in Ed. subst e. exact (Hu _ _ Ed). }
  unfold pp_drop in E. rewrite Er in E.
  destruct (pt_nodes t) as [|a p rs ks] eqn:En.
  { exfalso. pose proof (pi_shape _ _ _ _ _ _ P) as Hs. rewrite En, Er in Hs. cbn [rshape lshape] in Hs. destruct (r_node r); [exact Hx|discriminate Hs]. }
  assert (Ed : exists l' e', drop_in_place bad false (map e_slice (keys (r_node r))) = (l', e')) by (destruct (drop_in_place bad false (map e_slice (keys (r_node r)))); eauto).
  destruct Ed as (l' & e' & Ed). destruct (G _ _ _ _ Ed) as (rest & Hv & H1 & H2).
  assert (He : e' <> DReturned) by (intros ->; specialize (H2 eq_refl _ Hx); congruence).
  assert (Ee : (ev, e) = (map DSlice l', e')).
  { rewrite <- E. destruct (r_height r); cbn [pdo_drop]; rewrite Ed; destruct e'; congruence. }
  injection Ee as -> ->. split; [exact He|]. split; [clear; induction l'; auto|]. exists rest.
  assert (Edr : drops (map DSlice l') = l') by (clear; induction l' as [|? ? IH]; [reflexivity|cbn; f_equal; exact IH]). rewrite Edr. split; [exact Hv|]. intros ->. apply H1. discriminate.
Qed.

(** A tree of eleven slices and ten nodes: one slice panics, and seven nodes and six slices are lost. *)
Lemma C49_all_freed_refuted_proof : exists (m : @mem Z nat) (st : @values nat) (j : nat) (t : ptree Z nat) (l : list (nat * Z)) (bad : nat -> bool)
    (ev : list (@dev nat)) (lost_s : list nat) (lost_n : list addr),
  mem_reaches sx sc 1000 sid 1 false m st /\ nth_error (m_trees m) j = Some (Some t) /\ nth_error (fst st) j = Some (Some l) /\
  length (filter bad (map fst l)) = 1%nat /\ pp_drop bad t = (ev, DUnwound) /\
  Permutation (drops ev ++ lost_s) (map fst l) /\ length lost_s = 6%nat /\
  Permutation (frees ev ++ lost_n) (laddrs (pt_nodes t)) /\ length lost_n = 7%nat.
Proof.
  exists m_mem, m_vals, 0%nat.
  destruct (nth_error (m_trees m_mem) 0) as [[t|]|] eqn:Et; [|discriminate Et..].
  destruct (nth_error (fst m_vals) 0) as [[l|]|] eqn:El; [|discriminate El..].
  exists t, l, (Nat.eqb 3).
  destruct (pp_drop (Nat.eqb 3) t) as [ev e] eqn:E.
  destruct (C49_drop_panic_partial_proof Z nat sx sc 1000 sid 1 false m_mem m_vals 0 t l (Nat.eqb 3) ev e) as ((ls & ln & Q1 & Q2 & _) & _); [exact sx_laws|lia|exact m_reaches|exact Et|exact El|exact E|].
  exists ev, ls, ln. split; [exact m_reaches|]. split; [reflexivity|]. split; [reflexivity|].
  pose proof (Permutation_length Q1) as L1. pose proof (Permutation_length Q2) as L2. rewrite app_length in L1, L2.
  vm_compute in Et. injection Et as <-. vm_compute in El. injection El as <-. vm_compute in E. injection E as <- <-.
  cbn in L1, L2. split; [reflexivity|]. split; [reflexivity|]. split; [exact Q1|]. split; [lia|]. split; [exact Q2|lia].
Qed.
