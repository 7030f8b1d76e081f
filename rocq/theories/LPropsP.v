(** Proofs of the property theorems about node pointers: cursors, references, clones and drops. *)
From Coq Require Import List ZArith Lia Bool Arith Permutation.
From Verif Require Import Base Index Slice Tree Insert Range Spec Iter Hist Order Rep Ins IterP IterQ HistP OrderP ListFacts TreePropsP RefSpec LTree LInsert LTreeP LShape LShapeP LUpdP LRef LSpec LMemP LClimbP LLenP LInvP LHistP LMemHistP Samples LSamples.
Import ListNotations.
Local Open Scope Z_scope.

Lemma forall2_impl : forall A B (P Q : A -> B -> Prop) l r, (forall a b, P a b -> Q a b) -> Forall2 P l r -> Forall2 Q l r.
Proof. intros A B P Q l r H F. induction F; constructor; auto. Qed.

Lemma isum_app : forall V (a b : list (@mcall V)), isum (a ++ b) = isum a + isum b.
Proof. induction a as [|[] a IH]; intros b; cbn [app isum]; try rewrite IH; lia. Qed.

Lemma no_insert_ref_safe : forall (I V : Type) (Y : slice_ops I V) (inj : Z -> I) (calls : list (rcall V)) l,
  (forall i x n, ~ In (CInsertRef i x n) calls) -> refs_safe Y inj l calls = true.
Proof.
  induction calls as [|c calls IH]; intros l H; [reflexivity|]. assert (H' : forall i x n, ~ In (CInsertRef i x n) calls) by (intros i x n Hin; apply (H i x n); right; exact Hin).
  destruct c as [i x n|i x n|i]; cbn [refs_safe].
  - destruct (spec_insert Y inj l i x n); auto.
  - exfalso. apply (H i x n). left. reflexivity.
  - auto.
Qed.

Lemma spans_lo' : forall {V} (l : list (V * Z)) off a b s, pos_runs l -> In (a, b, s) (spans off l) -> off <= a < b.
Proof.
  intros V. induction l as [|[s z] l IH]; intros off a b s' Hp Hin; [destruct Hin|]. destruct Hin as [E|H]; inversion Hp as [|? ? Hz Hp']; subst; cbn [snd] in *.
  - injection E as -> <- ->. lia.
  - specialize (IH (off + z) a b s' Hp' H). lia.
Qed.
Lemma spans_unique : forall {V} (l : list (V * Z)) off p a b s a' b' s', pos_runs l -> In (a, b, s) (spans off l) -> In (a', b', s') (spans off l) ->
  a <= p < b -> a' <= p < b' -> a = a' /\ b = b' /\ s = s'.
Proof.
  intros V. induction l as [|[s0 z] l IH]; intros off p a b s a' b' s' Hp Hin Hin' Ha Ha'; [destruct Hin|]. destruct Hin as [E|H], Hin' as [E'|H']; inversion Hp as [|? ? Hz Hp']; subst; cbn [snd] in *.
  - injection E as -> <- ->. injection E' as -> <- ->. auto.
  - injection E as -> <- ->. pose proof (spans_lo' _ _ _ _ _ Hp' H'). lia.
  - injection E' as -> <- ->. pose proof (spans_lo' _ _ _ _ _ Hp' H). lia.
  - eapply (IH (off + z) p); eauto.
Qed.
Lemma covering_in : forall {V} (l : list (V * Z)) p a b s, pos_runs l -> In (a, b, s) (spans 0 l) -> a <= p < b -> covering l p = Some (a, b, s).
Proof.
  intros V l p a b s Hp Hin Ha. unfold covering. destruct (find _ (spans 0 l)) as [[[a' b'] s']|] eqn:E.
  - apply find_some in E. destruct E as [Hin' Hb]. cbn [fst snd] in Hb. apply andb_true_iff in Hb. destruct Hb as [H1 H2]. apply Z.leb_le in H1. apply Z.ltb_lt in H2.
    destruct (spans_unique _ _ p _ _ _ _ _ _ Hp Hin Hin' Ha ltac:(lia)) as (-> & -> & ->). reflexivity.
  - exfalso. pose proof (find_none _ _ E _ Hin) as H. cbn [fst snd] in H. apply andb_false_iff in H. destruct H as [H|H]; [apply Z.leb_gt in H|apply Z.ltb_ge in H]; lia.
Qed.
Lemma all_some_nth : forall {T U} (f : T -> option U) l ss j x, all_some (map f l) = Some ss -> nth_error l j = Some x -> exists y, f x = Some y /\ nth_error ss j = Some y.
Proof.
  intros T U f. induction l as [|z l IH]; intros ss [|j] x E Hx; try discriminate; cbn [map all_some nth_error] in *.
  - injection Hx as ->. destruct (f x) as [y|]; [|discriminate]. destruct (all_some (map f l)); [|discriminate]. cbn in E. injection E as <-. exists y. auto.
  - destruct (f z) as [y|]; [|discriminate]. destruct (all_some (map f l)) as [ss'|]; [|discriminate]. cbn in E. injection E as <-. exact (IH ss' j x eq_refl Hx).
Qed.
Lemma constant_no_left : forall I T (eqb : T -> T -> bool) (inj : Z -> I), (forall a b, eqb a b = true <-> a = b) ->
  forall (l : list (T * Z)) idx x, left_join_only (constant_ops eqb) inj l idx x = false.
Proof.
  intros I T eqb inj Heq. induction l as [|[s z] l IH]; intros idx x; cbn [left_join_only]; auto.
  destruct (idx =? 0); auto. destruct (idx <? z); auto.
  unfold join. cbn [constant_ops sl_split_at sl_may_join sl_try_join]. destruct (eqb s x) eqn:E; auto.
  rewrite (proj2 (Heq s s) eq_refl). reflexivity.
Qed.

Section Support.
  Context {I V : Type} (X : index_ops I) (Y : slice_ops I V) (MAX : Z) (inj : Z -> I) (M : nat) (L : index_laws X MAX inj) (HM : (1 <= M)%nat).
  Notation run := (prod V Z) (only parsing).
  Notation pinv := (@LInvP.pinv I V MAX inj M).

  Lemma mem_reaches_inv : forall nop m st, mem_reaches X Y MAX inj M nop m st -> exists b, b <= MAX /\ minv MAX inj M m b st.
  Proof.
    intros nop m st (calls & Hf & Ev & Em). exists (0 + isum calls). split; [destruct Hf; lia|].
    assert (index_max : 0 <= MAX) by (destruct Hf as [H1 H2]; pose proof (isum_nonneg MAX M HM _ H1); lia).
    pose proof (m_run_ok X MAX inj M L HM Y nop calls mem_new 0 ([], []) (minv_new MAX inj M index_max) Hf ltac:(destruct Hf; lia) ltac:(lia)) as H.
    unfold calls_ok in H. rewrite Ev in H. destruct H as (m' & E & Hi). rewrite Em in E. injection E as <-. exact Hi.
  Qed.

  Lemma refs_reach_inv : forall (t : @rtree I V) l starts, refs_reach X Y MAX inj M t l starts -> rinv MAX inj M t l starts.
  Proof.
    intros t l starts (calls & Hf & Es & Er).
    assert (index_max : 0 <= MAX) by (destruct Hf as [H1 H2]; pose proof (csum_nonneg MAX M HM _ H1); lia).
    destruct (rt_run_ok X MAX inj M L HM Y calls rt_new [] [] (rinv_new MAX inj M HM index_max) Hf ltac:(destruct Hf; cbn; lia)) as [H|[H _]]; [|congruence].
    unfold run_ok in H. rewrite Es in H. destruct H as (t' & E & R). rewrite Er in E. injection E as <-. exact R.
  Qed.

  Lemma mem_run_inv : forall nop calls c (m : @mem I V), mcalls_fit MAX (calls ++ [c]) -> m_run X Y M inj nop mem_new calls = Ok m ->
    exists st, minv MAX inj M m (isum calls) st /\ isum calls + isum [c] <= MAX /\ 0 <= isum calls /\
      match c with MInsert _ _ i _ n => 0 <= i <= MAX /\ 0 <= n | _ => True end /\ val_run Y inj ([], []) calls = Ok st.
  Proof.
    intros nop calls c m [Hf Hs] Em. apply Forall_app in Hf. destruct Hf as [Hf1 Hf2].
    assert (Eapp : isum (calls ++ [c]) = isum calls + isum [c]) by (apply isum_app).
    pose proof (isum_nonneg MAX M HM _ Hf1) as H1. pose proof (isum_nonneg MAX M HM _ Hf2) as H2. inversion Hf2 as [|? ? Hc _]; subst.
    rewrite Eapp in Hs. assert (Hmax : 0 <= MAX) by lia. assert (Hle : isum calls <= MAX) by lia.
    pose proof (m_run_ok X MAX inj M L HM Y nop calls mem_new 0 ([], []) (minv_new MAX inj M Hmax) (conj Hf1 Hle) Hle ltac:(lia)) as H.
    unfold calls_ok in H. destruct (val_run Y inj ([], []) calls) as [st|w|] eqn:Ev; [|congruence|destruct H].
    destruct H as (m' & E & Hi). rewrite Em in E. injection E as <-. exists st. split; [exact Hi|]. split; [lia|]. split; [lia|]. split; [exact Hc|reflexivity].
  Qed.

  Lemma live_nodup : forall (m : @mem I V) b st, minv MAX inj M m b st -> NoDup (live m ++ m_freed m).
  Proof. intros m b st [_ Hm _]. apply (Permutation_NoDup (Permutation_sym Hm)). apply seq_NoDup. Qed.

  Lemma live_apart : forall (m : @mem I V) j j2 t t2 a, NoDup (live m ++ m_freed m) -> j <> j2 ->
    nth_error (m_trees m) j = Some (Some t) -> nth_error (m_trees m) j2 = Some (Some t2) -> In a (laddrs (pt_nodes t)) -> In a (laddrs (pt_nodes t2)) -> False.
  Proof.
    intros m j j2 t t2 a Hnd Hj Et E2 Ha Ha2. apply nodup_app_iff in Hnd. destruct Hnd as [Hnd _]. unfold live in Hnd.
    destruct (live_set (m_trees m) j _ None Et) as [Hp _]. apply (Permutation_NoDup Hp) in Hnd. apply nodup_app_iff in Hnd. destruct Hnd as (_ & _ & Hd).
    apply (Hd a Ha). apply in_flat_map. exists (Some t2). split; [|exact Ha2]. apply (nth_error_In _ j2). rewrite replace_nth_other by congruence. exact E2.
  Qed.

  Lemma cursors_ok : forall t hp l i hints, pinv t hp l -> 0 <= i < rsum l ->
    exists A s z B p lc, l = A ++ (s, z) :: B /\ rsum A <= i < rsum A + z /\ path_to (pt_rle t) p (length A) /\
      cursor_to X false t (inj i) = Ok p /\ get_handle X t hints (inj i) = Ok lc /\ handle_cursor false t lc = Ok p.
  Proof.
    intros t hp l i hints P Hi.
    pose proof (pi_rep _ _ _ _ _ _ P) as Hrep. pose proof (pi_shape _ _ _ _ _ _ P) as Hsh. pose proof (pi_max _ _ _ _ _ _ P) as Hm.
    pose proof (rle_rep_pos _ _ _ _ Hrep) as Hpos.
    destruct (get_handle_ok X MAX inj M L HM t hp l i hints P Hi) as (A & s & z & B & [a k] & o & [El Hr] & Eg & Ho).
    destruct (pt_rle t) as [r|] eqn:Er; [|cbn in Hrep; subst l; destruct A; discriminate].
    cbn [Ins.rle_rep rshape] in Hrep, Hsh. destruct Hrep as [Hrep Hh].
    destruct (handle_view_ok X MAX inj M L HM t r Er l Hrep Hm Hsh (pi_lok _ _ _ _ _ _ P) (pi_nodup _ _ _ _ _ _ P) A s z B a k o El Ho) as (p & h' & n & q & rs & ks & Hp & _ & Hk & _ & _ & _ & Hc).
    exists A, s, z, B, p, (a, k). split; [exact El|]. split; [exact Hr|]. split; [exists k; exact (rank_handles _ _ [] _ _ Hk)|].
    split; [|split; [exact Eg|exact Hc]].
    unfold cursor_to. rewrite Er. change (Some r) with (pt_rle t) at 1 || idtac.
    pose proof (rle_size_ok X MAX inj M L (pt_rle t) l (pi_rep _ _ _ _ _ _ P)) as Hsz. rewrite Er in Hsz. rewrite Hsz. cbn [bind].
    rewrite (il_zero _ _ _ L), (il_ltb _ _ _ L) by lia. destruct (Z.ltb_spec i 0); [lia|].
    unfold ix_leb. rewrite (il_ltb _ _ _ L) by lia. destruct (Z.ltb_spec i (rsum l)); [|lia]. cbn [negb].
    destruct (find_node_ok X MAX inj M L HM _ _ _ _ _ _ i Hrep (pi_lok _ _ _ _ _ _ P) Hsh ltac:(lia) Hm) as (A2 & s2 & z2 & B2 & p2 & k2 & n2 & a2 & q2 & rs2 & ks2 & [El2 Hr2] & Hk2 & Ef & Hp2).
    rewrite Ef. cbn [bind].
    assert (EA : A2 = A).
    { clear - El El2 Hr Hr2 Hpos. subst l. revert A2 i Hr Hr2 El2 Hpos. induction A as [|[u w] A IH]; intros [|[u2 w2] A2] i Hr Hr2 El2 Hpos; cbn [rsum app] in *; auto.
      - injection El2 as -> -> EB. exfalso. assert (0 <= rsum A2); [|lia]. inversion Hpos as [|? ? _ HB]; subst. apply pos_runs_nonneg. eapply Forall_app in HB. tauto.
      - injection El2 as -> -> EB. exfalso. assert (0 <= rsum A); [|lia]. inversion Hpos as [|? ? _ HB]; subst. apply pos_runs_nonneg. eapply Forall_app in HB. tauto.
      - injection El2 as -> -> EB. f_equal. inversion Hpos; subst. apply (IH A2 (i - w2)); auto; lia. }
    subst A2. rewrite rank_shape, Hsh in Hk2.
    destruct (rank_at M HM p2 (r_height r) _ (r_node r) _ _ _ (pi_lok _ _ _ _ _ _ P) Hsh Hk2) as (n3 & a3 & q3 & rs3 & ks3 & o3 & E1 & E2 & E3 & _).
    rewrite Hp2 in E1. injection E1 as <- <- <- <- <-. rewrite Ho in E3. injection E3 as -> -> _. exact Hc.
  Qed.

  Lemma insert_ref_ok : forall (t : @rtree I V) l starts i x n l', rinv MAX inj M t l starts ->
    0 <= i -> rsum l + n <= MAX -> spec_insert Y inj l i x n = Ok l' -> ~ passed_over Y inj M (pt_rle (rt_tree t)) l i x ->
    exists t' r a b s ss, rt_call X Y M inj t (CInsertRef i x n) = Ok t' /\ rt_refs t' = rt_refs t ++ [r] /\
      ref_view X (rt_tree t') (rt_heap t') r = Ok (inj a, inj b, s) /\ In (a, b, s) (spans 0 l') /\ a <= i /\ i + n <= b /\
      rinv MAX inj M t' l' (ss ++ [a]) /\ all_some (map (follow l' i n) starts) = Some ss.
  Proof.
    intros t l starts i x n l' R Hi Hm Es Hj.
    destruct (insert_refs X MAX inj M L HM Y t l starts i x n l' R Hi Hm Es) as (p & hp & lc & log & ss & Ep & Ess & R' & Hh).
    destruct Hh as [[Hh _]|(_ & A & s & z & B & o & -> & H1 & H2 & Ho)]; [contradiction|].
    destruct (add_ref_ok X MAX inj M L HM {| rt_tree := p; rt_heap := hp; rt_refs := rt_refs t |} _ _ _ _ _ _ _ R' Ho) as (t' & r & Ea & R2 & Er).
    cbn [rt_refs] in Er. destruct R2 as [P2 HF2].
    assert (Hv : at_start (A ++ (s, z) :: B) (lrefs (pt_nodes (rt_tree t'))) r (rsum A)).
    { rewrite Er in HF2. destruct (Forall2_app_inv_l _ _ HF2) as (s1 & s2 & F1 & F2 & E). inversion F2 as [|? y ? ? G F3]; subst. inversion F3; subst.
      apply app_inj_tail in E. destruct E as [_ ->]. exact G. }
    destruct (ref_view_ok X MAX inj M L HM _ _ _ _ _ P2 Hv) as (b & s' & Hc & Hv').
    pose proof (rle_rep_pos inj M _ _ (pi_rep _ _ _ _ _ _ P2)) as Hp. destruct (spec_ok_inv inj Y _ _ _ _ _ Es) as (_ & Hn & _).
    assert (Hin : In (rsum A, rsum A + z, s) (spans 0 (A ++ (s, z) :: B))).
    { rewrite spans_app. apply in_or_app. right. left. reflexivity. }
    assert (Hcv : covering (A ++ (s, z) :: B) (rsum A) = Some (rsum A, rsum A + z, s)) by (apply (covering_in _ _ _ _ _ Hp Hin); lia).
    rewrite Hcv in Hc. injection Hc as <- <-.
    exists t', r, (rsum A), (rsum A + z), s, ss. split; [cbn [rt_call]; rewrite Ep; cbn [bind]; exact Ea|]. split; [exact Er|]. split; [exact Hv'|].
    split; [exact Hin|]. split; [exact H1|]. split; [exact H2|]. split; [split; auto|exact Ess].
  Qed.

  Lemma cursors_out : forall t hp l i hints nop, pinv t hp l -> rsum l <= i <= MAX ->
    cursor_to X nop t (inj i) = Panic POutOfBounds /\ get_handle X t hints (inj i) = Panic POutOfBounds.
  Proof.
    intros t hp l i hints nop P Hi. pose proof (pos_runs_nonneg _ (rle_rep_pos _ _ _ _ (pi_rep _ _ _ _ _ _ P))) as Hn.
    unfold cursor_to, get_handle. rewrite (rle_size_ok X MAX inj M L (pt_rle t) l (pi_rep _ _ _ _ _ _ P)). cbn [bind].
    rewrite (il_zero _ _ _ L), (il_ltb _ _ _ L) by lia. destruct (Z.ltb_spec i 0); [lia|].
    unfold ix_leb. rewrite (il_ltb _ _ _ L) by lia. destruct (Z.ltb_spec i (rsum l)); [lia|]. auto.
  Qed.
End Support.

(** On every tree without features that can be reached, `cursor_to(i)` and `get(i).cursor()` give the
    path from the root to the node that holds the run that contains [i]; they panic when there is none,
    and `NoCursor` is produced from any index inside. *)
Lemma C13_cursor_path_plain_proof : forall (I V : Type) (X : index_ops I) (Y : slice_ops I V) (MAX : Z) (inj : Z -> I) (M : nat) (nop : bool)
    (m : @mem I V) (st : @values V) (j : nat) (t : ptree I V) (l : list (V * Z)) (hints : list nat) (i : Z),
  index_laws X MAX inj -> (1 <= M)%nat -> mem_reaches X Y MAX inj M nop m st ->
  nth_error (m_trees m) j = Some (Some t) -> nth_error (fst st) j = Some (Some l) -> 0 <= i <= MAX ->
  (i < rsum l -> exists A s z B p h, l = A ++ (s, z) :: B /\ rsum A <= i < rsum A + z /\ path_to (pt_rle t) p (length A) /\
     cursor_to X false t (inj i) = Ok p /\ get_handle X t hints (inj i) = Ok h /\ handle_cursor false t h = Ok p) /\
  (rsum l <= i -> cursor_to X false t (inj i) = Panic POutOfBounds /\ get_handle X t hints (inj i) = Panic POutOfBounds).
Proof.
  intros I V X Y MAX inj M nop m st j t l hints i L HM Hr Et El Hi.
  destruct (mem_reaches_inv X Y MAX inj M L HM nop m st Hr) as (b & Hb & [Ht _ _]).
  destruct (forall2_nth _ _ _ _ _ Ht Et) as (y & Ey & Hy). rewrite El in Ey. injection Ey as <-. destruct Hy as [P _].
  split; intros H; [eapply cursors_ok; eauto; lia|eapply cursors_out; eauto; lia].
Qed.

(** The same on every tree with references. *)
Lemma C13_cursor_path_refs_proof : forall (I V : Type) (X : index_ops I) (Y : slice_ops I V) (MAX : Z) (inj : Z -> I) (M : nat)
    (t : @rtree I V) (l : list (V * Z)) (starts : list Z) (hints : list nat) (i : Z),
  index_laws X MAX inj -> (1 <= M)%nat -> refs_reach X Y MAX inj M t l starts -> 0 <= i <= MAX ->
  (i < rsum l -> exists A s z B p h, l = A ++ (s, z) :: B /\ rsum A <= i < rsum A + z /\ path_to (pt_rle (rt_tree t)) p (length A) /\
     cursor_to X false (rt_tree t) (inj i) = Ok p /\ get_handle X (rt_tree t) hints (inj i) = Ok h /\ handle_cursor false (rt_tree t) h = Ok p) /\
  (rsum l <= i -> cursor_to X false (rt_tree t) (inj i) = Panic POutOfBounds /\ get_handle X (rt_tree t) hints (inj i) = Panic POutOfBounds).
Proof.
  intros I V X Y MAX inj M t l starts hints i L HM Hr Hi.
  destruct (refs_reach_inv X Y MAX inj M L HM _ _ _ Hr) as [P _].
  split; intros H; [eapply cursors_ok; eauto; lia|eapply cursors_out; eauto; lia].
Qed.

(** Any number of trees without features, created empty or by `clone`, inserted into and dropped in any
    order, behave as separate values: every one holds the runs of its own history, with the total size
    that belongs to them. *)
Lemma C19_clones_are_values_proof : forall (I V : Type) (X : index_ops I) (Y : slice_ops I V) (MAX : Z) (inj : Z -> I) (M : nat) (nop : bool) (calls : list (@mcall V)),
  index_laws X MAX inj -> (1 <= M)%nat -> mcalls_fit MAX calls ->
  match val_run Y inj ([], []) calls with
  | Ok st => exists m, m_run X Y M inj nop mem_new calls = Ok m /\
      Forall2 (fun t l => match t, l with
                          | Some t, Some l => iter_collect X (pt_rle t) [] SUnb EUnb = Ok (map (inj_item inj) (spans 0 l)) /\ rle_size X (pt_rle t) = Ok (inj (rsum l))
                          | None, None => True
                          | _, _ => False
                          end) (m_trees m) (fst st)
  | Panic w => m_run X Y M inj nop mem_new calls = Panic w
  | UB => False
  end.
Proof.
  intros I V X Y MAX inj M nop calls L HM Hf.
  assert (index_max : 0 <= MAX) by (destruct Hf as [H1 H2]; pose proof (isum_nonneg MAX M HM _ H1); lia).
  pose proof (m_run_ok X MAX inj M L HM Y nop calls mem_new 0 ([], []) (minv_new MAX inj M index_max) Hf ltac:(destruct Hf; lia) ltac:(lia)) as H.
  unfold calls_ok in H. destruct (val_run Y inj ([], []) calls) as [st|w|]; auto. destruct H as (m & E & [Ht _ _]). exists m. split; [exact E|].
  eapply forall2_impl; [|exact Ht]. intros [t|] [l|]; cbn; auto. intros [P Hl]. split; [apply (iter_all_ok X MAX inj M L HM _ _ [] (pi_rep _ _ _ _ _ _ P) (pi_max _ _ _ _ _ _ P))|].
  exact (rle_size_ok X MAX inj M L _ _ (pi_rep _ _ _ _ _ _ P)).
Qed.

(** No node belongs to two trees or twice to one, and a call on one tree writes to (or frees) no node of
    any other tree, which stays as it is. *)
Lemma C19_no_shared_memory_proof : forall (I V : Type) (X : index_ops I) (Y : slice_ops I V) (MAX : Z) (inj : Z -> I) (M : nat) (nop : bool)
    (calls : list (@mcall V)) (c : @mcall V) (m m' : @mem I V) (j : nat) (t : ptree I V),
  index_laws X MAX inj -> (1 <= M)%nat -> mcalls_fit MAX (calls ++ [c]) ->
  m_run X Y M inj nop mem_new calls = Ok m -> m_call X Y M inj nop m c = Ok m' ->
  nth_error (m_trees m) j = Some (Some t) ->
  NoDup (laddrs (pt_nodes t)) /\
  (forall j2 t2 a, j2 <> j -> nth_error (m_trees m) j2 = Some (Some t2) -> In a (laddrs (pt_nodes t)) -> ~ In a (laddrs (pt_nodes t2))) /\
  (changes c <> Some j -> nth_error (m_trees m') j = Some (Some t) /\ forall a, In a (laddrs (pt_nodes t)) -> ~ In a (m_writes m')).
Proof.
  intros I V X Y MAX inj M nop calls c m m' j t L HM Hf Em Ec Et.
  destruct (mem_run_inv X Y MAX inj M L HM nop calls c m Hf Em) as (st & Hinv & Hsum & Hn & Hc).
  pose proof Hinv as [Ht Hm Hd]. pose proof (live_nodup _ _ _ _ _ _ Hinv) as Hnd.
  destruct (forall2_nth _ _ _ _ _ Ht Et) as ([l|] & El & Hy); [|destruct Hy]. destruct Hy as [P Hl].
  assert (Hfar : forall j2 t2 a, j2 <> j -> nth_error (m_trees m) j2 = Some (Some t2) -> In a (laddrs (pt_nodes t)) -> ~ In a (laddrs (pt_nodes t2))).
  { intros j2 t2 a Hj E2 Ha Ha2. exact (live_apart _ _ _ _ _ _ Hnd (not_eq_sym Hj) Et E2 Ha Ha2). }
  split; [exact (pi_nodup _ _ _ _ _ _ P)|]. split; [exact Hfar|]. intros Hj.
  assert (Hlt : forall a, In a (laddrs (pt_nodes t)) -> (a < m_next m)%nat).
  { intros a Ha. pose proof (pi_next _ _ _ _ _ _ P) as Hx. rewrite Forall_forall in Hx. exact (Hx a Ha). }
  destruct c as [|j2 hints i x n|j2|j2]; cbn [changes isum] in *.
  - injection Ec as <-. cbn [m_trees m_writes]. split; [rewrite nth_error_app1; auto; apply nth_error_Some; congruence|auto].
  - destruct (nth_error (m_trees m) j2) as [[t2|]|] eqn:E2; [|cbn [m_call] in Ec; rewrite E2 in Ec; injection Ec as <-; cbn; auto..].
    destruct (forall2_nth _ _ _ _ _ Ht E2) as ([l2|] & El2 & Hy2); [|destruct Hy2]. pose proof Hy2 as [P2 Hl2].
    destruct (spec_insert Y inj l2 i x n) as [l'|w|] eqn:Es.
    + destruct (m_insert_ok X MAX inj M L HM Y nop m _ st j2 hints i x n t2 l2 l' Hinv E2 El2 ltac:(lia) ltac:(lia) Es) as (m1 & t' & E & _ & Etr & _ & Hw).
      rewrite E in Ec. injection Ec as <-. split; [rewrite Etr, replace_nth_other by congruence; exact Et|].
      intros a Ha Hin. rewrite Forall_forall in Hw. destruct (Hw a Hin) as [H|H]; [|specialize (Hlt a Ha); lia].
      apply (Hfar j2 t2 a); auto; congruence.
    + cbn [m_call] in Ec. rewrite E2 in Ec.
      pose proof (p_insert_panic X MAX inj M L HM Y nop t2 (at_next (m_next m)) l2 hints i x n w P2 ltac:(lia) ltac:(lia) ltac:(lia) Es) as Ep. unfold at_next in Ep. rewrite Ep in Ec. discriminate.
    + exfalso. pose proof (insert_full_ok X Y MAX inj M L HM nop _ _ hints i x n (pi_rep _ _ _ _ _ _ P2) ltac:(lia) ltac:(lia) ltac:(lia)) as G. rewrite Es in G. exact G.
  - destruct (nth_error (m_trees m) j2) as [[t2|]|] eqn:E2; [|cbn [m_call] in Ec; rewrite E2 in Ec; injection Ec as <-; cbn; auto..].
    destruct (forall2_nth _ _ _ _ _ Ht E2) as ([l2|] & El2 & Hy2); [|destruct Hy2].
    destruct (m_clone_ok X MAX inj M HM Y nop m _ st j2 t2 l2 Hinv E2 El2) as (m1 & t' & E & _ & Etr & _ & _ & Hw).
    rewrite E in Ec. injection Ec as <-. split; [rewrite Etr, nth_error_app1; auto; apply nth_error_Some; congruence|].
    intros a Ha Hin. rewrite Forall_forall in Hw. specialize (Hw a Hin). specialize (Hlt a Ha). lia.
  - destruct (nth_error (m_trees m) j2) as [[t2|]|] eqn:E2; [|cbn [m_call] in Ec; rewrite E2 in Ec; injection Ec as <-; cbn; auto..].
    destruct (forall2_nth _ _ _ _ _ Ht E2) as ([l2|] & El2 & Hy2); [|destruct Hy2].
    destruct (m_drop_ok X MAX inj M Y nop m _ st j2 t2 l2 Hinv E2 El2) as (m1 & f & d & E & _ & Efr & Hfp & _ & _ & Etr).
    rewrite E in Ec. injection Ec as <-. split; [rewrite Etr, replace_nth_other by congruence; exact Et|].
    intros a Ha Hin. apply (Hfar j2 t2 a); [congruence|exact E2|exact Ha|].
    apply (Permutation_in _ Hfp). cbn [m_call] in E. rewrite E2 in E. injection E as <-. cbn [m_writes m_freed] in *. apply app_inv_head in Efr. rewrite <- Efr. exact Hin.
Qed.

(** Dropping a tree frees every one of its nodes once and drops every one of its slices once, and frees
    nothing that was freed before. *)
Lemma C37_drop_once_proof : forall (I V : Type) (X : index_ops I) (Y : slice_ops I V) (MAX : Z) (inj : Z -> I) (M : nat) (nop : bool)
    (m m' : @mem I V) (st : @values V) (j : nat) (t : ptree I V) (l : list (V * Z)),
  index_laws X MAX inj -> (1 <= M)%nat -> mem_reaches X Y MAX inj M nop m st ->
  nth_error (m_trees m) j = Some (Some t) -> nth_error (fst st) j = Some (Some l) ->
  m_call X Y M inj nop m (MDrop j) = Ok m' ->
  exists f d, m_freed m' = m_freed m ++ f /\ Permutation f (laddrs (pt_nodes t)) /\ NoDup (m_freed m') /\
    m_dropped m' = m_dropped m ++ d /\ Permutation d (map fst l) /\ nth_error (m_trees m') j = Some None.
Proof.
  intros I V X Y MAX inj M nop m m' st j t l L HM Hr Et El Ec.
  destruct (mem_reaches_inv X Y MAX inj M L HM nop m st Hr) as (b & Hb & Hi).
  destruct (m_drop_ok X MAX inj M Y nop m b st j t l Hi Et El) as (m1 & f & d & E & Hi' & Hf & Hfp & Hd & Hdp & Ht).
  rewrite E in Ec. injection Ec as <-. exists f, d. split; [exact Hf|]. split; [exact Hfp|]. split.
  { pose proof (live_nodup _ _ _ _ _ _ Hi') as H. apply nodup_app_iff in H. tauto. }
  split; [exact Hd|]. split; [exact Hdp|]. rewrite Ht. apply replace_nth_same. apply nth_error_Some. congruence.
Qed.

(** At any time the nodes allocated so far are the nodes of the trees and the freed ones, each of them
    once; when all trees are dropped, every node has been freed once.  The slices dropped are those
    that the dropped trees held. *)
Lemma C37_nothing_leaks_proof : forall (I V : Type) (X : index_ops I) (Y : slice_ops I V) (MAX : Z) (inj : Z -> I) (M : nat) (nop : bool)
    (m : @mem I V) (st : @values V),
  index_laws X MAX inj -> (1 <= M)%nat -> mem_reaches X Y MAX inj M nop m st ->
  Permutation (flat_map (fun t => match t with Some t => laddrs (pt_nodes t) | None => [] end) (m_trees m) ++ m_freed m) (seq 0 (m_next m)) /\
  (Forall (fun t => t = None) (m_trees m) -> Permutation (m_freed m) (seq 0 (m_next m))) /\
  Permutation (m_dropped m) (snd st).
Proof.
  intros I V X Y MAX inj M nop m st L HM Hr.
  destruct (mem_reaches_inv X Y MAX inj M L HM nop m st Hr) as (b & Hb & [Ht Hm Hd]).
  split; [exact Hm|]. split; [|exact Hd]. intros HF. assert (E : live m = []); [|rewrite E in Hm; exact Hm].
  unfold live. clear - HF. induction HF as [|x ts -> HF IH]; [reflexivity|exact IH].
Qed.

(** The same destructor on a tree with references. *)
Lemma C37_drop_with_refs_proof : forall (I V : Type) (X : index_ops I) (Y : slice_ops I V) (MAX : Z) (inj : Z -> I) (M : nat)
    (t : @rtree I V) (l : list (V * Z)) (starts : list Z),
  index_laws X MAX inj -> (1 <= M)%nat -> refs_reach X Y MAX inj M t l starts ->
  Permutation (drops (p_drop (rt_tree t))) (map fst l) /\ Permutation (frees (p_drop (rt_tree t))) (laddrs (pt_nodes (rt_tree t))) /\
  NoDup (frees (p_drop (rt_tree t))).
Proof.
  intros I V X Y MAX inj M t l starts L HM Hr.
  destruct (refs_reach_inv X Y MAX inj M L HM _ _ _ Hr) as [P _].
  destruct (p_drop_ok MAX inj M _ _ _ P) as [D1 D2]. split; [exact D1|]. split; [exact D2|].
  apply (Permutation_NoDup (Permutation_sym D2)). exact (pi_nodup _ _ _ _ _ _ P).
Qed.

(** After any history of inserts and of references made with `make_ref` and `insert_ref`, either some
    `insert_ref` accessed a key beyond the length of a node (see C27 for when), or the tree behaves as the
    flat specification says and every reference sees the exact range and the slice of the run it should
    refer to. *)
Lemma C26_refs_exact_proof : forall (I V : Type) (X : index_ops I) (Y : slice_ops I V) (MAX : Z) (inj : Z -> I) (M : nat) (calls : list (rcall V)),
  index_laws X MAX inj -> (1 <= M)%nat -> calls_fit MAX calls -> rt_run X Y M inj rt_new calls <> UB ->
  match ref_run Y inj [] [] calls with
  | Ok (l, starts) => exists t vs, rt_run X Y M inj rt_new calls = Ok t /\
      iter_collect X (pt_rle (rt_tree t)) [] SUnb EUnb = Ok (map (inj_item inj) (spans 0 l)) /\
      rt_view X t = Ok vs /\ Forall2 (fun a v => exists b s, In (a, b, s) (spans 0 l) /\ v = (inj a, inj b, s)) starts vs
  | Panic w => rt_run X Y M inj rt_new calls = Panic w
  | UB => False
  end.
Proof.
  intros I V X Y MAX inj M calls L HM Hf Hs.
  assert (index_max : 0 <= MAX) by (destruct Hf as [H1 H2]; pose proof (csum_nonneg MAX M HM _ H1); lia).
  destruct (rt_run_ok X MAX inj M L HM Y calls rt_new [] [] (rinv_new MAX inj M HM index_max) Hf ltac:(destruct Hf; cbn; lia)) as [H|[H _]]; [|contradiction].
  unfold run_ok in H. destruct (ref_run Y inj [] [] calls) as [[l starts]|w|]; auto. destruct H as (t & E & R).
  destruct (rt_view_ok X MAX inj M L HM t l starts R) as (vs & Ev & HF). exists t, vs. split; [exact E|]. destruct R as [P _].
  split; [apply (iter_all_ok X MAX inj M L HM _ _ [] (pi_rep _ _ _ _ _ _ P) (pi_max _ _ _ _ _ _ P))|]. split; [exact Ev|].
  eapply forall2_impl; [|exact HF]. cbn. intros a v (b & s & Hc & Hv). exists b, s. split; [|exact Hv]. unfold covering in Hc. apply find_some in Hc. tauto.
Qed.

(** After any history of inserts and of references made with `make_ref` and `insert_ref` (but see C27 for
    one kind of `insert_ref`), the tree behaves as the flat specification says, and every reference sees
    the exact range and the slice of the run it should refer to. *)
Lemma C26_refs_follow_proof : forall (I V : Type) (X : index_ops I) (Y : slice_ops I V) (MAX : Z) (inj : Z -> I) (M : nat) (calls : list (rcall V)),
  index_laws X MAX inj -> (1 <= M)%nat -> calls_fit MAX calls -> refs_safe Y inj [] calls = true ->
  match ref_run Y inj [] [] calls with
  | Ok (l, starts) => exists t vs, rt_run X Y M inj rt_new calls = Ok t /\
      iter_collect X (pt_rle (rt_tree t)) [] SUnb EUnb = Ok (map (inj_item inj) (spans 0 l)) /\
      rt_view X t = Ok vs /\ Forall2 (fun a v => exists b s, In (a, b, s) (spans 0 l) /\ v = (inj a, inj b, s)) starts vs
  | Panic w => rt_run X Y M inj rt_new calls = Panic w
  | UB => False
  end.
Proof.
  intros I V X Y MAX inj M calls L HM Hf Hs. apply (C26_refs_exact_proof I V X Y MAX inj M calls L HM Hf).
  assert (index_max : 0 <= MAX) by (destruct Hf as [H1 H2]; pose proof (csum_nonneg MAX M HM _ H1); lia).
  destruct (rt_run_ok X MAX inj M L HM Y calls rt_new [] [] (rinv_new MAX inj M HM index_max) Hf ltac:(destruct Hf; cbn; lia)) as [H|[_ H]]; [|congruence].
  unfold run_ok in H. intros E. rewrite E in H. destruct (ref_run Y inj [] [] calls) as [[l starts]|w|]; [destruct H as (t & H & _)| |]; congruence || exact H.
Qed.

(** Histories without `insert_ref` need no condition on the slices. *)
Lemma C26_make_refs_follow_proof : forall (I V : Type) (X : index_ops I) (Y : slice_ops I V) (MAX : Z) (inj : Z -> I) (M : nat) (calls : list (rcall V)),
  index_laws X MAX inj -> (1 <= M)%nat -> calls_fit MAX calls -> (forall i x n, ~ In (CInsertRef i x n) calls) ->
  match ref_run Y inj [] [] calls with
  | Ok (l, starts) => exists t vs, rt_run X Y M inj rt_new calls = Ok t /\
      iter_collect X (pt_rle (rt_tree t)) [] SUnb EUnb = Ok (map (inj_item inj) (spans 0 l)) /\
      rt_view X t = Ok vs /\ Forall2 (fun a v => exists b s, In (a, b, s) (spans 0 l) /\ v = (inj a, inj b, s)) starts vs
  | Panic w => rt_run X Y M inj rt_new calls = Panic w
  | UB => False
  end.
Proof.
  intros I V X Y MAX inj M calls L HM Hf Hc. apply (C26_refs_follow_proof I V X Y MAX inj M calls L HM Hf). apply no_insert_ref_safe. exact Hc.
Qed.

(** `insert_ref` accesses a key beyond the length of a node exactly when the insertion cuts a run in the
    right half of a full internal node, all nodes on the left edge of the child behind it are full, and the
    new slice merges with the left part only.  In all other cases it returns a reference to the run that
    holds the inserted slice. *)
Lemma C27_insert_ref_exact_proof : forall (I V : Type) (X : index_ops I) (Y : slice_ops I V) (MAX : Z) (inj : Z -> I) (M : nat)
    (t : @rtree I V) (l : list (V * Z)) (starts : list Z) (i : Z) (x : V) (n : Z) (l' : list (V * Z)),
  index_laws X MAX inj -> (1 <= M)%nat -> refs_reach X Y MAX inj M t l starts ->
  0 <= i -> rsum l + n <= MAX -> spec_insert Y inj l i x n = Ok l' ->
  (passed_over Y inj M (pt_rle (rt_tree t)) l i x -> rt_call X Y M inj t (CInsertRef i x n) = UB) /\
  (~ passed_over Y inj M (pt_rle (rt_tree t)) l i x ->
   exists t' r a b s, rt_call X Y M inj t (CInsertRef i x n) = Ok t' /\ rt_refs t' = rt_refs t ++ [r] /\
     ref_view X (rt_tree t') (rt_heap t') r = Ok (inj a, inj b, s) /\ In (a, b, s) (spans 0 l') /\ a <= i /\ i + n <= b).
Proof.
  intros I V X Y MAX inj M t l starts i x n l' L HM Hr Hi Hm Es. pose proof (refs_reach_inv X Y MAX inj M L HM _ _ _ Hr) as R. split; intros Hj.
  - destruct (insert_refs X MAX inj M L HM Y t l starts i x n l' R Hi Hm Es) as (p & hp & lc & log & ss & Ep & Ess & R' & Hh).
    destruct Hh as [[_ Hu]|(Hh & _)]; [|contradiction]. cbn [rt_call]. rewrite Ep. cbn [bind]. exact Hu.
  - destruct (insert_ref_ok X Y MAX inj M L HM t l starts i x n l' R Hi Hm Es Hj) as (t' & r & a & b & s & ss & H1 & H2 & H3 & H4 & H5 & H6 & _).
    exists t', r, a, b, s. auto 10.
Qed.

(** So it does when the insertion does not cut a run and merge the new slice with the left part only,
    whatever the tree looks like. *)
Lemma C27_insert_ref_partial_proof : forall (I V : Type) (X : index_ops I) (Y : slice_ops I V) (MAX : Z) (inj : Z -> I) (M : nat)
    (t : @rtree I V) (l : list (V * Z)) (starts : list Z) (i : Z) (x : V) (n : Z) (l' : list (V * Z)),
  index_laws X MAX inj -> (1 <= M)%nat -> refs_reach X Y MAX inj M t l starts ->
  0 <= i -> rsum l + n <= MAX -> spec_insert Y inj l i x n = Ok l' -> left_join_only Y inj l i x = false ->
  exists t' r a b s, rt_call X Y M inj t (CInsertRef i x n) = Ok t' /\ rt_refs t' = rt_refs t ++ [r] /\
    ref_view X (rt_tree t') (rt_heap t') r = Ok (inj a, inj b, s) /\ In (a, b, s) (spans 0 l') /\ a <= i /\ i + n <= b.
Proof.
  intros I V X Y MAX inj M t l starts i x n l' L HM Hr Hi Hm Es Hj.
  apply (C27_insert_ref_exact_proof I V X Y MAX inj M t l starts i x n l' L HM Hr Hi Hm Es). intros [H _]. congruence.
Qed.

(** With `Constant` slices this is always so. *)
Lemma C27_constant_insert_ref_proof : forall (I T : Type) (eqb : T -> T -> bool) (X : index_ops I) (MAX : Z) (inj : Z -> I) (M : nat)
    (calls : list (rcall T)) (l : list (T * Z)) (starts : list Z) (i : Z) (x : T) (n : Z) (l' : list (T * Z)),
  (forall a b, eqb a b = true <-> a = b) ->
  index_laws X MAX inj -> (1 <= M)%nat -> calls_fit MAX calls -> ref_run (constant_ops eqb) inj [] [] calls = Ok (l, starts) ->
  0 <= i -> rsum l + n <= MAX -> spec_insert (constant_ops eqb) inj l i x n = Ok l' ->
  exists t t' r a b s, rt_run X (constant_ops eqb) M inj rt_new calls = Ok t /\
    rt_call X (constant_ops eqb) M inj t (CInsertRef i x n) = Ok t' /\ rt_refs t' = rt_refs t ++ [r] /\
    ref_view X (rt_tree t') (rt_heap t') r = Ok (inj a, inj b, s) /\ In (a, b, s) (spans 0 l') /\ a <= i /\ i + n <= b.
Proof.
  intros I T eqb X MAX inj M calls l starts i x n l' Heq L HM Hf Er Hi Hm Es.
  assert (index_max : 0 <= MAX) by (destruct Hf as [H1 H2]; pose proof (csum_nonneg MAX M HM _ H1); lia).
  assert (Hs : forall l, refs_safe (constant_ops eqb) inj l calls = true).
  { clear - Heq. induction calls as [|c calls IH]; intros l; [reflexivity|].
    destruct c as [i x n|i x n|i]; cbn [refs_safe]; [|rewrite (constant_no_left _ _ eqb inj Heq); cbn [negb andb]|auto].
    all: destruct (spec_insert (constant_ops eqb) inj l i x n); auto. }
  destruct (rt_run_ok X MAX inj M L HM (constant_ops eqb) calls rt_new [] [] (rinv_new MAX inj M HM index_max) Hf ltac:(destruct Hf; cbn; lia)) as [H|[_ H]]; [|rewrite Hs in H; discriminate].
  unfold run_ok in H. rewrite Er in H. destruct H as (t & E & R).
  assert (Hj : ~ passed_over (constant_ops eqb) inj M (pt_rle (rt_tree t)) l i x) by (intros [H _]; rewrite (constant_no_left _ _ eqb inj Heq) in H; discriminate).
  destruct (insert_ref_ok X (constant_ops eqb) MAX inj M L HM t l starts i x n l' R Hi Hm Es Hj)
    as (t' & r & a & b & s & ss & H1 & H2 & H3 & H4 & H5 & H6 & _).
  exists t, t', r, a, b, s. auto 10.
Qed.

(** In the remaining case the handle that the insertion reports may be stale, so that `insert_ref`
    accesses a key beyond the length of a node.  The slices are lawful; with the default [M]. *)
Lemma C27_insert_ref_refuted_proof : exists (V D : Type) (Y : slice_ops Z V) (den : V -> Z -> D) (fits : V -> Z -> Prop)
    (t : @rtree Z V) (l : list (V * Z)) (i : Z) (x : V) (n : Z) (l' : list (V * Z)),
  denotes Y (fun z => z) den fits /\ refs_reach (checked_ops 1000) Y 1000 (fun z => z) 3 t l [] /\
  0 <= i <= rsum l /\ rsum l + n <= 1000 /\ fits x n /\ spec_insert Y (fun z => z) l i x n = Ok l' /\
  rt_call (checked_ops 1000) Y 3 (fun z => z) t (CInsertRef i x n) = UB.
Proof.
  exists (Z * Z)%type, Z, interval_ops, interval_den, interval_fits. eexists. eexists. exists 235, (2305, 2308), 3. eexists.
  split; [exact interval_denotes|]. split.
  { exists (map (fun j => CInsert (10 * Z.of_nat j) (100 * Z.of_nat j, 100 * Z.of_nat j + 10) 10) (seq 0 30)).
    split; [split; [vm_compute; repeat constructor; discriminate|vm_compute; discriminate]|]. split; vm_compute; reflexivity. }
  split; [vm_compute; split; discriminate|]. split; [vm_compute; discriminate|]. split; [reflexivity|]. split; vm_compute; reflexivity.
Qed.

(** Two references compare as the same slot if and only if they refer to the same run. *)
Lemma C36_same_slot_proof : forall (I V : Type) (X : index_ops I) (Y : slice_ops I V) (MAX : Z) (inj : Z -> I) (M : nat)
    (t : @rtree I V) (l : list (V * Z)) (starts : list Z) (j1 j2 r1 r2 : nat) (a1 a2 : Z),
  index_laws X MAX inj -> (1 <= M)%nat -> refs_reach X Y MAX inj M t l starts ->
  nth_error (rt_refs t) j1 = Some r1 -> nth_error (rt_refs t) j2 = Some r2 ->
  nth_error starts j1 = Some a1 -> nth_error starts j2 = Some a2 -> (r1 = r2 <-> a1 = a2).
Proof.
  intros I V X Y MAX inj M t l starts j1 j2 r1 r2 a1 a2 L HM Hr E1 E2 S1 S2.
  destruct (refs_reach_inv X Y MAX inj M L HM _ _ _ Hr) as [P HF].
  destruct (forall2_nth _ _ _ _ _ HF E1) as (y1 & Ey1 & H1). destruct (forall2_nth _ _ _ _ _ HF E2) as (y2 & Ey2 & H2).
  rewrite S1 in Ey1. rewrite S2 in Ey2. injection Ey1 as <-. injection Ey2 as <-.
  exact (refs_same MAX inj M HM _ _ _ _ _ _ _ P H1 H2).
Qed.

(** When the slice given to `insert_ref` is merged into a run that has a reference, that reference and
    the new one are the same slot and see the same run, which holds the first position of the old run
    and all inserted positions. *)
Lemma C36_merged_refs_partial_proof : forall (I V : Type) (X : index_ops I) (Y : slice_ops I V) (MAX : Z) (inj : Z -> I) (M : nat)
    (t : @rtree I V) (l : list (V * Z)) (starts : list Z) (i : Z) (x : V) (n : Z) (l' : list (V * Z)) (j r0 : nat) (a0 a b : Z) (s : V),
  index_laws X MAX inj -> (1 <= M)%nat -> refs_reach X Y MAX inj M t l starts ->
  0 <= i -> rsum l + n <= MAX -> spec_insert Y inj l i x n = Ok l' -> ~ passed_over Y inj M (pt_rle (rt_tree t)) l i x ->
  nth_error (rt_refs t) j = Some r0 -> nth_error starts j = Some a0 ->
  In (a, b, s) (spans 0 l') -> a <= i -> i + n <= b -> a <= (if a0 <? i then a0 else a0 + n) < b ->
  exists t', rt_call X Y M inj t (CInsertRef i x n) = Ok t' /\ rt_refs t' = rt_refs t ++ [r0] /\
    ref_view X (rt_tree t') (rt_heap t') r0 = Ok (inj a, inj b, s).
Proof.
  intros I V X Y MAX inj M t l starts i x n l' j r0 a0 a b s L HM Hr Hi Hm Es Hj E0 S0 Hin Ha Hb Hp.
  pose proof (refs_reach_inv X Y MAX inj M L HM _ _ _ Hr) as R.
  destruct (insert_ref_ok X Y MAX inj M L HM t l starts i x n l' R Hi Hm Es Hj)
    as (t' & r & a' & b' & s' & ss & H1 & H2 & H3 & H4 & H5 & H6 & H7 & H8).
  destruct (spec_ok_inv inj Y _ _ _ _ _ Es) as (_ & Hn & _).
  pose proof (rle_rep_pos inj M _ _ (pi_rep _ _ _ _ _ _ (proj1 H7))) as Hpos.
  destruct (spans_unique l' 0 i a b s a' b' s' Hpos Hin H4) as (-> & -> & ->); try lia.
  assert (E1 : nth_error (rt_refs t') j = Some r0) by (rewrite H2, nth_error_app1; auto; apply nth_error_Some; congruence).
  assert (E2 : nth_error (rt_refs t') (length (rt_refs t)) = Some r) by (rewrite H2, nth_error_app2, Nat.sub_diag by lia; reflexivity).
  destruct H7 as [P HF].
  destruct (forall2_nth _ _ _ _ _ HF E1) as (y1 & Ey1 & G1). destruct (forall2_nth _ _ _ _ _ HF E2) as (y2 & Ey2 & G2).
  assert (Hlen : length starts = length (rt_refs t)) by (destruct R as [_ HF0]; clear - HF0; induction HF0; cbn; congruence).
  assert (Ly : nth_error (ss ++ [a']) j = Some a' /\ nth_error (ss ++ [a']) (length (rt_refs t)) = Some a').
  { destruct (all_some_nth _ _ _ _ _ H8 S0) as (y & Ef & Ey). unfold follow, start_at in Ef.
    assert (Hc : covering l' (if a0 <? i then a0 else a0 + n) = Some (a', b', s')) by (apply (covering_in l' _ a' b' s' Hpos H4); lia).
    rewrite Hc in Ef. cbn in Ef. injection Ef as <-.
    assert (Ls : length ss = length starts) by (clear - H8; revert ss H8; induction starts as [|z zs IH]; intros ss H; cbn [map all_some] in H; [injection H as <-; reflexivity|];
      destruct (follow l' i n z); [|discriminate]; destruct (all_some (map (follow l' i n) zs)); [|discriminate]; cbn in H; injection H as <-; cbn [length]; f_equal; apply IH; reflexivity).
    split; [rewrite nth_error_app1 by (apply nth_error_Some; congruence); exact Ey|]. rewrite nth_error_app2 by lia. replace (length (rt_refs t) - length ss)%nat with 0%nat by lia. reflexivity. }
  destruct Ly as [L1 L2]. rewrite L1 in Ey1. rewrite L2 in Ey2. injection Ey1 as <-. injection Ey2 as <-.
  assert (r0 = r) by (apply (refs_same MAX inj M HM _ _ _ _ _ _ _ P G1 G2); reflexivity). subst r.
  exists t'. auto.
Qed.

(** In that case there may be no such pair: the old reference [r_tree] holds is to the run that the slice
    is merged into, and `insert_ref` accesses a key beyond the length of a node. *)
Lemma C36_merged_refs_refuted_proof : exists (V D : Type) (Y : slice_ops Z V) (den : V -> Z -> D) (fits : V -> Z -> Prop)
    (t : @rtree Z V) (l : list (V * Z)) (starts : list Z) (i : Z) (x : V) (n : Z) (l' : list (V * Z)) (a0 a b : Z) (s : V),
  denotes Y (fun z => z) den fits /\ refs_reach (checked_ops 1000) Y 1000 (fun z => z) 1 t l starts /\
  0 <= i <= rsum l /\ rsum l + n <= 1000 /\ fits x n /\ spec_insert Y (fun z => z) l i x n = Ok l' /\
  In a0 starts /\ In (a, b, s) (spans 0 l') /\ a <= i /\ i + n <= b /\ a <= (if a0 <? i then a0 else a0 + n) < b /\
  rt_call (checked_ops 1000) Y 1 (fun z => z) t (CInsertRef i x n) = UB.
Proof.
  exists (Z * Z)%type, Z, interval_ops, interval_den, interval_fits, r_tree, r_runs, [10; 30], 35, (305, 308), 3. eexists. exists 30, 30, 38, (300, 308).
  split; [exact interval_denotes|]. split; [exact r_reaches|].
  split; [vm_compute; split; discriminate|]. split; [vm_compute; discriminate|]. split; [reflexivity|]. split; [vm_compute; reflexivity|].
  split; [vm_compute; auto|]. split; [vm_compute; auto 10|]. split; [discriminate|]. split; [discriminate|]. split; [vm_compute; split; [discriminate|reflexivity]|vm_compute; reflexivity].
Qed.
