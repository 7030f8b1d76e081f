(** Histories with stored counts.  Proof support only. *)
From Coq Require Import List ZArith Lia Bool Arith.
From Verif Require Import Base Index Slice Tree Insert Spec Ins HistP LTree LInsert LTreeP LShape LRef LSpec LInvP LHistP LMemHistP LCow LCowSpec LCowIter LCowP LCowR LCowW LCount LCountSpec LCountP LCountQ.
Import ListNotations.

Section W.
  Context {I V : Type} (X : index_ops I) (Y : slice_ops I V) (MAX : Z) (inj : Z -> I) (M : nat) (L : index_laws X MAX inj) (HM : 1 <= M).
  Notation tree := (tree I V).
  Notation ptree := (ptree I V).
  Notation winv := (winv inj M).

  Lemma subs_cells : forall Lg h (t : tree) lt, W Lg h t lt -> forall a p rs ks, In (LNode a p rs ks) (subs lt) -> exists h' t', In (a, (h', t', LNode a p rs ks)) (cells h lt t).
  Proof.
    intros Lg. induction h as [|h IH]; intros t lt HW a p rs ks Hin; apply W_eq in HW; destruct HW as (b & par & rb & kb & -> & _ & _ & _ & H5); cbn [subs] in Hin; destruct Hin as [E|Hin].
    1,3: injection E as -> -> -> ->; do 2 eexists; apply cells_node; left; reflexivity.
    all: apply in_flat_map in Hin; destruct Hin as (k & Hk & Hin); apply In_nth_error in Hk; destruct Hk as [c Hk];
      destruct (nth_error (kids_of t) c) as [x|] eqn:Ex; [|apply nth_error_None in Ex; rewrite (f2_len _ _ _ H5) in Ex; apply nth_error_None in Ex; congruence];
      destruct (f2_nth _ _ _ _ _ H5 Ex) as (k' & Ek & Hx); rewrite Hk in Ek; injection Ek as <-; cbn [WK] in Hx.
    - destruct Hx as [_ ->]. destruct Hin.
    - destruct Hx as [Hx _]. destruct (IH _ _ Hx _ _ _ _ Hin) as (h' & t' & H). exists h', t'. apply cells_node. right. exists c, k, x. cbn [Nat.sub]. rewrite Nat.sub_0_r. auto.
  Qed.
  Lemma winv_tcoh : forall (w : world I V) b ls, winv w b ls -> tcoh (w_trees w).
  Proof.
    intros w b ls [Ht Hc] a p rs ks p' rs' ks' H1 H2.
    assert (G : forall p rs ks, In (LNode a p rs ks) (tnodes (w_trees w)) -> exists h t, In (a, (h, t, LNode a p rs ks)) (w_cells w)).
    { clear - Ht. intros p rs ks H. apply in_flat_map in H. destruct H as ([t|] & Hin & H); [|destruct H]. apply In_nth_error in Hin. destruct Hin as [j Hj].
      destruct (forall2_nth _ _ _ _ _ Ht Hj) as ([l|] & _ & Hy); [|destruct Hy]. pose proof (tw_W _ _ _ _ _ _ Hy) as HW. cbn [onodes] in H. unfold WR in HW.
      destruct (pt_rle t) as [r|] eqn:Er; [|rewrite HW in H; destruct H]. destruct (subs_cells _ _ _ _ HW _ _ _ _ H) as (h & x & Hc). exists h, x.
      unfold w_cells. apply in_flat_map. exists (Some t). split; [eapply nth_error_In; exact Hj|]. cbn. unfold p_cells. rewrite Er. exact Hc. }
    destruct (G _ _ _ H1) as (h1 & t1 & G1). destruct (G _ _ _ H2) as (h2 & t2 & G2). pose proof (Hc _ _ _ G1 G2) as E. injection E as _ _ _ _ E. exact E.
  Qed.
  Lemma winv_nodup : forall (w : world I V) b ls j t, winv w b ls -> nth_error (w_trees w) j = Some (Some t) -> NoDup (laddrs (pt_nodes t)).
  Proof. intros w b ls j t [Ht _] Ej. destruct (forall2_nth _ _ _ _ _ Ht Ej) as ([l|] & _ & Hy); [|destruct Hy]. exact (tw_nodup _ _ _ _ _ _ Hy). Qed.

  Definition ninv (w : nworld I V) : Prop := forall a, nw_cnt w a = cnt_of (pointers_to (w_trees (nw_w w)) a).

  Lemma replace_twice : forall {T} (l : list T) j x y, replace_at j x (replace_at j y l) = replace_at j x l.
  Proof. intros T. induction l as [|z l IH]; intros [|j] x y; try reflexivity. rewrite !replace_at_S, IH. reflexivity. Qed.
  Lemma replace_len : forall {T} (l : list T) j x, length (replace_at j x l) = length l.
  Proof. intros T. induction l as [|z l IH]; intros [|j] x; try reflexivity. rewrite replace_at_S. cbn [length]. rewrite IH. reflexivity. Qed.
  Lemma cnt_none : forall n, cnt_of n = None <-> n = 0.
  Proof. intros [|n]; split; intros H; try reflexivity; discriminate. Qed.

  Lemma plan_find : forall (r : @rle I V) hints idx slice pl fp, insert_plan X Y r hints idx slice = Ok pl -> find_path X Y r hints idx = Ok fp -> plan_path pl fp.
  Proof.
    intros [r|] hints idx slice pl fp Hp Hf; cbn [insert_plan find_path] in *; [|injection Hp as <-; exact Logic.I].
    destruct (find_insertion_point X Y (r_height r) (r_node r) hints idx [] None None) as [ip| |] eqn:Ef; cbn [bind] in *; try discriminate.
    apply find_struct in Ef; [|exact Logic.I|exact Logic.I]. injection Hf as <-. destruct ip as [p k lhs rhs|p hk k q].
    - destruct Ef as (q & -> & _ & _ & Hl & Hr). cbn [app] in *. destruct (edge_join Y (r_node r) lhs rhs slice) as [jr| |] eqn:Ej; cbn [bind] in Hp; try discriminate. injection Hp as <-.
      destruct jr as [a|]; [|reflexivity]. cbn [plan_path].
      assert (H : lhs = Some a \/ rhs = Some a).
      { unfold edge_join in Ej. destruct (negb (sl_may_join Y)); [discriminate|]. destruct lhs as [la|]; destruct rhs as [ra|]; try discriminate;
          repeat match type of Ej with
          | bind ?e _ = _ => destruct e; cbn [bind] in Ej; try discriminate
          | match ?e with inl _ => _ | inr _ => _ end = _ => destruct e
          | (let (_, _) := ?e in _) = _ => destruct e
          end; try discriminate; injection Ej as <-; auto. }
      destruct H; subst; assumption.
    - unfold split_plan in Hp. destruct (handle_slice (r_node r) (p, k)) as [s0| |]; cbn [bind] in Hp; try discriminate. destruct (sl_split_at Y s0 q) as [lhs rhs].
      destruct (negb (sl_may_join Y)); [injection Hp as <-; exact Logic.I|].
      destruct (sl_try_join Y lhs slice) as [mid|[? s]]; [destruct (sl_try_join Y mid rhs)|destruct (sl_try_join Y s rhs)]; injection Hp as <-; try exact Logic.I.
      exists []. rewrite app_nil_r. reflexivity.
  Qed.

  (** The two halves of one tree and the others. *)
  Lemma world_split : forall (w : world I V) b ls j t, winv w b ls -> nth_error (w_trees w) j = Some (Some t) ->
    let ts := replace_at j None (w_trees w) in
    nth_error ts j = Some None /\ replace_at j (Some t) ts = w_trees w /\ tcoh (replace_at j (Some t) ts) /\ NoDup (laddrs (pt_nodes t)) /\ shut (live ts) (pt_nodes t) /\
    (forall a, pointers_to (w_trees w) a = pointers_to ts a + exp (live ts) (pt_nodes t) a) /\
    (forall a, In a (live (w_trees w)) <-> In a (laddrs (pt_nodes t)) \/ In a (live ts)).
  Proof.
    intros w b ls j t Hw Ej ts.
    assert (E1 : nth_error ts j = Some None) by (apply replace_nth; apply nth_error_Some; congruence).
    assert (E2 : replace_at j (Some t) ts = w_trees w) by (unfold ts; rewrite replace_twice; apply replace_id; exact Ej).
    assert (E3 : tcoh (replace_at j (Some t) ts)) by (rewrite E2; eapply winv_tcoh; exact Hw).
    pose proof (winv_nodup _ _ _ _ _ Hw Ej) as E4.
    split; [exact E1|]. split; [exact E2|]. split; [exact E3|]. split; [exact E4|]. split; [eapply one_shut; eassumption|]. split.
    - intros a. rewrite <- (pointers_one ts j t E1 E3 E4), E2. reflexivity.
    - intros a. rewrite <- E2 at 1. rewrite !live_nodes, subs_addr. split.
      + intros (p & rs & ks & H). apply (tnodes_replace ts j t E1) in H. destruct H; [left|right]; eauto.
      + intros [(p & rs & ks & H)|(p & rs & ks & H)]; exists p, rs, ks; apply (tnodes_replace ts j t E1); auto.
  Qed.

  Lemma start_ok : forall (w : nworld I V) b ls j t al, winv (nw_w w) b ls -> ninv w -> nth_error (w_trees (nw_w w)) j = Some (Some t) ->
    let ts := replace_at j None (w_trees (nw_w w)) in
    (forall i k, al i = al k -> i = k) -> (forall i, nw_cnt w (al i) = None) ->
    ok (pointers_to ts) (n_start al (nw_cnt w)) (fun a => 0 + exp (live ts) (pt_nodes t) a).
  Proof.
    intros w b ls j t al Hw Hi Ej ts H1 H2. destruct (world_split _ _ _ _ _ Hw Ej) as (_ & _ & _ & E4 & _ & E6 & _). fold ts in E6. constructor; cbn [n_start n_c n_cnt k_al k_i].
    - intros a. rewrite Hi, E6. reflexivity.
    - intros a _. cbn [Nat.add]. pose proof (exp_le (live ts) (pt_nodes t) a). pose proof (proj1 (NoDup_count_occ Nat.eq_dec _) E4 a). lia.
    - exact H1.
    - intros i _. specialize (H2 i). rewrite Hi in H2. apply cnt_none in H2. rewrite E6 in H2. lia.
  Qed.

  Lemma n_alloc_ok_w : forall (w : nworld I V) c, ninv w -> n_alloc_ok w c -> alloc_ok (nw_w w) c.
  Proof.
    intros w [|j hints idx x n al|j|j] Hi H; cbn [n_alloc_ok alloc_ok] in *; auto. destruct H as [H1 H2]. split; [exact H1|]. intros i. apply pointers_live, cnt_none. rewrite <- Hi. apply H2.
  Qed.

  Definition frees (w w' : nworld I V) : Prop :=
    NoDup (nw_freed w') /\ forall a, In a (nw_freed w') <-> In a (live (w_trees (nw_w w))) /\ ~ In a (live (w_trees (nw_w w'))).

  Lemma live_app : forall (a b : list (option ptree)), live (a ++ b) = live a ++ live b.
  Proof. intros. unfold live. apply flat_map_app. Qed.
  Lemma pointers_none : forall (ts : list (option ptree)) i, pointers i (ts ++ [None]) = pointers i ts.
  Proof. induction ts as [|[t|] ts IH]; intros i; cbn [app pointers]; rewrite ?IH; reflexivity. Qed.
  Lemma pointers_none_to : forall (ts : list (option ptree)) a, pointers_to (ts ++ [None]) a = pointers_to ts a.
  Proof. intros. unfold pointers_to. rewrite pointers_none. reflexivity. Qed.
  Lemma replace_last : forall {T} (ts : list T) x y, replace_at (length ts) x (ts ++ [y]) = ts ++ [x].
  Proof. intros T. induction ts as [|t ts IH]; intros x y; [reflexivity|]. cbn [length app]. rewrite replace_at_S, IH. reflexivity. Qed.

  Lemma no_free : forall (w : nworld I V) (ts : list (option ptree)) nw', nw_freed nw' = [] -> w_trees (nw_w nw') = ts -> (forall a, In a (live (w_trees (nw_w w))) -> In a (live ts)) -> frees w nw'.
  Proof. intros w ts nw' E1 E2 H. split; rewrite E1; [constructor|]. intros a. rewrite E2. split; [intros []|]. intros [H1 H2]. exact (H2 (H a H1)). Qed.

  (** Dropping leaves the allocator alone. *)
  Lemma drop_c : forall u cnt fr, exists r, forall c, n_drop u {| n_c := c; n_cnt := cnt; n_freed := fr |} =
    match r with Some (cnt', fr') => Ok (tt, {| n_c := c; n_cnt := cnt'; n_freed := fr' |}) | None => UB end.
  Proof.
    intros u. induction u as [|b p rs ks IH] using ltree_ind'; intros cnt fr; cbn [n_drop]; [exists (Some (cnt, fr)); reflexivity|].
    destruct (cnt b) as [k|] eqn:Ek; [destruct (k =? 0) eqn:E0|].
    - exists None. intros c. unfold nbind, n_decrement, nbind, n_get. cbn [n_cnt]. rewrite Ek, E0. reflexivity.
    - destruct (k =? 1) eqn:E1.
      + assert (G : forall cnt fr, exists r, forall c, (fix go (ks : list ltree) : nm unit := match ks with [] => nret tt | k :: ks' => nbind (n_drop k) (fun _ => go ks') end) ks
            {| n_c := c; n_cnt := cnt; n_freed := fr |} = match r with Some (cnt', fr') => Ok (tt, {| n_c := c; n_cnt := cnt'; n_freed := fr' |}) | None => UB end).
        { clear - IH. induction IH as [|x ks Hx IH IH2]; intros cnt fr; [exists (Some (cnt, fr)); reflexivity|]. destruct (Hx cnt fr) as [[[cnt1 fr1]|] H1].
          - destruct (IH2 cnt1 fr1) as [r2 H2]. exists r2. intros c. unfold nbind at 1. rewrite H1. apply H2.
          - exists None. intros c. unfold nbind at 1. rewrite H1. reflexivity. }
        destruct (G (put_cnt (put_cnt cnt b (Some (k - 1))) b None) (b :: fr)) as [r Hr]. exists r. intros c. rewrite <- Hr.
        unfold nbind at 1. unfold n_decrement, nbind at 1, n_get. cbn [n_cnt]. rewrite Ek, E0. unfold nbind at 1, n_set, nret at 1. rewrite E1.
        unfold nbind at 1. unfold n_dealloc, nbind at 1, n_get. cbn [n_cnt]. unfold put_cnt at 1. rewrite Nat.eqb_refl. reflexivity.
      + exists (Some (put_cnt cnt b (Some (k - 1)), fr)). intros c. unfold nbind, n_decrement, nbind, n_get. cbn [n_cnt]. rewrite Ek, E0. unfold n_set, nret. rewrite E1. reflexivity.
    - exists None. intros c. unfold nbind, n_decrement, nbind, n_get. cbn [n_cnt]. rewrite Ek. reflexivity.
  Qed.
  Lemma n_step : forall nop (w : nworld I V) b ls c w' b' ls', winv (nw_w w) b ls -> ninv w -> n_alloc_ok w c ->
    w_call X Y M inj nop (nw_w w) c = Ok w' -> winv w' b' ls' ->
    exists nw', n_call X Y M inj nop w c = Ok nw' /\ nw_w nw' = w' /\ ninv nw' /\ frees w nw' /\ (nw_freed nw' = [] \/ exists j, c = WDrop j).
  Proof.
    intros nop w b ls c w' b' ls' Hw Hi Ha Hc Hw'.
    assert (Same : exists nw', Ok {| nw_w := {| w_trees := w_trees (nw_w w); w_log := w_log (nw_w w); w_writes := [] |}; nw_cnt := nw_cnt w; nw_freed := [] |} = Ok nw' /\
      nw_w nw' = {| w_trees := w_trees (nw_w w); w_log := w_log (nw_w w); w_writes := [] |} /\ ninv nw' /\ frees w nw' /\ (nw_freed nw' = [] \/ exists j, c = WDrop j)).
    { eexists. split; [reflexivity|]. split; [reflexivity|]. split; [exact Hi|]. split; [eapply no_free; [reflexivity|reflexivity|auto]|left; reflexivity]. }
    destruct c as [|j hints idx x n al|j|j]; cbn [w_call n_call] in *.
    - injection Hc as <-. eexists. split; [reflexivity|]. split; [reflexivity|]. split.
      + intros a. cbn [nw_cnt nw_w w_trees]. rewrite Hi. f_equal. rewrite <- (replace_last _ _ None), pointers_one.
        * rewrite pointers_none_to. cbn. lia.
        * rewrite nth_error_app2, Nat.sub_diag by lia. reflexivity.
        * rewrite replace_last. exact (winv_tcoh _ _ _ Hw').
        * constructor.
      + split; [|left; reflexivity]. eapply no_free; [reflexivity|reflexivity|]. intros a H. cbn [nw_w w_trees]; rewrite live_app. apply in_or_app. auto.
    - destruct (nth_error (w_trees (nw_w w)) j) as [[t|]|] eqn:Ej; [|injection Hc as <-; exact Same..]. destruct Ha as [Ha1 Ha2].
      unfold c_insert in Hc. unfold n_insert.
      destruct (insert_with_cursor X Y M nop (pt_rle t) hints (inj idx) x (inj n)) as [[r' cur]| |]; cbn [bind] in *; try discriminate.
      destruct (insert_plan X Y (pt_rle t) hints (inj idx) x) as [pl| |] eqn:Ep; cbn [bind] in *; try discriminate.
      destruct (find_path X Y (pt_rle t) hints (inj idx)) as [fp| |] eqn:Ef; cbn [bind] in *; try discriminate.
      set (ts := replace_at j None (w_trees (nw_w w))) in *.
      destruct (c_run_plan M (live ts) (p_height t) pl fp (pt_nodes t) _) as [[lt' s']| |] eqn:Er; cbn [bind] in Hc; try discriminate. injection Hc as <-.
      destruct (world_split _ _ _ _ _ Hw Ej) as (E1 & E2 & E3 & E4 & E5 & E6 & E7). fold ts in E1, E2, E3, E5, E6, E7.
      pose proof (start_ok w b ls j t al Hw Hi Ej Ha1 Ha2) as Hok. fold ts in Hok.
      assert (Hnew : pl = PNew -> pt_nodes t = LNil).
      { intros ->. unfold insert_plan in Ep. destruct (pt_rle t) as [r|] eqn:Et.
        - exfalso. destruct (find_insertion_point X Y (r_height r) (r_node r) hints (inj idx) [] None None) as [[? ? ? ?|? ? ? ?]| |]; cbn [bind] in Ep; try discriminate.
          + destruct (edge_join _ _ _ _ _) as [[|]| |]; discriminate.
          + unfold split_plan in Ep. destruct (handle_slice _ _); cbn [bind] in Ep; try discriminate. destruct (sl_split_at Y _ _). destruct (negb (sl_may_join Y)); [discriminate|].
            destruct (sl_try_join Y _ x) as [|[? ?]]; [destruct (sl_try_join Y _ _)|destruct (sl_try_join Y _ _)]; discriminate.
        - destruct Hw as [Ht _]. destruct (forall2_nth _ _ _ _ _ Ht Ej) as ([l|] & _ & Hy); [|destruct Hy]. pose proof (tw_W _ _ _ _ _ _ Hy) as HW. unfold WR in HW. rewrite Et in HW. exact HW. }
      destruct (sim_run_plan M (live ts) (pointers_to ts) (pointers_live ts) (p_height t) pl fp (pt_nodes t) E5 Hnew (plan_find _ _ _ _ _ _ Ep Ef) (fun _ => 0) _ _ _ Hok Er)
        as (s1 & S1 & S2 & S3 & S4 & S5 & S6).
      rewrite S1. cbn [bind]. eexists. split; [reflexivity|]. cbn [nw_w nw_cnt nw_freed]. rewrite S2. split; [reflexivity|].
      set (t' := {| pt_rle := r'; pt_nodes := lt' |}) in *.
      assert (Ej' : nth_error (replace_at j (Some t') (w_trees (nw_w w))) j = Some (Some t')) by (apply replace_nth; apply nth_error_Some; congruence).
      destruct (world_split _ _ _ _ _ Hw' Ej') as (_ & _ & _ & _ & _ & G6 & G7). cbn [w_trees] in G6, G7. rewrite replace_twice in G6, G7. fold ts in G6, G7.
      assert (Hi' : forall a, n_cnt s1 a = cnt_of (pointers_to (replace_at j (Some t') (w_trees (nw_w w))) a)).
      { intros a. rewrite (ok_cnt _ _ _ S4). rewrite G6. reflexivity. }
      split; [exact Hi'|]. split; [|left; exact S3]. eapply no_free; [exact S3|reflexivity|]. intros a Hlive.
      assert (Q : n_cnt s1 a <> None).
      { apply S6. cbn [n_start n_cnt]. rewrite Hi. intros Q. apply cnt_none in Q. apply pointers_live in Q. exact (Q Hlive). }
      rewrite Hi' in Q. destruct (in_dec Nat.eq_dec a (live (replace_at j (Some t') (w_trees (nw_w w))))) as [H|H]; [exact H|]. exfalso. apply Q, cnt_none, pointers_live. exact H.
    - destruct (nth_error (w_trees (nw_w w)) j) as [[t|]|] eqn:Ej; [|injection Hc as <-; exact Same..]. injection Hc as <-.
      assert (Hlive : forall a, In a (live (w_trees (nw_w w))) -> In a (live (w_trees (nw_w w) ++ [Some t]))) by (intros a H; rewrite live_app; apply in_or_app; auto).
      assert (Hp : forall a, pointers_to (w_trees (nw_w w) ++ [Some t]) a = pointers_to (w_trees (nw_w w)) a + exp (live (w_trees (nw_w w) ++ [None])) (pt_nodes t) a).
      { intros a. rewrite <- (replace_last _ _ None), pointers_one.
        - rewrite pointers_none_to. reflexivity.
        - rewrite nth_error_app2, Nat.sub_diag by lia. reflexivity.
        - rewrite replace_last. exact (winv_tcoh _ _ _ Hw').
        - eapply winv_nodup; [exact Hw|exact Ej]. }
      unfold n_root. destruct (pt_nodes t) as [|a0 p rs ks] eqn:En.
      + cbn [nret bind n_start n_cnt n_freed]. eexists. split; [reflexivity|]. split; [reflexivity|]. split; [|split; [eapply no_free; [reflexivity|reflexivity|exact Hlive]|left; reflexivity]].
        intros a. cbn [nw_cnt nw_w w_trees]. rewrite Hi, Hp. f_equal. cbn. lia.
      + assert (Hin : In a0 (live (w_trees (nw_w w)))).
        { unfold live. apply in_flat_map. exists (Some t). split; [eapply nth_error_In; exact Ej|]. rewrite En. left. reflexivity. }
        assert (Hs : c_shared (live (w_trees (nw_w w) ++ [None])) a0 = true) by (apply shared_in; rewrite live_app; apply in_or_app; auto).
        assert (Hk : pointers_to (w_trees (nw_w w)) a0 <> 0) by (rewrite pointers_live; auto).
        unfold n_increment, nbind, n_get, n_start, n_set. cbn [n_cnt]. rewrite (Hi a0). destruct (pointers_to (w_trees (nw_w w)) a0) as [|k] eqn:Ek; [congruence|]. cbn [cnt_of].
        cbn [bind n_c n_cnt n_freed]. eexists. split; [reflexivity|]. split; [reflexivity|]. split; [|split; [eapply no_free; [reflexivity|reflexivity|exact Hlive]|left; reflexivity]].
        intros a. cbn [nw_cnt nw_w w_trees]. rewrite Hp. unfold put_cnt. cbn [exp]. rewrite Hs. unfold delta. destruct (a =? a0) eqn:Ea.
        * apply Nat.eqb_eq in Ea. subst a. rewrite Ek. replace (S k + (1 + 0)) with (S (k + 1)) by lia. reflexivity.
        * rewrite Hi. f_equal. lia.
    - destruct (nth_error (w_trees (nw_w w)) j) as [[t|]|] eqn:Ej; [|injection Hc as <-; exact Same..]. injection Hc as <-.
      destruct (world_split _ _ _ _ _ Hw Ej) as (E1 & E2 & E3 & E4 & E5 & E6 & E7). set (ts := replace_at j None (w_trees (nw_w w))) in *.
      (* the allocator is not used: give it addresses above all live ones *)
      pose (top := S (list_max (live (w_trees (nw_w w))))).
      assert (Hok : ok (pointers_to ts) (n_start (fun i => top + i) (nw_cnt w)) (fun a => 0 + exp (live ts) (pt_nodes t) a)).
      { apply (start_ok w b ls j t); auto; [intros i k; lia|]. intros i. rewrite Hi. apply cnt_none, pointers_live. intros Q.
        assert (G := proj1 (list_max_le (live (w_trees (nw_w w))) _) (le_n _)). rewrite Forall_forall in G. specialize (G _ Q). unfold top in G. lia. }
      destruct (drop_ok (live ts) (pointers_to ts) (pointers_live ts) (S (lsize (pt_nodes t))) (pt_nodes t) (fun _ => 0) _ ltac:(lia) Hok) as (s1 & D1 & D2 & D3).
      destruct (drop_c (pt_nodes t) (nw_cnt w) []) as [r Hr]. unfold n_start in *. rewrite Hr in *. destruct r as [[cnt1 fr1]|]; [|discriminate D1]. injection D1 as <-.
      cbn [bind]. eexists. split; [reflexivity|]. split; [reflexivity|]. split.
      + intros a. cbn [nw_cnt nw_w w_trees]. cbn [n_cnt]. rewrite (ok_cnt _ _ _ D3). fold ts. f_equal. lia.
      + cbn [n_freed] in D2. rewrite app_nil_r in D2. split; [|right; eexists; reflexivity]. split; cbn [nw_freed nw_w w_trees].
        * cbn [n_freed]. rewrite D2. apply NoDup_rev.
          clear - E4. induction (pt_nodes t) as [|b0 p rs ks IH] using ltree_ind'; cbn [own_list]; [constructor|]. destruct (c_shared _ b0); [constructor|].
          cbn [laddrs] in E4. apply NoDup_cons_iff in E4. destruct E4 as [N1 N2].
          assert (Sub : forall u a, In a (own_list (live ts) u) -> In a (laddrs u)).
          { clear. intros u. induction u as [|b0 p rs ks IH] using ltree_ind'; intros a H; cbn [own_list] in H; [destruct H|]. destruct (c_shared _ b0); [destruct H|].
            destruct H as [<-|H]; [left; reflexivity|]. right. apply in_flat_map in H. destruct H as (k & Hk & H). apply in_flat_map. exists k. split; [exact Hk|].
            rewrite Forall_forall in IH. exact (IH k Hk a H). }
          constructor.
          { intros H. apply N1. apply in_flat_map in H. destruct H as (k & Hk & H). apply in_flat_map. exists k. auto. }
          clear N1. induction IH as [|k ks Hk IH IH2]; cbn [flat_map]; [constructor|]. cbn [flat_map] in N2. apply nodup_app_inv in N2. destruct N2 as (N2 & N3 & N4).
          apply nodup_app; [exact (Hk N2)|exact (IH2 N3)|]. intros a H1 H2. apply (N4 a (Sub _ _ H1)). apply in_flat_map in H2. destruct H2 as (k' & Hk' & H2). apply in_flat_map. exists k'. auto.
        * intros a. cbn [n_freed]. rewrite D2, <- in_rev, (own_list_in _ _ E5), E7. fold ts.
          assert (Q : c_shared (live ts) a = false <-> ~ In a (live ts)) by (rewrite <- shared_in; destruct (c_shared (live ts) a); split; congruence).
          rewrite Q. tauto.
  Qed.

  Lemma n_run_ok : forall nop calls (w : nworld I V) b st, winv (nw_w w) b (fst st) -> ninv w -> mcalls_fit MAX (map forget calls) -> (b + isum (map forget calls) <= MAX)%Z -> (0 <= b)%Z ->
    n_allocs_ok X Y M inj nop w calls ->
    allocs_ok X Y M inj nop (nw_w w) calls /\
    match val_run Y inj st (map forget calls) with
    | Ok st' => exists w', n_run X Y M inj nop w calls = Ok w' /\ w_run X Y M inj nop (nw_w w) calls = Ok (nw_w w') /\ winv (nw_w w') (b + isum (map forget calls)) (fst st') /\ ninv w'
    | Panic p => n_run X Y M inj nop w calls = Panic p
    | UB => False
    end.
  Proof.
    intros nop. induction calls as [|c calls IH]; intros w b st Hw Hi [Hf Hs] Hb Hb0 Hal.
    - split; [exact Logic.I|]. cbn. exists w. rewrite Z.add_0_r. auto.
    - cbn [n_allocs_ok] in Hal. destruct Hal as [Ha Hal]. pose proof (n_alloc_ok_w w c Hi Ha) as Ha'.
      cbn [map] in *. inversion Hf as [|? ? Hc Hf']; subst. pose proof (isum_nonneg MAX M HM _ Hf') as Hn.
      assert (Eis : isum (forget c :: map forget calls) = (isum [forget c] + isum (map forget calls))%Z) by (destruct c; cbn [isum forget]; lia).
      assert (Hn1 : (0 <= isum [forget c])%Z) by (apply (isum_nonneg MAX M HM); constructor; auto). rewrite Eis in *.
      assert (H1 : wcalls_ok X Y inj M (nw_w w) nop [c] (b + isum (map forget [c])) (val_run Y inj st (map forget [c]))).
      { apply (w_run_ok X Y MAX inj M L HM); auto; [split; [constructor; auto|cbn [map]; lia]|cbn [map]; lia|].
        cbn [allocs_ok]. split; [exact Ha'|]. destruct (w_call X Y M inj nop (nw_w w) c); exact Logic.I. }
      cbn [map val_run] in *. unfold wcalls_ok in H1. cbn [w_run] in H1. destruct (val_call Y inj st (forget c)) as [st1|p|] eqn:Ev; cbn [bind] in *.
      + destruct H1 as (w1 & E1 & W1). destruct (w_call X Y M inj nop (nw_w w) c) as [w1'| |] eqn:Ec; cbn [bind] in E1; try discriminate. injection E1 as ->.
        destruct (n_step nop w b (fst st) c w1 _ _ Hw Hi Ha Ec W1) as (nw1 & N1 & N2 & N3 & _ & _). cbn [allocs_ok w_run n_run]. rewrite Ec. rewrite N1 in Hal. cbn [bind] in *. rewrite N1. cbn [bind].
        rewrite <- N2 in *. destruct (IH nw1 (b + isum [forget c])%Z st1 W1 N3 ltac:(split; [exact Hf'|lia]) ltac:(lia) ltac:(lia) Hal) as [A1 A2].
        split; [split; [exact Ha'|exact A1]|]. rewrite Z.add_assoc. exact A2.
      + split; [split; [exact Ha'|]|].
        * destruct (w_call X Y M inj nop (nw_w w) c) as [w1'| |]; [discriminate H1|exact Logic.I|exact Logic.I].
        * cbn [n_run]. destruct st as [ls0 d0]. destruct c as [|j hints idx x n al|j|j]; cbn [fst snd forget val_call w_call n_call] in *;
            try (match type of Ev with context [nth_error ?a ?b] => destruct (nth_error a b) as [[?|]|] eqn:? end; discriminate Ev); try discriminate Ev.
          pose proof Hw as [Ht _]. destruct (nth_error (w_trees (nw_w w)) j) as [[t|]|] eqn:Et; [|discriminate H1..].
          destruct (forall2_nth _ _ _ _ _ Ht Et) as ([l|] & El & Hy); [|destruct Hy]. rewrite El in Ev. destruct (spec_insert Y inj l idx x n) as [l'|q|] eqn:Es; try discriminate. injection Ev as ->.
          destruct Hy as [Hr Hl _ _]. cbn [isum] in *. pose proof (insert_full_ok X Y MAX inj M L HM nop _ _ hints idx x n Hr ltac:(lia) ltac:(lia) ltac:(lia)) as G. rewrite Es in G. unfold n_insert. rewrite G. reflexivity.
      + contradiction.
  Qed.
  (** An allocator that avoids the nodes of all trees avoids the nodes that are allocated. *)
  Lemma n_allocs_of : forall nop calls (w : nworld I V) b (st : @values V), winv (nw_w w) b (fst st) -> ninv w -> mcalls_fit MAX (map forget calls) -> (b + isum (map forget calls) <= MAX)%Z -> (0 <= b)%Z ->
    allocs_ok X Y M inj nop (nw_w w) calls -> n_allocs_ok X Y M inj nop w calls.
  Proof.
    intros nop. induction calls as [|c calls IH]; intros w b st Hw Hi [Hf Hs] Hb Hb0 Hal; [exact Logic.I|].
    cbn [allocs_ok n_allocs_ok] in *. destruct Hal as [Ha Hal].
    assert (Ha' : n_alloc_ok w c).
    { destruct c as [|j hints idx x n al|j|j]; cbn [n_alloc_ok alloc_ok] in *; auto. destruct Ha as [H1 H2]. split; [exact H1|]. intros i. rewrite Hi. apply cnt_none, pointers_live, H2. }
    split; [exact Ha'|]. destruct (n_call X Y M inj nop w c) as [w1| |] eqn:En; auto.
    cbn [map] in *. inversion Hf as [|? ? Hc Hf']; subst. pose proof (isum_nonneg MAX M HM _ Hf') as Hn.
    assert (Eis : isum (forget c :: map forget calls) = (isum [forget c] + isum (map forget calls))%Z) by (destruct c; cbn [isum forget]; lia).
    assert (Hn1 : (0 <= isum [forget c])%Z) by (apply (isum_nonneg MAX M HM); constructor; auto). rewrite Eis in *.
    assert (H1 : wcalls_ok X Y inj M (nw_w w) nop [c] (b + isum (map forget [c])) (val_run Y inj st (map forget [c]))).
    { apply (w_run_ok X Y MAX inj M L HM); auto; [split; [constructor; auto|cbn [map]; lia]|cbn [map]; lia|].
      cbn [allocs_ok]. split; [exact Ha|]. destruct (w_call X Y M inj nop (nw_w w) c); exact Logic.I. }
    assert (H2 : n_allocs_ok X Y M inj nop w [c]) by (cbn [n_allocs_ok]; rewrite En; auto).
    destruct (n_run_ok nop [c] w b st Hw Hi) as [_ H3]; auto; [split; [constructor; auto|cbn [map]; lia]|cbn [map]; lia|].
    cbn [map n_run w_run] in H3. rewrite En in H3. cbn [bind] in H3. destruct (val_run Y inj st [forget c]) as [st1| |]; [|discriminate|contradiction].
    destruct H3 as (w2 & E1 & E2 & E3 & E4). injection E1 as <-. destruct (w_call X Y M inj nop (nw_w w) c) as [w3| |]; cbn [bind] in E2; try discriminate. injection E2 as ->.
    eapply IH; [exact E3|exact E4|split; [exact Hf'|lia]|lia|lia|exact Hal].
  Qed.
  Lemma ninv_new : ninv nw_new.
  Proof. intros a. reflexivity. Qed.
End W.
