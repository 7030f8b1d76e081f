(** Insertion does the same to the nodes whatever the index arithmetic returns.  Proof support only. *)
From Coq Require Import List ZArith Bool Arith Lia.
From Verif Require Import Base Index Slice Tree Insert Wild.
Import ListNotations.

Definition unit_ops : index_ops unit := {|
  ix_zero := tt; ix_add_left := fun _ _ => Ok tt; ix_add_right := fun _ _ => Ok tt;
  ix_sub_left := fun _ _ => Ok tt; ix_sub_right := fun _ _ => Ok tt;
  ix_ltb := fun _ _ => true; ix_eqb := fun _ _ => true; ix_search := fun _ _ => inr 0; ix_debug := false;
|}.
Definition index_total {I} (X : index_ops I) : Prop :=
  (forall a b, exists c, ix_add_left X a b = Ok c) /\ (forall a b, exists c, ix_add_right X a b = Ok c) /\
  (forall a b, exists c, ix_sub_left X a b = Ok c) /\ (forall a b, exists c, ix_sub_right X a b = Ok c).

Section Sim.
  Context {I V : Type} (X : index_ops I) (M : nat).
  Hypothesis HX : index_any X.
  Notation tree := (tree I V).
  Notation utree := (Tree.tree unit V).
  Notation U := unit_ops.
  Definition u (_ : I) : unit := tt.

  Definition er {A B} (f : A -> B) (m : res A) (w : res B) : Prop :=
    match m with Ok a => w = Ok (f a) | Panic y => index_total X -> w = Panic y | UB => w = UB end.

  Lemma er_ok : forall {A B} (f : A -> B) a b, b = f a -> er f (Ok a) (Ok b).
  Proof. intros; subst; reflexivity. Qed.
  Lemma er_panic : forall {A B} (f : A -> B) y, er f (Panic y) (Panic y).
  Proof. intros A B f y _. reflexivity. Qed.
  Lemma er_ub : forall {A B} (f : A -> B), er f UB UB.
  Proof. reflexivity. Qed.
  Lemma er_bind : forall {A B C D} (f : A -> B) (g : C -> D) m w k k',
    er f m w -> (forall a, m = Ok a -> er g (k a) (k' (f a))) -> er g (bind m k) (bind w k').
  Proof.
    intros A B C D f g m w k k' H K. destruct m as [a|y|]; cbn [er bind] in *.
    - subst w. exact (K a eq_refl).
    - intros T. rewrite (H T). reflexivity.
    - subst w. reflexivity.
  Qed.
  Lemma er_addl : forall a b, er u (ix_add_left X a b) (Ok tt).
  Proof.
    intros a b. pose proof (ia_addl _ HX a b). destruct (ix_add_left X a b) eqn:E; cbn; [reflexivity| |congruence].
    intros (T & _). destruct (T a b). congruence.
  Qed.
  Lemma er_addr : forall a b, er u (ix_add_right X a b) (Ok tt).
  Proof.
    intros a b. pose proof (ia_addr _ HX a b). destruct (ix_add_right X a b) eqn:E; cbn; [reflexivity| |congruence].
    intros (_ & T & _). destruct (T a b). congruence.
  Qed.
  Lemma er_subl : forall a b, er u (ix_sub_left X a b) (Ok tt).
  Proof.
    intros a b. pose proof (ia_subl _ HX a b). destruct (ix_sub_left X a b) eqn:E; cbn; [reflexivity| |congruence].
    intros (_ & _ & T & _). destruct (T a b). congruence.
  Qed.
  Lemma er_subr : forall a b, er u (ix_sub_right X a b) (Ok tt).
  Proof.
    intros a b. pose proof (ia_subr _ HX a b). destruct (ix_sub_right X a b) eqn:E; cbn; [reflexivity| |congruence].
    intros (_ & _ & _ & T). destruct (T a b). congruence.
  Qed.
  Lemma er_diff : forall {A} (f : A -> unit) m, er f m (Ok tt) -> forall g, er g m (Ok tt).
  Proof. intros A f m H g. destruct m as [a|y|]; cbn in *; [destruct (g a); reflexivity|exact H|exact H]. Qed.

  (** ** Trees without positions *)
  Fixpoint erase (t : tree) : utree :=
    match t with
    | Nil => Nil
    | Node _ c0 es => Node tt (erase c0) (map (fun e => (tt, snd (fst e), erase (snd e))) es)
    end.
  Definition ere (e : I * V * tree) : unit * V * utree := (tt, snd (fst e), erase (snd e)).
  Lemma erase_node : forall tot c0 es, erase (Node tot c0 es) = Node tt (erase c0) (map ere es).
  Proof. reflexivity. Qed.

  Lemma er_nth : forall {A B} (f : A -> B) l i, er f (nth_ub l i) (nth_ub (map f l) i).
  Proof. intros. unfold nth_ub. rewrite nth_error_map. destruct (nth_error l i); reflexivity. Qed.
  Lemma erase_tlen : forall t, tlen (erase t) = tlen t.
  Proof. intros [|]; cbn; [reflexivity|]. unfold tlen. cbn. apply map_length. Qed.
  Lemma erase_keys : forall t, keys (erase t) = map ere (keys t).
  Proof. intros [|]; reflexivity. Qed.
  Lemma er_tsize : forall t, er u (tsize t) (tsize (erase t)).
  Proof. intros [|]; reflexivity. Qed.
  Lemma er_child_of : forall c0 es c, er erase (child_of c0 es c) (child_of (erase c0) (map ere es) c).
  Proof.
    intros c0 es [|k]; cbn [child_of]; [reflexivity|].
    eapply er_bind; [apply er_nth|]. intros e _. apply er_ok. reflexivity.
  Qed.
  Lemma er_child : forall t c, er erase (child t c) (child (erase t) c).
  Proof. intros [|] c; [reflexivity|]. cbn [child erase]. apply er_child_of. Qed.
  Lemma map_replace : forall {A B} (f : A -> B) i x l, map f (replace_at i x l) = replace_at i (f x) (map f l).
  Proof.
    intros. unfold replace_at. rewrite skipn_map. destruct (skipn i l) as [|y r]; [reflexivity|].
    cbn [map]. rewrite map_app, firstn_map. reflexivity.
  Qed.
  Lemma map_insert : forall {A B} (f : A -> B) i x l, map f (insert_at i x l) = insert_at i (f x) (map f l).
  Proof. intros. unfold insert_at. rewrite map_app, firstn_map. cbn [map]. rewrite skipn_map. reflexivity. Qed.
  Lemma er_set_child : forall t c ch, er erase (set_child t c ch) (set_child (erase t) c (erase ch)).
  Proof.
    intros [|tot c0 es] c ch; [reflexivity|]. rewrite erase_node. cbn [set_child]. destruct c as [|k]; [reflexivity|].
    eapply er_bind; [apply er_nth|]. intros e _. apply er_ok. rewrite erase_node, map_replace. reflexivity.
  Qed.
  Lemma er_key_pos : forall t k, er u (key_pos t k) (key_pos (erase t) k).
  Proof. intros. unfold key_pos. rewrite erase_keys. eapply er_bind; [apply er_nth|]. intros e _. apply er_ok. reflexivity. Qed.
  Lemma try_key_pos_erase : forall t k, try_key_pos (erase t) k = option_map u (try_key_pos t k).
  Proof. intros. unfold try_key_pos. rewrite erase_keys, nth_error_map. destruct (nth_error (keys t) k); reflexivity. Qed.
  Lemma er_kpe : forall t k, er u (key_pos_or_end t k) (key_pos_or_end (erase t) k).
  Proof. intros. unfold key_pos_or_end. rewrite try_key_pos_erase. destruct (try_key_pos t k); cbn [option_map]; [reflexivity|apply er_tsize]. Qed.
  Lemma er_child_size : forall t c, er u (child_size t c) (child_size (erase t) c).
  Proof. intros. unfold child_size. eapply er_bind; [apply er_child|]. intros. apply er_tsize. Qed.
  Lemma er_slice_size : forall h t k, er u (slice_size X h t k) (slice_size U h (erase t) k).
  Proof.
    intros. unfold slice_size. eapply er_bind; [apply er_key_pos|]. intros kp _.
    eapply er_bind; [apply er_kpe|]. intros nx _. eapply er_bind with (f := u).
    - destruct h; [reflexivity|]. eapply er_bind; [apply er_child_size|]. intros. apply er_subr.
    - intros. apply er_subl.
  Qed.
  Definition idv (s : V) : V := s.
  Lemma er_slice_at : forall t k, er idv (slice_at t k) (slice_at (erase t) k).
  Proof. intros. unfold slice_at. rewrite erase_keys. eapply er_bind; [apply er_nth|]. intros e _. apply er_ok. reflexivity. Qed.

  Lemma er_mapM : forall {A B C D} (f : A -> B) (g : C -> D) F G l, (forall a, er g (F a) (G (f a))) ->
    er (map g) (mapM F l) (mapM G (map f l)).
  Proof.
    intros A B C D f g F G l H. induction l as [|a l IH]; cbn [mapM map]; [reflexivity|].
    eapply er_bind; [apply H|]. intros b _. eapply er_bind; [apply IH|]. intros r _. apply er_ok. reflexivity.
  Qed.
  Lemma er_set_poss : forall t F G from, (forall p, er u (F p) (G tt)) ->
    er erase (set_key_poss_with t F from) (set_key_poss_with (erase t) G from).
  Proof.
    intros [|tot c0 es] F G from H; [reflexivity|]. rewrite erase_node. cbn [set_key_poss_with]. rewrite map_length.
    destruct (length es <? from); [reflexivity|]. rewrite skipn_map.
    eapply er_bind with (f := map ere).
    - apply er_mapM. intros e. eapply er_bind; [apply H|]. intros p _. apply er_ok. reflexivity.
    - intros after _. eapply er_bind; [apply H|]. intros tot' _. apply er_ok. rewrite erase_node, map_app, firstn_map. reflexivity.
  Qed.
  Lemma er_shift : forall inc inc' t from p o n, er erase (shift_keys X inc t from p o n) (shift_keys U inc' (erase t) from tt tt tt).
  Proof.
    intros. unfold shift_keys. eapply er_bind; [apply er_addr|]. intros oe _. eapply er_bind; [apply er_addr|]. intros ne _.
    eapply er_bind with (f := u).
    - destruct inc, inc'; first [apply er_subl|apply er_subr].
    - intros d _. apply er_set_poss. intros q. destruct inc, inc'; first [apply er_addl|apply er_subl].
  Qed.
  Lemma er_shift_auto : forall t from p o n, er erase (shift_keys_auto X t from p o n) (shift_keys_auto U (erase t) from tt tt tt).
  Proof. intros. apply er_shift. Qed.
  Lemma er_single : forall t k p, er erase (set_single_key_pos t k p) (set_single_key_pos (erase t) k tt).
  Proof.
    intros [|tot c0 es] k p; [reflexivity|]. rewrite erase_node. cbn [set_single_key_pos].
    eapply er_bind; [apply er_nth|]. intros e _. apply er_ok. rewrite erase_node, map_replace. reflexivity.
  Qed.
  Lemma er_set_size : forall t s, er erase (set_subtree_size t s) (set_subtree_size (erase t) tt).
  Proof. intros [|] s; reflexivity. Qed.
  Lemma er_set_slice : forall t k s, er erase (set_slice t k s) (set_slice (erase t) k s).
  Proof.
    intros [|tot c0 es] k p; [reflexivity|]. rewrite erase_node. cbn [set_slice].
    eapply er_bind; [apply er_nth|]. intros e _. apply er_ok. rewrite erase_node, map_replace. reflexivity.
  Qed.
  Definition etu (p : tree * I) : utree * unit := (erase (fst p), tt).
  Lemma er_ikc : forall t k s ch, er etu (insert_key_and_child M t k s ch) (insert_key_and_child M (erase t) k s (erase ch)).
  Proof.
    intros [|tot c0 es] k s ch; [reflexivity|].
    change (insert_key_and_child M (Node tot c0 es) k s ch) with
      (if (length es <? k) || (max_len M <=? length es) then UB
       else let* pos := key_pos_or_end (Node tot c0 es) k in Ok (Node tot c0 (insert_at k (pos, s, ch) es), pos)).
    change (insert_key_and_child M (erase (Node tot c0 es)) k s (erase ch)) with
      (if (length (map ere es) <? k) || (max_len M <=? length (map ere es)) then UB
       else let* pos := key_pos_or_end (erase (Node tot c0 es)) k in Ok (Node tt (erase c0) (insert_at k (pos, s, erase ch) (map ere es)), pos)).
    rewrite map_length. destruct ((length es <? k) || _); [reflexivity|].
    eapply er_bind; [apply er_kpe|]. intros pos _. apply er_ok. unfold etu. cbn [fst]. rewrite erase_node, map_insert. reflexivity.
  Qed.
  Lemma er_ik : forall t k s, er etu (insert_key M t k s) (insert_key M (erase t) k s).
  Proof. intros. exact (er_ikc t k s Nil). Qed.
  Lemma er_pkc : forall t s ch n, er erase (push_key_and_child M t s ch n) (push_key_and_child M (erase t) s (erase ch) tt).
  Proof.
    intros [|tot c0 es] s ch n; [reflexivity|]. rewrite erase_node. cbn [push_key_and_child]. rewrite map_length.
    destruct (max_len M <=? length es); [reflexivity|]. apply er_ok. rewrite erase_node, map_app. reflexivity.
  Qed.
  Lemma er_pk : forall t s n, er erase (push_key M t s n) (push_key M (erase t) s tt).
  Proof. intros. exact (er_pkc t s Nil n). Qed.
  Definition ett (p : tree * tree) : utree * utree := (erase (fst p), erase (snd p)).
  Lemma er_rfc : forall t ch, er ett (replace_first_child t ch) (replace_first_child (erase t) (erase ch)).
  Proof. intros [|] ch; reflexivity. Qed.
  Definition esp (p : tree * (I * V) * tree) : utree * (unit * V) * utree :=
    (erase (fst (fst p)), (tt, snd (snd (fst p))), erase (snd p)).
  Lemma er_split : forall t m, er esp (split t m) (split (erase t) m).
  Proof.
    intros [|tot c0 es] m; [reflexivity|]. rewrite erase_node. cbn [split].
    eapply er_bind; [apply er_nth|]. intros e _. apply er_ok. unfold esp. cbn [fst snd]. rewrite !erase_node, firstn_map, skipn_map. reflexivity.
  Qed.
  Lemma er_mnp : forall l s z r, er erase (make_new_parent X l s z r) (make_new_parent U (erase l) s tt (erase r)).
  Proof.
    intros. unfold make_new_parent. eapply er_bind; [apply er_tsize|]. intros. eapply er_bind; [apply er_addr|]. intros.
    eapply er_bind; [apply er_tsize|]. intros. eapply er_bind; [apply er_addr|]. intros. apply er_ok. reflexivity.
  Qed.
  Lemma er_node_at : forall p t, er erase (node_at t p) (node_at (erase t) p).
  Proof.
    induction p as [|c p IH]; intros t; cbn [node_at]; [reflexivity|]. eapply er_bind; [apply er_child|]. intros. apply IH.
  Qed.
  Lemma er_set_slice_at : forall p t k s, er erase (set_slice_at t p k s) (set_slice_at (erase t) p k s).
  Proof.
    induction p as [|c p IH]; intros t k s; cbn [set_slice_at]; [apply er_set_slice|].
    eapply er_bind; [apply er_child|]. intros ch _. eapply er_bind; [apply IH|]. intros ch' _. apply er_set_child.
  Qed.

  (** ** The steps of an insertion *)
  Definition erb (b : @bubble I V) : @bubble unit V :=
    {| b_lhs := erase (b_lhs b); b_key := b_key b; b_key_size := tt; b_rhs := erase (b_rhs b); b_old := tt;
       b_side := b_side b; b_cur := b_cur b |}.
  Definition erst (st : @upstate I V) : @upstate unit V :=
    match st with Done n _ _ cur => Done (erase n) tt tt cur | Bubble b => Bubble (erb b) end.
  Definition erl (l : @lhsinfo I) : @lhsinfo unit := {| l_pos := tt; l_old := tt; l_new := tt; l_remap := l_remap l |}.

  Ltac step :=
    lazymatch goal with
    | |- er _ (bind (ix_add_left X _ _) _) _ => eapply er_bind; [apply er_addl|]
    | |- er _ (bind (ix_add_right X _ _) _) _ => eapply er_bind; [apply er_addr|]
    | |- er _ (bind (ix_sub_left X _ _) _) _ => eapply er_bind; [apply er_subl|]
    | |- er _ (bind (ix_sub_right X _ _) _) _ => eapply er_bind; [apply er_subr|]
    | |- er _ (bind (tsize _) _) _ => eapply er_bind; [apply er_tsize|]
    | |- er _ (bind (key_pos _ _) _) _ => eapply er_bind; [apply er_key_pos|]
    | |- er _ (bind (key_pos_or_end _ _) _) _ => eapply er_bind; [apply er_kpe|]
    | |- er _ (bind (child _ _) _) _ => eapply er_bind; [apply er_child|]
    | |- er _ (bind (child_size _ _) _) _ => eapply er_bind; [apply er_child_size|]
    | |- er _ (bind (slice_size X _ _ _) _) _ => eapply er_bind; [apply er_slice_size|]
    | |- er _ (bind (slice_at _ _) _) _ => eapply er_bind; [apply er_slice_at|]
    | |- er _ (bind (set_child _ _ _) _) _ => eapply er_bind; [apply er_set_child|]
    | |- er _ (bind (shift_keys X _ _ _ _ _ _) _) _ => eapply er_bind; [apply er_shift|]
    | |- er _ (bind (shift_keys_auto X _ _ _ _ _) _) _ => eapply er_bind; [apply er_shift_auto|]
    | |- er _ (bind (set_single_key_pos _ _ _) _) _ => eapply er_bind; [apply er_single|]
    | |- er _ (bind (set_subtree_size _ _) _) _ => eapply er_bind; [apply er_set_size|]
    | |- er _ (bind (insert_key_and_child M _ _ _ _) _) _ => eapply er_bind; [apply er_ikc|]
    | |- er _ (bind (insert_key M _ _ _) _) _ => eapply er_bind; [apply er_ik|]
    | |- er _ (bind (push_key_and_child M _ _ _ _) _) _ => eapply er_bind; [apply er_pkc|]
    | |- er _ (bind (push_key M _ _ _) _) _ => eapply er_bind; [apply er_pk|]
    | |- er _ (bind (replace_first_child _ _) _) _ => eapply er_bind; [apply er_rfc|]
    | |- er _ (bind (split _ _) _) _ => eapply er_bind; [apply er_split|]
    | |- er _ (bind (make_new_parent X _ _ _ _) _) _ => eapply er_bind; [apply er_mnp|]
    | |- er _ (bind (node_at _ _) _) _ => eapply er_bind; [apply er_node_at|]
    | |- er _ (bind (set_slice_at _ _ _ _) _) _ => eapply er_bind; [apply er_set_slice_at|]
    end;
    let a := fresh "v" in intros a _;
    repeat match goal with
    | a : (_ * _)%type |- _ => destruct a
    end;
    unfold u, etu, ett, esp, idv; cbn [fst snd bind].
  Ltac steps := repeat step.
  Ltac utt := match goal with |- context [match ?o with Some s => s | None => tt end] => replace (match o with Some s => s | None => tt end) with tt by (destruct o as [[]|]; reflexivity) end.

  Lemma er_key_step : forall t k ov o n cur,
    er erst (key_step X t k ov o n cur) (key_step U (erase t) k (option_map u ov) tt tt cur).
  Proof.
    intros. unfold key_step. eapply er_bind with (f := u).
    - destruct ov; [reflexivity|apply er_key_pos].
    - intros pos _. steps. reflexivity.
  Qed.

  Lemma er_child_step : forall t c here o n cur,
    er erst (child_step X t c here o n cur) (child_step U (erase t) c (option_map erl here) tt tt cur).
  Proof.
    intros. unfold child_step.
    eapply er_bind with (f := fun q => (option_map u (fst (fst (fst q))), tt, tt, snd q)).
    - destruct here as [l|]; cbn [option_map]; [|reflexivity]. unfold erl at 1 2. cbn [l_pos l_old l_new l_remap].
      steps. reflexivity.
    - intros [[[ov o'] n'] cur'] _. cbn [fst snd].
      eapply er_bind with (f := u).
      + destruct ov; [reflexivity|]. cbn [option_map]. step. apply er_subl.
      + intros pos _. steps. reflexivity.
  Qed.

  Lemma er_bubble : forall t c here b,
    er erst (bubble_step X M t c here b) (bubble_step U M (erase t) c (option_map erl here) (erb b)).
  Proof.
    intros. unfold bubble_step. unfold erb at 1 2. cbn [b_lhs b_key b_key_size b_rhs b_old b_side b_cur]. steps.
    rewrite erase_tlen. destruct (tlen t <? max_len M).
    - eapply er_bind with (f := fun _ => (tt, tt, tt, tt)).
      + destruct here as [l|]; cbn [option_map erl l_old l_new l_pos]; steps; reflexivity.
      + intros [[[a1 a2] a3] a4] _. cbn [b_key erb b_rhs b_side b_cur]. steps.
        replace (match option_map erl here with Some l => if l_remap l then [] else opt_cons (option_map (fun s : side => c + side_nat s) (b_side b)) (b_cur b)
                 | None => opt_cons (option_map (fun s : side => c + side_nat s) (b_side b)) (b_cur b) end)
          with (match here with Some l => if l_remap l then [] else opt_cons (option_map (fun s : side => c + side_nat s) (b_side b)) (b_cur b)
                 | None => opt_cons (option_map (fun s : side => c + side_nat s) (b_side b)) (b_cur b) end) by (destruct here; reflexivity).
        match goal with |- er _ (key_step X ?t ?k ?ov ?o ?n ?cur) _ => exact (er_key_step t k ov o n cur) end.
    - steps. rewrite try_key_pos_erase.
      eapply er_bind with (f := u).
      { match goal with |- context [option_map u ?z] => destruct z end; cbn [option_map]; [reflexivity|].
        destruct (1 <? M); [reflexivity|apply er_tsize]. }
      intros fkp _. eapply er_bind with (f := u).
      { destruct ((c =? M) || (c =? M + 1)); [reflexivity|apply er_child_size]. }
      intros fcs _. unfold u. steps. destruct (negb (c =? M)).
      + steps.
        match goal with |- context [match here with Some l => if c =? M + 1 then (l_new l, None) else (?m0, Some l) | None => (?m0, None) end] =>
          assert (E : exists ms sh, match here with Some l => if c =? M + 1 then (l_new l, None) else (m0, Some l) | None => (m0, None) end = (ms, sh) /\
            match option_map erl here with Some l => if c =? M + 1 then (l_new l, None) else (tt, Some l) | None => (tt, None) end = (tt, option_map erl sh))
        end.
        { destruct here as [l|]; cbn [option_map]; [destruct (c =? M + 1)|]; eexists; eexists; split; reflexivity. }
        destruct E as (ms & sh & -> & ->).
        eapply er_bind with (f := option_map (fun _ => (tt, tt, tt))).
        { destruct sh as [l|]; [|reflexivity]. destruct (M <? c); [|reflexivity]. cbn [option_map erl l_pos l_old l_new]. steps. reflexivity. }
        intros sh' _.
        match goal with |- context [if M <? c then ?r1 else ?pp] => set (into := if M <? c then r1 else pp) end.
        match goal with |- context [if M <? c then erase ?r1 else erase ?pp] =>
          replace (if M <? c then erase r1 else erase pp) with (erase (if M <? c then r1 else pp)) by (destruct (M <? c); reflexivity) end.
        eapply er_bind with (f := fun _ => (tt, tt, tt, tt)).
        { destruct sh' as [[[x1 x2] x3]|]; cbn [option_map]; steps; reflexivity. }
        intros [[[a1 a2] a3] a4] _. cbn [b_old erb b_key b_rhs b_side b_cur]. steps.
        apply er_ok. unfold erst, erb. cbn [b_lhs b_key b_key_size b_rhs b_old b_side b_cur]. destruct (M <? c); reflexivity.
      + cbn [erb b_rhs b_key b_key_size b_side b_cur b_old].
        replace (match option_map erl here with Some l => l_new l | None => tt end) with tt by (destruct here; reflexivity).
        steps. reflexivity.
  Qed.

  Lemma remap_erase : forall here st, erst (remap_bubble here st) = remap_bubble (option_map erl here) (erst st).
  Proof. intros [l|] [n o w cur|b]; cbn [remap_bubble option_map erst erl l_remap]; try reflexivity. destruct (l_remap l); reflexivity. Qed.

  Lemma er_up : forall t c here st, er erst (up_step X M t c here st) (up_step U M (erase t) c (option_map erl here) (erst st)).
  Proof.
    intros t c here [n o w cur|b]; cbn [up_step erst].
    - step. apply er_child_step.
    - eapply er_bind; [apply er_set_child|]. intros t1 _. eapply er_bind; [apply er_bubble|]. intros st' _. apply er_ok. symmetry. apply remap_erase.
  Qed.

  Definition erd (l : option (nat * @lhsinfo I)) : option (nat * @lhsinfo unit) := option_map (fun q => (fst q, erl (snd q))) l.
  Lemma er_upd : forall f g, (forall t, er erst (f t) (g (erase t))) ->
    forall p lhs t, er erst (upd X M f lhs t p) (upd U M g (erd lhs) (erase t) p).
  Proof.
    intros f g H. induction p as [|c p IH]; intros lhs t; cbn [upd]; [apply H|].
    step. destruct lhs as [[[|d] l]|]; cbn [erd option_map fst snd].
    - eapply er_bind; [exact (IH None v)|]. intros st _. exact (er_up t c (Some l) st).
    - eapply er_bind; [exact (IH (Some (d, l)) v)|]. intros st _. exact (er_up t c None st).
    - eapply er_bind; [exact (IH None v)|]. intros st _. exact (er_up t c None st).
  Qed.

  Definition ersl (r : @bubble I V * option (side * nat)) : @bubble unit V * option (side * nat) := (erb (fst r), snd r).
  Definition erf (q : V * I) : V * unit := (fst q, tt).

  Lemma er_small : forall t k ov fs sn,
    er ersl (split_leaf_small_m X M t k ov fs sn) (split_leaf_small_m U M (erase t) k (option_map u ov) (erf fs) (erf sn)).
  Proof.
    intros t k ov [f1 f2] [s1 s2]. unfold split_leaf_small_m. rewrite erase_tlen.
    replace (match option_map u ov with Some _ => true | None => false end) with (match ov with Some _ => true | None => false end) by (destruct ov; reflexivity).
    destruct (negb (M =? 1) || _ || _ || _); [reflexivity|]. unfold erf. steps.
    destruct (k =? 0); steps; utt; steps; reflexivity.
  Qed.

  Lemma er_split_leaf : forall t k ov fs sn,
    er ersl (split_leaf X M t k ov fs sn) (split_leaf U M (erase t) k (option_map u ov) (erf fs) (option_map erf sn)).
  Proof.
    intros t k ov [f1 f2] sn. unfold split_leaf. rewrite erase_tlen.
    destruct ((M =? 1) && (tlen t =? 1)).
    { destruct sn as [sn|]; [|reflexivity]. apply er_small. }
    replace (match option_map erf sn with Some _ => true | None => false end) with (match sn with Some _ => true | None => false end) by (destruct sn; reflexivity).
    destruct (choose_split M k (tlen t) (match sn with Some _ => true | None => false end)) as [m ins].
    steps. rewrite try_key_pos_erase.
    utt.
    eapply er_bind with (f := fun q => (tt, option_map u (snd q))).
    { destruct ov as [s|]; cbn [option_map]; [destruct (match ins with inl SLeft => _ | _ => _ end)|]; steps; reflexivity. }
    intros [ms ov'] _. cbn [snd]. steps. destruct ins as [sd|[|]].
    - set (into := match sd with SLeft => v1 | SRight => v2 end).
      replace (match sd with SLeft => erase v1 | SRight => erase v2 end) with (erase into) by (unfold into; destruct sd; reflexivity).
      set (k' := match sd with SLeft => k | SRight => k - (m + 1) end).
      eapply er_bind with (f := fun _ => (tt, tt, tt)).
      { destruct ov' as [s|]; cbn [option_map]; [destruct (k' =? 0); [reflexivity|]|]; steps; reflexivity. }
      intros [[pos osz] ns0] _. cbn [fst snd erf]. steps.
      eapply er_bind with (f := fun q => (erase (fst (fst q)), tt, snd q)).
      { destruct sn as [[s2 z2]|]; cbn [option_map erf fst snd]; steps; reflexivity. }
      intros [[i3 ns2] from] _. cbn [fst snd]. steps. apply er_ok. unfold ersl, erb. cbn [fst snd b_lhs b_key b_key_size b_rhs b_old b_side b_cur].
      destruct sd; reflexivity.
    - destruct sn as [[s2 z2]|]; [|reflexivity]. cbn [option_map erf fst snd]. rewrite ?erase_tlen. steps. reflexivity.
    - steps. cbn [erf fst snd]. eapply er_bind with (f := erase).
      { destruct sn as [[s2 z2]|]; cbn [option_map erf fst snd]; [|reflexivity]. step. apply er_shift. }
      intros r2 _. apply er_ok. reflexivity.
  Qed.

  Lemma remap_leaf_erase : forall remap r, erb (remap_leaf remap r) = remap_leaf remap (ersl r).
  Proof. intros remap [b w]. destruct remap; reflexivity. Qed.

  Lemma er_no_join : forall remap k ov fs sn t,
    er erst (no_join_leaf X M remap k ov fs sn t) (no_join_leaf U M remap k (option_map u ov) (erf fs) (option_map erf sn) (erase t)).
  Proof.
    intros remap k ov fs sn t. unfold no_join_leaf. rewrite erase_tlen.
    replace (match option_map u ov with Some _ => true | None => false end) with (match ov with Some _ => true | None => false end) by (destruct ov; reflexivity).
    destruct ((tlen t <? k) || _); [reflexivity|].
    eapply er_bind with (f := u).
    { destruct sn as [[s2 z2]|]; cbn [option_map erf fst snd]; [apply er_addr|reflexivity]. }
    intros added _. cbv beta zeta.
    replace (match option_map erf sn with Some _ => 1 | None => 0 end) with (match sn with Some _ => 1 | None => 0 end) by (destruct sn; reflexivity).
    destruct (max_len M - _ <=? tlen t).
    { eapply er_bind; [apply er_split_leaf|]. intros r _. apply er_ok. cbn [erst]. rewrite remap_leaf_erase. reflexivity. }
    destruct fs as [f1 f2]. cbn [erf fst snd]. unfold u at 1 2.
    destruct ov as [nl|]; cbn [option_map].
    - steps. eapply er_bind with (f := erase).
      { destruct sn as [[s2 z2]|]; cbn [option_map erf fst snd]; [|reflexivity]. steps. apply er_single. }
      intros t3 _. steps. match goal with |- er _ (key_step X ?t ?k ?ov ?o ?n ?cur) _ => exact (er_key_step t k ov o n cur) end.
    - steps. eapply er_bind with (f := fun q => (erase (fst q), option_map u (snd q))).
      { destruct sn as [[s2 z2]|]; cbn [option_map erf fst snd]; [|reflexivity]. steps. reflexivity. }
      intros [t2 op] _. cbn [fst snd]. apply er_key_step.
  Qed.

  Definition er3 (q : tree * nat * list nat) : utree * nat * list nat := (erase (fst (fst q)), snd (fst q), snd q).
  Definition er4 (q : tree * nat * list nat * nat) : utree * nat * list nat * nat := (er3 (fst q), snd q).
  Lemma er_finish : forall h st, er er3 (finish_root X h st) (finish_root U h (erst st)).
  Proof. intros h [n o w cur|b]; cbn [finish_root erst]; [reflexivity|]. cbn [erb b_lhs b_rhs b_key b_key_size b_side b_cur]. steps. reflexivity. Qed.

  Lemma er_insert_rhs : forall h t p hk k nl remap fs sn,
    er er3 (insert_rhs X M h t p hk k nl remap fs sn) (insert_rhs U M h (erase t) p hk k tt remap (erf fs) (option_map erf sn)).
  Proof.
    intros. unfold insert_rhs. steps. eapply er_bind with (f := erst).
    - match goal with |- context [erf ?z] => set (fs := z) end. destruct hk as [|hc].
      + apply (er_upd (no_join_leaf X M remap (k + 1) (Some nl) fs sn) (no_join_leaf U M remap (k + 1) (Some tt) (erf fs) (option_map erf sn))
          (fun t => er_no_join remap (k + 1) (Some nl) fs sn t) p None t).
      + match goal with |- er _ (upd X M _ (Some (?d, ?l)) _ ?q) _ =>
          apply (er_upd (no_join_leaf X M false 0 None fs sn) (no_join_leaf U M false 0 None (erf fs) (option_map erf sn))
            (fun t => er_no_join false 0 None fs sn t) q (Some (d, l)) t) end.
    - intros st _. apply er_finish.
  Qed.

  Section Slice.
    Context (Y : slice_ops I V).

    Lemma er_split_key : forall nop h t p hk k q x n,
      er er4 (insert_split_key X Y M nop h t p hk k q x n) (insert_split_key U (cut_at Y q) M nop h (erase t) p hk k tt x tt).
    Proof.
      intros. unfold insert_split_key. steps. cbn [cut_at sl_split_at sl_may_join sl_try_join].
      match goal with |- context [sl_split_at Y ?s q] => destruct (sl_split_at Y s q) as [lhs rhs] end. steps.
      assert (Fin : forall m w a, er er3 m w -> er er4 (let* (t', h', cur) := m in Ok (t', h', cur, a)) (let* (t', h', cur) := w in Ok (t', h', cur, a))).
      { intros m w a H. eapply er_bind; [exact H|]. intros [[t' h'] cur] _. apply er_ok. reflexivity. }
      destruct (negb (sl_may_join Y)).
      { apply Fin. match goal with |- er _ (insert_rhs _ _ ?h ?t ?p ?hk ?k ?nl ?rm ?fs ?sn) _ => apply (er_insert_rhs h t p hk k nl rm fs sn) end. }
      destruct (sl_try_join Y lhs x) as [mid|[l s]].
      - steps. destruct (sl_try_join Y mid rhs) as [new|[l r]].
        + steps. eapply er_bind with (f := erst).
          * match goal with |- er _ (upd X M (fun n0 => key_step X n0 k None ?o ?nw []) None ?t2 p) _ =>
              exact (er_upd (fun n0 => key_step X n0 k None o nw []) (fun n0 => key_step U n0 k None tt tt []) (fun n0 => er_key_step n0 k None o nw []) p None t2) end.
          * intros st _. apply Fin. apply er_finish.
        + steps. apply Fin. match goal with |- er _ (insert_rhs _ _ ?h ?t ?p ?hk ?k ?nl ?rm ?fs ?sn) _ => apply (er_insert_rhs h t p hk k nl rm fs sn) end.
      - steps. destruct (sl_try_join Y s rhs) as [new|[m r]].
        + steps. apply Fin. match goal with |- er _ (insert_rhs _ _ ?h ?t ?p ?hk ?k ?nl ?rm ?fs ?sn) _ => apply (er_insert_rhs h t p hk k nl rm fs sn) end.
        + apply Fin. match goal with |- er _ (insert_rhs _ _ ?h ?t ?p ?hk ?k ?nl ?rm ?fs ?sn) _ => apply (er_insert_rhs h t p hk k nl rm fs sn) end.
    Qed.

    Lemma er_handle_slice : forall t a, er idv (handle_slice t a) (handle_slice (erase t) a).
    Proof. intros. unfold handle_slice. steps. apply er_slice_at. Qed.
    Lemma er_handle_size : forall h t a, er u (handle_size X h t a) (handle_size U h (erase t) a).
    Proof. intros. unfold handle_size. steps. apply er_slice_size. Qed.
    Definition erj (j : @join_result I V) : @join_result unit V :=
      match j with Joined t h cur => Joined (erase t) h cur | NotJoined t s => NotJoined (erase t) s end.
    Lemma er_single_join : forall h t a o n, er erj (single_join X M h t a o n) (single_join U M h (erase t) a tt tt).
    Proof.
      intros. unfold single_join. eapply er_bind with (f := erst).
      - exact (er_upd (fun n0 => key_step X n0 (snd a) None o n []) (fun n0 => key_step U n0 (snd a) None tt tt []) (fun n0 => er_key_step n0 (snd a) None o n []) (fst a) None t).
      - intros st _. eapply er_bind; [apply er_finish|]. intros [[t' h'] cur] _. apply er_ok. reflexivity.
    Qed.

    Lemma er_try_join : forall q h t a b x n,
      er erj (edge_try_join X Y M h t a b x n) (edge_try_join U (cut_at Y q) M h (erase t) a b x tt).
    Proof.
      intros q h t a b x n. unfold edge_try_join. cbn [cut_at sl_may_join sl_try_join].
      destruct (negb (sl_may_join Y)); [reflexivity|].
      assert (Sz : forall c : option handle, er (option_map (fun z => (tt, snd z))) (match c with None => Ok None | Some a => let* z := handle_size X h t a in Ok (Some (z, a)) end)
        (match c with None => Ok None | Some a => let* z := handle_size U h (erase t) a in Ok (Some (z, a)) end)).
      { intros [c|]; [|reflexivity]. eapply er_bind; [apply er_handle_size|]. intros z _. apply er_ok. reflexivity. }
      eapply er_bind; [apply Sz|]. intros lsz _. eapply er_bind; [apply Sz|]. intros rsz _. clear Sz.
      destruct lsz as [[lz la]|], rsz as [[rz ra]|]; cbn [option_map snd].
      - eapply er_bind; [apply er_handle_slice|]. intros ls _. unfold idv.
        destruct (sl_try_join Y ls x) as [mid|[l s]].
        + steps. eapply er_bind; [apply er_handle_slice|]. intros rs _. unfold idv.
          destruct (sl_try_join Y mid rs) as [?|[m r]].
          * steps. apply er_panic.
          * steps. apply er_single_join.
        + steps. eapply er_bind; [apply er_handle_slice|]. intros rs _. unfold idv.
          destruct (sl_try_join Y s rs) as [new|[s' r]].
          * steps. apply er_single_join.
          * steps. reflexivity.
      - eapply er_bind; [apply er_handle_slice|]. intros ls _. unfold idv.
        destruct (sl_try_join Y ls x) as [mid|[l s]]; steps; [apply er_single_join|reflexivity].
      - eapply er_bind; [apply er_handle_slice|]. intros ls _. unfold idv.
        destruct (sl_try_join Y x ls) as [mid|[l s]]; steps; [apply er_single_join|reflexivity].
      - apply er_panic.
    Qed.

    Lemma er_insert_edge : forall q h t p k a b x n,
      er er4 (insert_edge X Y M h t p k a b x n) (insert_edge U (cut_at Y q) M h (erase t) p k a b x tt).
    Proof.
      intros. unfold insert_edge. steps. rewrite erase_tlen. match goal with |- context [tlen ?w <? k] => destruct (tlen w <? k) end; [reflexivity|].
      eapply er_bind; [apply er_try_join|]. intros [t' h' cur|t1 s] _; cbn [erj]; [reflexivity|].
      eapply er_bind with (f := erst).
      - exact (er_upd (no_join_leaf X M false k None (s, n) None) (no_join_leaf U M false k None (s, tt) None) (fun t => er_no_join false k None (s, n) None t) p None t1).
      - intros st _. eapply er_bind; [apply er_finish|]. intros [[t' h'] cur] _. apply er_ok. reflexivity.
    Qed.
  End Slice.
End Sim.
