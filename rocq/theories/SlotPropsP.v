(** Proofs of the theorems about the arrays of a node. *)
From Coq Require Import List Arith Bool Lia Permutation.
From Verif Require Import Base ListFacts Index Slice Tree Slots SlotSpec SlotP SlotQ.
Import ListNotations.

(** For every M that the tree accepts, in every history of node operations that keeps their documented safety
    conditions, the arrays hold exactly the lists: no empty slot is read, none outside is touched, no length
    overflows a `u8`, and what is returned and reported is what the list operation says. *)
Lemma C45_slots_refine_proof : forall (I S R C : Type) (zero : I) (no_ref : R) (M : nat) (ops : list (nop I S R C)), 1 <= M <= 127 ->
  match v_run zero no_ref M [] ops with
  | Ok (p, evs) => a_run zero no_ref M [] ops = Ok (map (option_map (encode M)) p, evs) /\
                   forall n v, nth_error p n = Some (Some v) -> v_ok M v
  | UB => True
  | Panic _ => False
  end.
Proof.
  intros I S R C zero no_ref M ops HM. destruct (v_run zero no_ref M [] ops) as [[p evs]|w|] eqn:E; auto.
  - apply (run_ok zero no_ref M HM ops [] p evs); auto. intros n v H. destruct n; discriminate.
  - revert E. generalize (@nil (option (nodeval I S R C))). induction ops as [|o ops IH]; intros p E; cbn [v_run] in E; [discriminate|].
    destruct (v_step zero no_ref M p o) as [[p1 e1]|w'|] eqn:S1; cbn [bind] in E; try discriminate.
    + destruct (v_run zero no_ref M p1 ops) as [[p2 e2]|w'|] eqn:S2; cbn [bind] in E; try discriminate. injection E as ->. eapply IH. eauto.
    + clear - S1. assert (ON : forall n f, (forall v w, f v <> Panic w) -> v_on p n f <> Panic w').
      { intros n f H Q. unfold v_on in Q. unfold rd in Q. destruct (nth_error p n) as [[v|]|]; cbn [bind] in Q; try discriminate.
        destruct (f v) as [[v' es]|w1|] eqn:F; cbn [bind] in Q; try discriminate. eapply H; eauto. }
      destruct o; cbn [v_step] in S1; try discriminate; try (eapply ON; [|exact S1]; intros v w; unfold v_insert_key, v_push_key, v_replace_first_child,
        v_push_key_and_child, v_insert_key_and_child, v_set_single_key_pos, v_set_key_poss_with, v_swap_slice;
        repeat match goal with |- context [match ?x with _ => _ end] => destruct x end; cbn [bind]; discriminate).
      * unfold rd in S1. destruct (nth_error p n) as [[v|]|]; cbn [bind] in S1; try discriminate. unfold v_split in S1.
        destruct (nth_error (v_keys v) mid); discriminate.
      * unfold rd in S1. destruct (nth_error p n) as [[v|]|]; cbn [bind] in S1; try discriminate. destruct (v_shallow_clone no_ref cl v); discriminate.
      * unfold rd in S1. destruct (nth_error p n) as [[v|]|]; cbn [bind] in S1; try discriminate. destruct (v_deep_clone no_ref (length p) cl dc v); discriminate.
      * unfold mv in S1. destruct (nth_error p n) as [[v|]|]; discriminate.
Qed.

(** Every slice given to an operation or made by `S::clone` is in exactly one slot, or has left exactly once:
    handed back, dropped or leaked. *)
Lemma C45_slices_conserved_proof : forall (I S R C : Type) (zero : I) (no_ref : R) (M : nat) (ops : list (nop I S R C)) p evs, 1 <= M <= 127 ->
  v_run zero no_ref M [] ops <> UB -> a_run zero no_ref M [] ops = Ok (p, evs) ->
  Permutation (concat (map slices_given ops) ++ slices_made evs) (slices_in p ++ slices_out evs).
Proof.
  intros I S R C zero no_ref M ops p evs HM NU E. pose proof (C45_slots_refine_proof I S R C zero no_ref M ops HM) as H.
  destruct (v_run zero no_ref M [] ops) as [[q e]|w|] eqn:V; [|destruct H|congruence]. destruct H as [H _]. rewrite H in E. apply ok_pair in E as [-> ->].
  destruct (run_bal _ _ _ _ _ _ _ V) as [A _]. rewrite slices_in_enc. cbn [tot filled map concat] in A. rewrite app_nil_r in A. exact A.
Qed.

(** The same for child pointers. *)
Lemma C45_childs_conserved_proof : forall (I S R C : Type) (zero : I) (no_ref : R) (M : nat) (ops : list (nop I S R C)) p evs, 1 <= M <= 127 ->
  v_run zero no_ref M [] ops <> UB -> a_run zero no_ref M [] ops = Ok (p, evs) ->
  Permutation (concat (map childs_given ops) ++ childs_made evs) (childs_in p ++ childs_out evs).
Proof.
  intros I S R C zero no_ref M ops p evs HM NU E. pose proof (C45_slots_refine_proof I S R C zero no_ref M ops HM) as H.
  destruct (v_run zero no_ref M [] ops) as [[q e]|w|] eqn:V; [|destruct H|congruence]. destruct H as [H _]. rewrite H in E. apply ok_pair in E as [-> ->].
  destruct (run_bal _ _ _ _ _ _ _ V) as [_ A]. rewrite childs_in_enc. cbn [tot filled map concat] in A. rewrite app_nil_r in A. exact A.
Qed.

(** A slice is leaked only if cloning a child panicked inside `deep_clone`. *)
Lemma C45_leaks_only_in_deep_clone_proof : forall (I S R C : Type) (zero : I) (no_ref : R) (M : nat) (ops : list (nop I S R C)) p evs s, 1 <= M <= 127 ->
  v_run zero no_ref M [] ops <> UB -> a_run zero no_ref M [] ops = Ok (p, evs) -> In (ELeak s) evs ->
  exists n cl dc c, In (NDeep n cl dc) ops /\ dc c = None.
Proof.
  intros I S R C zero no_ref M ops p evs s HM NU E L. pose proof (C45_slots_refine_proof I S R C zero no_ref M ops HM) as H.
  destruct (v_run zero no_ref M [] ops) as [[q e]|w|] eqn:V; [|destruct H|congruence]. destruct H as [H _]. rewrite H in E. apply ok_pair in E as [-> ->].
  eapply run_leak; eauto.
Qed.

(** It does happen: the claim that a panicking clone leaks nothing is false of `deep_clone`. *)
Lemma C45_no_leak_refuted_proof : exists (ops : list (nop nat nat unit nat)) p evs s,
  v_run 0 tt 2 [] ops <> UB /\ a_run 0 tt 2 [] ops = Ok (p, evs) /\ In (ELeak s) evs.
Proof.
  exists [NNewParent 3 9 7 tt 100 101; NDeep 0 (fun s => Some (s + 50)) (fun c => if c =? 101 then None else Some (c + 50))].
  eexists. eexists. exists 57. split; [vm_compute; discriminate|]. split; [vm_compute; reflexivity|]. vm_compute. intuition.
Qed.

Section Tree.
  Context {I S : Type}.
  Variable M : nat.
  Hypothesis HM : 1 <= M <= 127.
  Notation tree := (tree I S).
  Notation raw := (raw I S unit tree).

  Lemma view_ok : forall h tot c0 (es : list (I * S * tree)), length es <= 2 * M -> v_ok M (node_view h tot c0 es).
  Proof.
    intros h tot c0 es L. unfold node_view. split; cbn [v_keys v_childs]; [rewrite map_length; auto|]. destruct h; auto. cbn [length]. rewrite !map_length. lia.
  Qed.
  Lemma view_pos : forall h tot c0 (es : list (I * S * tree)) k p, key_pos_or_end (Node tot c0 es) k = Ok p -> pos_at (node_view h tot c0 es) k = p.
  Proof.
    intros h tot c0 es k p E. unfold key_pos_or_end, try_key_pos, tsize, keys in E. unfold pos_at, node_view. cbn [v_keys v_total].
    rewrite nth_mapp. destruct (nth_error es k) as [e|]; cbn [option_map] in *; injection E as <-; reflexivity.
  Qed.

  Lemma tree_insert : forall h me (a : raw) (t : tree) k s ch t' pos, holds M h a t -> insert_key_and_child M t k s ch = Ok (t', pos) ->
    exists a' evs, holds M h a' t' /\ In (EPos pos) evs /\
    match h with
    | O => a_insert_key tt me a k s
    | Datatypes.S _ => a_insert_key_and_child me a k s tt ch
    end = Ok (a', evs).
  Proof.
    intros h me a t k s ch t' pos H E. destruct t as [|tot c0 es]; [destruct H|]. destruct H as [L ->].
    unfold insert_key_and_child, max_len in E.
    destruct (Nat.ltb_spec (length es) k) as [|K]; [discriminate|]. destruct (Nat.leb_spec (2 * M) (length es)) as [|LT]; [discriminate|]. cbn [orb] in E.
    destruct (key_pos_or_end (Node tot c0 es) k) as [p| |] eqn:KP; try discriminate. cbn [bind] in E. injection E as <- <-.
    pose proof (view_pos h _ _ _ _ _ KP) as VP. pose proof (view_ok h tot c0 es L) as V.
    assert (MI : may_insert M (node_view h tot c0 es) k = true).
    { unfold may_insert. cbn [v_keys node_view]. rewrite map_length. destruct (Nat.leb_spec k (length es)); [|lia]. destruct (Nat.ltb_spec (length es) (2 * M)); [reflexivity|lia]. }
    destruct h as [|h].
    - assert (Q : v_insert_key tt M me (node_view 0 tot c0 es) k s =
        Ok (node_view 0 tot c0 (insert_at k (p, s, ch) es), tell_refs me (k + 1) (skipn k (v_keys (node_view 0 tot c0 es))) ++ [EPos p])).
      { unfold v_insert_key. cbn [v_childs node_view]. rewrite MI, VP. f_equal. f_equal. unfold with_keys, node_view. cbn [v_total v_keys v_childs].
        rewrite map_ins. reflexivity. }
      destruct (insert_key_ok tt M HM me _ _ _ _ _ V Q) as [-> _]. eexists. eexists. split; [split; [|reflexivity]|split; [|reflexivity]].
      + rewrite ins_len. lia.
      + rewrite in_app_iff. right. left. reflexivity.
    - assert (Q : v_insert_key_and_child M me (node_view (Datatypes.S h) tot c0 es) k s tt ch =
        Ok (node_view (Datatypes.S h) tot c0 (insert_at k (p, s, ch) es),
            tell_refs me k ((p, s, tt) :: skipn k (v_keys (node_view (Datatypes.S h) tot c0 es))) ++
            tell_childs me (k + 1) (ch :: skipn (k + 1) (c0 :: map e_child es)) ++ [EPos p])).
      { unfold v_insert_key_and_child. cbn [v_childs node_view]. rewrite MI, VP. f_equal. f_equal. unfold node_view. cbn [v_total v_keys v_childs].
        rewrite !map_ins. rewrite Nat.add_1_r. reflexivity. }
      destruct (insert_both_ok M HM me _ _ _ _ _ _ _ V Q) as [-> _]. eexists. eexists. split; [split; [|reflexivity]|split; [|reflexivity]].
      + rewrite ins_len. lia.
      + rewrite !in_app_iff. right. right. left. reflexivity.
  Qed.

  Lemma tree_push : forall h me (a : raw) (t : tree) s ch total t', holds M h a t -> push_key_and_child M t s ch total = Ok t' ->
    exists a' evs, holds M h a' t' /\
    match h with
    | O => a_push_key me a s tt total
    | Datatypes.S _ => a_push_key_and_child me a s tt ch total
    end = Ok (a', evs).
  Proof.
    intros h me a t s ch total t' H E. destruct t as [|tot c0 es]; [destruct H|]. destruct H as [L ->].
    unfold push_key_and_child, max_len in E. destruct (Nat.leb_spec (2 * M) (length es)) as [|LT]; [discriminate|]. injection E as <-.
    pose proof (view_ok h tot c0 es L) as V.
    assert (MI : may_insert M (node_view h tot c0 es) 0 = true).
    { unfold may_insert. cbn [v_keys node_view]. rewrite map_length. destruct (Nat.ltb_spec (length es) (2 * M)); [reflexivity|lia]. }
    destruct h as [|h].
    - assert (Q : exists es', v_push_key M me (node_view 0 tot c0 es) s tt total = Ok (node_view 0 total c0 (es ++ [(tot, s, ch)]), es')).
      { eexists. unfold v_push_key. cbn [v_childs node_view]. rewrite MI. f_equal. f_equal. unfold node_view. cbn [v_total v_keys v_childs].
        rewrite map_app. reflexivity. }
      destruct Q as [ev Q]. destruct (push_key_ok M HM me _ _ _ _ _ _ V Q) as [-> _]. eexists. eexists. split; [split; [|reflexivity]|reflexivity].
      rewrite app_length. cbn [length]. lia.
    - assert (Q : exists es', v_push_key_and_child M me (node_view (Datatypes.S h) tot c0 es) s tt ch total = Ok (node_view (Datatypes.S h) total c0 (es ++ [(tot, s, ch)]), es')).
      { eexists. unfold v_push_key_and_child. cbn [v_childs node_view]. rewrite MI. f_equal. f_equal. unfold node_view. cbn [v_total v_keys v_childs].
        rewrite !map_app. reflexivity. }
      destruct Q as [ev Q]. destruct (push_both_ok M HM me _ _ _ _ _ _ _ V Q) as [-> _]. eexists. eexists. split; [split; [|reflexivity]|reflexivity].
      rewrite app_length. cbn [length]. lia.
  Qed.

  Lemma tree_split : forall h me new (a : raw) (t : tree) mid l pos s r, holds M h a t -> split t mid = Ok (l, (pos, s), r) ->
    exists a1 a2 evs, holds M h a1 l /\ holds M h a2 r /\ In (EKey pos s tt) evs /\ a_split M me new a mid = Ok (a1, a2, evs).
  Proof.
    intros h me new a t mid l pos s r H E. destruct t as [|tot c0 es]; [destruct H|]. destruct H as [L ->].
    unfold split, nth_ub in E. destruct (nth_error es mid) as [e|] eqn:N; try discriminate. cbn [bind] in E. injection E as <- <- <- <-.
    pose proof (view_ok h tot c0 es L) as V. pose proof (nth_error_lt _ _ _ N) as LM.
    assert (Q : exists evs, v_split new (node_view h tot c0 es) mid = Ok (node_view h tot c0 (firstn mid es), node_view h tot (e_child e) (skipn (mid + 1) es), evs) /\
      In (EKey (e_pos e) (e_slice e) tt) evs).
    { eexists. unfold v_split. cbn [v_keys node_view]. rewrite nth_mapp, N. cbn [option_map]. split.
      - apply (f_equal Ok). apply (f_equal2 pair); [|reflexivity]. f_equal.
        + unfold node_view. cbn [v_total v_childs]. rewrite firstn_map. f_equal. destruct h; cbn [option_map]; auto. rewrite Nat.add_1_r; cbn [firstn]; rewrite firstn_map. reflexivity.
        + unfold node_view. cbn [v_total v_childs]. rewrite skipn_map. f_equal. destruct h; cbn [option_map]; auto. f_equal.
          rewrite Nat.add_1_r. cbn [skipn]. rewrite skipn_map. rewrite (nth_cut _ _ _ N) at 1. rewrite skipn_app, firstn_length, min_l by lia.
          rewrite skipn_all2 by (rewrite firstn_length; lia). rewrite Nat.sub_diag, Nat.add_1_r. reflexivity.
      - rewrite !in_app_iff. right. right. right. left. reflexivity. }
    destruct Q as (evs & Q & IN). destruct (split_ok M HM me new _ _ _ _ _ V Q) as [-> _].
    eexists. eexists. exists evs. split; [split; [|reflexivity]|split; [split; [|reflexivity]|split; [exact IN|reflexivity]]].
    - rewrite firstn_length. lia.
    - rewrite skipn_length. lia.
  Qed.

  Lemma tree_replace_first : forall h me (a : raw) (t : tree) ch t' old, holds M (Datatypes.S h) a t -> replace_first_child t ch = Ok (t', old) ->
    exists a', holds M (Datatypes.S h) a' t' /\ a_replace_first_child me a ch = Ok (a', [EParent ch me 0; EOldChild old]).
  Proof.
    intros h me a t ch t' old H E. destruct t as [|tot c0 es]; [destruct H|]. destruct H as [L ->]. injection E as <- <-.
    pose proof (view_ok (Datatypes.S h) tot c0 es L) as V.
    destruct (replace_first_ok M HM me _ ch (node_view (Datatypes.S h) tot ch es) _ V eq_refl) as [-> _]. eexists. split; [split; [|reflexivity]|reflexivity]. auto.
  Qed.

  Lemma tree_set_pos : forall h (a : raw) (t : tree) k p t', holds M h a t -> set_single_key_pos t k p = Ok t' ->
    exists a', holds M h a' t' /\ a_set_single_key_pos a k p = Ok a'.
  Proof.
    intros h a t k p t' H E. destruct t as [|tot c0 es]; [destruct H|]. destruct H as [L ->]. unfold set_single_key_pos, nth_ub in E.
    destruct (nth_error es k) as [e|] eqn:N; [|discriminate]. cbn [bind] in E. injection E as <-.
    pose proof (view_ok h tot c0 es L) as V.
    assert (Q : v_set_single_key_pos (node_view h tot c0 es) k p = Ok (node_view h tot c0 (replace_at k (p, e_slice e, e_child e) es))).
    { unfold v_set_single_key_pos. cbn [v_keys node_view]. rewrite nth_mapp, N. cbn [option_map]. f_equal. unfold with_keys, node_view. cbn [v_total v_childs].
      rewrite <- !replace_map. f_equal. destruct h; auto. do 2 f_equal.
      apply nth_ext'. intro i. rewrite nth_repl, nth_mapp. destruct (Nat.eqb_spec k i) as [<-|]; cbn [andb]; auto. destruct (k <? _); auto. rewrite N. reflexivity. }
    destruct (set_pos_ok M HM _ _ _ _ V Q) as [-> _]. eexists. split; [split; [|reflexivity]|reflexivity]. rewrite replace_len. auto.
  Qed.

  Lemma tree_set_slice : forall h (a : raw) (t : tree) k s t', holds M h a t -> set_slice t k s = Ok t' ->
    exists a' old, holds M h a' t' /\ slice_at t k = Ok old /\ a_swap_slice a k s = Ok (a', [ETaken old]).
  Proof.
    intros h a t k s t' H E. destruct t as [|tot c0 es]; [destruct H|]. destruct H as [L ->]. unfold set_slice, slice_at, keys, nth_ub in *.
    destruct (nth_error es k) as [e|] eqn:N; [|discriminate]. cbn [bind] in E. injection E as <-.
    pose proof (view_ok h tot c0 es L) as V.
    assert (Q : v_swap_slice (node_view h tot c0 es) k s = Ok (node_view h tot c0 (replace_at k (e_pos e, s, e_child e) es), [ETaken (e_slice e)])).
    { unfold v_swap_slice. cbn [v_keys node_view]. rewrite nth_mapp, N. cbn [option_map]. f_equal. f_equal. unfold with_keys, node_view. cbn [v_total v_childs].
      rewrite <- !replace_map. f_equal. destruct h; auto. do 2 f_equal.
      apply nth_ext'. intro i. rewrite nth_repl, nth_mapp. destruct (Nat.eqb_spec k i) as [<-|]; cbn [andb]; auto. destruct (k <? _); auto. rewrite N. reflexivity. }
    destruct (swap_ok M HM _ _ _ _ _ V Q) as [-> _]. eexists. eexists. split; [split; [|reflexivity]|split; reflexivity]. rewrite replace_len. auto.
  Qed.

  Definition total_fn (f : I -> res I) (x : I) : option I := match f x with Ok y => Some y | _ => None end.
  Lemma remap_tree : forall (f : I -> res I) (es es' : list (I * S * tree)),
    mapM (fun e => let* p := f (e_pos e) in Ok (p, e_slice e, e_child e)) es = Ok es' ->
    remap (total_fn f) (map (fun e => (e_pos e, e_slice e, tt)) es) = (map (fun e => (e_pos e, e_slice e, tt)) es', true) /\
    map e_child es' = map e_child es /\ length es' = length es.
  Proof.
    intro f. induction es as [|e es IH]; intros es' E; cbn [mapM] in E.
    - injection E as <-. auto.
    - destruct (f (e_pos e)) as [p| |] eqn:F; try discriminate. cbn [bind] in E.
      destruct (mapM _ es) as [r| |] eqn:R0; try discriminate. cbn [bind] in E. injection E as <-. destruct (IH r eq_refl) as (A & B & D).
      cbn [map remap k_pos fst snd]. unfold total_fn at 1. rewrite F. rewrite A. cbn [length]. rewrite D, B. auto.
  Qed.
  Lemma tree_set_poss : forall h (a : raw) (t : tree) f from t', holds M h a t -> set_key_poss_with t f from = Ok t' ->
    exists a', holds M h a' t' /\ a_set_key_poss_with a (total_fn f) from = Ok (a', []).
  Proof.
    intros h a t f from t' H E. destruct t as [|tot c0 es]; [destruct H|]. destruct H as [L ->]. unfold set_key_poss_with in E.
    destruct (Nat.ltb_spec (length es) from) as [|F]; [discriminate|].
    destruct (mapM _ (skipn from es)) as [after| |] eqn:MM; try discriminate. cbn [bind] in E.
    destruct (f tot) as [tot'| |] eqn:FT; try discriminate. cbn [bind] in E. injection E as <-.
    destruct (remap_tree _ _ _ MM) as (A & B & D). pose proof (view_ok h tot c0 es L) as V. rewrite skipn_length in D.
    assert (Q : v_set_key_poss_with (node_view h tot c0 es) (total_fn f) from = Ok (node_view h tot' c0 (firstn from es ++ after), [])).
    { unfold v_set_key_poss_with. cbn [v_keys v_total node_view]. rewrite map_length. destruct (Nat.leb_spec from (length es)); [|lia].
      rewrite skipn_map, A. unfold total_fn. rewrite FT. f_equal. f_equal. unfold node_view. cbn [v_childs]. rewrite !map_app, firstn_map, B. f_equal.
      destruct h; auto. rewrite <- map_app, firstn_skipn. reflexivity. }
    destruct (set_poss_ok M HM _ _ _ _ _ V Q) as [-> _]. eexists. split; [split; [|reflexivity]|reflexivity]. rewrite app_length, firstn_length. lia.
  Qed.

  Lemma tree_new_parent : forall (X : index_ops I) me (lhs rhs : tree) (s : S) key_size t h, make_new_parent X lhs s key_size rhs = Ok t ->
    exists pos total a, tsize lhs = Ok pos /\ tsize t = Ok total /\ holds M (Datatypes.S h) a t /\
    a_make_new_parent M me pos total s tt lhs rhs = Ok (a, [EParent lhs me 0; EParent rhs me 1; EStore tt me 0]).
  Proof.
    intros X me lhs rhs s key_size t h E. unfold make_new_parent in E.
    destruct (tsize lhs) as [kp| |]; try discriminate. cbn [bind] in E. destruct (ix_add_right X kp key_size) as [x| |]; try discriminate. cbn [bind] in E.
    destruct (tsize rhs) as [rs| |]; try discriminate. cbn [bind] in E. destruct (ix_add_right X x rs) as [total| |]; try discriminate. cbn [bind] in E. injection E as <-.
    exists kp, total. eexists. split; [reflexivity|]. split; [reflexivity|]. rewrite (new_parent_ok M HM). split; [|reflexivity]. split; [cbn [length]; lia|reflexivity].
  Qed.
End Tree.

(** The node operations of the tree model (Tree.v) are what the slot-level code does. *)
Lemma C45_tree_insert_proof : forall (I S : Type) (M h me : nat) (a : raw I S unit (tree I S)) (t : tree I S) (k : nat) (s : S) (ch t' : tree I S) (pos : I),
  1 <= M <= 127 -> holds M h a t -> insert_key_and_child M t k s ch = Ok (t', pos) ->
  exists a' evs, holds M h a' t' /\ In (EPos pos) evs /\
  match h with
  | O => a_insert_key tt me a k s
  | Datatypes.S _ => a_insert_key_and_child me a k s tt ch
  end = Ok (a', evs).
Proof. intros. eapply tree_insert; eauto. Qed.

Lemma C45_tree_push_proof : forall (I S : Type) (M h me : nat) (a : raw I S unit (tree I S)) (t : tree I S) (s : S) (ch t' : tree I S) (total : I),
  1 <= M <= 127 -> holds M h a t -> push_key_and_child M t s ch total = Ok t' ->
  exists a' evs, holds M h a' t' /\
  match h with
  | O => a_push_key me a s tt total
  | Datatypes.S _ => a_push_key_and_child me a s tt ch total
  end = Ok (a', evs).
Proof. intros. eapply tree_push; eauto. Qed.

Lemma C45_tree_split_proof : forall (I S : Type) (M h me new : nat) (a : raw I S unit (tree I S)) (t : tree I S) (mid : nat) (l : tree I S) (pos : I) (s : S) (r : tree I S),
  1 <= M <= 127 -> holds M h a t -> split t mid = Ok (l, (pos, s), r) ->
  exists a1 a2 evs, holds M h a1 l /\ holds M h a2 r /\ In (EKey pos s tt) evs /\ a_split M me new a mid = Ok (a1, a2, evs).
Proof. intros. eapply tree_split; eauto. Qed.

Lemma C45_tree_replace_first_proof : forall (I S : Type) (M h me : nat) (a : raw I S unit (tree I S)) (t ch t' old : tree I S),
  1 <= M <= 127 -> holds M (Datatypes.S h) a t -> replace_first_child t ch = Ok (t', old) ->
  exists a', holds M (Datatypes.S h) a' t' /\ a_replace_first_child me a ch = Ok (a', [EParent ch me 0; EOldChild old]).
Proof. intros. eapply tree_replace_first; eauto. Qed.

Lemma C45_tree_positions_proof : forall (I S : Type) (M h : nat) (a : raw I S unit (tree I S)) (t : tree I S),
  1 <= M <= 127 -> holds M h a t ->
  (forall k p t', set_single_key_pos t k p = Ok t' -> exists a', holds M h a' t' /\ a_set_single_key_pos a k p = Ok a') /\
  (forall total t', set_subtree_size t total = Ok t' -> holds M h (a_set_subtree_size a total) t') /\
  (forall f from t', set_key_poss_with t f from = Ok t' ->
     exists a', holds M h a' t' /\ a_set_key_poss_with a (fun x => match f x with Ok y => Some y | _ => None end) from = Ok (a', [])) /\
  (forall k s t', set_slice t k s = Ok t' ->
     exists a' old, holds M h a' t' /\ slice_at t k = Ok old /\ a_swap_slice a k s = Ok (a', [ETaken old])).
Proof.
  intros I S M h a t HM H. split; [|split; [|split]].
  - intros. eapply tree_set_pos; eauto.
  - intros total t' E. destruct t as [|tot c0 es]; [destruct H|]. destruct H as [L ->]. injection E as <-. split; auto.
  - intros. eapply (tree_set_poss M HM h a t f from t'); eauto.
  - intros. eapply tree_set_slice; eauto.
Qed.

Lemma C45_tree_new_parent_proof : forall (I S : Type) (X : index_ops I) (M h me : nat) (lhs rhs : tree I S) (s : S) (key_size : I) (t : tree I S),
  1 <= M <= 127 -> make_new_parent X lhs s key_size rhs = Ok t ->
  exists pos total a, tsize lhs = Ok pos /\ tsize t = Ok total /\ holds M (Datatypes.S h) a t /\
  a_make_new_parent M me pos total s tt lhs rhs = Ok (a, [EParent lhs me 0; EParent rhs me 1; EStore tt me 0]).
Proof. intros. eapply tree_new_parent; eauto. Qed.
