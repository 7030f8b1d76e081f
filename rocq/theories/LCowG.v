(** Insertion on lists of children, for any kind of children.  Proof support only. *)
From Coq Require Import List Bool Arith Lia.
From Verif Require Import Base Index Slice Tree Insert Zip Rep Path LTree LInsert LShape LRef.
Import ListNotations.

Definition ob {A B} (o : option A) (f : A -> option B) : option B := match o with Some a => f a | None => None end.
Inductive gst (A : Type) : Type := GDone (ks : list A) | GBub (l r : list A).
Arguments GDone {A} ks.
Arguments GBub {A} l r.

Section G.
  Context {A : Type} (z : A) (M : nat).
  Definition g_ins (k : nat) (x : A) (ks : list A) : option (list A) :=
    if (length ks - 1 <? k) || (2 * M <=? length ks - 1) then None else Some (insert_at (k + 1) x ks).
  Definition g_push (x : A) (ks : list A) : option (list A) :=
    if 2 * M <=? length ks - 1 then None else Some (ks ++ [x]).
  Definition g_split (m : nat) (ks : list A) : option (list A * list A) :=
    if length ks - 1 <=? m then None else Some (firstn (m + 1) ks, skipn (m + 1) ks).
  Definition g_bubble (ks : list A) (c : nat) (rhs : A) : option (gst A) :=
    if length ks - 1 <? 2 * M then ob (g_ins c rhs ks) (fun l => Some (GDone l))
    else
      ob (g_split (if M <? c then M else M - 1) ks) (fun lr =>
        let (l, r) := lr in
        if negb (c =? M) then
          if M <? c then ob (g_ins (c - (M + 1)) rhs r) (fun r' => Some (GBub l r'))
          else ob (g_ins c rhs l) (fun l' => Some (GBub l' r))
        else
          match r with
          | [] => None
          | c0 :: r' => ob (g_push c0 l) (fun l' => Some (GBub l' (rhs :: r')))
          end).
  Definition g_ins2 (two : bool) (k : nat) (ks : list A) : option (list A) :=
    ob (g_ins k z ks) (fun l => if two then g_ins (k + 1) z l else Some l).
  Definition g_leaf (k : nat) (two : bool) (ks : list A) : option (gst A) :=
    let n := length ks - 1 in
    if n <? k then None
    else if 2 * M - (if two then 1 else 0) <=? n then
      if (M =? 1) && (n =? 1) then
        if two then
          ob (g_split 0 ks) (fun lr => let (l, r) := lr in
            if 1 <? k then None else
            ob (g_push z l) (fun l' => ob (g_push z r) (fun r' => Some (GBub l' r'))))
        else None
      else
        let (m, ins) := choose_split M k n two in
        ob (g_split m ks) (fun lr => let (l, r) := lr in
          match ins with
          | inr SRight => ob (g_push z l) (fun l' => ob (if two then g_ins 0 z r else Some r) (fun r' => Some (GBub l' r')))
          | inr SLeft => if two then ob (g_push z l) (fun l' => ob (g_push z l') (fun l'' => Some (GBub l'' r))) else None
          | inl SLeft => ob (g_ins2 two k l) (fun l' => Some (GBub l' r))
          | inl SRight => ob (g_ins2 two (k - (m + 1)) r) (fun r' => Some (GBub l r'))
          end)
    else ob (g_ins2 two k ks) (fun l => Some (GDone l)).
End G.

(** ** Contents side *)
Section Plain.
  Context {I V : Type} (X : index_ops I) (Y : slice_ops I V) (M : nat).
  Notation tree := (tree I V).

  Definition kst (st : @upstate I V) : gst tree :=
    match st with Done n _ _ _ => GDone (kids_of n) | Bubble b => GBub (kids_of (b_lhs b)) (kids_of (b_rhs b)) end.

  Lemma kids_len : forall t : tree, tlen t = length (kids_of t) - 1.
  Proof. intros [|tot c0 es]; cbn; [reflexivity|]. rewrite map_length. unfold tlen. cbn. lia. Qed.

  Lemma child_kids : forall (t : tree) c ch, child t c = Ok ch -> nth_error (kids_of t) c = Some ch.
  Proof.
    intros [|tot c0 es] c ch H; [discriminate|]. cbn [child kids_of] in *. destruct c as [|k]; cbn in *; [congruence|].
    unfold nth_ub in H. destruct (nth_error es k) as [e|] eqn:E; [|discriminate]. injection H as <-.
    exact (map_nth_error e_child _ _ E).
  Qed.
  Lemma kids_child : forall (t : tree) c ch, nth_error (kids_of t) c = Some ch -> child t c = Ok ch.
  Proof.
    intros [|tot c0 es] c ch H; [destruct c; discriminate|]. cbn [child kids_of] in *. destruct c as [|k]; cbn in *; [congruence|].
    rewrite nth_error_map in H. unfold nth_ub. destruct (nth_error es k) as [e|]; [|discriminate]. cbn in H. injection H as <-. reflexivity.
  Qed.

  Lemma set_child_kids : forall (t : tree) c ch t', set_child t c ch = Ok t' ->
    kids_of t' = replace_at c ch (kids_of t) /\ c < length (kids_of t).
  Proof.
    intros [|tot c0 es] c ch t' H; [discriminate|]. cbn [set_child] in H. destruct c as [|k].
    - injection H as <-. split; [reflexivity|cbn; lia].
    - unfold nth_ub in H. destruct (nth_error es k) as [e|] eqn:E; [|discriminate]. cbn [bind] in H. injection H as <-.
      cbn [kids_of]. rewrite replace_at_S, map_replace_at. split; [reflexivity|]. cbn [length]. rewrite map_length.
      assert (k < length es) by (apply nth_error_Some; congruence). lia.
  Qed.

  Lemma set_key_poss_kids : forall (t : tree) f from t', set_key_poss_with t f from = Ok t' -> kids_of t' = kids_of t.
  Proof.
    intros [|tot c0 es] f from t' H; [discriminate|]. cbn [set_key_poss_with] in H.
    destruct (length es <? from); [discriminate|].
    destruct (mapM _ (skipn from es)) as [after| |] eqn:E; cbn [bind] in H; try discriminate.
    destruct (f tot) as [tot'| |]; cbn [bind] in H; try discriminate. injection H as <-.
    cbn [kids_of]. f_equal. rewrite map_app. rewrite <- (firstn_skipn from es) at 2. rewrite map_app. f_equal.
    revert after E. induction (skipn from es) as [|e l IH]; intros after E; cbn [mapM] in E.
    - injection E as <-. reflexivity.
    - destruct (f (e_pos e)); cbn [bind] in E; try discriminate.
      destruct (mapM _ l) as [r| |]; cbn [bind] in E; try discriminate. injection E as <-. cbn [map]. f_equal. apply IH. reflexivity.
  Qed.
  Lemma shift_keys_kids : forall inc (t : tree) from pos o n t', shift_keys X inc t from pos o n = Ok t' -> kids_of t' = kids_of t.
  Proof.
    intros inc t from pos o n t' H. unfold shift_keys in H.
    destruct (ix_add_right X pos o); cbn [bind] in H; try discriminate.
    destruct (ix_add_right X pos n); cbn [bind] in H; try discriminate.
    destruct (if inc then _ else _); cbn [bind] in H; try discriminate. eapply set_key_poss_kids; eassumption.
  Qed.
  Lemma shift_auto_kids : forall (t : tree) from pos o n t', shift_keys_auto X t from pos o n = Ok t' -> kids_of t' = kids_of t.
  Proof. intros. eapply shift_keys_kids. eassumption. Qed.
  Lemma set_single_kids : forall (t : tree) k p t', set_single_key_pos t k p = Ok t' -> kids_of t' = kids_of t.
  Proof.
    intros [|tot c0 es] k p t' H; [discriminate|]. cbn [set_single_key_pos] in H. unfold nth_ub in H.
    destruct (nth_error es k) as [e|] eqn:E; [|discriminate]. cbn [bind] in H. injection H as <-.
    cbn [kids_of]. f_equal. rewrite map_replace_at. apply replace_at_same. exact (map_nth_error e_child _ _ E).
  Qed.
  Lemma set_slice_kids : forall (t : tree) k p t', set_slice t k p = Ok t' -> kids_of t' = kids_of t.
  Proof.
    intros [|tot c0 es] k p t' H; [discriminate|]. cbn [set_slice] in H. unfold nth_ub in H.
    destruct (nth_error es k) as [e|] eqn:E; [|discriminate]. cbn [bind] in H. injection H as <-.
    cbn [kids_of]. f_equal. rewrite map_replace_at. apply replace_at_same. exact (map_nth_error e_child _ _ E).
  Qed.
  Lemma set_size_kids : forall (t : tree) s t', set_subtree_size t s = Ok t' -> kids_of t' = kids_of t.
  Proof. intros [|tot c0 es] s t' H; [discriminate|]. injection H as <-. reflexivity. Qed.
  Lemma ikc_kids : forall (t : tree) k s ch t' p, insert_key_and_child M t k s ch = Ok (t', p) ->
    g_ins M k ch (kids_of t) = Some (kids_of t').
  Proof.
    intros [|tot c0 es] k s ch t' p H; [discriminate|]. cbn [insert_key_and_child] in H. unfold g_ins. cbn [kids_of length].
    rewrite map_length. cbn [Nat.sub]. rewrite Nat.sub_0_r. unfold max_len in H.
    destruct ((length es <? k) || _); [discriminate|]. destruct (key_pos_or_end _ k); cbn [bind] in H; try discriminate.
    injection H as <- <-. cbn [kids_of]. rewrite Nat.add_1_r, insert_at_S, map_insert_at. reflexivity.
  Qed.
  Lemma pkc_kids : forall (t : tree) s ch n t', push_key_and_child M t s ch n = Ok t' -> g_push M ch (kids_of t) = Some (kids_of t').
  Proof.
    intros [|tot c0 es] s ch n t' H; [discriminate|]. cbn [push_key_and_child] in H. unfold g_push. cbn [kids_of length].
    rewrite map_length. cbn [Nat.sub]. rewrite Nat.sub_0_r. unfold max_len in H.
    destruct (2 * M <=? length es); [discriminate|]. injection H as <-. cbn [kids_of]. rewrite map_app. reflexivity.
  Qed.
  Lemma rfc_kids : forall (t : tree) ch t' c0, replace_first_child t ch = Ok (t', c0) ->
    exists r, kids_of t = c0 :: r /\ kids_of t' = ch :: r.
  Proof. intros [|tot c es] ch t' c0 H; [discriminate|]. injection H as <- <-. cbn [kids_of]. eauto. Qed.
  Lemma split_kids : forall (t : tree) m n mid r, split t m = Ok (n, mid, r) -> g_split m (kids_of t) = Some (kids_of n, kids_of r).
  Proof.
    intros [|tot c es] m n mid r H; [discriminate|]. cbn [split] in H. unfold nth_ub in H.
    destruct (nth_error es m) as [e|] eqn:E; [|discriminate]. cbn [bind] in H. injection H as <- <- <-.
    unfold g_split. cbn [kids_of length]. rewrite map_length. cbn [Nat.sub]. rewrite Nat.sub_0_r.
    assert (m < length es) by (apply nth_error_Some; congruence).
    rewrite (proj2 (Nat.leb_gt _ _)) by lia. f_equal. rewrite !Nat.add_1_r. rewrite firstn_cons, firstn_map, skipn_cons. f_equal.
    apply nth_error_split in E. destruct E as (a & b & -> & <-). rewrite skipn_map, skipn_app_len. cbn [map]. f_equal. f_equal.
    replace (a ++ e :: b) with ((a ++ [e]) ++ b) by (rewrite <- app_assoc; reflexivity).
    replace (S (length a)) with (length (a ++ [e])) by (rewrite app_length; cbn; lia).
    rewrite skipn_app_len. reflexivity.
  Qed.

  Ltac inv H :=
    repeat (cbn [bind] in H;
      match type of H with
      | Panic _ = Ok _ => discriminate
      | UB = Ok _ => discriminate
      | (let (_, _) := ?p in _) = Ok _ => let E := fresh "E" in destruct p eqn:E
      | bind ?e _ = Ok _ => let E := fresh "E" in destruct e eqn:E; [|discriminate H|discriminate H]; cbn [bind] in H
      end).
  Ltac ks :=
    repeat match goal with
    | H : shift_keys X _ _ _ _ _ _ = Ok _ |- _ => apply shift_keys_kids in H
    | H : shift_keys_auto X _ _ _ _ _ = Ok _ |- _ => apply shift_auto_kids in H
    | H : set_single_key_pos _ _ _ = Ok _ |- _ => apply set_single_kids in H
    | H : set_subtree_size _ _ = Ok _ |- _ => apply set_size_kids in H
    | H : insert_key_and_child M _ _ _ _ = Ok _ |- _ => apply ikc_kids in H
    | H : insert_key M _ _ _ = Ok _ |- _ => unfold insert_key in H; apply ikc_kids in H
    | H : push_key_and_child M _ _ _ _ = Ok _ |- _ => apply pkc_kids in H
    | H : push_key M _ _ _ = Ok _ |- _ => unfold push_key in H; apply pkc_kids in H
    | H : replace_first_child _ _ = Ok (_, _) |- _ =>
        let r := fresh "r" in let R := fresh "R" in apply rfc_kids in H; destruct H as (r & H & R)
    | H : split _ _ = Ok (_, _, _) |- _ => apply split_kids in H
    end.
  (** Replace the children of intermediate nodes by those of earlier ones. *)
  Ltac rw := repeat match goal with
    | H : kids_of ?x = kids_of ?y |- _ => rewrite H in *; clear H
    end.
  Ltac gr := repeat (match goal with
    | H : g_split _ _ = Some _ |- _ => rewrite H
    | H : g_ins _ _ _ _ = Some _ |- _ => rewrite H
    | H : g_push _ _ _ = Some _ |- _ => rewrite H
    end; cbn [ob]).

  Lemma key_step_kids : forall (t : tree) k ov o n cur st, key_step X t k ov o n cur = Ok st -> kst st = GDone (kids_of t).
  Proof. intros t k ov o n cur st H. unfold key_step in H. inv H. injection H as <-. cbn [kst]. ks. rw. reflexivity. Qed.
  Lemma key_step_len : forall (t : tree) k o n cur st, key_step X t k None o n cur = Ok st -> k < tlen t.
  Proof.
    intros t k o n cur st H. unfold key_step in H. inv H. unfold key_pos, nth_ub in E. destruct (nth_error (keys t) k) eqn:EE; [|discriminate].
    unfold tlen. apply nth_error_Some. congruence.
  Qed.
  Lemma child_step_kids : forall (t : tree) c here o n cur st, child_step X t c here o n cur = Ok st -> kst st = GDone (kids_of t).
  Proof. intros t c here o n cur st H. unfold child_step in H. inv H. injection H as <-. cbn [kst]. ks. rw. reflexivity. Qed.

  Lemma bubble_step_kids : forall (t : tree) c here b st, bubble_step X M t c here b = Ok st ->
    g_bubble M (kids_of t) c (b_rhs b) = Some (kst st).
  Proof.
    intros t c here b st H. unfold bubble_step in H. inv H. unfold g_bubble.
    rewrite kids_len in H. unfold max_len in H. destruct (length (kids_of t) - 1 <? 2 * M).
    - inv H. apply key_step_kids in H. rewrite H. subst. ks. rw. gr. reflexivity.
    - inv H. subst. destruct (negb (c =? M)).
      + inv H. injection H as <-. cbn [kst b_lhs b_rhs]. subst. ks. destruct (M <? c); rw; gr; reflexivity.
      + inv H. injection H as <-. cbn [kst b_lhs b_rhs]. subst. ks. rw. gr.
        repeat match goal with H : kids_of ?x = _ :: _ |- context [kids_of ?x] => rewrite H end. gr. reflexivity.
  Qed.

  Lemma remap_kids : forall here (st : @upstate I V), kst (remap_bubble here st) = kst st.
  Proof. intros [l|] [n o w c|b]; try reflexivity. cbn [remap_bubble]. destruct (l_remap l); reflexivity. Qed.

  Lemma split_leaf_kids : forall (t : tree) k ov fs sn b w, split_leaf X M t k ov fs sn = Ok (b, w) -> k <= tlen t ->
    2 * M - (if is_some sn then 1 else 0) <= tlen t ->
    g_leaf Nil M k (is_some sn) (kids_of t) = Some (GBub (kids_of (b_lhs b)) (kids_of (b_rhs b))).
  Proof.
    intros t k ov fs sn b w H Hk Hl. unfold split_leaf in H. unfold g_leaf. rewrite <- kids_len.
    rewrite (proj2 (Nat.ltb_ge _ _) Hk), (proj2 (Nat.leb_le _ _) Hl).
    destruct ((M =? 1) && (tlen t =? 1)).
    - destruct sn as [sn|]; [|discriminate]. cbn [is_some]. unfold split_leaf_small_m in H.
      destruct (negb (M =? 1) || _ || _ || (1 <? k)) eqn:G; [discriminate|]. apply orb_false_elim in G. destruct G as [_ G]. rewrite G. inv H. subst.
      destruct (k =? 0); inv H; injection H as <- <-; cbn [b_lhs b_rhs]; ks; rw; gr; reflexivity.
    - unfold is_some. destruct (choose_split M k (tlen t) (match sn with Some _ => true | None => false end)) as [m ins]. inv H. subst.
      unfold g_ins2. destruct ins as [[|]|[|]].
      + inv H. subst. injection H as <- <-. cbn [b_lhs b_rhs].
        match goal with H : match sn with _ => _ end = Ok _ |- _ => rename H into Hsn end.
        destruct sn as [[s2 z2]|]; inv Hsn; injection Hsn as <- <- <-; subst; ks; rw; gr; reflexivity.
      + inv H. subst. injection H as <- <-. cbn [b_lhs b_rhs].
        match goal with H : match sn with _ => _ end = Ok _ |- _ => rename H into Hsn end.
        destruct sn as [[s2 z2]|]; inv Hsn; injection Hsn as <- <- <-; subst; ks; rw; gr; reflexivity.
      + destruct sn as [[s2 z2]|]; [|discriminate]. inv H. injection H as <- <-. cbn [b_lhs b_rhs]. ks; rw; gr; reflexivity.
      + inv H. injection H as <- <-. cbn [b_lhs b_rhs].
        match goal with H : match sn with _ => _ end = Ok _ |- _ => rename H into Hsn end.
        destruct sn as [[s2 z2]|]; inv Hsn; [subst|injection Hsn as <-]; ks; rw; gr; reflexivity.
  Qed.

  Lemma no_join_kids : forall remap k ov fs sn (t : tree) st, no_join_leaf X M remap k ov fs sn t = Ok st ->
    g_leaf Nil M k (is_some sn) (kids_of t) = Some (kst st).
  Proof.
    intros remap k ov fs sn t st H. unfold no_join_leaf in H. destruct ((tlen t <? k) || _) eqn:G; [discriminate|].
    apply orb_false_elim in G. destruct G as [G _]. apply Nat.ltb_ge in G. inv H.
    destruct (Nat.leb_spec (max_len M - match sn with Some _ => 1 | None => 0 end) (tlen t)) as [Hl|Hl].
    - inv H. injection H as <-. destruct a0 as [b w]. apply split_leaf_kids in E0; [|exact G|destruct sn; exact Hl].
      rewrite E0. unfold remap_leaf. destruct remap; reflexivity.
    - unfold g_leaf. rewrite <- kids_len. rewrite (proj2 (Nat.ltb_ge _ _) G).
      rewrite (proj2 (Nat.leb_gt _ _)) by (destruct sn; cbn [is_some]; exact Hl). unfold g_ins2.
      destruct ov as [nl|]; destruct sn as [[s2 z2]|]; cbn [is_some]; inv H; subst; try discriminate;
        repeat match goal with Q : bind _ _ = Ok _ |- _ => progress inv Q; subst end;
        repeat match goal with Q : Ok _ = Ok _ |- _ => inversion Q; clear Q; subst end;
        apply key_step_kids in H; rewrite H; ks; rw; gr; reflexivity.
  Qed.

  Lemma finish_kids : forall h st (t : tree) h' cur, finish_root X h st = Ok (t, h', cur) ->
    match st with Done n _ _ _ => t = n /\ h' = h | Bubble b => kids_of t = [b_lhs b; b_rhs b] /\ h' = h + 1 end.
  Proof.
    intros h [n o nw c|b] t h' cur H; cbn [finish_root] in H; [injection H as <- <- <-; auto|].
    inv H. injection H as <- <- <-. unfold make_new_parent in E3. inv E3. injection E3 as <-. split; reflexivity.
  Qed.
End Plain.
