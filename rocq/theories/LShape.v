(** Shapes: both sides of the model change the shape of the tree in the same way.  Proof support only. *)
From Coq Require Import List Bool Arith Lia.
From Verif Require Import Base Index Slice Tree Insert Zip Rep Path LTree LInsert LTreeP.
Import ListNotations.

Inductive sh : Type := SX | SN (ks : list sh).
Inductive sst : Type := SDone (n : sh) | SBub (l r : sh).
Definition kl (t : sh) : list sh := match t with SX => [] | SN ks => ks end.

Section Steps.
  Context (M : nat).

  Definition s_bubble (ks : list sh) (c : nat) (rhs : sh) : sst :=
    if length ks - 1 <? 2 * M then SDone (SN (insert_at (c + 1) rhs ks))
    else
      let m := if M <? c then M else M - 1 in
      let l := firstn (m + 1) ks in
      let r := skipn (m + 1) ks in
      if negb (c =? M) then
        if M <? c then SBub (SN l) (SN (insert_at (c - (M + 1) + 1) rhs r))
        else SBub (SN (insert_at (c + 1) rhs l)) (SN r)
      else SBub (SN (l ++ firstn 1 r)) (SN (rhs :: skipn 1 r)).

  Definition s_up (t : sh) (c : nat) (st : sst) : sst :=
    match st with
    | SDone n => SDone (SN (replace_at c n (kl t)))
    | SBub l r => s_bubble (replace_at c l (kl t)) c r
    end.

  Definition s_ins2 (two : bool) (k : nat) (l : list sh) : list sh :=
    let l1 := insert_at (k + 1) SX l in if two then insert_at (k + 1 + 1) SX l1 else l1.

  Definition s_leaf (k : nat) (two : bool) (t : sh) : sst :=
    let ks := kl t in
    let n := length ks - 1 in
    if 2 * M - (if two then 1 else 0) <=? n then
      if (M =? 1) && (n =? 1) then SBub (SN (firstn 1 ks ++ [SX])) (SN (skipn 1 ks ++ [SX]))
      else
        let (m, ins) := choose_split M k n two in
        let l := firstn (m + 1) ks in
        let r := skipn (m + 1) ks in
        match ins with
        | inr SRight => SBub (SN (l ++ [SX])) (SN (if two then insert_at 1 SX r else r))
        | inr SLeft => SBub (SN ((l ++ [SX]) ++ [SX])) (SN r)
        | inl SLeft => SBub (SN (s_ins2 two k l)) (SN r)
        | inl SRight => SBub (SN l) (SN (s_ins2 two (k - (m + 1)) r))
        end
    else SDone (SN (s_ins2 two k ks)).

  Fixpoint s_upd (f : sh -> sst) (t : sh) (p : list nat) : sst :=
    match p with
    | [] => f t
    | c :: p' => match nth_error (kl t) c with Some ch => s_up t c (s_upd f ch p') | None => SDone t end
    end.

  Definition s_fin (st : sst) : sh := match st with SDone n => n | SBub l r => SN [l; r] end.

  Definition s_plan (pl : plan) (t : sh) : sh :=
    match pl with
    | PNew => SN [SX; SX]
    | PJoin _ _ => t
    | PEdge p k => s_fin (s_upd (s_leaf k false) t p)
    | PRhs p hk k two _ => let (q, j) := rhs_path p hk k in s_fin (s_upd (s_leaf j two) t q)
    end.
End Steps.

(** ** Counting *)
Fixpoint scount (t : sh) : nat :=
  match t with SX => 0 | SN ks => list_sum (map scount ks) + (length ks - 1) end.
Definition sbefore (ks : list sh) (c : nat) : nat := c + list_sum (map scount (firstn c ks)).
Fixpoint serank (t : sh) (p : list nat) (c : nat) : option nat :=
  match p with
  | [] => if c <? length (kl t) then Some (sbefore (kl t) c) else None
  | i :: p' =>
    match nth_error (kl t) i with Some ch => option_map (Nat.add (sbefore (kl t) i)) (serank ch p' c) | None => None end
  end.
Fixpoint srank (t : sh) (p : list nat) (k : nat) : option nat :=
  match p with
  | [] => if S k <? length (kl t) then match nth_error (kl t) k with Some ch => Some (sbefore (kl t) k + scount ch) | None => None end else None
  | i :: p' =>
    match nth_error (kl t) i with Some ch => option_map (Nat.add (sbefore (kl t) i)) (srank ch p' k) | None => None end
  end.

(** ** Lists *)
Lemma map_insert_at : forall {A B} (f : A -> B) i x l, map f (insert_at i x l) = insert_at i (f x) (map f l).
Proof. intros. unfold insert_at. rewrite map_app, firstn_map. cbn [map]. rewrite skipn_map. reflexivity. Qed.
Lemma map_replace_at : forall {A B} (f : A -> B) i x l, map f (replace_at i x l) = replace_at i (f x) (map f l).
Proof.
  intros. unfold replace_at. rewrite skipn_map. destruct (skipn i l) as [|y r]; [reflexivity|].
  cbn [map]. rewrite map_app, firstn_map. reflexivity.
Qed.
Lemma replace_at_same : forall {A} i (x : A) l, nth_error l i = Some x -> replace_at i x l = l.
Proof.
  intros A i x l H. unfold replace_at. apply nth_error_split in H. destruct H as (a & b & -> & <-).
  rewrite skipn_app_len. rewrite firstn_app_len. reflexivity.
Qed.
Lemma insert_at_S : forall {A} i (x y : A) l, insert_at (S i) x (y :: l) = y :: insert_at i x l.
Proof. reflexivity. Qed.
Lemma replace_at_S : forall {A} i (x y : A) l, replace_at (S i) x (y :: l) = y :: replace_at i x l.
Proof. intros. unfold replace_at. cbn [skipn firstn]. destruct (skipn i l); reflexivity. Qed.
Lemma insert_at_len : forall {A} i (x : A) l, length (insert_at i x l) = S (length l).
Proof. intros. unfold insert_at. rewrite app_length. cbn [length]. rewrite <- plus_n_Sm, <- app_length, firstn_skipn. reflexivity. Qed.

(** ** Contents side *)
Section Plain.
  Context {I V : Type} (X : index_ops I) (Y : slice_ops I V) (M : nat).
  Notation tree := (tree I V).

  Fixpoint shape (t : tree) : sh :=
    match t with Nil => SX | Node _ c0 es => SN (shape c0 :: map (fun e => shape (snd e)) es) end.
  Definition shst (st : upstate) : sst :=
    match st with Done n _ _ _ => SDone (shape n) | Bubble b => SBub (shape (b_lhs b)) (shape (b_rhs b)) end.

  Lemma shape_len : forall t : tree, tlen t = length (kl (shape t)) - 1.
  Proof. intros [|tot c0 es]; cbn; [reflexivity|]. rewrite map_length. unfold tlen. cbn. lia. Qed.

  Lemma child_shape : forall (t : tree) c ch, child t c = Ok ch -> nth_error (kl (shape t)) c = Some (shape ch).
  Proof.
    intros [|tot c0 es] c ch H; [discriminate|]. cbn [child shape kl] in *. destruct c as [|k]; cbn in *; [congruence|].
    unfold nth_ub in H. destruct (nth_error es k) as [e|] eqn:E; [|discriminate]. injection H as <-.
    exact (map_nth_error (fun e => shape (snd e)) _ _ E).
  Qed.
  Lemma child_shape_inv : forall (t : tree) c x, nth_error (kl (shape t)) c = Some x -> exists ch, child t c = Ok ch /\ shape ch = x.
  Proof.
    intros [|tot c0 es] c x H; [destruct c; discriminate|]. cbn [child shape kl] in *. destruct c as [|k]; cbn in *; [injection H as <-; eauto|].
    rewrite nth_error_map in H. unfold nth_ub. destruct (nth_error es k) as [e|]; [|discriminate]. injection H as <-. cbn. eauto.
  Qed.

  Lemma set_child_shape : forall (t : tree) c ch t', set_child t c ch = Ok t' -> shape t' = SN (replace_at c (shape ch) (kl (shape t))).
  Proof.
    intros [|tot c0 es] c ch t' H; [discriminate|]. cbn [set_child] in H. destruct c as [|k].
    - injection H as <-. reflexivity.
    - unfold nth_ub in H. destruct (nth_error es k) as [e|] eqn:E; [|discriminate]. cbn [bind] in H. injection H as <-.
      cbn [shape kl]. rewrite replace_at_S, map_replace_at. reflexivity.
  Qed.

  Lemma set_key_poss_shape : forall (t : tree) f from t', set_key_poss_with t f from = Ok t' -> shape t' = shape t.
  Proof.
    intros [|tot c0 es] f from t' H; [discriminate|]. cbn [set_key_poss_with] in H.
    destruct (length es <? from); [discriminate|].
    destruct (mapM _ (skipn from es)) as [after| |] eqn:E; cbn [bind] in H; try discriminate.
    destruct (f tot) as [tot'| |]; cbn [bind] in H; try discriminate. injection H as <-.
    cbn [shape]. do 2 f_equal. rewrite map_app. rewrite <- (firstn_skipn from es) at 2. rewrite map_app. f_equal.
    revert after E. induction (skipn from es) as [|e l IH]; intros after E; cbn [mapM] in E.
    - injection E as <-. reflexivity.
    - destruct (f (e_pos e)); cbn [bind] in E; try discriminate.
      destruct (mapM _ l) as [r| |]; cbn [bind] in E; try discriminate. injection E as <-. cbn [map]. f_equal. apply IH. reflexivity.
  Qed.
  Lemma shift_keys_shape : forall inc (t : tree) from pos o n t', shift_keys X inc t from pos o n = Ok t' -> shape t' = shape t.
  Proof.
    intros inc t from pos o n t' H. unfold shift_keys in H.
    destruct (ix_add_right X pos o); cbn [bind] in H; try discriminate.
    destruct (ix_add_right X pos n); cbn [bind] in H; try discriminate.
    destruct (if inc then _ else _); cbn [bind] in H; try discriminate. eapply set_key_poss_shape; eassumption.
  Qed.
  Lemma shift_auto_shape : forall (t : tree) from pos o n t', shift_keys_auto X t from pos o n = Ok t' -> shape t' = shape t.
  Proof. intros. eapply shift_keys_shape. eassumption. Qed.
  Lemma set_single_shape : forall (t : tree) k p t', set_single_key_pos t k p = Ok t' -> shape t' = shape t.
  Proof.
    intros [|tot c0 es] k p t' H; [discriminate|]. cbn [set_single_key_pos] in H. unfold nth_ub in H.
    destruct (nth_error es k) as [e|] eqn:E; [|discriminate]. cbn [bind] in H. injection H as <-.
    cbn [shape]. do 2 f_equal. rewrite map_replace_at. apply replace_at_same. cbn [snd].
    exact (map_nth_error (fun e => shape (snd e)) _ _ E).
  Qed.
  Lemma set_slice_shape : forall (t : tree) k p t', set_slice t k p = Ok t' -> shape t' = shape t.
  Proof.
    intros [|tot c0 es] k p t' H; [discriminate|]. cbn [set_slice] in H. unfold nth_ub in H.
    destruct (nth_error es k) as [e|] eqn:E; [|discriminate]. cbn [bind] in H. injection H as <-.
    cbn [shape]. do 2 f_equal. rewrite map_replace_at. apply replace_at_same. cbn [snd].
    exact (map_nth_error (fun e => shape (snd e)) _ _ E).
  Qed.
  Lemma set_size_shape : forall (t : tree) s t', set_subtree_size t s = Ok t' -> shape t' = shape t.
  Proof. intros [|tot c0 es] s t' H; [discriminate|]. injection H as <-. reflexivity. Qed.
  Lemma ikc_shape : forall (t : tree) k s ch t' p, insert_key_and_child M t k s ch = Ok (t', p) ->
    shape t' = SN (insert_at (k + 1) (shape ch) (kl (shape t))).
  Proof.
    intros [|tot c0 es] k s ch t' p H; [discriminate|]. cbn [insert_key_and_child] in H.
    destruct ((length es <? k) || _); [discriminate|]. destruct (key_pos_or_end _ k); cbn [bind] in H; try discriminate.
    injection H as <- <-. cbn [shape kl]. rewrite Nat.add_1_r, insert_at_S, map_insert_at. reflexivity.
  Qed.
  Lemma pkc_shape : forall (t : tree) s ch n t', push_key_and_child M t s ch n = Ok t' -> shape t' = SN (kl (shape t) ++ [shape ch]).
  Proof.
    intros [|tot c0 es] s ch n t' H; [discriminate|]. cbn [push_key_and_child] in H.
    destruct (max_len M <=? length es); [discriminate|]. injection H as <-. cbn [shape kl]. rewrite map_app. reflexivity.
  Qed.
  Lemma rfc_shape : forall (t : tree) ch t' c0, replace_first_child t ch = Ok (t', c0) ->
    shape t' = SN (shape ch :: skipn 1 (kl (shape t))) /\ firstn 1 (kl (shape t)) = [shape c0].
  Proof. intros [|tot c es] ch t' c0 H; [discriminate|]. injection H as <- <-. split; reflexivity. Qed.
  Lemma split_shape : forall (t : tree) m n mid r, split t m = Ok (n, mid, r) ->
    shape n = SN (firstn (m + 1) (kl (shape t))) /\ shape r = SN (skipn (m + 1) (kl (shape t))).
  Proof.
    intros [|tot c es] m n mid r H; [discriminate|]. cbn [split] in H. unfold nth_ub in H.
    destruct (nth_error es m) as [e|] eqn:E; [|discriminate]. cbn [bind] in H. injection H as <- <- <-.
    cbn [shape kl]. rewrite !Nat.add_1_r. rewrite firstn_cons, firstn_map. split; [reflexivity|]. rewrite skipn_cons.
    f_equal. apply nth_error_split in E. destruct E as (a & b & -> & <-).
    rewrite skipn_map, skipn_app_len. cbn [map]. f_equal. f_equal.
    replace (a ++ e :: b) with ((a ++ [e]) ++ b) by (rewrite <- app_assoc; reflexivity).
    replace (S (length a)) with (length (a ++ [e])) by (rewrite app_length; cbn; lia).
    rewrite skipn_app_len. reflexivity.
  Qed.
  Lemma set_slice_at_shape : forall p (t : tree) k s t', set_slice_at t p k s = Ok t' -> shape t' = shape t.
  Proof.
    induction p as [|c p IH]; intros t k s t' H; cbn [set_slice_at] in H; [eapply set_slice_shape; eassumption|].
    destruct (child t c) as [ch| |] eqn:E; cbn [bind] in H; try discriminate.
    destruct (set_slice_at ch p k s) as [ch'| |] eqn:E2; cbn [bind] in H; try discriminate.
    rewrite (set_child_shape _ _ _ _ H). rewrite (IH _ _ _ _ E2). apply child_shape in E.
    rewrite replace_at_same by exact E. destruct t; [destruct c; discriminate|reflexivity].
  Qed.

  Ltac inv H :=
    repeat (cbn [bind] in H;
      match type of H with
      | Panic _ = Ok _ => discriminate
      | UB = Ok _ => discriminate
      | (let (_, _) := ?p in _) = Ok _ => let E := fresh "E" in destruct p eqn:E
      | bind ?e _ = Ok _ => let E := fresh "E" in destruct e eqn:E; [|discriminate H|discriminate H]; cbn [bind] in H
      end).

  Ltac shs :=
    repeat match goal with
    | H : shift_keys X _ _ _ _ _ _ = Ok _ |- _ => apply shift_keys_shape in H
    | H : shift_keys_auto X _ _ _ _ _ = Ok _ |- _ => apply shift_auto_shape in H
    | H : set_single_key_pos _ _ _ = Ok _ |- _ => apply set_single_shape in H
    | H : set_subtree_size _ _ = Ok _ |- _ => apply set_size_shape in H
    | H : insert_key_and_child M _ _ _ _ = Ok _ |- _ => apply ikc_shape in H
    | H : insert_key M _ _ _ = Ok _ |- _ => unfold insert_key in H; apply ikc_shape in H
    | H : push_key_and_child M _ _ _ _ = Ok _ |- _ => apply pkc_shape in H
    | H : push_key M _ _ _ = Ok _ |- _ => unfold push_key in H; apply pkc_shape in H
    | H : set_child _ _ _ = Ok _ |- _ => apply set_child_shape in H
    | H : set_slice_at _ _ _ _ = Ok _ |- _ => apply set_slice_at_shape in H
    | H : replace_first_child _ _ = Ok (_, _) |- _ =>
        let R := fresh "R" in apply rfc_shape in H; destruct H as [H R]
    | H : split _ _ = Ok (_, _, _) |- _ =>
        let R := fresh "R" in apply split_shape in H; destruct H as [H R]
    end.
  Ltac rws := repeat (match goal with H : shape ?x = _ |- context [shape ?x] => rewrite H end; cbn [kl]).

  Lemma key_step_shape : forall (t : tree) k ov o n cur st, key_step X t k ov o n cur = Ok st -> shst st = SDone (shape t).
  Proof.
    intros t k ov o n cur st H. unfold key_step in H. inv H. injection H as <-. cbn [shst]. shs. rws. reflexivity.
  Qed.
  Lemma child_step_shape : forall (t : tree) c here o n cur st, child_step X t c here o n cur = Ok st -> shst st = SDone (shape t).
  Proof.
    intros t c here o n cur st H. unfold child_step in H.
    inv H. injection H as <-. cbn [shst]. shs. rws. reflexivity.
  Qed.

  Lemma bubble_step_shape : forall (t : tree) c here b st, bubble_step X M t c here b = Ok st ->
    shst st = s_bubble M (kl (shape t)) c (shape (b_rhs b)).
  Proof.
    intros t c here b st H. unfold bubble_step in H. inv H. unfold s_bubble.
    rewrite shape_len in H. unfold max_len in H. destruct (length (kl (shape t)) - 1 <? 2 * M).
    - inv H. apply key_step_shape in H. rewrite H. f_equal. subst. shs. rws. reflexivity.
    - inv H. subst. destruct (negb (c =? M)).
      + inv H. injection H as <-. cbn [shst b_lhs b_rhs]. subst. shs. destruct (M <? c); rws; reflexivity.
      + inv H. injection H as <-. cbn [shst b_lhs b_rhs]. subst. shs. rws. match goal with H : firstn 1 _ = [_] |- _ => rewrite <- H end. rws. reflexivity.
  Qed.

  Lemma up_step_shape : forall (t : tree) c here st st', up_step X M t c here st = Ok st' -> shst st' = s_up M (shape t) c (shst st).
  Proof.
    intros t c here [n o nw cur|b] st' H; cbn [up_step] in H; inv H.
    - apply child_step_shape in H. rewrite H. cbn [s_up shst]. f_equal. apply set_child_shape in E. exact E.
    - injection H as <-. apply set_child_shape in E. apply bubble_step_shape in E0. cbn [s_up shst].
      rewrite E in E0. cbn [kl] in E0. rewrite <- E0. destruct here as [l|]; [|reflexivity]. destruct a0; [reflexivity|].
      cbn [remap_bubble]. destruct (l_remap l); reflexivity.
  Qed.

  Lemma upd_shape : forall (f : tree -> res upstate) (g : sh -> sst), (forall t st, f t = Ok st -> shst st = g (shape t)) ->
    forall p lhs t st, upd X M f lhs t p = Ok st -> shst st = s_upd M g (shape t) p.
  Proof.
    intros f g Hf. induction p as [|c p IH]; intros lhs t st H; cbn [upd] in H; [exact (Hf _ _ H)|].
    inv H. apply up_step_shape in H. rewrite H. cbn [s_upd]. rewrite (child_shape _ _ _ E). rewrite (IH _ _ _ E1). reflexivity.
  Qed.

  Lemma upd_key_shape : forall p k ov o n cur lhs (t : tree) st,
    upd X M (fun n0 => key_step X n0 k ov o n cur) lhs t p = Ok st -> shst st = SDone (shape t).
  Proof.
    intros p k ov o n cur lhs t st H. eapply upd_shape with (g := SDone) in H; [|intros; eapply key_step_shape; eassumption].
    rewrite H. clear. generalize (shape t). induction p as [|c p IH]; intros s; cbn [s_upd]; [reflexivity|].
    destruct (nth_error (kl s) c) as [ch|] eqn:E; [|reflexivity]. rewrite IH. cbn [s_up]. rewrite replace_at_same by exact E.
    destruct s; [destruct c; discriminate|reflexivity].
  Qed.

  Definition is_some {A} (o : option A) : bool := match o with Some _ => true | None => false end.

  Lemma split_leaf_shape : forall (t : tree) k ov fs sn b w, split_leaf X M t k ov fs sn = Ok (b, w) ->
    2 * M - (if is_some sn then 1 else 0) <= tlen t ->
    s_leaf M k (is_some sn) (shape t) = SBub (shape (b_lhs b)) (shape (b_rhs b)).
  Proof.
    intros t k ov fs sn b w H Hl. unfold split_leaf in H. unfold s_leaf. rewrite <- shape_len.
    rewrite (proj2 (Nat.leb_le _ _) Hl).
    destruct ((M =? 1) && (tlen t =? 1)).
    - destruct sn as [sn|]; [|discriminate]. unfold split_leaf_small_m in H.
      destruct (negb (M =? 1) || _ || _ || _); [discriminate|]. inv H. subst.
      destruct (k =? 0); inv H; injection H as <- <-; cbn [b_lhs b_rhs]; shs; rws; reflexivity.
    - unfold is_some. destruct (choose_split M k (tlen t) (match sn with Some _ => true | None => false end)) as [m ins]. inv H. subst.
      destruct ins as [[|]|[|]].
      + inv H. subst. injection H as <- <-. cbn [b_lhs b_rhs].
        match goal with H : match sn with _ => _ end = Ok _ |- _ => rename H into Hsn end.
        unfold s_ins2. destruct sn as [[s2 z2]|]; inv Hsn; injection Hsn as <- <- <-; subst; shs; rws; reflexivity.
      + inv H. subst. injection H as <- <-. cbn [b_lhs b_rhs].
        match goal with H : match sn with _ => _ end = Ok _ |- _ => rename H into Hsn end.
        unfold s_ins2. destruct sn as [[s2 z2]|]; inv Hsn; injection Hsn as <- <- <-; subst; shs; rws; reflexivity.
      + destruct sn as [[s2 z2]|]; [|discriminate]. inv H. injection H as <- <-. cbn [b_lhs b_rhs]. shs; rws; reflexivity.
      + inv H. injection H as <- <-. cbn [b_lhs b_rhs].
        match goal with H : match sn with _ => _ end = Ok _ |- _ => rename H into Hsn end.
        destruct sn as [[s2 z2]|]; inv Hsn; [subst|injection Hsn as <-]; shs; rws; reflexivity.
  Qed.

  Lemma no_join_shape : forall remap k ov fs sn (t : tree) st, no_join_leaf X M remap k ov fs sn t = Ok st ->
    shst st = s_leaf M k (is_some sn) (shape t).
  Proof.
    intros remap k ov fs sn t st H. unfold no_join_leaf in H. destruct ((tlen t <? k) || _); [discriminate|]. inv H.
    destruct (Nat.leb_spec (max_len M - match sn with Some _ => 1 | None => 0 end) (tlen t)) as [Hl|Hl].
    - inv H. injection H as <-. destruct a0 as [b w]. apply split_leaf_shape in E0; [|destruct sn; exact Hl].
      rewrite E0. cbn [shst]. unfold remap_leaf. destruct remap; reflexivity.
    - unfold s_leaf. rewrite <- shape_len.
      rewrite (proj2 (Nat.leb_gt _ _)) by (destruct sn; cbn [is_some]; exact Hl). unfold s_ins2.
      destruct ov as [nl|]; destruct sn as [[s2 z2]|]; cbn [is_some]; inv H; subst; try discriminate;
        repeat match goal with Q : bind _ _ = Ok _ |- _ => progress inv Q; subst end;
        repeat match goal with Q : Ok _ = Ok _ |- _ => inversion Q; clear Q; subst end;
        apply key_step_shape in H; rewrite H; shs; rws; reflexivity.
  Qed.

  Lemma finish_shape : forall h st (t : tree) h' cur, finish_root X h st = Ok (t, h', cur) -> shape t = s_fin (shst st).
  Proof.
    intros h [n o nw c|b] t h' cur H; cbn [finish_root] in H; [injection H as <- <- <-; reflexivity|].
    inv H. injection H as <- <- <-. unfold make_new_parent in E3. inv E3. injection E3 as <-. reflexivity.
  Qed.

  Lemma insert_rhs_shape : forall h (t : tree) p hk k nl rm fs sn t' h' cur lj,
    insert_rhs X M h t p hk k nl rm fs sn = Ok (t', h', cur) -> shape t' = s_plan M (PRhs p hk k (is_some sn) lj) (shape t).
  Proof.
    intros h t p hk k nl rm fs sn t' h' cur lj H. unfold insert_rhs in H. inv H. apply finish_shape in H. rewrite H.
    cbn [s_plan]. unfold rhs_path. destruct hk as [|hc].
    - eapply upd_shape in E2; [rewrite E2; reflexivity|]. intros. eapply no_join_shape; eassumption.
    - eapply upd_shape in E2; [rewrite E2; reflexivity|]. intros. eapply no_join_shape; eassumption.
  Qed.

  Lemma split_key_shape : forall nop h (t : tree) p hk k q x n t' h' cur ad,
    insert_split_key X Y M nop h t p hk k q x n = Ok (t', h', cur, ad) ->
    exists pl, split_plan Y t p hk k q x = Ok pl /\ shape t' = s_plan M pl (shape t).
  Proof.
    intros nop h t p hk k q x n t' h' cur ad H. unfold insert_split_key in H. unfold split_plan, handle_slice. inv H.
    cbn [fst snd]. rewrite E. cbn [bind]. rewrite E1. cbn [bind]. rewrite E2.
    destruct (negb (sl_may_join Y)).
    { inv H. injection H as <- <- <- <-. subst. eexists. split; [reflexivity|].
      match goal with H : insert_rhs X M _ _ _ _ _ _ _ _ _ = Ok _ |- _ => eapply insert_rhs_shape in H; rewrite H end. shs. rws. reflexivity. }
    destruct (sl_try_join Y v x) as [mid|[l s1]].
    - inv H. destruct (sl_try_join Y mid v0) as [nw|[l r]].
      + inv H. injection H as <- <- <- <-. eexists. split; [reflexivity|]. subst. cbn [s_plan].
        match goal with H : finish_root X _ _ = Ok _ |- _ => apply finish_shape in H; rewrite H end.
        match goal with H : upd X M _ _ _ _ = Ok _ |- _ => apply upd_key_shape in H; rewrite H end. cbn [s_fin]. shs. rws. reflexivity.
      + inv H. injection H as <- <- <- <-. subst. eexists. split; [reflexivity|].
        match goal with H : insert_rhs X M _ _ _ _ _ _ _ _ _ = Ok _ |- _ => eapply insert_rhs_shape in H; rewrite H end. shs. rws. reflexivity.
    - inv H. destruct (sl_try_join Y s1 v0) as [nw|[l' r]].
      + inv H. injection H as <- <- <- <-. subst. eexists. split; [reflexivity|].
        match goal with H : insert_rhs X M _ _ _ _ _ _ _ _ _ = Ok _ |- _ => eapply insert_rhs_shape in H; rewrite H end. shs. rws. reflexivity.
      + inv H. injection H as <- <- <- <-. subst. eexists. split; [reflexivity|].
        match goal with H : insert_rhs X M _ _ _ _ _ _ _ _ _ = Ok _ |- _ => eapply insert_rhs_shape in H; rewrite H end. shs. rws. reflexivity.
  Qed.

  Lemma single_join_shape : forall h (t : tree) a o n jr, single_join X M h t a o n = Ok jr ->
    exists t' h' cur, jr = Joined t' h' cur /\ shape t' = shape t.
  Proof.
    intros h t a o n jr H. unfold single_join in H. inv H. injection H as <-. subst. eexists _, _, _. split; [reflexivity|].
    match goal with H : finish_root X _ _ = Ok _ |- _ => apply finish_shape in H; rewrite H end.
    match goal with H : upd X M _ _ _ _ = Ok _ |- _ => apply upd_key_shape in H; rewrite H end. reflexivity.
  Qed.

  Ltac hs := cbn [bind]; cbn beta iota; repeat (match goal with Q : handle_slice ?a ?b = Ok _ |- context [handle_slice ?a ?b] => rewrite Q end; cbn [bind]; cbn beta iota).

  Lemma edge_join_shape : forall h (t : tree) lhs rhs x n jr, edge_try_join X Y M h t lhs rhs x n = Ok jr ->
    exists j, edge_join Y t lhs rhs x = Ok j /\
      match jr, j with
      | Joined t' _ _, Some _ => shape t' = shape t
      | NotJoined t' _, None => shape t' = shape t
      | _, _ => False
      end.
  Proof.
    intros h t lhs rhs x n jr H. unfold edge_try_join in H. unfold edge_join.
    destruct (negb (sl_may_join Y)); [injection H as <-; exists None; auto|].
    inv H. destruct lhs as [la|]; destruct rhs as [ra|]; inv E; inv E0; injection E as <-; injection E0 as <-; try discriminate; cbn beta iota in H.
    - inv H. hs. match goal with |- context [sl_try_join Y ?u ?v] => destruct (sl_try_join Y u v) as [mid|[l s]] end.
      + inv H. hs. match goal with |- context [sl_try_join Y ?u ?v] => destruct (sl_try_join Y u v) as [nw|[m r]] end; [inv H|].
        inv H. apply single_join_shape in H. destruct H as (t' & h' & cur & -> & Hs). eexists. split; [reflexivity|]. shs. rws. reflexivity.
      + inv H. hs. match goal with |- context [sl_try_join Y ?u ?v] => destruct (sl_try_join Y u v) as [nw|[m r]] end.
        * inv H. apply single_join_shape in H. destruct H as (t' & h' & cur & -> & Hs). eexists. split; [reflexivity|]. shs. rws. reflexivity.
        * inv H. injection H as <-. eexists. split; [reflexivity|]. shs. rws. reflexivity.
    - inv H. hs. match goal with |- context [sl_try_join Y ?u ?v] => destruct (sl_try_join Y u v) as [mid|[l s]] end.
      + inv H. apply single_join_shape in H. destruct H as (t' & h' & cur & -> & Hs). eexists. split; [reflexivity|]. shs. rws. reflexivity.
      + inv H. injection H as <-. eexists. split; [reflexivity|]. shs. rws. reflexivity.
    - inv H. hs. match goal with |- context [sl_try_join Y ?u ?v] => destruct (sl_try_join Y u v) as [mid|[l s]] end.
      + inv H. apply single_join_shape in H. destruct H as (t' & h' & cur & -> & Hs). eexists. split; [reflexivity|]. shs. rws. reflexivity.
      + inv H. injection H as <-. eexists. split; [reflexivity|]. shs. rws. reflexivity.
  Qed.

  Definition rshape (r : @rle I V) : sh := match r with None => SX | Some r => shape (r_node r) end.

  Lemma insert_shape : forall nop (r : @rle I V) hints idx x n r' cur, insert_with_cursor X Y M nop r hints idx x n = Ok (r', cur) ->
    exists pl, insert_plan X Y r hints idx x = Ok pl /\ rshape r' = s_plan M pl (rshape r).
  Proof.
    intros nop r hints idx x n r' cur H. unfold insert_with_cursor in H. unfold insert_plan. inv H.
    destruct (ix_ltb X a idx); [discriminate|]. destruct (ix_leb X n (ix_zero X)); [discriminate|].
    destruct r as [r|].
    - inv H. injection H as <- <-. subst. cbn [rshape r_node]. cbn [bind].
      destruct a0 as [p k lhs rhs|p hk k q].
      + match goal with H : insert_edge _ _ _ _ _ _ _ _ _ _ _ = Ok _ |- _ => unfold insert_edge in H; rename H into Q end.
        inv Q. destruct (tlen a0 <? k); [discriminate|]. inv Q.
        match goal with H : edge_try_join _ _ _ _ _ _ _ _ _ = Ok _ |- _ => apply edge_join_shape in H; destruct H as (j & J1 & J2) end.
        rewrite J1. cbn [bind]. eexists. split; [reflexivity|].
        destruct a1 as [t' h' c'|t' s]; destruct j as [j|]; try contradiction.
        * injection Q as <- <- <- <-. exact J2.
        * inv Q. injection Q as <- <- <- <-. subst. cbn [s_plan].
          match goal with H : finish_root X _ _ = Ok _ |- _ => apply finish_shape in H; rewrite H end.
          match goal with H : upd X M _ _ _ _ = Ok _ |- _ => eapply upd_shape in H; [rewrite H|intros; eapply no_join_shape; eassumption] end.
          rewrite J2. reflexivity.
      + match goal with H : insert_split_key _ _ _ _ _ _ _ _ _ _ _ _ = Ok _ |- _ => apply split_key_shape in H; destruct H as (pl & P1 & P2) end.
        rewrite P1. eexists. split; [reflexivity|]. exact P2.
    - inv H. injection H as <- <-. eexists. split; [reflexivity|]. unfold rle_new in E0. destruct (ix_leb X n (ix_zero X)); [discriminate|]. injection E0 as <-. reflexivity.
  Qed.
End Plain.
