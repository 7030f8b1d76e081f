(** The invariant of the shared state of a tree and its references. *)
From Coq Require Import List Arith Bool Lia.
From Verif Require Import Base Recycle ListFacts RefState.
Import ListNotations.

(** ** Counting *)

Section Cnt.
  Context {A : Type} (p : A -> bool).
  Definition cnt (l : list A) : nat := length (filter p l).
  Definition b2n (b : bool) : nat := if b then 1 else 0.

  Lemma cnt_cons : forall x l, cnt (x :: l) = b2n (p x) + cnt l.
  Proof. intros. unfold cnt. cbn [filter]. destruct (p x); reflexivity. Qed.

  Lemma cnt_app : forall l m, cnt (l ++ m) = cnt l + cnt m.
  Proof. induction l as [|x l IH]; intros; cbn [app]; [reflexivity|]. rewrite !cnt_cons, IH. lia. Qed.

  Lemma cnt_snoc : forall l x, cnt (l ++ [x]) = cnt l + b2n (p x).
  Proof. intros. rewrite cnt_app, cnt_cons. cbn. lia. Qed.

  Lemma cnt_replace : forall i x y l, nth_error l i = Some y -> cnt (replace_at i x l) + b2n (p y) = cnt l + b2n (p x).
  Proof.
    induction i as [|i IH]; intros x y [|z l] H; cbn [nth_error] in H; try discriminate.
    - injection H as ->. rewrite replace_0, !cnt_cons. lia.
    - rewrite replace_cons, !cnt_cons. specialize (IH x y l H). lia.
  Qed.

  Lemma cnt_insert : forall i x l, cnt (insert_at i x l) = cnt l + b2n (p x).
  Proof.
    intros. unfold insert_at. rewrite cnt_app, cnt_cons. rewrite <- (firstn_skipn i l) at 3. rewrite cnt_app. lia.
  Qed.

  Lemma cnt_pos : forall l i x, nth_error l i = Some x -> p x = true -> 1 <= cnt l.
  Proof.
    induction l as [|y l IH]; intros [|i] x H Hp; cbn [nth_error] in H; try discriminate; rewrite cnt_cons.
    - injection H as ->. rewrite Hp. cbn. lia.
    - specialize (IH i x H Hp). lia.
  Qed.
  Lemma cnt_none : forall l, (forall x, In x l -> p x = false) -> cnt l = 0.
  Proof. induction l as [|y l IH]; intros H; [reflexivity|]. rewrite cnt_cons, (H y), IH; auto with datatypes. Qed.
End Cnt.

Lemma in_replace : forall A i (x y : A) l, In y (replace_at i x l) -> y = x \/ In y l.
Proof.
  induction i as [|i IH]; intros x y [|z l] H; auto.
  - rewrite replace_0 in H. destruct H as [<-|H]; auto with datatypes.
  - rewrite replace_cons in H. destruct H as [<-|H]; auto with datatypes. destruct (IH _ _ _ H); auto with datatypes.
Qed.

Lemma in_insert_at : forall A i (x y : A) l, In y (insert_at i x l) -> y = x \/ In y l.
Proof.
  intros A i x y l H. unfold insert_at in H. apply in_app_or in H. destruct H as [H|[<-|H]]; auto; right.
  - rewrite <- (firstn_skipn i l). apply in_or_app. auto.
  - rewrite <- (firstn_skipn i l). apply in_or_app. auto.
Qed.

(** Peel an assignment off a lookup. *)
Lemma nth_replace : forall A i j (x y : A) l, nth_error (replace_at i x l) j = Some y -> (i = j /\ y = x) \/ (i <> j /\ nth_error l j = Some y).
Proof.
  intros A i j x y l H. destruct (Nat.eq_dec i j) as [<-|D].
  - destruct (lt_dec i (length l)) as [L|L].
    + rewrite replace_nth_same in H by auto. injection H as <-. auto.
    + apply nth_error_lt in H. rewrite replace_len in H. lia.
  - rewrite replace_nth_other in H by auto. auto.
Qed.

Lemma nth_snoc_inv : forall A j (x y : A) l, nth_error (l ++ [x]) j = Some y -> (j = length l /\ y = x) \/ nth_error l j = Some y.
Proof.
  intros A j x y l H. destruct (lt_dec j (length l)) as [L|L].
  - rewrite nth_error_app1 in H by auto. auto.
  - pose proof (nth_error_lt _ _ _ H) as Lt. rewrite app_length in Lt. cbn [length] in Lt.
    replace j with (length l) in H by lia. rewrite nth_snoc in H. injection H as <-. left. split; [lia|auto].
Qed.

Lemma nth_error_ext_eq_help : forall A (l m : list A), (forall j, nth_error l j = nth_error m j) -> l = m.
Proof.
  induction l as [|x l IH]; intros [|y m] H; auto.
  - specialize (H 0). discriminate.
  - specialize (H 0). discriminate.
  - pose proof (H 0) as H0. cbn in H0. injection H0 as <-. f_equal. apply IH. intros j. exact (H (S j)).
Qed.

Section Inv.
  Variable CMAX : nat.

  (** Borrow state against what the owner is doing and the number of borrows counted. *)
  Inductive bs_ok : tstat -> bstate -> nat -> Prop :=
  | bo_idle : bs_ok TIdle NotBorrowed 0
  | bo_stuck : bs_ok TIdle Mutable 0
  | bo_ins : bs_ok TInserting Mutable 0
  | bo_bor : forall n, bs_ok TIdle (Immutable (S n) false) (S n)
  | bo_late : forall n, bs_ok TGone (Immutable (S n) true) (S n)
  | bo_dropping : bs_ok TDropping Dropping 0
  | bo_gone : bs_ok TGone Dropped 0.

  Definition is_id (i : nat) (k : option nat) : bool := match k with Some j => j =? i | None => false end.

  Definition slot_ok (keys : list (option nat)) (n i : nat) (e : @entry stored) : Prop :=
    exists c p, e = Value c (SHandle p) /\ cnt (is_id i) keys + 1 <= c /\ c <= n + 2.

  Record tbl_ok (keys : list (option nat)) (refs : list rvar) (t : @rvec stored) (n : nat) : Prop := {
    to_head : rv_head t = None;
    to_slot : forall i e, nth_error (rv_vals t) i = Some e -> slot_ok keys n i e;
    to_keys : forall i, In (Some i) keys -> i < length (rv_vals t);
    to_refs : forall r i, nth_error refs r = Some (RLive (Some i)) -> i < length (rv_vals t);
  }.

  Definition present (t : @rvec stored) : Prop := forall i c p, nth_error (rv_vals t) i = Some (Value c (SHandle p)) -> p = true.

  Record invg (w : world) (n leak lost short : nat) : Prop := {
    g_bs : bs_ok (w_tree w) (borrow_of w) (open_borrows w + leak);
    g_nodes : w_nodes_freed w = match borrow_of w with Dropping | Dropped => 1 | _ => 0 end;
    g_tbl : w_tree w <> TGone -> tbl_ok (w_keys w) (w_refs w) (table_of w) n;
    g_gone : w_tree w = TGone -> table_of w = rv_new;
    g_ids : w_tree w = TIdle \/ w_tree w = TInserting -> forall r, nth_error (w_refs w) r <> Some (RLive None);
    g_bor : forall b r, nth_error (w_bors w) b = Some (BLive r) -> exists id, nth_error (w_refs w) r = Some (RLive id);
    g_weak : weak_of w + short = kept_refs w + lost;
    g_alloc : short = 0 -> w_alloc_freed w = match borrow_of w with Dropped => if weak_of w =? 0 then 1 else 0 | _ => 0 end;
    g_alloc1 : w_alloc_freed w <= 1 /\ (w_alloc_freed w <> 0 -> borrow_of w = Dropped);
    g_present : borrow_of w = NotBorrowed \/ (exists c, borrow_of w = Immutable c false) -> present (table_of w);
    g_bound : weak_of w <= n /\ open_borrows w + leak <= n;
  }.

  (** [p] bounds the losses; [late]: a clone may have come too late. *)
  Definition inv (w : world) (n p : nat) (late : bool) : Prop :=
    exists leak lost short, invg w n leak lost short /\ leak <= p /\ lost <= p /\ (late = false -> short = 0).

  Lemma start_inv : forall k, inv (start k) 0 0 false.
  Proof.
    intros k. exists 0, 0, 0. split; [|auto]. constructor; cbn; try tauto; try congruence.
    - constructor.
    - intros _. constructor; cbn; auto.
      + intros i e H. destruct i; discriminate.
      + intros i H. apply repeat_spec in H. discriminate.
      + intros r i H. destruct r; discriminate.
    - intros _ r. destruct r; discriminate.
    - intros b r H. destruct b; discriminate.
    - split; [lia|congruence].
    - intros _ i c p H. destruct i; discriminate.
    - split; auto.
  Qed.

  (** *** Tables *)

  Lemma slot_get : forall keys refs t n i, tbl_ok keys refs t n -> i < length (rv_vals t) ->
    exists c p, nth_error (rv_vals t) i = Some (Value c (SHandle p)) /\ cnt (is_id i) keys + 1 <= c /\ c <= n + 2.
  Proof.
    intros keys refs t n i T L. destruct (nth_error (rv_vals t) i) as [e|] eqn:E.
    - destruct (to_slot _ _ _ _ T _ _ E) as (c & p & -> & H1 & H2). eauto.
    - apply nth_error_None in E. lia.
  Qed.

  Lemma tbl_mono : forall keys refs t n m, tbl_ok keys refs t n -> n <= m -> tbl_ok keys refs t m.
  Proof.
    intros keys refs t n m T L. constructor; try apply T.
    intros i e H. destruct (to_slot _ _ _ _ T _ _ H) as (c & p & -> & H1 & H2). exists c, p. repeat split; auto. lia.
  Qed.

  Lemma tbl_refs : forall keys refs refs' t n, tbl_ok keys refs t n ->
    (forall r i, nth_error refs' r = Some (RLive (Some i)) -> exists r0, nth_error refs r0 = Some (RLive (Some i))) ->
    tbl_ok keys refs' t n.
  Proof.
    intros keys refs refs' t n T H. constructor; try apply T.
    intros r i E. destruct (H _ _ E) as [r0 E0]. eapply (to_refs _ _ _ _ T); eauto.
  Qed.

  (** Changing one slot to another handle with enough count. *)
  Lemma tbl_set : forall keys refs t n i c p c' p' m, tbl_ok keys refs t n ->
    nth_error (rv_vals t) i = Some (Value c (SHandle p)) -> cnt (is_id i) keys + 1 <= c' -> c' <= m + 2 -> n <= m ->
    tbl_ok keys refs {| rv_vals := replace_at i (Value c' (SHandle p')) (rv_vals t); rv_head := rv_head t |} m.
  Proof.
    intros keys refs t n i c p c' p' m T E H1 H2 H3. constructor; cbn [rv_vals rv_head].
    - apply T.
    - intros j e H. apply nth_replace in H. destruct H as [[<- ->]|[D H]].
      + exists c', p'. auto.
      + destruct (to_slot _ _ _ _ T _ _ H) as (c0 & p0 & -> & B1 & B2). exists c0, p0. repeat split; auto. lia.
    - intros j H. rewrite replace_len. eapply to_keys; eauto.
    - intros r j H. rewrite replace_len. eapply to_refs; eauto.
  Qed.

  Lemma present_set : forall t i c c' p, present t -> nth_error (rv_vals t) i = Some (Value c (SHandle p)) ->
    present {| rv_vals := replace_at i (Value c' (SHandle p)) (rv_vals t); rv_head := rv_head t |}.
  Proof.
    intros t i c c' p P E j c0 p0 H. cbn [rv_vals] in H. apply nth_replace in H. destruct H as [[<- H]|[D H]].
    - injection H as -> ->. eapply P; eauto.
    - eapply P; eauto.
  Qed.

  Lemma clone_ok : forall (t : @rvec stored) i c v, nth_error (rv_vals t) i = Some (Value c v) ->
    rv_clone CMAX t i = if c <? CMAX then Ok (i, {| rv_vals := replace_at i (Value (S c) v) (rv_vals t); rv_head := rv_head t |}) else Panic PArith.
  Proof. intros t i c v E. unfold rv_clone. rewrite E. reflexivity. Qed.

  Lemma push_ok : forall (t : @rvec stored) v, rv_head t = None -> @rv_push stored t v = Ok (length (rv_vals t), {| rv_vals := rv_vals t ++ [Value 1 v]; rv_head := None |}).
  Proof. intros t v E. unfold rv_push. rewrite E. reflexivity. Qed.

  Lemma tbl_push : forall keys refs t n, tbl_ok keys refs t n ->
    tbl_ok keys refs {| rv_vals := rv_vals t ++ [Value 1 (SHandle true)]; rv_head := None |} n.
  Proof.
    intros keys refs t n T. constructor; cbn [rv_vals rv_head]; auto.
    - intros j e H. apply nth_snoc_inv in H. destruct H as [[-> ->]|H]; [|eapply to_slot; eauto].
      exists 1, true. split; auto. split; [|lia].
      rewrite cnt_none; [lia|]. intros [j|] Hin; auto. cbn. apply Nat.eqb_neq. apply (to_keys _ _ _ _ T) in Hin. lia.
    - intros j H. rewrite app_length. apply (to_keys _ _ _ _ T) in H. lia.
    - intros r j H. rewrite app_length. apply (to_refs _ _ _ _ T) in H. lia.
  Qed.

  (** A key gets or loses an id. *)
  Lemma tbl_key : forall keys refs t n k old new, tbl_ok keys refs t n -> nth_error keys k = Some old ->
    (forall i, is_id i new = true -> i < length (rv_vals t) /\
       (is_id i old = false -> forall c p, nth_error (rv_vals t) i = Some (Value c (SHandle p)) -> cnt (is_id i) keys + 2 <= c)) ->
    tbl_ok (replace_at k new keys) refs t n.
  Proof.
    intros keys refs t n k old new T E H. constructor; try apply T.
    - intros i e He. destruct (to_slot _ _ _ _ T _ _ He) as (c & p & -> & B1 & B2). exists c, p. split; auto. split; auto.
      pose proof (cnt_replace (is_id i) k new old keys E) as C.
      destruct (is_id i new) eqn:N; cbn [b2n] in C; [|lia].
      destruct (is_id i old) eqn:O; cbn [b2n] in C; [lia|].
      destruct (H i N) as [_ H2]. specialize (H2 O _ _ He). lia.
    - intros i Hi. apply in_replace in Hi. destruct Hi as [Hi|Hi]; [|eapply to_keys; eauto].
      subst new. apply (H i). cbn. apply Nat.eqb_refl.
  Qed.

  Lemma tbl_newkey : forall keys refs t n k, tbl_ok keys refs t n -> tbl_ok (insert_at k None keys) refs t n.
  Proof.
    intros keys refs t n k T. constructor; try apply T.
    - intros i e He. destruct (to_slot _ _ _ _ T _ _ He) as (c & p & -> & B1 & B2). exists c, p. split; auto. split; auto.
      rewrite cnt_insert. cbn. lia.
    - intros i Hi. apply in_insert_at in Hi. destruct Hi as [Hi|Hi]; [discriminate|eapply to_keys; eauto].
  Qed.

  (** *** One step

      Each op is taken in turn; [frame] closes the parts of the invariant an op does not touch. *)

  Ltac open H := destruct H as [Gbs Gnodes Gtbl Ggone Gids Gbor Gweak Galloc Galloc1 Gpres Gbound].
  Ltac proj := cbn [w_store w_tree w_keys w_refs w_bors w_nodes_freed w_alloc_freed s_borrow s_refs s_weak
                    set_store set_tree set_keys set_refs set_bors free_nodes dealloc set_borrow set_table set_weak
                    borrow_of table_of weak_of set_id open_borrows kept_refs] in *.
  Ltac unf := unfold borrow_of, table_of, weak_of, open_borrows, kept_refs, set_id, set_borrow, set_table, set_weak, set_store,
                set_tree, set_keys, set_refs, set_bors, free_nodes, dealloc in *; proj.

  Ltac fin :=
    auto; try congruence; try lia;
    try match goal with
    | |- _ -> tbl_ok _ _ _ _ => intros _; match goal with G : _ -> tbl_ok _ _ _ _ |- _ => eapply tbl_mono; [apply G; congruence|lia] end
    | Q : _ <= 1 /\ _ |- _ /\ _ => destruct Q as [? Q]; split; auto; intros D; specialize (Q D); congruence
    | |- _ -> present _ => intros [|[? ?]]; congruence
    | |- _ \/ _ -> forall _, _ => intros [|]; congruence
    | E : 0 = _ |- bs_ok _ _ _ => rewrite <- E; constructor
    | E : S _ = _ |- bs_ok _ _ _ => rewrite <- E; constructor
    end.

  Lemma inv_mono : forall w n p late m q late', inv w n p late -> n <= m -> p <= q -> (late' = false -> late = false) -> inv w m q late'.
  Proof.
    intros w n p late m q late' (leak & lost & short & G & H1 & H2 & H3) L1 L2 L3.
    exists leak, lost, short. split; [|split; [lia|split; [lia|auto]]].
    open G. constructor; auto.
    - intros T. eapply tbl_mono; eauto.
    - lia.
  Qed.

  (** What is to be shown of each step. *)
  Definition step_ok (w : world) (n p : nat) (late : bool) (o : call) (r : outcome * world) : Prop :=
    (fst r = OUB /\ late = true) \/
    (fst r <> OUB /\ inv (snd r) (S n) (p + match fst r with OPanic _ => b2n (ref_call o) | _ => 0 end) late).

  Lemma ok_panic : forall w n p late o y w', inv w' n p late -> step_ok w n p late o (OPanic y, w').
  Proof. intros. right. cbn [fst snd]. split; [congruence|]. eapply inv_mono; eauto; lia. Qed.
  Lemma ok_unit : forall w n p late o w', inv w' (S n) p late -> step_ok w n p late o (OUnit, w').
  Proof. intros. right. cbn [fst snd]. split; [congruence|]. rewrite Nat.add_0_r. auto. Qed.
  Lemma ok_bool : forall w n p late o b w', inv w' (S n) p late -> step_ok w n p late o (OBool b, w').
  Proof. intros. right. cbn [fst snd]. split; [congruence|]. rewrite Nat.add_0_r. auto. Qed.

  Lemma alive_tree : forall w n a b c, invg w n a b c -> w_tree w <> TGone -> w_alloc_freed w = 0.
  Proof.
    intros w n a b c G H. open G. destruct Galloc1 as [_ G1]. destruct (Nat.eq_dec (w_alloc_freed w) 0) as [|D]; auto.
    specialize (G1 D). rewrite G1 in Gbs. inversion Gbs. congruence.
  Qed.

  Lemma alive_bor : forall w n a b c x r, invg w n a b c -> bor_var w x = Some r -> w_alloc_freed w = 0.
  Proof.
    intros w n a b c x r G H. open G. destruct Galloc1 as [_ G1]. destruct (Nat.eq_dec (w_alloc_freed w) 0) as [|D]; auto.
    specialize (G1 D). rewrite G1 in Gbs. inversion Gbs. unfold bor_var in H.
    destruct (nth_error (w_bors w) x) as [[r0| |]|] eqn:E; try discriminate.
    pose proof (cnt_pos is_open _ _ _ E eq_refl) as P. unfold open_borrows in *. unfold cnt in P. lia.
  Qed.

  Lemma ref_kept : forall w r id, ref_var w r = Some id -> 1 <= kept_refs w.
  Proof.
    intros w r id H. unfold ref_var in H. destruct (nth_error (w_refs w) r) as [[i| |]|] eqn:E; try discriminate.
    exact (cnt_pos is_kept _ _ _ E eq_refl).
  Qed.

  Lemma ref_nth : forall w r id, ref_var w r = Some id -> nth_error (w_refs w) r = Some (RLive id).
  Proof.
    intros w r id H. unfold ref_var in H. destruct (nth_error (w_refs w) r) as [[i| |]|]; try discriminate. congruence.
  Qed.
  Lemma bor_nth : forall w b r, bor_var w b = Some r -> nth_error (w_bors w) b = Some (BLive r).
  Proof.
    intros w b r H. unfold bor_var in H. destruct (nth_error (w_bors w) b) as [[i| |]|]; try discriminate. congruence.
  Qed.

  Lemma alive_ref : forall w n a b r id, invg w n a b 0 -> ref_var w r = Some id -> w_alloc_freed w = 0.
  Proof.
    intros w n a b r id G H. apply ref_kept in H. open G. rewrite Galloc by auto.
    destruct (borrow_of w); auto. destruct (weak_of w =? 0) eqn:E; auto. apply Nat.eqb_eq in E. lia.
  Qed.

  Definition touched (w : world) (r : outcome * world) : outcome * world := if w_alloc_freed w =? 0 then r else (OUB, w).

  Lemma touch_tree : forall w n p late o r, inv w n p late -> w_tree w <> TGone -> step_ok w n p late o r -> step_ok w n p late o (touched w r).
  Proof.
    intros w n p late o r (a & b & c & G & _) H S. unfold touched. rewrite (alive_tree _ _ _ _ _ G H). exact S.
  Qed.
  Lemma touch_bor : forall w n p late o r x y, inv w n p late -> bor_var w x = Some y -> step_ok w n p late o r -> step_ok w n p late o (touched w r).
  Proof.
    intros w n p late o r x y (a & b & c & G & _) H S. unfold touched. rewrite (alive_bor _ _ _ _ _ _ _ G H). exact S.
  Qed.
  Lemma touch_ref : forall w n p late o r x y, inv w n p late -> ref_var w x = Some y ->
    (w_alloc_freed w = 0 -> step_ok w n p late o r) -> step_ok w n p late o (touched w r).
  Proof.
    intros w n p late o r x y (a & b & c & G & _ & _ & H2) H S. unfold touched.
    destruct (w_alloc_freed w =? 0) eqn:E; [apply Nat.eqb_eq in E; auto|].
    destruct late; [left; auto|]. rewrite (H2 eq_refl) in G. rewrite (alive_ref _ _ _ _ _ _ G H) in E. discriminate.
  Qed.

  (** *** The owner's calls *)

  Lemma ins_begin_ok : forall w n p late, inv w n p late -> w_tree w = TIdle -> step_ok w n p late NInsBegin (acquire_mutable w).
  Proof.
    intros w n p late I T. pose proof I as (a & b & c & G & H1 & H2 & H3). unfold acquire_mutable.
    destruct (borrow_of w) eqn:B; try (apply ok_panic; exact I).
    apply ok_unit. exists a, b, c. split; [|auto]. open G. rewrite B in *. rewrite T in *.
    constructor; unf; fin. inversion Gbs. constructor.
  Qed.

  Lemma ins_end_ok : forall w n p late, inv w n p late -> w_tree w = TInserting -> all_present w = true ->
    step_ok w n p late NInsEnd (release_mutable (set_tree w TIdle)).
  Proof.
    intros w n p late I T AP. pose proof I as (a & b & c & G & H1 & H2 & H3). unfold release_mutable. open G. rewrite T in *.
    inversion Gbs as [| |E1 B0 E2| | | |]. symmetry in B0.
    unfold borrow_of in *. cbn [w_store set_tree]. rewrite B0 in *. apply ok_unit. exists a, b, c. split; [|auto].
    constructor; unf; fin.
    - intros _ i c0 q H. unfold all_present in AP. rewrite forallb_forall in AP.
      specialize (AP _ (nth_error_In _ _ H)). destruct q; auto.
  Qed.

  Lemma stop_ok : forall w n p late, inv w n p late -> w_tree w = TInserting -> inv (set_tree w TIdle) n p late.
  Proof.
    intros w n p late (a & b & c & G & H1 & H2 & H3) T. exists a, b, c. split; [|auto]. open G. rewrite T in *.
    inversion Gbs as [| |E1 B0 E2| | | |]. symmetry in B0.
    constructor; unf; rewrite ?B0 in *; fin.
  Qed.

  Lemma set_table_inv : forall w n p late t, inv w n p late -> w_tree w = TInserting ->
    tbl_ok (w_keys w) (w_refs w) t (S n) -> inv (set_table w t) (S n) p late.
  Proof.
    intros w n p late t (a & b & c & G & H1 & H2 & H3) T TB. exists a, b, c. split; [|auto]. open G. rewrite T in *.
    inversion Gbs as [| |E1 B0 E2| | | |]. symmetry in B0.
    constructor; unf; rewrite ?T, ?B0 in *; fin.
  Qed.

  Lemma set_keys_inv : forall w n p late k, inv w n p late -> w_tree w = TInserting ->
    tbl_ok k (w_refs w) (table_of w) n -> inv (set_keys w k) n p late.
  Proof.
    intros w n p late k (a & b & c & G & H1 & H2 & H3) T TB. exists a, b, c. split; [|auto]. open G. constructor; unf; auto.
  Qed.

  Lemma inv_tbl : forall w n p late, inv w n p late -> w_tree w <> TGone -> tbl_ok (w_keys w) (w_refs w) (table_of w) n.
  Proof. intros w n p late (a & b & c & G & _) T. apply (g_tbl _ _ _ _ _ G T). Qed.

  Lemma istep_ok : forall w n p late i r, inv w n p late -> w_tree w = TInserting -> insert_step CMAX w i = Some r ->
    fst r <> OUB /\ inv (snd r) (S n) p late /\ w_tree (snd r) = TInserting.
  Proof.
    intros w n p late i r I T H.
    assert (T' : w_tree w <> TGone) by congruence. pose proof (inv_tbl _ _ _ _ I T') as TB.
    assert (I' : inv w (S n) p late) by (eapply inv_mono; eauto).
    assert (Slot : forall k id, key_id w k = Some (Some id) -> exists c q, nth_error (rv_vals (table_of w)) id = Some (Value c (SHandle q)) /\
              cnt (is_id id) (w_keys w) + 1 <= c /\ c <= n + 2).
    { intros k id K. eapply slot_get; eauto. eapply to_keys; eauto. eapply nth_error_In; eauto. }
    destruct i as [k|k|k|f t]; cbn [insert_step] in H.
    - destruct (k <=? length (w_keys w)) eqn:L; [|discriminate]. injection H as <-. cbn [fst snd]. split; [congruence|].
      split; [|auto]. apply set_keys_inv; auto. apply tbl_newkey. eapply tbl_mono; eauto.
    - destruct (key_id w k) as [[id|]|] eqn:K; try discriminate.
      + destruct (Slot k id K) as (c & q & E & C1 & C2). unfold rv_replace in H. rewrite E in H. cbn [lift fst snd is_handle] in H.
        injection H as <-. cbn [fst snd]. split; [congruence|]. split; [|auto]. apply set_table_inv; auto.
        eapply tbl_set; eauto. lia.
      + injection H as <-. cbn [fst snd]. split; [congruence|auto].
    - destruct (key_id w k) as [[id|]|] eqn:K; try discriminate.
      + destruct (Slot k id K) as (c & q & E & C1 & C2). unfold rv_replace in H. rewrite E in H. cbn [lift fst snd] in H.
        injection H as <-. cbn [fst snd]. split; [destruct q; cbn; congruence|]. split; [|auto]. apply set_table_inv; auto.
        eapply tbl_set; eauto. lia.
      + injection H as <-. cbn [fst snd]. split; [congruence|auto].
    - destruct (key_id w f) as [[f0|]|] eqn:Kf; destruct (key_id w t) as [[t0|]|] eqn:Kt; try discriminate;
        try (injection H as <-; cbn [fst snd]; split; [congruence|auto]; fail).
      + destruct (Slot f f0 Kf) as (c & q & E & C1 & C2). destruct (Slot t t0 Kt) as (c' & q' & E' & C1' & C2').
        rewrite (clone_ok _ _ _ _ E') in H. destruct (c' <? CMAX) eqn:L; cbn [lift] in H;
          [|injection H as <-; cbn [fst snd]; split; [congruence|auto]].
        cbn [fst snd] in H.
        set (tb1 := {| rv_vals := replace_at t0 (Value (S c') (SHandle q')) (rv_vals (table_of w)); rv_head := rv_head (table_of w) |}) in *.
        set (w1 := set_keys (set_table w tb1) (replace_at f (Some t0) (w_keys w))) in *.
        assert (TB1 : tbl_ok (w_keys w) (w_refs w) tb1 (S n)) by (eapply tbl_set; eauto; lia).
        assert (L0 : t0 < length (rv_vals (table_of w))) by (eapply nth_error_lt; eauto).
        assert (TB2 : tbl_ok (replace_at f (Some t0) (w_keys w)) (w_refs w) tb1 (S n)).
        { eapply tbl_key; eauto. intros i Hi. cbn in Hi. apply Nat.eqb_eq in Hi. subst i.
          unfold tb1. cbn [rv_vals]. rewrite replace_len. split; auto. intros _ c0 p0 Hn.
          rewrite replace_nth_same in Hn by auto. injection Hn as <- _. lia. }
        assert (E1 : exists cf qf, nth_error (rv_vals tb1) f0 = Some (Value (S (S cf)) (SHandle qf)) /\ S (S cf) <= n + 3 /\
                       cnt (is_id f0) (replace_at f (Some t0) (w_keys w)) + 1 <= S cf).
        { pose proof (cnt_replace (is_id f0) f (Some t0) (Some f0) (w_keys w) Kf) as CR. cbn [is_id] in CR. rewrite Nat.eqb_refl in CR. cbn [b2n] in CR.
          pose proof (cnt_pos (is_id f0) _ _ _ Kf (Nat.eqb_refl f0)) as CP.
          unfold tb1; cbn [rv_vals]. destruct (Nat.eq_dec t0 f0) as [->|D].
          - rewrite E in E'. injection E' as <- <-. rewrite replace_nth_same by auto. rewrite Nat.eqb_refl in CR. cbn [b2n] in CR.
            destruct c as [|c]; [lia|]. exists c, q. split; [auto|]. lia.
          - rewrite replace_nth_other by auto. apply Nat.eqb_neq in D. rewrite D in CR. cbn [b2n] in CR.
            destruct c as [|[|c]]; [lia|lia|]. exists c, q. split; [auto|]. lia. }
        destruct E1 as (cf & qf & E1 & B1 & B2).
        unfold w1 in H. unfold rv_recycle in H. unfold table_of at 1 in H. proj. rewrite E1 in H. cbn [lift fst snd] in H.
        injection H as <-. cbn [fst snd]. split; [congruence|]. split; [|auto].
        destruct I as (a & b & c0 & G & H1 & H2 & H3). exists a, b, c0. split; [|auto]. open G. rewrite T in *.
        inversion Gbs as [| |E3 B0 E4| | | |]. symmetry in B0.
        constructor; unf; rewrite ?T, ?B0 in *; fin.
        intros _. eapply (tbl_set _ _ tb1 (S n)); eauto. lia.
      + destruct (Slot f f0 Kf) as (c & q & E & C1 & C2).
        rewrite (clone_ok _ _ _ _ E) in H. destruct (c <? CMAX) eqn:L; cbn [lift] in H;
          [|injection H as <-; cbn [fst snd]; split; [congruence|auto]].
        injection H as <-. cbn [fst snd]. split; [congruence|]. split; [|auto].
        apply set_keys_inv; auto.
        * apply set_table_inv; auto. eapply tbl_set; eauto; lia.
        * proj. eapply tbl_key; [eapply tbl_set; eauto; lia|exact Kt|].
          intros i Hi. cbn in Hi. apply Nat.eqb_eq in Hi. subst i. cbn [rv_vals].
          assert (L0 : f0 < length (rv_vals (table_of w))) by (eapply nth_error_lt; eauto).
          rewrite replace_len. split; auto. intros _ c0 p0 Hn. rewrite replace_nth_same in Hn by auto. injection Hn as <- _. lia.
  Qed.

  Lemma drop_begin_ok : forall w n p late, inv w n p late -> w_tree w = TIdle -> step_ok w n p late NDropBegin (drop_begin w).
  Proof.
    intros w n p late I T. pose proof I as (a & b & c & G & H1 & H2 & H3). unfold drop_begin. open G. rewrite T in *.
    inversion Gbs as [E1 B0 E2|E1 B0 E2| |m E1 B0 E2| | |]; symmetry in B0; rewrite B0 in *.
    - apply ok_unit. exists a, b, c. split; [|auto]. constructor; unf; fin.
    - apply ok_unit. exists a, b, c. split; [|auto]. constructor; unf; fin.
    - unfold store_drop, borrow_of. proj. apply ok_unit. exists a, b, c. split; [|auto]. constructor; unf; fin.
  Qed.

  Lemma drop_end_ok : forall w n p late, inv w n p late -> w_tree w = TDropping ->
    step_ok w n p late NDropEnd (store_drop (set_tree w TGone)).
  Proof.
    intros w n p late I T. pose proof I as (a & b & c & G & H1 & H2 & H3). unfold store_drop. open G. rewrite T in *.
    inversion Gbs as [| | | | |E1 B0 E2|]. symmetry in B0. unfold borrow_of in *. proj. rewrite B0 in *.
    apply ok_unit. exists a, b, c. split; [|auto]. unfold weak_of in *. proj.
    destruct (s_weak (w_store w) =? 0) eqn:Z; constructor; unf; fin.
    - intros S0. rewrite Galloc by auto. rewrite Z. reflexivity.
    - destruct Galloc1 as [Q1 Q2]. assert (w_alloc_freed w = 0); [|split; [lia|auto]].
      destruct (Nat.eq_dec (w_alloc_freed w) 0) as [|D]; auto. specialize (Q2 D). congruence.
    - rewrite Z. auto.
  Qed.

  (** A new reference: one more kept, one more weak. *)
  Lemma make_ok : forall w n p late k r, inv w n p late -> w_tree w = TIdle -> make_ref CMAX w k = Some r ->
    step_ok w n p late (NMake k) r.
  Proof.
    intros w n p late k r I T H.
    assert (T' : w_tree w <> TGone) by congruence. pose proof (inv_tbl _ _ _ _ I T') as TB.
    pose proof I as (a & b & c & G & H1 & H2 & H3). open G.
    unfold make_ref in H. destruct (key_id w k) as [[id|]|] eqn:K; try discriminate; injection H as <-.
    - destruct (slot_get _ _ _ _ id TB) as (cc & q & E & C1 & C2); [eapply to_keys; eauto; eapply nth_error_In; eauto|].
      assert (L0 : id < length (rv_vals (table_of w))) by (eapply nth_error_lt; eauto).
      rewrite (clone_ok _ _ _ _ E). destruct (cc <? CMAX) eqn:L; cbn [lift fst snd]; [|apply ok_panic; auto].
      assert (TB1 : tbl_ok (w_keys w) (w_refs w) {| rv_vals := replace_at id (Value (S cc) (SHandle q)) (rv_vals (table_of w)); rv_head := rv_head (table_of w) |} (S n))
        by (eapply tbl_set; eauto; lia).
      unfold bump_weak, weak_of. proj. destruct (s_weak (w_store w) <? CMAX) eqn:L1.
      + apply ok_unit. exists a, b, c. split; [|auto]. constructor; unf; fin.
        * intros _. constructor; try apply TB1. intros r0 i Hr. apply nth_snoc_inv in Hr. destruct Hr as [[_ Hr]|Hr].
          -- injection Hr as ->. cbn [rv_vals]. rewrite replace_len. auto.
          -- eapply (to_refs _ _ _ _ TB1); eauto.
        * intros _ r0 Hr. apply nth_snoc_inv in Hr. destruct Hr as [[_ Hr]|Hr]; [discriminate|]. eapply Gids; eauto.
        * intros b0 r0 Hb. destruct (Gbor _ _ Hb) as [i Hi]. exists i. apply nth_app_l. auto.
        * change (length (filter is_kept ?l)) with (cnt is_kept l) in *. rewrite cnt_snoc. cbn [b2n is_kept]. lia.
        * intros S0. rewrite Galloc by auto. rewrite T in Gbs. inversion Gbs; reflexivity.
        * intros HB. specialize (Gpres HB). eapply present_set; eauto.
      + right. cbn [fst snd ref_call b2n]. split; [congruence|]. exists a, b, c. split; [|split; [lia|split; [lia|auto]]].
        constructor; unf; fin.
        * intros HB. specialize (Gpres HB). eapply present_set; eauto.
    - rewrite (push_ok _ _ (to_head _ _ _ _ TB)). cbn [lift fst snd].
      set (len := length (rv_vals (table_of w))) in *.
      set (t1 := {| rv_vals := rv_vals (table_of w) ++ [Value 1 (SHandle true)]; rv_head := None |}).
      assert (TB1 : tbl_ok (w_keys w) (w_refs w) t1 n) by (apply tbl_push; auto).
      assert (E1 : nth_error (rv_vals t1) len = Some (Value 1 (SHandle true))) by (unfold t1; cbn [rv_vals]; apply nth_snoc).
      assert (P1 : present (table_of w) -> present t1).
      { intros P i c0 p0 Hi. unfold t1 in Hi. cbn [rv_vals] in Hi. apply nth_snoc_inv in Hi. destruct Hi as [[_ Hi]|Hi]; [congruence|eapply P; eauto]. }
      rewrite (clone_ok _ _ _ _ E1). destruct (1 <? CMAX) eqn:L; cbn [lift fst snd].
      2:{ right. cbn [fst snd ref_call b2n]. split; [congruence|]. exists a, b, c. split; [|split; [lia|split; [lia|auto]]].
          constructor; unf; fin. intros _. eapply tbl_mono; eauto. }
      assert (L0 : len < length (rv_vals t1)) by (eapply nth_error_lt; eauto).
      assert (KN : forall i, In (Some i) (w_keys w) -> i <> len).
      { intros i Hi. apply (to_keys _ _ _ _ TB) in Hi. unfold len. lia. }
      assert (C0 : cnt (is_id len) (w_keys w) = 0).
      { apply cnt_none. intros [j|] Hin; auto. cbn. apply Nat.eqb_neq. auto. }
      set (t2 := {| rv_vals := replace_at len (Value 2 (SHandle true)) (rv_vals t1); rv_head := rv_head t1 |}) in *.
      assert (TB2 : tbl_ok (w_keys w) (w_refs w) t2 (S n)) by (eapply tbl_set; eauto; lia).
      assert (L2 : len < length (rv_vals t2)) by (unfold t2; cbn [rv_vals]; rewrite replace_len; auto).
      assert (TB3 : tbl_ok (replace_at k (Some len) (w_keys w)) (w_refs w) t2 (S n)).
      { eapply tbl_key; eauto. intros i Hi. cbn in Hi. apply Nat.eqb_eq in Hi. subst i. split; auto.
        intros _ c0 p0 Hn. unfold t2 in Hn. cbn [rv_vals] in Hn. rewrite replace_nth_same in Hn by auto. injection Hn as <- _. lia. }
      assert (P2 : present (table_of w) -> present t2) by (intros P; eapply present_set; eauto).
      unfold bump_weak, weak_of. proj. destruct (s_weak (w_store w) <? CMAX) eqn:L1.
      + apply ok_unit. exists a, b, c. split; [|auto]. constructor; unf; fin.
        * intros _. constructor; try apply TB3. intros r0 i Hr. apply nth_snoc_inv in Hr. destruct Hr as [[_ Hr]|Hr].
          -- injection Hr as ->. auto.
          -- eapply (to_refs _ _ _ _ TB3); eauto.
        * intros _ r0 Hr. apply nth_snoc_inv in Hr. destruct Hr as [[_ Hr]|Hr]; [discriminate|]. eapply Gids; eauto.
        * intros b0 r0 Hb. destruct (Gbor _ _ Hb) as [i Hi]. exists i. apply nth_app_l. auto.
        * change (length (filter is_kept ?l)) with (cnt is_kept l) in *. rewrite cnt_snoc. cbn [b2n is_kept]. lia.
        * intros S0. rewrite Galloc by auto. rewrite T in Gbs. inversion Gbs; reflexivity.
      + right. cbn [fst snd ref_call b2n]. split; [congruence|]. exists a, b, c. split; [|split; [lia|split; [lia|auto]]].
        constructor; unf; fin.
  Qed.

  (** *** Calls on references *)

  Lemma get_cases : forall w n a b c r i, invg w n a b c -> ref_var w r = Some (Some i) ->
    (w_tree w <> TGone /\ exists cc p, nth_error (rv_vals (table_of w)) i = Some (Value cc (SHandle p)) /\ cnt (is_id i) (w_keys w) + 1 <= cc /\ cc <= n + 2) \/
    (w_tree w = TGone /\ rv_get (table_of w) i = Panic PAssert /\ rv_clone CMAX (table_of w) i = Panic PAssert).
  Proof.
    intros w n a b c r i G H. apply ref_nth in H. open G. destruct (w_tree w) eqn:T;
      try (left; split; [congruence|]; assert (TB := Gtbl ltac:(congruence)); eapply slot_get; eauto; eapply to_refs; eauto; fail).
    right. rewrite Ggone by auto. split; auto. unfold rv_get, rv_clone, rv_new. cbn [rv_vals]. destruct i; auto.
  Qed.

  Lemma lose_id : forall w n a b c r id, invg w n a b c -> w_tree w = TDropping \/ w_tree w = TGone -> ref_var w r = Some id ->
    invg (set_id w r None) n a b c.
  Proof.
    intros w n a b c r id G T H. apply ref_nth in H. open G. constructor; unf; fin.
    - intros NT. eapply tbl_refs; [apply Gtbl; auto|]. intros r0 i E. apply nth_replace in E. destruct E as [[_ E]|[_ E]]; [discriminate|eauto].
    - intros [E|E]; destruct T; congruence.
    - intros b0 r0 Hb. destruct (Gbor _ _ Hb) as [i Hi]. destruct (Nat.eq_dec r r0) as [<-|D].
      + exists None. apply replace_nth_same. eapply nth_error_lt; eauto.
      + exists i. rewrite replace_nth_other; auto.
    - change (length (filter is_kept ?l)) with (cnt is_kept l) in *.
      pose proof (cnt_replace is_kept r (RLive None) _ _ H) as C. cbn [b2n is_kept] in C. lia.
  Qed.

  Lemma is_valid_ok : forall w n p late r id, inv w n p late -> ref_var w r = Some id -> step_ok w n p late (NIsValid r) (is_valid w r id).
  Proof.
    intros w n p late r id I H. assert (I' : inv w (S n) p late) by (eapply inv_mono; eauto). unfold is_valid.
    destruct (table_readable w) eqn:R; [|apply ok_bool; auto]. destruct id as [i|]; cbn [collapse_refs]; [|apply ok_bool; auto].
    destruct I as (a & b & c & G & H1 & H2 & H3). destruct (get_cases _ _ _ _ _ _ _ G H) as [(T & cc & q & E & _)|(T & E & _)].
    - unfold rv_get. rewrite E. cbn [lift]. apply ok_bool. auto.
    - rewrite E. cbn [lift]. apply ok_panic. exists a, b, c. split; [|auto]. eapply lose_id; eauto.
  Qed.

  Lemma borrow_refs_ok : forall w n a b c w1, invg w n a b c -> borrow_refs CMAX w = Ok (Some w1) ->
    invg w1 (S n) (S a) b c /\ (w_tree w1 = w_tree w /\ table_of w1 = table_of w /\ w_refs w1 = w_refs w /\ w_bors w1 = w_bors w /\ (w_tree w = TIdle \/ w_tree w = TGone)).
  Proof.
    intros w n a b c w1 G H. unfold borrow_refs in H. open G. destruct (borrow_of w) as [| |m d| |] eqn:B; try discriminate.
    - injection H as <-. split; [|unf; repeat split; auto; inversion Gbs; auto]. inversion Gbs as [E1 E2 E3| | | | | |].
      constructor; unf; fin.
      replace (length (filter is_open (w_bors w)) + S a) with 1 by lia. rewrite <- E1; constructor.
    - destruct (m <? CMAX); [|discriminate]. injection H as <-. split; [|unf; repeat split; auto; inversion Gbs; auto].
      inversion Gbs as [| | |m0 E1 E2 E3|m0 E1 E2 E3| |]; subst m d; constructor; unf; fin.
      + replace (length (filter is_open (w_bors w)) + S a) with (S (S m0)) by lia. rewrite <- E1; constructor.
      + intros _. apply Gpres. eauto.
      + replace (length (filter is_open (w_bors w)) + S a) with (S (S m0)) by lia. rewrite <- E1; constructor.
  Qed.

  Lemma drop_borrow_ok : forall w n a b c, invg w n (S a) b c -> (c = 0 -> 1 <= weak_of w) ->
    fst (drop_borrow w) = OUnit /\ invg (snd (drop_borrow w)) n a b c.
  Proof.
    intros w n a b c G HW. open G. unfold drop_borrow.
    destruct (borrow_of w) as [| |m d| |] eqn:B; inversion Gbs as [E1 E2 E3|E1 E2 E3|E1 E2 E3|m0 E1 E2 E3|m0 E1 E2 E3|E1 E2 E3|E1 E2 E3]; try lia; subst m d.
    - destruct m0 as [|m0]; cbn [fst snd]; (split; [reflexivity|]); constructor; unf; fin.
      + replace (length (filter is_open (w_bors w)) + a) with 0 by lia. rewrite <- E1; constructor.
      + intros _. apply Gpres. eauto.
      + replace (length (filter is_open (w_bors w)) + a) with (S m0) by lia. rewrite <- E1; constructor.
      + intros _. apply Gpres. eauto.
    - destruct m0 as [|m0]; cbn [fst snd]; (split; [reflexivity|]); constructor; unf; fin.
      + replace (length (filter is_open (w_bors w)) + a) with 0 by lia. rewrite <- E1; constructor.
      + intros S0. specialize (HW S0). rewrite Galloc by auto. destruct (s_weak (w_store w)); [lia|reflexivity].
      + replace (length (filter is_open (w_bors w)) + a) with (S m0) by lia. rewrite <- E1; constructor.
  Qed.

  Lemma borrow_ok : forall w n p late r id (keep : bool), inv w n p late -> ref_var w r = Some id ->
    step_ok w n p late (if keep then NBorrow r else NRange r) (borrow_slice CMAX w r id keep).
  Proof.
    intros w n p late r id keep I H. assert (I' : inv w (S n) p late) by (eapply inv_mono; eauto). unfold borrow_slice.
    destruct (borrow_refs CMAX w) as [[w1|]|y|] eqn:BR; cbn [lift].
    2:{ apply ok_bool. auto. }
    2:{ apply ok_panic. auto. }
    2:{ unfold borrow_refs in BR. destruct (borrow_of w); try discriminate. destruct (count <? CMAX); discriminate. }
    destruct I as (a & b & c & G & H1 & H2 & H3).
    destruct (borrow_refs_ok _ _ _ _ _ _ G BR) as (G1 & T1 & TB1 & R1 & BO1 & Tc).
    assert (HV : ref_var w1 r = Some id) by (unfold ref_var in *; rewrite R1; auto).
    assert (HW : c = 0 -> 1 <= weak_of w1).
    { intros S0. pose proof (g_weak _ _ _ _ _ G1) as W. pose proof (ref_kept _ _ _ HV). lia. }
    destruct (drop_borrow_ok _ _ _ _ _ G1 HW) as (D1 & D2).
    assert (Done : forall bb, step_ok w n p late (if keep then NBorrow r else NRange r)
               match drop_borrow w1 with (OUnit, w3) => (OBool bb, w3) | q => q end).
    { intros bb. destruct (drop_borrow w1) as [o w3]. cbn [fst snd] in *. subst o. apply ok_bool. exists a, b, c. auto. }
    destruct id as [i|]; cbn [collapse_refs]; [|apply Done].
    destruct (get_cases _ _ _ _ _ _ _ G1 HV) as [(T & cc & q & E & _)|(T & E & _)].
    - unfold rv_get. rewrite E. cbn [lift]. destruct q.
      + destruct keep; [|apply Done]. apply ok_bool. exists a, b, c. split; [|auto]. open G1. constructor; unf; fin.
        * change (length (filter is_open ?l)) with (cnt is_open l) in *. rewrite cnt_snoc. cbn [b2n is_open].
          replace (cnt is_open (w_bors w1) + 1 + a) with (cnt is_open (w_bors w1) + S a) by lia. auto.
        * intros b0 r0 Hb. apply nth_snoc_inv in Hb. destruct Hb as [[_ Hb]|Hb]; [|eauto]. injection Hb as ->. exists (Some i). apply ref_nth; auto.
        * change (length (filter is_open ?l)) with (cnt is_open l) in *. rewrite cnt_snoc. cbn [b2n is_open]. lia.
      + right. cbn [fst snd]. split; [congruence|]. exists (S a), b, c. split; auto.
        assert (b2n (ref_call (if keep then NBorrow r else NRange r)) = 1) as -> by (destruct keep; reflexivity).
        split; [lia|]. split; [lia|auto].
    - rewrite E. cbn [lift]. right. cbn [fst snd]. split; [congruence|]. exists (S a), b, c.
      assert (b2n (ref_call (if keep then NBorrow r else NRange r)) = 1) as -> by (destruct keep; reflexivity).
      split; [|split; [lia|split; [lia|auto]]]. eapply lose_id; eauto.
  Qed.

  Lemma bors_app : forall (rs : list rvar) r x, (exists i, nth_error rs r = Some (RLive i)) -> exists i, nth_error (rs ++ [x]) r = Some (RLive i).
  Proof. intros rs r x [i H]. exists i. apply nth_app_l. auto. Qed.

  Lemma clone_step_ok : forall w n p late r id, inv w n p late -> ref_var w r = Some id -> n + 2 < CMAX ->
    step_ok w n p (late || negb (in_time w (NClone r))) (NClone r) (ref_clone CMAX w r id).
  Proof.
    intros w n p late r id (a & b & c & G & H1 & H2 & H3) H BD. unfold ref_clone. pose proof (ref_nth _ _ _ H) as HN.
    assert (Late : w_tree w = TDropping \/ w_tree w = TGone -> negb (in_time w (NClone r)) = true).
    { unfold in_time. intros [->| ->]; reflexivity. }
    assert (New : forall w1, invg w1 n a b c -> w_tree w1 = TDropping \/ w_tree w1 = TGone ->
              invg (set_refs w1 (w_refs w1 ++ [RLive None])) (S n) a b (S c)).
    { intros w1 G1 T. open G1. constructor; unf; fin.
      - intros NT. eapply tbl_refs; [eapply tbl_mono; [apply Gtbl; auto|lia]|]. intros r0 i E. apply nth_snoc_inv in E. destruct E as [[_ E]|E]; [discriminate|eauto].
      - intros [E|E]; destruct T; congruence.
      - intros b0 r0 Hb. apply bors_app. eauto.
      - change (length (filter is_kept ?l)) with (cnt is_kept l) in *. rewrite cnt_snoc. cbn [b2n is_kept]. lia. }
    destruct id as [i|].
    - destruct (table_readable w) eqn:R.
      + unfold bump_weak, weak_of. proj.
        assert (WB : s_weak (w_store w) < CMAX) by (pose proof (g_bound _ _ _ _ _ G) as Q; unfold weak_of in Q; lia).
        rewrite (proj2 (Nat.ltb_lt _ _) WB).
        destruct (get_cases _ _ _ _ _ _ _ G H) as [(T & cc & q & E & C1 & C2)|(T & _ & E)].
        * change (s_refs (w_store w)) with (table_of w) in *. rewrite (clone_ok _ _ _ _ E).
          assert (CB : cc < CMAX) by lia. rewrite (proj2 (Nat.ltb_lt _ _) CB). cbn [lift fst snd]. apply ok_unit.
          exists a, b, c. split; [|split; [auto|split; [auto|]]].
          2:{ destruct late; [discriminate|auto]. }
          assert (ID : replace_at r (RLive (Some i)) (replace_at r (RLive None) (w_refs w)) = w_refs w).
          { apply nth_error_ext_eq_help. intros j. destruct (Nat.eq_dec r j) as [<-|D].
            - rewrite replace_nth_same; [auto|]. rewrite replace_len. eapply nth_error_lt; eauto.
            - rewrite !replace_nth_other; auto. }
          open G. assert (TB := Gtbl T).
          assert (TB1 : tbl_ok (w_keys w) (w_refs w) {| rv_vals := replace_at i (Value (S cc) (SHandle q)) (rv_vals (table_of w)); rv_head := rv_head (table_of w) |} (S n))
            by (eapply tbl_set; eauto; lia).
          constructor; unf; rewrite ?ID; fin.
          -- intros _. constructor; try apply TB1. intros r0 j Hr. apply nth_snoc_inv in Hr. destruct Hr as [[_ Hr]|Hr].
             ++ injection Hr as ->. eapply (to_refs _ _ _ _ TB1); eauto.
             ++ eapply (to_refs _ _ _ _ TB1); eauto.
          -- intros TT r0 Hr. apply nth_snoc_inv in Hr. destruct Hr as [[_ Hr]|Hr]; [discriminate|]. eapply Gids; eauto.
          -- intros b0 r0 Hb. apply bors_app. eauto.
          -- change (length (filter is_kept ?l)) with (cnt is_kept l) in *. rewrite cnt_snoc. cbn [b2n is_kept]. lia.
          -- intros S0. rewrite Galloc by auto. inversion Gbs as [E1 E2|E1 E2|E1 E2|m0 E1 E2|m0 E1 E2|E1 E2|E1 E2]; try reflexivity; congruence.
          -- intros HB. eapply (present_set (table_of w)); eauto.
        * change (s_refs (w_store w)) with (table_of w) in *. rewrite E. cbn [lift].
          right. cbn [fst snd ref_call b2n]. split; [congruence|]. exists a, (S b), c.
          split; [|split; [lia|split; [lia|intros Q; rewrite Late in Q by auto; rewrite orb_true_r in Q; discriminate]]].
          pose proof (lose_id _ _ _ _ _ _ _ G (or_intror T) H) as G1. open G1. constructor; unf; fin.
          intros S0. rewrite Galloc by auto. unfold table_readable in R. unfold borrow_of in R.
          destruct (s_borrow (w_store w)); try reflexivity; discriminate.
      + assert (T : w_tree w = TDropping \/ w_tree w = TGone).
        { unfold table_readable in R. destruct G as [Gbs _ _ _ _ _ _ _ _ _ _]. inversion Gbs as [E1 E2|E1 E2|E1 E2|m0 E1 E2|m0 E1 E2|E1 E2|E1 E2]; rewrite <- E2 in R; try discriminate; auto. }
        apply ok_unit. exists a, b, (S c). split; [|split; [auto|split; [auto|intros Q; rewrite Late in Q by auto; rewrite orb_true_r in Q; discriminate]]].
        apply (New (set_id w r None)); [eapply lose_id; eauto|auto].
    - assert (T : w_tree w = TDropping \/ w_tree w = TGone).
      { pose proof (g_ids _ _ _ _ _ G) as Gids. destruct (w_tree w); auto; exfalso; eapply Gids; eauto. }
      apply ok_unit. exists a, b, (S c). split; [|split; [auto|split; [auto|intros Q; rewrite Late in Q by auto; rewrite orb_true_r in Q; discriminate]]].
      apply New; auto.
  Qed.

  Lemma not_borrowed : forall w r b, borrowed_from w r = false -> nth_error (w_bors w) b <> Some (BLive r).
  Proof.
    intros w r b H E. unfold borrowed_from in H. assert (existsb (fun b => match b with BLive r' => r' =? r | _ => false end) (w_bors w) = true); [|congruence].
    apply existsb_exists. exists (BLive r). split; [eapply nth_error_In; eauto|apply Nat.eqb_refl].
  Qed.

  (** A reference that nobody borrows from goes away. *)
  Lemma bor_other : forall w n a b c r x, invg w n a b c -> borrowed_from w r = false ->
    forall b0 r0, nth_error (w_bors w) b0 = Some (BLive r0) -> exists id, nth_error (replace_at r x (w_refs w)) r0 = Some (RLive id).
  Proof.
    intros w n a b c r x G B b0 r0 Hb. destruct (g_bor _ _ _ _ _ G _ _ Hb) as [i Hi]. exists i.
    rewrite replace_nth_other; auto. intros <-. eapply not_borrowed; eauto.
  Qed.

  Lemma drop_step_ok : forall w n p late r id, inv w n p late -> ref_var w r = Some id -> borrowed_from w r = false -> w_alloc_freed w = 0 ->
    step_ok w n p late (NDrop r) (ref_drop w r).
  Proof.
    intros w n p late r id (a & b & c & G & H1 & H2 & H3) H B F. pose proof (ref_nth _ _ _ H) as HN. unfold ref_drop.
    destruct (weak_of w) as [|m] eqn:W.
    - destruct late; [left; auto|]. exfalso. pose proof (g_weak _ _ _ _ _ G) as GW. pose proof (ref_kept _ _ _ H). rewrite W, H3 in GW by auto. lia.
    - apply ok_unit. exists a, b, c. split; [|auto].
      pose proof (bor_other _ _ _ _ _ r RDead G B) as BO.
      change (length (filter is_kept (w_refs w))) with (cnt is_kept (w_refs w)) in *.
      pose proof (cnt_replace is_kept r RDead _ _ HN) as C. cbn [b2n is_kept] in C.
      open G.
      set (w1 := set_refs (set_weak w m) (replace_at r RDead (w_refs w))).
      assert (TR : w_tree w <> TGone -> tbl_ok (w_keys w) (replace_at r RDead (w_refs w)) (table_of w) (S n)).
      { intros NT. eapply tbl_refs; [eapply tbl_mono; [apply Gtbl; auto|lia]|]. intros r0 i E. apply nth_replace in E. destruct E as [[_ E]|[_ E]]; [discriminate|eauto]. }
      assert (TI : w_tree w = TIdle \/ w_tree w = TInserting -> forall r0, nth_error (replace_at r RDead (w_refs w)) r0 <> Some (RLive None)).
      { intros TT r0 E. apply nth_replace in E. destruct E as [[_ E]|[_ E]]; [discriminate|]. eapply Gids; eauto. }
      destruct (match m, borrow_of w with O, Dropped => true | _, _ => false end) eqn:D.
      + destruct m; [|discriminate]. destruct (borrow_of w) eqn:BB; try discriminate.
        constructor; unfold w1; unf; rewrite ?BB in *; change (length (filter is_kept ?l)) with (cnt is_kept l) in *; fin.
        * intros _. rewrite F. reflexivity.
        * split; [lia|auto].
      + assert (Q : match m with 0 => match borrow_of w with Dropped => dealloc w1 | _ => w1 end | S _ => w1 end = w1).
        { destruct m; auto. destruct (borrow_of w); auto. discriminate. }
        rewrite Q. constructor; unfold w1; unf; change (length (filter is_kept ?l)) with (cnt is_kept l) in *; fin.
        * intros S0. rewrite Galloc by auto. rewrite W. destruct (s_borrow (w_store w)); auto. destruct m; [discriminate|reflexivity].
  Qed.

  Lemma forget_ok : forall w n p late r id, inv w n p late -> ref_var w r = Some id -> borrowed_from w r = false ->
    step_ok w n p late (NForget r) (OUnit, set_refs w (replace_at r RForgot (w_refs w))).
  Proof.
    intros w n p late r id (a & b & c & G & H1 & H2 & H3) H B. pose proof (ref_nth _ _ _ H) as HN.
    apply ok_unit. exists a, b, c. split; [|auto].
    pose proof (bor_other _ _ _ _ _ r RForgot G B) as BO.
    pose proof (cnt_replace is_kept r RForgot _ _ HN) as C. cbn [b2n is_kept] in C. open G. constructor; unf; fin.
    - intros NT. eapply tbl_refs; [eapply tbl_mono; [apply Gtbl; auto|lia]|]. intros r0 i E. apply nth_replace in E. destruct E as [[_ E]|[_ E]]; [discriminate|eauto].
    - intros TT r0 E. apply nth_replace in E. destruct E as [[_ E]|[_ E]]; [discriminate|]. eapply Gids; eauto.
    - change (length (filter is_kept ?l)) with (cnt is_kept l) in *. lia.
  Qed.

  Lemma bclone_ok : forall w n p late x r, inv w n p late -> bor_var w x = Some r -> step_ok w n p late (NBClone x) (bor_clone CMAX w r).
  Proof.
    intros w n p late x r I H. pose proof I as (a & b & c & G & H1 & H2 & H3). pose proof (bor_nth _ _ _ H) as HN.
    pose proof (cnt_pos is_open _ _ _ HN eq_refl) as CP.
    unfold bor_clone. open G. destruct (borrow_of w) as [| |m d| |] eqn:BB;
      try (exfalso; inversion Gbs as [E1 E2 E3|E1 E2 E3|E1 E2 E3|m0 E1 E2 E3|m0 E1 E2 E3|E1 E2 E3|E1 E2 E3]; unfold open_borrows, cnt in *; lia).
    destruct (m <? CMAX) eqn:L; [|apply ok_panic; auto].
    apply ok_unit. exists a, b, c. split; [|auto].
    assert (E : cnt is_open (w_bors w ++ [BLive r]) = S (cnt is_open (w_bors w))) by (rewrite cnt_snoc; cbn [b2n is_open]; lia).
    unfold open_borrows in *. change (length (filter is_open ?l)) with (cnt is_open l) in *.
    inversion Gbs as [E1 E2 E3|E1 E2 E3|E1 E2 E3|m0 E1 E2 E3|m0 E1 E2 E3|E1 E2 E3|E1 E2 E3]; subst m d; constructor; unf;
      change (length (filter is_open ?l)) with (cnt is_open l) in *; rewrite ?E; fin.
    - replace (S (cnt is_open (w_bors w)) + a) with (S (S m0)) by lia. rewrite <- E1; constructor.
    - intros b0 r0 Hb. apply nth_snoc_inv in Hb. destruct Hb as [[_ Hb]|Hb]; [|eauto]. injection Hb as ->. eauto.
    - intros _. apply Gpres. eauto.
    - replace (S (cnt is_open (w_bors w)) + a) with (S (S m0)) by lia. rewrite <- E1; constructor.
    - intros b0 r0 Hb. apply nth_snoc_inv in Hb. destruct Hb as [[_ Hb]|Hb]; [|eauto]. injection Hb as ->. eauto.
  Qed.

  Lemma bdrop_ok : forall w n p late x r, inv w n p late -> bor_var w x = Some r ->
    step_ok w n p late (NBDrop x) (drop_borrow (set_bors w (replace_at x BDead (w_bors w)))).
  Proof.
    intros w n p late x r (a & b & c & G & H1 & H2 & H3) H. pose proof (bor_nth _ _ _ H) as HN.
    pose proof (cnt_replace is_open x BDead _ _ HN) as C. cbn [b2n is_open] in C.
    assert (G1 : invg (set_bors w (replace_at x BDead (w_bors w))) n (S a) b c).
    { open G. constructor; unf; change (length (filter is_open ?l)) with (cnt is_open l) in *; fin.
      - replace (cnt is_open (replace_at x BDead (w_bors w)) + S a) with (cnt is_open (w_bors w) + a) by lia. auto.
      - intros b0 r0 Hb. apply nth_replace in Hb. destruct Hb as [[_ Hb]|[_ Hb]]; [discriminate|eauto]. }
    destruct (drop_borrow_ok _ _ _ _ _ G1) as (D1 & D2).
    - intros S0. pose proof (g_weak _ _ _ _ _ G1) as W. destruct (g_bor _ _ _ _ _ G _ _ HN) as [i Hi].
      pose proof (cnt_pos is_kept _ _ _ Hi eq_refl) as CP. unfold kept_refs, cnt in *. proj. lia.
    - destruct (drop_borrow (set_bors w (replace_at x BDead (w_bors w)))) as [o w3]. cbn [fst snd] in *. subst o.
      apply ok_unit. eapply inv_mono; [exists a, b, c; eauto|lia|lia|auto].
  Qed.

  Lemma bforget_ok : forall w n p late x r, inv w n p late -> bor_var w x = Some r ->
    step_ok w n p late (NBForget x) (OUnit, set_bors w (replace_at x BForgot (w_bors w))).
  Proof.
    intros w n p late x r (a & b & c & G & H1 & H2 & H3) H. pose proof (bor_nth _ _ _ H) as HN.
    pose proof (cnt_replace is_open x BForgot _ _ HN) as C. cbn [b2n is_open] in C.
    apply ok_unit. eapply inv_mono; [exists a, b, c; split; [|eauto]|apply le_S, le_n|lia|eauto].
    open G. constructor; unf; change (length (filter is_open ?l)) with (cnt is_open l) in *; fin.
    - replace (cnt is_open (replace_at x BForgot (w_bors w)) + a) with (cnt is_open (w_bors w) + a) by lia. auto.
    - intros b0 r0 Hb. apply nth_replace in Hb. destruct Hb as [[_ Hb]|[_ Hb]]; [discriminate|eauto].
  Qed.

  (** *** All calls *)

  Lemma nstep_ok : forall w n p late o r, inv w n p late -> n + 2 < CMAX -> nstep CMAX w o = Some r ->
    step_ok w n p (late || negb (in_time w o)) o r.
  Proof.
    intros w n p late o r I BD H.
    assert (IL : forall o', (forall r', o' <> NClone r') -> late || negb (in_time w o') = late).
    { intros o' D. unfold in_time. destruct o'; try (rewrite orb_false_r; reflexivity). exfalso. eapply D; eauto. }
    destruct o as [|i| | | | |k|r0|r0|r0|r0|r0|r0|r0|b0|b0|b0]; try (rewrite IL by congruence); cbn [nstep] in H;
      change (fun p0 : outcome * world => if w_alloc_freed w =? 0 then p0 else (OUB, w)) with (touched w) in H;
      change (if w_alloc_freed w =? 0 then ?x else (OUB, w)) with (touched w x) in H.
    - destruct (w_tree w) eqn:T; try discriminate. injection H as <-. apply touch_tree; auto; [congruence|]. apply ins_begin_ok; auto.
    - destruct (w_tree w) eqn:T; try discriminate. destruct (insert_step CMAX w i) as [[out w1]|] eqn:E; [|discriminate].
      destruct (istep_ok _ _ _ _ _ _ I T E) as (N & I1 & T1). cbn [fst snd] in *.
      change (if w_alloc_freed w =? 0 then ?x else (OUB, w)) with (touched w x) in H.
      assert (touched w (out, w1) = (out, w1)) as TT.
      { destruct I as (a & b & c & G & _). unfold touched. rewrite (alive_tree _ _ _ _ _ G) by congruence. reflexivity. }
      destruct out; try congruence; injection H as <-; try (rewrite TT; first [apply ok_unit|apply ok_bool]; auto; fail).
      apply touch_tree; auto; [congruence|]. right. cbn [fst snd ref_call b2n]. split; [congruence|]. rewrite Nat.add_0_r. apply stop_ok; auto.
    - destruct (w_tree w) eqn:T; try discriminate. destruct (all_present w) eqn:AP; [|discriminate]. injection H as <-.
      apply touch_tree; auto; [congruence|]. apply ins_end_ok; auto.
    - destruct (w_tree w) eqn:T; try discriminate. injection H as <-. apply ok_unit. eapply inv_mono; [apply stop_ok; eauto|lia|lia|auto].
    - destruct (w_tree w) eqn:T; try discriminate. injection H as <-. apply touch_tree; auto; [congruence|]. apply drop_begin_ok; auto.
    - destruct (w_tree w) eqn:T; try discriminate. injection H as <-. apply touch_tree; auto; [congruence|]. apply drop_end_ok; auto.
    - destruct (w_tree w) eqn:T; try discriminate. destruct (make_ref CMAX w k) as [q|] eqn:E; [|discriminate]. injection H as <-.
      apply touch_tree; auto; [congruence|]. apply make_ok; auto.
    - destruct (ref_var w r0) as [id|] eqn:V; [|discriminate]. injection H as <-.
      pose proof (clone_step_ok _ _ _ _ _ _ I V BD) as S.
      eapply touch_ref; eauto. eapply inv_mono; eauto. intros Q. apply orb_false_iff in Q. apply Q.
    - destruct (ref_var w r0) as [id|] eqn:V; [|discriminate]. destruct (borrowed_from w r0) eqn:B; [discriminate|]. injection H as <-.
      eapply touch_ref; eauto. intros F. eapply drop_step_ok; eauto.
    - destruct (ref_var w r0) as [id|] eqn:V; [|discriminate]. destruct (borrowed_from w r0) eqn:B; [discriminate|]. injection H as <-.
      eapply forget_ok; eauto.
    - destruct (ref_var w r0) as [id|] eqn:V; [|discriminate]. injection H as <-. eapply touch_ref; eauto. intros _. apply is_valid_ok; auto.
    - destruct (ref_var w r0) as [id|] eqn:V; [|discriminate]. injection H as <-. eapply touch_ref; eauto. intros _.
      apply ok_bool. eapply inv_mono; eauto.
    - destruct (ref_var w r0) as [id|] eqn:V; [|discriminate]. injection H as <-. eapply touch_ref; eauto. intros _.
      apply (borrow_ok _ _ _ _ _ _ true); auto.
    - destruct (ref_var w r0) as [id|] eqn:V; [|discriminate]. injection H as <-. eapply touch_ref; eauto. intros _.
      apply (borrow_ok _ _ _ _ _ _ false); auto.
    - destruct (bor_var w b0) as [id|] eqn:V; [|discriminate]. injection H as <-. eapply touch_bor; eauto. apply bclone_ok; auto.
    - destruct (bor_var w b0) as [id|] eqn:V; [|discriminate]. injection H as <-. eapply touch_bor; eauto. eapply bdrop_ok; eauto.
    - destruct (bor_var w b0) as [id|] eqn:V; [|discriminate]. injection H as <-. eapply bforget_ok; eauto.
  Qed.

  (** *** Histories *)

  Lemma nrun_ok : forall os w n p late outs w', inv w n p late -> n + length os + 2 <= CMAX -> nrun CMAX w os = Some (outs, w') ->
    (late || negb (clones_in_time CMAX w os) = false -> ~ In OUB outs) /\
    (~ In OUB outs -> inv w' (n + length os) (p + ref_panics os outs) (late || negb (clones_in_time CMAX w os))).
  Proof.
    induction os as [|o os IH]; intros w n p late outs w' I BD H; cbn [nrun] in H.
    - injection H as <- <-. cbn [clones_in_time negb length ref_panics In]. split; [auto|]. intros _.
      rewrite orb_false_r. eapply inv_mono; eauto; lia.
    - destruct (nstep CMAX w o) as [[out w1]|] eqn:E; [|discriminate]. cbn [length] in BD.
      pose proof (nstep_ok _ _ _ _ _ _ I ltac:(lia) E) as S. cbn [clones_in_time]. rewrite E.
      assert (LL : late || negb (in_time w o && clones_in_time CMAX w1 os) = (late || negb (in_time w o)) || negb (clones_in_time CMAX w1 os)).
      { rewrite negb_andb, orb_assoc. reflexivity. }
      rewrite LL. destruct S as [[S1 S2]|[S1 S2]]; cbn [fst snd] in *.
      + subst out. injection H as <- <-. rewrite S2. cbn [orb]. split; [discriminate|]. intros N. exfalso. apply N. left. reflexivity.
      + assert (H' : match nrun CMAX w1 os with Some (outs0, w2) => Some (out :: outs0, w2) | None => None end = Some (outs, w')) by (destruct out; auto; congruence).
        destruct (nrun CMAX w1 os) as [[outs0 w2]|] eqn:E2; [|discriminate]. injection H' as <- <-.
        destruct (IH _ _ _ _ _ _ S2 ltac:(cbn; lia) E2) as [A1 A2]. split.
        * intros Q. cbn [In]. intros [->|Hin]; [congruence|]. apply A1; auto.
        * intros N. assert (N' : ~ In OUB outs0) by (intros Q; apply N; right; auto). specialize (A2 N').
          replace (n + length (o :: os)) with (S n + length os) by (cbn [length]; lia). cbn [length].
          eapply inv_mono; [exact A2|lia| |auto]. destruct out; cbn [ref_panics]; unfold b2n; destruct (ref_call o); lia.
  Qed.
End Inv.
