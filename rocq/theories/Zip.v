(** Zippers into a node, and evaluation of the node operations on them.  Proof support only. *)
From Coq Require Import List ZArith Bool Arith Lia.
From Verif Require Import Base Index Slice Tree.
Import ListNotations.

Section Lists.
  Context {A : Type}.

  Lemma firstn_app_len : forall (a b : list A), firstn (length a) (a ++ b) = a.
  Proof. induction a; simpl; intros; [reflexivity | f_equal; auto]. Qed.

  Lemma skipn_app_len : forall (a b : list A), skipn (length a) (a ++ b) = b.
  Proof. induction a; simpl; intros; auto. Qed.

  Lemma nth_error_app_len : forall (a b : list A) i,
    nth_error (a ++ b) (length a + i) = nth_error b i.
  Proof. induction a; simpl; intros; auto. Qed.

  Lemma insert_at_app : forall (a b : list A) x, insert_at (length a) x (a ++ b) = a ++ x :: b.
  Proof. intros; unfold insert_at. rewrite firstn_app_len, skipn_app_len. reflexivity. Qed.

  Lemma replace_at_app : forall (a b : list A) x y,
    replace_at (length a) y (a ++ x :: b) = a ++ y :: b.
  Proof. intros; unfold replace_at. rewrite firstn_app_len, skipn_app_len. reflexivity. Qed.

  Lemma replace_at_length : forall i y (l : list A), length (replace_at i y l) = length l.
  Proof.
    intros; unfold replace_at. destruct (skipn i l) eqn:E; [reflexivity|].
    rewrite <- (firstn_skipn i l) at 2. rewrite E, !app_length. reflexivity.
  Qed.

  Lemma split_list_at : forall n (l : list A), n <= length l ->
    exists a b, l = a ++ b /\ length a = n.
  Proof.
    intros. exists (firstn n l), (skipn n l). split.
    - symmetry; apply firstn_skipn.
    - apply firstn_length_le; assumption.
  Qed.
End Lists.

Section Zip.
  Context {I V : Type}.
  Notation tree := (tree I V).
  Notation entry := (entry_of I V) (only parsing).

  (** Entries left of a child, each key paired with the child to its left. *)
  Notation lentry := (prod tree (I * V)%type) (only parsing).

  Fixpoint asm (lft : list lentry) (ch : tree) (rgt : list entry) : tree * list entry :=
    match lft with
    | [] => (ch, rgt)
    | (a, k) :: lft' => let r := asm lft' ch rgt in (a, (k, fst r) :: snd r)
    end.

  Definition node (tot : I) (lft : list lentry) (ch : tree) (rgt : list entry) : tree :=
    Node tot (fst (asm lft ch rgt)) (snd (asm lft ch rgt)).

  Lemma asm_length : forall lft ch rgt, length (snd (asm lft ch rgt)) = length lft + length rgt.
  Proof. induction lft as [|[a k] l IH]; simpl; intros; [reflexivity | f_equal; apply IH]. Qed.

  Lemma asm_split : forall c c0 es, c <= length es ->
    exists lft ch rgt, asm lft ch rgt = (c0, es) /\ length lft = c.
  Proof.
    induction c as [|c IH]; intros c0 es H.
    - exists [], c0, es. auto.
    - destruct es as [|[k c1] es]; simpl in H; [lia|].
      destruct (IH c1 es) as (lft & ch & rgt & E & L); [lia|].
      exists ((c0, k) :: lft), ch, rgt. simpl. rewrite E. simpl. auto.
  Qed.

  Lemma asm_app : forall l1 l2 ch rgt,
    asm (l1 ++ l2) ch rgt = asm l1 (fst (asm l2 ch rgt)) (snd (asm l2 ch rgt)).
  Proof.
    induction l1 as [|[a k] l IH]; simpl; intros.
    - destruct (asm l2 ch rgt); reflexivity.
    - rewrite IH. reflexivity.
  Qed.

  Lemma asm_snoc : forall lft ch k ch' rgt,
    asm (lft ++ [(ch, k)]) ch' rgt = asm lft ch ((k, ch') :: rgt).
  Proof. intros. rewrite asm_app. reflexivity. Qed.

  Lemma asm_fst : forall lft ch rgt rgt', fst (asm lft ch rgt) = fst (asm lft ch rgt').
  Proof. destruct lft as [|[a k] l]; reflexivity. Qed.

  Lemma asm_app_r : forall lft ch r1 r2, snd (asm lft ch (r1 ++ r2)) = snd (asm lft ch r1) ++ r2.
  Proof.
    induction lft as [|[a k] l IH]; simpl; intros; [reflexivity|].
    rewrite IH. f_equal. f_equal. apply asm_fst.
  Qed.

  Lemma asm_snd : forall lft ch rgt, snd (asm lft ch rgt) = snd (asm lft ch []) ++ rgt.
  Proof. intros. rewrite <- asm_app_r. reflexivity. Qed.

  Lemma asm_nil_length : forall lft ch, length (snd (asm lft ch [])) = length lft.
  Proof. intros. rewrite asm_length. simpl. lia. Qed.

  Lemma node_snoc : forall tot lft ch k ch' rgt,
    node tot (lft ++ [(ch, k)]) ch' rgt = node tot lft ch ((k, ch') :: rgt).
  Proof. intros. unfold node. rewrite asm_snoc. reflexivity. Qed.

  Lemma node_tlen : forall tot lft ch rgt, tlen (node tot lft ch rgt) = length lft + length rgt.
  Proof. intros. unfold tlen, node, keys. apply asm_length. Qed.

  Lemma node_tsize : forall tot lft ch rgt, tsize (node tot lft ch rgt) = Ok tot.
  Proof. reflexivity. Qed.

  Lemma node_nth : forall tot lft ch rgt i,
    nth_error (keys (node tot lft ch rgt)) (length lft + i) = nth_error rgt i.
  Proof.
    intros. unfold node, keys. rewrite asm_snd. rewrite <- (asm_nil_length lft ch) at 1.
    apply nth_error_app_len.
  Qed.

  Lemma node_nth0 : forall tot lft ch rgt,
    nth_error (keys (node tot lft ch rgt)) (length lft) = hd_error rgt.
  Proof.
    intros. rewrite <- (Nat.add_0_r (length lft)) at 1. rewrite node_nth. destruct rgt; reflexivity.
  Qed.

  Lemma node_child : forall tot lft ch rgt, child (node tot lft ch rgt) (length lft) = Ok ch.
  Proof.
    intros. unfold child, node, child_of.
    destruct lft as [|a l _] using rev_ind; [reflexivity|].
    destruct a as [a k].
    rewrite app_length, asm_snoc. simpl length. rewrite Nat.add_1_r. cbv iota.
    unfold nth_ub.
    pose proof (node_nth tot l a ((k, ch) :: rgt) 0) as H. rewrite Nat.add_0_r in H.
    unfold keys, node in H. rewrite H. reflexivity.
  Qed.

  Lemma node_set_child : forall tot lft ch rgt ch',
    set_child (node tot lft ch rgt) (length lft) ch' = Ok (node tot lft ch' rgt).
  Proof.
    intros. unfold set_child, node.
    destruct lft as [|a l _] using rev_ind; [reflexivity|].
    destruct a as [a k].
    rewrite app_length, !asm_snoc. simpl length. rewrite Nat.add_1_r.
    unfold nth_ub.
    pose proof (node_nth tot l a ((k, ch) :: rgt) 0) as H. rewrite Nat.add_0_r in H.
    unfold keys, node in H. rewrite H. simpl.
    f_equal. f_equal.
    - apply asm_fst.
    - rewrite (asm_snd l a ((k, ch) :: rgt)), (asm_snd l a ((k, ch') :: rgt)).
      rewrite <- (asm_nil_length l a) at 1. apply replace_at_app.
  Qed.

  Lemma node_key_pos : forall tot lft ch p s c' rgt,
    key_pos (node tot lft ch ((p, s, c') :: rgt)) (length lft) = Ok p.
  Proof. intros. unfold key_pos, nth_ub. rewrite node_nth0. reflexivity. Qed.

  Lemma node_try_key_pos : forall tot lft ch rgt,
    try_key_pos (node tot lft ch rgt) (length lft) = option_map e_pos (hd_error rgt).
  Proof. intros. unfold try_key_pos. rewrite node_nth0. reflexivity. Qed.

  (** Position of the first key right of the zipper, or the total. *)
  Definition next_pos (tot : I) (rgt : list entry) : I :=
    match rgt with [] => tot | e :: _ => e_pos e end.

  Lemma node_key_pos_or_end : forall tot lft ch rgt,
    key_pos_or_end (node tot lft ch rgt) (length lft) = Ok (next_pos tot rgt).
  Proof.
    intros. unfold key_pos_or_end. rewrite node_try_key_pos. destruct rgt; reflexivity.
  Qed.

  Lemma node_key_pos_or_end1 : forall tot lft ch e rgt,
    key_pos_or_end (node tot lft ch (e :: rgt)) (length lft + 1) = Ok (next_pos tot rgt).
  Proof.
    intros. unfold key_pos_or_end, try_key_pos. rewrite node_nth. simpl. destruct rgt; reflexivity.
  Qed.

  Lemma node_child1 : forall tot lft ch k ch' rgt,
    child (node tot lft ch ((k, ch') :: rgt)) (length lft + 1) = Ok ch'.
  Proof.
    intros. rewrite <- node_snoc.
    replace (length lft + 1) with (length (lft ++ [(ch, k)])) by (rewrite app_length; reflexivity).
    apply node_child.
  Qed.

  Lemma node_slice_at : forall tot lft ch p s c' rgt,
    slice_at (node tot lft ch ((p, s, c') :: rgt)) (length lft) = Ok s.
  Proof. intros. unfold slice_at, nth_ub. rewrite node_nth0. reflexivity. Qed.

  Lemma node_set_slice : forall tot lft ch p s c' rgt s',
    set_slice (node tot lft ch ((p, s, c') :: rgt)) (length lft) s'
    = Ok (node tot lft ch ((p, s', c') :: rgt)).
  Proof.
    intros.
    pose proof (node_nth0 tot lft ch ((p, s, c') :: rgt)) as H.
    unfold set_slice, node in *. simpl in H. unfold nth_ub. rewrite H. simpl.
    f_equal. f_equal.
    - apply asm_fst.
    - rewrite (asm_snd _ _ ((p, s, c') :: rgt)), (asm_snd _ _ ((p, s', c') :: rgt)).
      rewrite <- (asm_nil_length lft ch) at 1. apply replace_at_app.
  Qed.

  Lemma node_set_single_key_pos : forall tot lft ch p s c' rgt p',
    set_single_key_pos (node tot lft ch ((p, s, c') :: rgt)) (length lft) p'
    = Ok (node tot lft ch ((p', s, c') :: rgt)).
  Proof.
    intros.
    pose proof (node_nth0 tot lft ch ((p, s, c') :: rgt)) as H.
    unfold set_single_key_pos, node in *. simpl in H. unfold nth_ub. rewrite H. simpl.
    f_equal. f_equal.
    - apply asm_fst.
    - rewrite (asm_snd _ _ ((p, s, c') :: rgt)), (asm_snd _ _ ((p', s, c') :: rgt)).
      rewrite <- (asm_nil_length lft ch) at 1. apply replace_at_app.
  Qed.

  Lemma node_set_subtree_size : forall tot lft ch rgt z,
    set_subtree_size (node tot lft ch rgt) z = Ok (node z lft ch rgt).
  Proof. reflexivity. Qed.

  Lemma node_insert_key_and_child : forall M tot lft ch rgt s ch',
    length lft + length rgt < 2 * M ->
    insert_key_and_child M (node tot lft ch rgt) (length lft) s ch'
    = Ok (node tot lft ch ((next_pos tot rgt, s, ch') :: rgt), next_pos tot rgt).
  Proof.
    intros M tot lft ch rgt s ch' H.
    pose proof (node_key_pos_or_end tot lft ch rgt) as Hk.
    unfold insert_key_and_child, node in *.
    rewrite asm_length.
    destruct (Nat.ltb_spec (length lft + length rgt) (length lft)); [lia|].
    destruct (Nat.leb_spec (max_len M) (length lft + length rgt)); [unfold max_len in *; lia|].
    simpl orb. cbv iota. rewrite Hk. simpl. f_equal. f_equal. f_equal.
    - apply asm_fst.
    - rewrite (asm_snd lft ch rgt), (asm_snd lft ch (_ :: rgt)).
      rewrite <- (asm_nil_length lft ch) at 1. apply insert_at_app.
  Qed.

  Lemma node_push_key_and_child : forall M tot lft ch s ch' tot',
    length lft < 2 * M ->
    push_key_and_child M (node tot lft ch []) s ch' tot'
    = Ok (node tot' lft ch [(tot, s, ch')]).
  Proof.
    intros. unfold push_key_and_child, node. rewrite asm_length. simpl length.
    destruct (Nat.leb_spec (max_len M) (length lft + 0)); [unfold max_len in *; lia|].
    f_equal. f_equal.
    - apply asm_fst.
    - symmetry. apply asm_snd.
  Qed.

  Lemma node_split : forall tot lft ch p s ch' rgt,
    split (node tot lft ch ((p, s, ch') :: rgt)) (length lft)
    = Ok (node tot lft ch [], (p, s), Node tot ch' rgt).
  Proof.
    intros.
    pose proof (node_nth0 tot lft ch ((p, s, ch') :: rgt)) as H.
    unfold split, node in *. simpl in H. unfold nth_ub. rewrite H. simpl.
    f_equal. f_equal; [f_equal; f_equal|].
    - apply asm_fst.
    - rewrite (asm_snd lft ch (_ :: rgt)).
      pose proof (firstn_app_len (snd (asm lft ch [])) ((p, s, ch') :: rgt)) as F.
      rewrite asm_nil_length in F. exact F.
    - unfold e_child; simpl. f_equal.
      rewrite <- asm_snoc, asm_snd.
      replace (length lft + 1) with (length (snd (asm (lft ++ [(ch, (p, s))]) ch' [])))
        by (rewrite asm_nil_length, app_length; reflexivity).
      apply skipn_app_len.
  Qed.

  Lemma node_split_r : forall tot lft ch r1 p s ch' r2,
    split (node tot lft ch (r1 ++ (p, s, ch') :: r2)) (length lft + length r1)
    = Ok (node tot lft ch r1, (p, s), Node tot ch' r2).
  Proof.
    intros.
    pose proof (node_nth tot lft ch (r1 ++ (p, s, ch') :: r2) (length r1)) as H.
    rewrite <- (Nat.add_0_r (length r1)) in H at 2. rewrite nth_error_app_len in H.
    unfold split, node in *. simpl in H. unfold nth_ub. rewrite H. simpl.
    rewrite asm_app_r.
    pose proof (firstn_app_len (snd (asm lft ch r1)) ((p, s, ch') :: r2)) as F.
    rewrite asm_length in F. rewrite F.
    rewrite (asm_fst lft ch _ r1).
    replace (length lft + length r1 + 1) with (length (snd (asm lft ch r1) ++ [(p, s, ch')]))
      by (rewrite app_length, asm_length; reflexivity).
    change (snd (asm lft ch r1) ++ (p, s, ch') :: r2)
      with (snd (asm lft ch r1) ++ [(p, s, ch')] ++ r2).
    rewrite app_assoc, skipn_app_len. reflexivity.
  Qed.

  Lemma node_split_l : forall tot l1 a p s l2 ch rgt,
    split (node tot (l1 ++ (a, (p, s)) :: l2) ch rgt) (length l1)
    = Ok (node tot l1 a [], (p, s), node tot l2 ch rgt).
  Proof.
    intros. unfold node at 1. rewrite asm_app. cbn [asm fst snd].
    apply node_split.
  Qed.

  Lemma mapM_ok : forall {A B} (f : A -> res B) (g : A -> B) l,
    (forall a, In a l -> f a = Ok (g a)) -> mapM f l = Ok (map g l).
  Proof.
    induction l as [|a l IH]; simpl; intros H; [reflexivity|].
    rewrite (H a) by auto. simpl. rewrite IH by auto. reflexivity.
  Qed.

  (** A shift touching exactly the keys right of the zipper. *)
  Lemma node_set_key_poss : forall tot lft ch rgt f tot' rgt',
    f tot = Ok tot' ->
    mapM (fun e : entry => let* p := f (e_pos e) in Ok (p, e_slice e, e_child e)) rgt = Ok rgt' ->
    set_key_poss_with (node tot lft ch rgt) f (length lft) = Ok (node tot' lft ch rgt').
  Proof.
    intros. unfold set_key_poss_with, node. rewrite asm_length.
    destruct (Nat.ltb_spec (length lft + length rgt) (length lft)); [lia|].
    rewrite (asm_snd lft ch rgt), (asm_snd lft ch rgt').
    pose proof (firstn_app_len (snd (asm lft ch [])) rgt) as F.
    pose proof (skipn_app_len (snd (asm lft ch [])) rgt) as K.
    rewrite asm_nil_length in F, K. rewrite F, K, H0. simpl. rewrite H. simpl.
    f_equal. f_equal. apply asm_fst.
  Qed.

  Lemma node_nil : forall tot c0 es, Node tot c0 es = node tot [] c0 es.
  Proof. reflexivity. Qed.

  Lemma node_zip : forall tot c0 es c, c <= length es ->
    exists lft ch rgt, Node tot c0 es = node tot lft ch rgt /\ length lft = c.
  Proof.
    intros. destruct (asm_split c c0 es H) as (lft & ch & rgt & E & L).
    exists lft, ch, rgt. unfold node. rewrite E. auto.
  Qed.
End Zip.
