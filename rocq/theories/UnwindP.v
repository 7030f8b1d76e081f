(** What an insertion that panics leaves: shape and slices.  Nodes and single steps.  Proof support only. *)
From Coq Require Import List ZArith Bool Arith Lia Permutation.
From Verif Require Import Base Index Slice Tree Insert Crash Wild WildQ Hist Unwind UnwindSpec.
Import ListNotations.

(** ** Accounting *)
Section Parts.
  Context {V : Type}.

  Lemma parts_keep : forall (p a b w : list V), parts a b w -> parts (p ++ a) b (p ++ w).
  Proof. induction p; intros; cbn [app]; [assumption|]. constructor. auto. Qed.
  Lemma parts_drop : forall (p a b w : list V), parts a b w -> parts a (p ++ b) (p ++ w).
  Proof. induction p; intros; cbn [app]; [assumption|]. constructor. auto. Qed.
  Lemma parts_len : forall (a b w : list V), parts a b w -> length w = length a + length b.
  Proof. induction 1; cbn [length]; lia. Qed.
  Lemma parts_lost_all : forall (p : list V), parts [] p p.
  Proof. induction p; constructor; auto. Qed.
  Lemma parts_left_all : forall (p : list V), parts p [] p.
  Proof. induction p; constructor; auto. Qed.
  Lemma parts_app : forall (a b w a' b' w' : list V), parts a b w -> parts a' b' w' -> parts (a ++ a') (b ++ b') (w ++ w').
  Proof. intros a b w a' b' w' H K. induction H; cbn [app]; [exact K|constructor; auto|constructor; auto]. Qed.

  Lemma acc_all : forall (a : list V), accounted a [] a.
  Proof. intros a. exists []. split; [constructor|apply parts_left_all]. Qed.
  Lemma acc_keep : forall (p a b w : list V), accounted a b w -> accounted (p ++ a) b (p ++ w).
  Proof. intros p a b w (l & H & K). exists l. split; [exact H|]. apply parts_keep, K. Qed.
  Lemma acc_keep_r : forall (p a b w : list V), accounted a b w -> accounted (a ++ p) b (w ++ p).
  Proof.
    intros p a b w (l & H & K). exists l. split; [exact H|]. rewrite <- (app_nil_r l). apply parts_app; [exact K|apply parts_left_all].
  Qed.
  Lemma acc_len : forall (a b w : list V), accounted a b w -> length w = length a + length b.
  Proof. intros a b w (l & H & K). rewrite (Permutation_length H). apply parts_len, K. Qed.

  Lemma perm_rot : forall (p a b : list V), Permutation a (b ++ p ++ []) -> Permutation a (p ++ b).
  Proof. intros p a b H. rewrite H, app_nil_r. apply Permutation_app_comm. Qed.
  Lemma perm_rot1 : forall x (a b : list V), Permutation a (b ++ [x]) -> Permutation a (x :: b).
  Proof. intros x a b H. rewrite H. symmetry. apply Permutation_cons_append. Qed.
  Lemma perm_pad : forall (a b : list V), Permutation (a ++ []) (b ++ []) -> Permutation a b.
  Proof. intros a b. rewrite !app_nil_r. auto. Qed.
  Lemma acc_pad : forall (a b c : list V), accounted (a ++ []) b (c ++ []) -> accounted a b c.
  Proof. intros a b c. rewrite !app_nil_r. auto. Qed.
End Parts.

(** Lists as a series of blocks. *)
Ltac blocks := repeat (rewrite <- app_assoc; cbn [app]); cbn [app].
Ltac perm_loop n :=
  lazymatch n with
  | O => fail "perm"
  | S ?m =>
    lazymatch goal with
    | |- Permutation [] [] => constructor
    | |- Permutation (?x :: _) (?x :: _) => apply perm_skip; perm_loop 14
    | |- Permutation (?x ++ _) (?x ++ _) => apply Permutation_app_head; perm_loop 14
    | |- Permutation _ (_ :: _) => apply perm_rot1; blocks; perm_loop m
    | |- Permutation _ (_ ++ _) => apply perm_rot; blocks; perm_loop m
    end
  end.
Ltac perm := apply perm_pad; blocks; perm_loop 14.
Ltac parts_go :=
  lazymatch goal with
  | |- parts [] _ [] => apply parts_nil
  | |- parts (?x :: _) _ (?x :: _) => apply parts_left; parts_go
  | |- parts (?x ++ _) _ (?x ++ _) => apply parts_keep; parts_go
  | |- parts _ _ (_ :: _) => apply parts_lost; parts_go
  | |- parts _ _ (_ ++ _) => apply parts_drop; parts_go
  end.
Ltac acct := apply acc_pad; blocks;
  eexists; split; [|parts_go]; perm.

(** ** Calls that may unwind *)
Definition uspec {T S A} (P : A -> Prop) (Q : T -> list S -> Prop) (m : ures T S A) : Prop :=
  match m with UOk a => P a | UPan _ l d => Q l d | UUB => False end.
Lemma u_bind : forall {T S A B} (P : A -> Prop) (R : B -> Prop) (Q : T -> list S -> Prop) m k,
  uspec P Q m -> (forall a, P a -> uspec R Q (k a)) -> uspec R Q (ubind m k).
Proof. intros T S A B P R Q [a|w l d|] k H K; cbn in *; auto. Qed.
Lemma u_at : forall {T S A B} (P : A -> Prop) (R : B -> Prop) (Q : T -> list S -> Prop) l d (m : res A) k,
  post P m -> Q l d -> (forall a, P a -> uspec R Q (k a)) -> uspec R Q (ubind (at_ l d m) k).
Proof. intros T S A B P R Q l d [a|w|] k H K L; cbn in *; auto. Qed.
Lemma u_at_ok : forall {T S A B} (R : B -> Prop) (Q : T -> list S -> Prop) l d (m : res A) k a,
  m = Ok a -> uspec R Q (k a) -> uspec R Q (ubind (at_ l d m) k).
Proof. intros; subst; assumption. Qed.
Lemma u_imp : forall {T S A} (P P' : A -> Prop) (Q Q' : T -> list S -> Prop) m,
  uspec P Q m -> (forall a, P a -> P' a) -> (forall l d, Q l d -> Q' l d) -> uspec P' Q' m.
Proof. intros T S A P P' Q Q' [a|w l d|] H K L; cbn in *; auto. Qed.
Lemma u_umap : forall {T U S A} (f : T -> res U) (P : A -> Prop) (Q : T -> list S -> Prop) (Q' : U -> list S -> Prop) m,
  uspec P Q m -> (forall l d, Q l d -> exists l', f l = Ok l' /\ Q' l' d) -> uspec P Q' (umap f m).
Proof. intros T U S A f P Q Q' [a|w l d|] H K; cbn in *; auto. destruct (K _ _ H) as (l' & -> & E). exact E. Qed.

Section Nodes.
  Context {I V : Type} (X : index_ops I) (M lo : nat).
  Hypothesis HX : index_any X.
  Notation tree := (tree I V).
  Notation entry := (entry_of I V) (only parsing).
  Notation T1 := (fun _ => True).

  (** A node by its first child, and its keys with the children after them. *)
  Definition kv (e : entry) : V * tree := (snd (fst e), snd e).
  Definition is (t : tree) (c0 : tree) (l : list (V * tree)) : Prop := exists tot es, t = Node tot c0 es /\ map kv es = l.
  Definition fl (l : list (V * tree)) : list V := flat_map (fun q => fst q :: slices (snd q)) l.
  Definition okc (h : nat) (c : tree) : Prop := match h with 0 => c = Nil | S h' => wshape M lo lo h' c = true end.
  Definition okn (h : nat) (c0 : tree) (l : list (V * tree)) : Prop := okc h c0 /\ Forall (fun q => okc h (snd q)) l.
  Notation wsh h t := (wshape M lo lo h t = true).

  Lemma fl_app : forall a b, fl (a ++ b) = fl a ++ fl b.
  Proof. intros. apply flat_map_app. Qed.
  Lemma fl_cons : forall s ch l, fl ((s, ch) :: l) = s :: slices ch ++ fl l.
  Proof. reflexivity. Qed.
  Lemma fl_nil : fl [] = [].
  Proof. reflexivity. Qed.
  Lemma is_slices : forall t c0 l, is t c0 l -> slices t = slices c0 ++ fl l.
  Proof.
    intros t c0 l (tot & es & -> & <-). cbn [slices]. f_equal. unfold fl. induction es as [|e es IH]; [reflexivity|].
    cbn [map flat_map]. rewrite IH. reflexivity.
  Qed.
  Lemma is_tlen : forall t c0 l, is t c0 l -> tlen t = length l.
  Proof. intros t c0 l (tot & es & -> & <-). unfold tlen. cbn [keys]. rewrite map_length. reflexivity. Qed.
  Lemma okc_forallb : forall h c0 (es : list entry),
    okn h c0 (map kv es) <->
    match h with
    | 0 => forallb (fun c : tree => match c with Nil => true | Node _ _ _ => false end) (c0 :: map e_child es)
    | S h' => forallb (wshape M lo lo h') (c0 :: map e_child es)
    end = true.
  Proof.
    intros h c0 es. unfold okn. rewrite Forall_map.
    assert (E : forall c : tree, okc h c <-> match h with 0 => match c with Nil => true | Node _ _ _ => false end | S h' => wshape M lo lo h' c end = true).
    { intros c. destruct h; cbn [okc]; [|tauto]. destruct c; split; congruence. }
    destruct h as [|h]; rewrite forallb_forall; split.
    - intros [A B] c [<-|Hin]; [apply E, A|]. apply in_map_iff in Hin. destruct Hin as (e & <- & He). rewrite Forall_forall in B. apply E. exact (B e He).
    - intros H. split; [apply E, H; left; reflexivity|]. apply Forall_forall. intros e He. apply E, H. right. apply in_map_iff. exists e. auto.
    - intros [A B] c [<-|Hin]; [apply E, A|]. apply in_map_iff in Hin. destruct Hin as (e & <- & He). rewrite Forall_forall in B. apply E. exact (B e He).
    - intros H. split; [apply E, H; left; reflexivity|]. apply Forall_forall. intros e He. apply E, H. right. apply in_map_iff. exists e. auto.
  Qed.
  Lemma is_wsh : forall h t c0 l, is t c0 l -> lo <= length l <= 2 * M -> okn h c0 l -> wsh h t.
  Proof.
    intros h t c0 l (tot & es & -> & <-) H K. rewrite map_length in H. apply okc_forallb in K.
    rewrite wshape_S, K. destruct (Nat.leb_spec lo (length es)), (Nat.leb_spec (length es) (2 * M)); try reflexivity; lia.
  Qed.
  Lemma wsh_is : forall h t, wsh h t -> exists c0 l, is t c0 l /\ lo <= length l <= 2 * M /\ okn h c0 l.
  Proof.
    intros h [|tot c0 es] H; [destruct (shape_nil _ _ _ _ H)|]. exists c0, (map kv es).
    pose proof (shape_len _ _ _ _ _ H) as L. rewrite wshape_S in H. apply andb_prop in H. destruct H as [_ H]. apply okc_forallb in H.
    split; [exists tot, es; auto|]. rewrite map_length. split; [exact L|exact H].
  Qed.

  (** ** Operations on a node *)
  Lemma nth_split_kv : forall (es : list entry) A q B, map kv es = A ++ q :: B ->
    exists a e b, es = a ++ e :: b /\ map kv a = A /\ kv e = q /\ map kv b = B.
  Proof.
    intros es A q B E. apply map_eq_app in E. destruct E as (a & r & -> & <- & E). destruct r as [|e b]; [discriminate|].
    cbn [map] in E. inversion E; subst. exists a, e, b. auto.
  Qed.
  Lemma nth_mid : forall {A} (a b : list A) x k, length a = k -> nth_ub (a ++ x :: b) k = Ok x.
  Proof. intros A a b x k <-. unfold nth_ub. rewrite nth_error_app2, Nat.sub_diag by lia. reflexivity. Qed.
  Lemma firstn_len : forall {A} (a b : list A) k, length a = k -> firstn k (a ++ b) = a.
  Proof. intros A a b k <-. rewrite firstn_app, Nat.sub_diag, firstn_all. cbn. apply app_nil_r. Qed.
  Lemma skipn_len : forall {A} (a b : list A) k, length a = k -> skipn k (a ++ b) = b.
  Proof. intros A a b k <-. rewrite skipn_app, Nat.sub_diag, skipn_all. reflexivity. Qed.
  Lemma pick_mid : forall {A} (l : list A) k, k < length l -> exists a x b, l = a ++ x :: b /\ length a = k.
  Proof.
    intros A l k H. destruct (nth_error l k) as [x|] eqn:E; [|apply nth_error_None in E; lia].
    apply nth_error_split in E. destruct E as (a & b & -> & L). eauto.
  Qed.
  Lemma cut_list : forall {A} (l : list A) k, k <= length l -> exists a b, l = a ++ b /\ length a = k.
  Proof. intros A l k H. exists (firstn k l), (skipn k l). rewrite firstn_skipn. split; [reflexivity|]. apply firstn_length_le, H. Qed.

  Lemma is_size : forall t c0 l, is t c0 l -> exists z, tsize t = Ok z.
  Proof. intros t c0 l (tot & es & -> & _). eexists. reflexivity. Qed.
  Lemma is_kpe : forall t c0 l k, is t c0 l -> exists p, key_pos_or_end t k = Ok p.
  Proof. intros t c0 l k (tot & es & -> & _). unfold key_pos_or_end. destruct (try_key_pos _ _); eexists; reflexivity. Qed.
  Lemma is_kp : forall t c0 l k, is t c0 l -> k < length l -> exists p, key_pos t k = Ok p.
  Proof.
    intros t c0 l k (tot & es & -> & <-) H. rewrite map_length in H. unfold key_pos, nth_ub. cbn [keys].
    destruct (nth_error es k) eqn:E; [|apply nth_error_None in E; lia]. eexists. reflexivity.
  Qed.
  Lemma is_set_pos : forall t c0 l k p, is t c0 l -> k < length l -> exists t', set_single_key_pos t k p = Ok t' /\ is t' c0 l.
  Proof.
    intros t c0 l k p (tot & es & -> & <-) H. rewrite map_length in H. cbn [set_single_key_pos].
    destruct (pick_mid es k H) as (a & e & b & -> & L). rewrite (nth_mid _ _ _ _ L). cbn [bind]. eexists. split; [reflexivity|].
    unfold replace_at. rewrite (skipn_len _ _ _ L), (firstn_len _ _ _ L).
    exists tot, (a ++ (p, e_slice e, e_child e) :: b). split; [reflexivity|]. rewrite !map_app. reflexivity.
  Qed.
  Lemma is_set_size : forall t c0 l z, is t c0 l -> exists t', set_subtree_size t z = Ok t' /\ is t' c0 l.
  Proof. intros t c0 l z (tot & es & -> & <-). eexists. split; [reflexivity|]. exists z, es. auto. Qed.
  Lemma is_insert : forall t c0 A B k s ch, is t c0 (A ++ B) -> length A = k -> length (A ++ B) < 2 * M ->
    exists t' p, insert_key_and_child M t k s ch = Ok (t', p) /\ is t' c0 (A ++ (s, ch) :: B).
  Proof.
    intros t c0 A B k s ch (tot & es & -> & E) Hk Hl. unfold insert_key_and_child.
    assert (Le : length es = length (A ++ B)) by (rewrite <- E, map_length; reflexivity).
    rewrite Le. replace (length (A ++ B) <? k) with false by (symmetry; apply Nat.ltb_ge; rewrite app_length; lia).
    replace (max_len M <=? length (A ++ B)) with false by (symmetry; apply Nat.leb_gt; unfold max_len; lia). cbn [orb].
    destruct (is_kpe (Node tot c0 es) c0 (A ++ B) k) as [p ->]; [exists tot, es; auto|]. cbn [bind]. eexists _, _. split; [reflexivity|].
    apply map_eq_app in E. destruct E as (a & b & -> & <- & <-). rewrite map_length in Hk. unfold insert_at.
    rewrite (firstn_len _ _ _ Hk), (skipn_len _ _ _ Hk). exists tot, (a ++ (p, s, ch) :: b). split; [reflexivity|]. rewrite !map_app. reflexivity.
  Qed.
  Lemma is_push : forall t c0 l s ch z, is t c0 l -> length l < 2 * M -> exists t', push_key_and_child M t s ch z = Ok t' /\ is t' c0 (l ++ [(s, ch)]).
  Proof.
    intros t c0 l s ch z (tot & es & -> & <-) H. rewrite map_length in H. unfold push_key_and_child.
    replace (max_len M <=? length es) with false by (symmetry; apply Nat.leb_gt; unfold max_len; lia).
    eexists. split; [reflexivity|]. exists z, (es ++ [(tot, s, ch)]). split; [reflexivity|]. rewrite map_app. reflexivity.
  Qed.
  Lemma is_split : forall t c0 A s ch B m, is t c0 (A ++ (s, ch) :: B) -> length A = m ->
    exists p0 mp r0, split t m = Ok (p0, (mp, s), r0) /\ is p0 c0 A /\ is r0 ch B.
  Proof.
    intros t c0 A s ch B m (tot & es & -> & E) L. apply nth_split_kv in E. destruct E as (a & e & b & -> & <- & E & <-). rewrite map_length in L.
    unfold split. rewrite (nth_mid _ _ _ _ L). cbn [bind]. destruct e as [[p s'] ch']. inversion E; subst s' ch'. cbn [e_pos e_slice e_child fst snd].
    eexists _, _, _. split; [reflexivity|]. split.
    - exists tot, a. rewrite (firstn_len _ _ _ L). auto.
    - exists tot, b. split; [|reflexivity]. f_equal. replace (a ++ (p, s, ch) :: b) with ((a ++ [(p, s, ch)]) ++ b) by (rewrite <- app_assoc; reflexivity).
      apply skipn_len. rewrite app_length, L. reflexivity.
  Qed.
  Lemma is_replace : forall t c0 l ch, is t c0 l -> exists t', replace_first_child t ch = Ok (t', c0) /\ is t' ch l.
  Proof. intros t c0 l ch (tot & es & -> & <-). eexists. split; [reflexivity|]. exists tot, es. auto. Qed.

  Lemma p_mapM : forall (f : I -> res I) (es : list entry), (forall x, f x <> UB) ->
    post (fun es' => map kv es' = map kv es) (mapM (fun e : entry => let* p := f (e_pos e) in Ok (p, e_slice e, e_child e)) es).
  Proof.
    intros f es Hf. induction es as [|e es IH]; [reflexivity|]. cbn [mapM]. eapply post_bind with (P := fun e' => kv e' = kv e).
    - specialize (Hf (e_pos e)). destruct (f (e_pos e)); cbn; auto.
    - intros e' _ He. eapply post_bind; [exact IH|]. intros es' _ Hes. cbn [post map]. congruence.
  Qed.
  Lemma is_set_poss : forall t c0 l f from, is t c0 l -> from <= length l -> (forall x, f x <> UB) ->
    post (fun t' => is t' c0 l) (set_key_poss_with t f from).
  Proof.
    intros t c0 l f from (tot & es & -> & <-) H Hf. rewrite map_length in H. cbn [set_key_poss_with].
    replace (length es <? from) with false by (symmetry; apply Nat.ltb_ge; exact H).
    eapply post_bind; [apply p_mapM, Hf|]. intros es' _ E. eapply post_bind; [apply post_any, Hf|]. intros tot' _ _. cbn [post].
    exists tot', (firstn from es ++ es'). split; [reflexivity|]. rewrite map_app, E, <- map_app, firstn_skipn. reflexivity.
  Qed.
  Lemma is_shift : forall t c0 l b from p o n, is t c0 l -> from <= length l -> post (fun t' => is t' c0 l) (shift_keys X b t from p o n).
  Proof.
    intros t c0 l b from p o n H L. unfold shift_keys. eapply post_bind; [apply p_addr, HX|]. intros oe _ _.
    eapply post_bind; [apply p_addr, HX|]. intros ne _ _. eapply post_bind with (P := T1).
    - destruct b; [apply p_subl, HX|apply p_subr, HX].
    - intros d _ _. apply is_set_poss; [exact H|exact L|]. intros x. destruct b; [apply (ia_addl _ HX)|apply (ia_subl _ HX)].
  Qed.
  Lemma kv_partly : forall (f : I -> res I) (es : list entry), map kv (partly f es) = map kv es.
  Proof. intros f. induction es as [|e es IH]; [reflexivity|]. cbn [partly]. destruct (f (e_pos e)); cbn [map]; [rewrite IH|..]; reflexivity. Qed.
  Lemma is_shift_left : forall t c0 l b from p o n, is t c0 l -> is (shift_left X b t from p o n) c0 l.
  Proof.
    intros t c0 l b from p o n (tot & es & -> & <-). unfold shift_left.
    destruct (bind _ _) as [d|w|]; try (exists tot, es; auto; fail).
    eexists tot, _. split; [reflexivity|]. rewrite map_app, kv_partly, <- map_app, firstn_skipn. reflexivity.
  Qed.

End Nodes.
