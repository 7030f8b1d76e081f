(** The functions of Unwind.v do what those of Insert.v do.  Proof support only. *)
From Coq Require Import List ZArith Bool Arith Lia.
From Verif Require Import Base Index Slice Tree Insert Crash Wild Unwind UnwindSpec.
Import ListNotations.

Section Forget.
  Context {T S : Type} (P : why -> Prop).

  (** [m] ends as [r] does, except that it may also unwind for a reason in [P]. *)
  Definition fol {A} (m : ures T S A) (r : res A) : Prop :=
    match m with UOk a => r = Ok a | UPan w _ _ => r = Panic w \/ P w | UUB => r = UB end.

  Lemma fol_at : forall {A} (l : T) (d : list S) (m : res A), fol (at_ l d m) m.
  Proof. intros A l d [a|w|]; cbn; auto. Qed.
  Lemma fol_bind : forall {A B} (m : ures T S A) (f : A -> ures T S B) r g,
    fol m r -> (forall a, fol (f a) (g a)) -> fol (ubind m f) (bind r g).
  Proof. intros A B [a|w l d|] f r g E H; cbn in *; [subst r; apply H|destruct E as [->|]; auto|subst r; reflexivity]. Qed.
  (** A comparison that may panic, where the code without such panics has none. *)
  Lemma fol_cmp : forall {B} l d o (f : unit -> ures T S B) r,
    (forall w, o = Some w -> P w) -> fol (f tt) r -> fol (ubind (at_ l d (cmp_res o)) f) r.
  Proof. intros B l d [w|] f r H E; cbn; auto. Qed.
End Forget.
Lemma fol_umap : forall {T U S A} P (f : U -> res T) (m : ures U S A) r, (forall l, exists l', f l = Ok l') -> fol P m r -> fol P (umap f m) r.
Proof. intros T U S A P f [a|w l d|] r H E; cbn; try exact E. destruct (H l) as [l' ->]. exact E. Qed.

Ltac fstep :=
  lazymatch goal with
  | |- fol _ (at_ _ _ ?m) ?m => apply fol_at
  | |- fol _ (ubind (at_ _ _ (cmp_res (cp_shift _ _ _))) _) _ => apply fol_cmp; [intros; right; eauto|]
  | |- fol _ (ubind (at_ _ _ (cmp_res (cp_search _))) _) _ => apply fol_cmp; [intros; left; assumption|]
  | |- fol _ (ubind _ _) (bind _ _) => apply fol_bind; [|intros]
  | |- fol _ (UOk _) (Ok _) => reflexivity
  | |- fol _ (UPan _ _ _) (Panic _) => left; reflexivity
  | |- fol _ UUB UB => reflexivity
  | |- fol _ (match ?x with _ => _ end) _ => destruct x
  | |- fol _ (let x := ?v in @?b x) _ => cbv zeta
  end.

Section Erase.
  Context {I S : Type} (X : index_ops I) (B : @cmp_panics I) (Y : slice_ops I S) (M : nat).
  Notation tree := (tree I S).
  Notation fl := (fol (raised B)).

  Lemma e_key_step : forall (t : tree) k ov o n cur, fl (ukey_step X B t k ov o n cur) (key_step X t k ov o n cur).
  Proof. intros. unfold ukey_step, key_step, ushift_auto, ushift, shift_keys_auto. repeat fstep. Qed.

  Lemma e_child_step : forall (t : tree) c here o n cur, fl (uchild_step X B t c here o n cur) (child_step X t c here o n cur).
  Proof. intros. unfold uchild_step, child_step, ushift_auto, ushift, shift_keys_auto. repeat fstep. Qed.

  Lemma e_bubble_step : forall (t : tree) c here b, fl (ububble_step X B M t c here b) (bubble_step X M t c here b).
  Proof.
    intros. unfold ububble_step, bubble_step. cbv zeta. repeat (fstep || apply e_key_step).
  Qed.

  Lemma e_up_step : forall (t : tree) c here st, fl (uup_step X B M t c here st) (up_step X M t c here st).
  Proof. intros. unfold uup_step, up_step. repeat (fstep || apply e_child_step || apply e_bubble_step). Qed.

  Lemma set_child_ok : forall (t : tree) c ch n, child t c = Ok ch -> exists t', set_child t c n = Ok t'.
  Proof.
    intros [|tot c0 es] c ch n H; [discriminate|]. destruct c as [|k]; cbn [child child_of set_child] in *; [eauto|].
    destruct (nth_ub es k); cbn [bind] in *; try discriminate. eauto.
  Qed.
  Lemma e_upd : forall f g, (forall t : tree, fl (f t) (g t)) -> forall p lhs t, fl (uupd X B M f lhs t p) (upd X M g lhs t p).
  Proof.
    intros f g H. induction p as [|c p IH]; intros lhs t; cbn [uupd upd]; [apply H|].
    destruct (child t c) as [ch|w|] eqn:E; cbn [at_ ubind bind]; try solve [reflexivity|left; reflexivity].
    destruct (match lhs with Some (0, l) => _ | Some (Datatypes.S d, l) => _ | None => _ end) as [here below].
    apply fol_bind; [|intros; apply e_up_step].
    apply fol_umap; [|apply IH]. intros l. apply (set_child_ok t c ch l E).
  Qed.

  Lemma e_split_leaf : forall (t : tree) k ov a b, fl (usplit_leaf X M t k ov a b) (split_leaf X M t k ov a b).
  Proof. intros. unfold usplit_leaf, split_leaf, usplit_leaf_small_m. cbv zeta. repeat fstep. Qed.

  Lemma e_no_join : forall remap k ov a b (t : tree), fl (uno_join_leaf X B M remap k ov a b t) (no_join_leaf X M remap k ov a b t).
  Proof. intros. unfold uno_join_leaf, no_join_leaf. cbv zeta. repeat (fstep || apply e_split_leaf || apply e_key_step). Qed.

  Lemma e_finish : forall h (st : @upstate I S), fl (ufinish_root X h st) (finish_root X h st).
  Proof. intros h [n o n' cur|b]; unfold ufinish_root, finish_root; cbv zeta; repeat fstep. Qed.

  Lemma e_insert_rhs : forall h (t : tree) p hk k z remap a b, fl (uinsert_rhs X B M h t p hk k z remap a b) (insert_rhs X M h t p hk k z remap a b).
  Proof. intros. unfold uinsert_rhs, insert_rhs. cbv zeta. repeat (fstep || apply e_finish || (apply e_upd; intros; apply e_no_join)). Qed.

  Lemma e_all_in : forall {A} n (m : ures tree S A) r, fl m r -> fl (all_in n m) r.
  Proof. intros. apply fol_umap; eauto. Qed.

  (** Holes can be made where slices are. *)
  Lemma nth_map : forall {A B} (f : A -> B) l k, nth_ub (map f l) k = let* a := nth_ub l k in Ok (f a).
  Proof. intros. unfold nth_ub. rewrite nth_error_map. destruct (nth_error l k); reflexivity. Qed.
  Lemma tmap_child : forall {V} (f : S -> V) (t : tree) c ch, child t c = Ok ch -> child (tmap f t) c = Ok (tmap f ch).
  Proof.
    intros V f [|tot c0 es] [|k] ch H; cbn [tmap child child_of] in *; try discriminate; [congruence|].
    rewrite nth_map. destruct (nth_ub es k) as [[[a b] d]| |]; cbn [bind] in *; try discriminate. inversion H; subst. reflexivity.
  Qed.
  Lemma set_child_ok' : forall {V} (t : Tree.tree I V) c ch n, child t c = Ok ch -> exists t', set_child t c n = Ok t'.
  Proof.
    intros V [|tot c0 es] c ch n H; [discriminate|]. destruct c as [|k]; cbn [child child_of set_child] in *; [eauto|].
    destruct (nth_ub es k); cbn [bind] in *; try discriminate. eauto.
  Qed.
  Lemma hole_ok : forall p (t n : tree) k, node_at t p = Ok n -> k < tlen n -> exists o, set_slice_at (tmap Some t) p k None = Ok o.
  Proof.
    induction p as [|c p IH]; intros t n k H Hk; cbn [node_at set_slice_at] in *.
    - inversion H; subst. destruct n as [|tot c0 es]; cbn [tmap set_slice]; [cbn in Hk; lia|]. rewrite nth_map. unfold nth_ub, tlen in *.
      cbn [keys] in Hk. destruct (nth_error es k) eqn:E; [|apply nth_error_None in E; lia]. cbn [bind]. eauto.
    - destruct (child t c) as [ch| |] eqn:E; try discriminate. cbn [bind] in H. rewrite (tmap_child _ _ _ _ E). cbn [bind].
      destruct (IH ch n k H Hk) as [o ->]. cbn [bind]. eapply set_child_ok', tmap_child, E.
  Qed.
  Lemma slice_at_len : forall (n : tree) k s, slice_at n k = Ok s -> k < tlen n.
  Proof. intros n k s H. unfold slice_at, nth_ub in H. destruct (nth_error (keys n) k) eqn:E; [|discriminate]. apply nth_error_Some. congruence. Qed.
  Definition there (t : tree) (a : handle) : Prop := exists n, node_at t (fst a) = Ok n /\ snd a < tlen n.
  Lemma handle_there : forall (t : tree) a s, handle_slice t a = Ok s -> there t a.
  Proof.
    intros t a s H. unfold handle_slice in H. destruct (node_at t (fst a)) as [n| |] eqn:E; try discriminate. cbn [bind] in H.
    exists n. split; [exact E|]. eapply slice_at_len, H.
  Qed.
  Lemma e_holed : forall {A} (t : tree) a n d (m : res A), there t a -> fl (holed t a n d m) m.
  Proof.
    intros A t a n d [x|w|] (nd & H1 & H2); try (cbn; auto; fail). unfold holed. destruct (hole_ok _ _ _ _ H1 H2) as [o ->]. cbn; auto.
  Qed.

  (** Replacing a slice keeps what is there. *)
  Lemma nth_replace : forall {A} (l : list A) k x j, length (replace_at k x l) = length l /\
    (k < length l -> nth_error (replace_at k x l) j = if j =? k then Some x else nth_error l j).
  Proof.
    intros A. induction l as [|y l IH]; intros k x j.
    - unfold replace_at. rewrite skipn_nil. split; [reflexivity|]. cbn. lia.
    - destruct k as [|k]; cbn.
      + split; [reflexivity|]. intros _. destruct j; reflexivity.
      + unfold replace_at in *. cbn [skipn firstn]. destruct (IH k x (pred j)) as [L N].
        destruct (skipn k l) eqn:E.
        * split; [reflexivity|]. intros Hk. exfalso. pose proof (skipn_length k l) as Q. rewrite E in Q. cbn in Q. lia.
        * split; [cbn [app length]; rewrite L; reflexivity|]. intros Hk. destruct j as [|j]; [reflexivity|]. cbn [app nth_error Nat.eqb].
          cbn [pred] in N. apply N. lia.
  Qed.
  Lemma child_set_child : forall (t t' : tree) c n d, set_child t c n = Ok t' -> tlen t' = tlen t /\ child t' d = if d =? c then Ok n else child t d.
  Proof.
    intros [|tot c0 es] t' c n d H; [discriminate|]. destruct c as [|k]; cbn [set_child] in H.
    - inversion H; subst. split; [reflexivity|]. destruct d; reflexivity.
    - unfold nth_ub in H. destruct (nth_error es k) as [e|] eqn:E; [|discriminate]. cbn [bind] in H. inversion H; subst. unfold tlen. cbn [keys child child_of].
      assert (Hk : k < length es) by (apply nth_error_Some; congruence).
      split; [apply (nth_replace es k _ 0)|]. destruct d as [|d]; [reflexivity|]. cbn [child_of]. unfold nth_ub.
      rewrite (proj2 (nth_replace es k _ d) Hk). cbn [Nat.eqb]. destruct (d =? k); reflexivity.
  Qed.
  Lemma there_set : forall p (t t' : tree) k s b, set_slice_at t p k s = Ok t' -> there t b -> there t' b.
  Proof.
    induction p as [|c p IH]; intros t t' k s [q j] H (n & E & Hj); cbn [set_slice_at] in H; cbn [fst snd] in *.
    - destruct t as [|tot c0 es]; [discriminate|]. cbn [set_slice] in H. unfold nth_ub in H.
      destruct (nth_error es k) as [e|] eqn:Ek; [|discriminate]. cbn [bind] in H. inversion H; subst t'; clear H.
      assert (Hk : k < length es) by (apply nth_error_Some; congruence).
      destruct q as [|d q]; cbn [node_at] in E.
      + inversion E; subst. eexists. split; [reflexivity|]. unfold tlen in *. cbn [keys fst snd] in *. rewrite (proj1 (nth_replace es k _ 0)). exact Hj.
      + exists n. split; [|exact Hj]. cbn [fst snd node_at]. replace (child (Node tot c0 (replace_at k (e_pos e, s, e_child e) es)) d) with (child (Node tot c0 es) d); [exact E|].
        destruct d as [|d]; [reflexivity|]. cbn [child]. cbn [child_of]. unfold nth_ub. rewrite (proj2 (nth_replace es k _ d) Hk).
        destruct (Nat.eqb_spec d k) as [->|]; [rewrite Ek; reflexivity|reflexivity].
    - destruct (child t c) as [ch| |] eqn:Ec; try discriminate. cbn [bind] in H.
      destruct (set_slice_at ch p k s) as [ch'| |] eqn:Es; try discriminate. cbn [bind] in H.
      destruct q as [|d q]; cbn [node_at] in E.
      + inversion E; subst. exists t'. split; [reflexivity|]. cbn [fst snd] in *. rewrite (proj1 (child_set_child _ _ _ _ 0 H)). exact Hj.
      + pose proof (proj2 (child_set_child _ _ _ _ d H)) as Hd. destruct (Nat.eqb_spec d c) as [->|N].
        * rewrite Ec in E. cbn [bind] in E. destruct (IH _ _ _ _ (q, j) Es) as (n' & A & Bj); [exists n; auto|].
          exists n'. cbn [fst snd] in *. split; [|exact Bj]. cbn [node_at]. rewrite Hd. exact A.
        * exists n. cbn [fst snd]. split; [|exact Hj]. cbn [node_at]. rewrite Hd. exact E.
  Qed.
  Lemma set_slice_there : forall p (t t' : tree) k s, set_slice_at t p k s = Ok t' -> there t (p, k).
  Proof.
    induction p as [|c p IH]; intros t t' k s H; cbn [set_slice_at] in H.
    - destruct t as [|tot c0 es]; [discriminate|]. cbn [set_slice] in H. unfold nth_ub in H.
      destruct (nth_error es k) as [e|] eqn:Ek; [|discriminate]. eexists. split; [reflexivity|]. apply nth_error_Some. cbn [fst snd keys]. congruence.
    - destruct (child t c) as [ch| |] eqn:Ec; try discriminate. cbn [bind] in H.
      destruct (set_slice_at ch p k s) as [ch'| |] eqn:Es; try discriminate.
      destruct (IH _ _ _ _ Es) as (n & A & Bj). exists n. cbn [fst snd] in *. split; [|exact Bj]. cbn [node_at]. rewrite Ec. exact A.
  Qed.

  Lemma set_slice_ok : forall p (t n : tree) k s, node_at t p = Ok n -> k < tlen n -> exists t', set_slice_at t p k s = Ok t'.
  Proof.
    induction p as [|c p IH]; intros t n k s H Hk; cbn [node_at set_slice_at] in *.
    - inversion H; subst. destruct n as [|tot c0 es]; cbn [set_slice]; [cbn in Hk; lia|]. unfold nth_ub, tlen in *.
      cbn [keys] in Hk. destruct (nth_error es k) eqn:E; [|apply nth_error_None in E; lia]. cbn [bind]. eauto.
    - destruct (child t c) as [ch| |] eqn:E; try discriminate. cbn [bind] in *.
      destruct (IH ch n k s H Hk) as [o ->]. cbn [bind]. eapply set_child_ok, E.
  Qed.

  Lemma e_split_key : forall nop h t p hk k q x n,
    fl (uinsert_split_key X B Y M nop h t p hk k q x n) (insert_split_key X Y M nop h t p hk k q x n).
  Proof.
    intros. unfold uinsert_split_key, insert_split_key.
    fstep; [fstep|]. fstep; [fstep|]. fstep; [fstep|]. destruct (sl_split_at Y a1 q) as [l r].
    destruct (set_slice_at t p k l) as [t1| |] eqn:Et; cbn [at_ ubind bind]; try solve [reflexivity|left; reflexivity].
    pose proof (there_set _ _ _ _ _ _ Et (set_slice_there _ _ _ _ _ Et)) as H1.
    repeat (fstep || apply e_all_in || apply e_insert_rhs || apply e_finish || (apply e_upd; intros; apply e_key_step)
            || (apply e_holed; exact H1)).
  Qed.

  Lemma e_single : forall h (t : tree) a o n, fl (usingle_join X B M h t a o n) (single_join X M h t a o n).
  Proof.
    intros. unfold usingle_join, single_join.
    repeat (fstep || apply e_all_in || apply e_finish || (apply e_upd; intros; apply e_key_step)).
  Qed.

  Lemma e_join : forall h t a b x n, fl (uedge_try_join X B Y M h t a b x n) (edge_try_join X Y M h t a b x n).
  Proof.
    intros. unfold uedge_try_join, edge_try_join. destruct (negb (sl_may_join Y)); [reflexivity|].
    fstep; [fstep|]. fstep; [fstep|]. destruct a0 as [[lz la]|], a1 as [[rz ra]|]; try (left; reflexivity).
    2, 3: repeat (fstep || apply e_single).
    destruct (handle_slice t la) as [ls| |] eqn:El; cbn [at_ ubind bind]; try solve [reflexivity|left; reflexivity].
    pose proof (handle_there _ _ _ El) as Hl. destruct (sl_try_join Y ls x) as [mid|[l s]].
    - fstep; [apply e_holed, Hl|].
      destruct (handle_slice t ra) as [rs| |] eqn:Er; cbn [at_ ubind bind]; try solve [reflexivity|left; reflexivity].
      pose proof (handle_there _ _ _ Er) as Hr. destruct (sl_try_join Y mid rs) as [new|[m r]].
      + destruct Hl as (nl & L1 & L2). destruct (set_slice_ok _ _ _ _ new L1 L2) as [t1 Et]. rewrite Et. cbn [at_ ubind].
        pose proof (there_set _ _ _ _ _ _ Et Hr) as Hr1. fstep; [apply e_holed, Hr1|]. exact (e_holed t1 ra 1 [] (Panic PTodo) Hr1).
      + repeat (fstep || apply e_single).
    - repeat (fstep || apply e_single).
  Qed.

  Lemma e_edge : forall h t p k a b x n, fl (uinsert_edge X B Y M h t p k a b x n) (insert_edge X Y M h t p k a b x n).
  Proof.
    intros. unfold uinsert_edge, insert_edge.
    repeat (fstep || apply e_all_in || apply e_join || apply e_finish || (apply e_upd; intros; apply e_no_join)).
  Qed.

  Lemma e_insert : forall nop r hints idx x n,
    fl (uinsert_with_cursor X B Y M nop r hints idx x n) (insert_with_cursor X Y M nop r hints idx x n).
  Proof.
    intros. unfold uinsert_with_cursor, insert_with_cursor.
    repeat (fstep || (apply fol_umap; [eauto|]) || apply e_edge || apply e_split_key).
  Qed.
End Erase.
