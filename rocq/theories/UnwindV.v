(** Iteration computes no `len - 1` of an empty node, if every node has a key. *)
From Coq Require Import List ZArith Bool Arith Lia.
From Verif Require Import Base Index Slice Tree Insert Range Iter Wild WildQ Unwind UnwindSpec.
Import ListNotations.

Section Quiet.
  Context {I V : Type} (X : index_ops I) (M b : nat) (HX : no_overflow X) (Hb : 1 <= b).
  Notation tree := (Tree.tree I V).

  Definition np {A} (m : res A) : Prop := m <> Panic PArith.
  Lemma np_bind : forall {A B} (m : res A) (f : A -> res B), np m -> (forall a, m = Ok a -> np (f a)) -> np (bind m f).
  Proof. intros A B [a|w|] f Hm Hf; cbn [bind]; [apply Hf; reflexivity| |discriminate]. intros E. apply Hm. inversion E. reflexivity. Qed.
  Lemma np_al : forall a c, np (ix_add_left X a c). Proof. intros. apply HX. Qed.
  Lemma np_ar : forall a c, np (ix_add_right X a c). Proof. intros. apply HX. Qed.
  Lemma np_sl : forall a c, np (ix_sub_left X a c). Proof. intros. apply HX. Qed.
  Lemma np_sr : forall a c, np (ix_sub_right X a c). Proof. intros. apply HX. Qed.
  #[local] Hint Resolve np_al np_ar np_sl np_sr : np.

  Ltac np1 := first
    [ discriminate
    | solve [auto with np]
    | apply np_bind; [|intros ? ?]
    | match goal with
      | |- np (match ?m with _ => _ end) => destruct m eqn:?
      | |- np (let (_, _) := ?m in _) => destruct m eqn:?
      end ].
  Ltac nps := repeat np1.

  Lemma np_tsize : forall t : tree, np (tsize t). Proof. intros t. unfold tsize. nps. Qed.
  #[local] Hint Resolve np_tsize : np.
  Lemma np_opt : forall {A} (l : list A) k, np (nth_ub l k). Proof. intros A l k. unfold nth_ub. nps. Qed.
  #[local] Hint Resolve np_opt : np.
  Lemma np_child : forall (t : tree) c, np (child t c). Proof. intros t c. unfold child, child_of. nps. Qed.
  Lemma np_key_pos : forall (t : tree) c, np (key_pos t c). Proof. intros t c. unfold key_pos. nps. Qed.
  Lemma np_slice_at : forall (t : tree) c, np (slice_at t c). Proof. intros t c. unfold slice_at. nps. Qed.
  #[local] Hint Resolve np_child np_key_pos np_slice_at : np.
  Lemma np_child_size : forall (t : tree) c, np (child_size t c). Proof. intros t c. unfold child_size. nps. Qed.
  Lemma np_kpe : forall (t : tree) c, np (key_pos_or_end t c). Proof. intros t c. unfold key_pos_or_end. nps. Qed.
  #[local] Hint Resolve np_child_size np_kpe : np.
  Lemma np_csz : forall h (t : tree) c, np (child_size_or_zero X h t c). Proof. intros h t c. unfold child_size_or_zero. nps. Qed.
  #[local] Hint Resolve np_csz : np.
  Lemma np_slice_size : forall h (t : tree) c, np (slice_size X h t c). Proof. intros h t c. unfold slice_size. nps. Qed.
  #[local] Hint Resolve np_slice_size : np.
  Lemma np_search : forall h (t : tree) hint target, np (search_step X h t hint target). Proof. intros. unfold search_step. nps. Qed.
  #[local] Hint Resolve np_search : np.
  Lemma np_node_at : forall p (t : tree), np (node_at t p). Proof. induction p as [|c p IH]; intros t; cbn [node_at]; nps. Qed.
  #[local] Hint Resolve np_node_at : np.
  Lemma np_handle_size : forall h (t : tree) a, np (handle_size X h t a). Proof. intros h t [p k]. unfold handle_size. nps. Qed.
  Lemma np_handle_slice : forall (t : tree) a, np (handle_slice t a). Proof. intros t [p k]. unfold handle_slice. nps. Qed.
  #[local] Hint Resolve np_handle_size np_handle_slice : np.

  Lemma np_pick : forall lo h (t : tree) hint target ex, 1 <= lo -> wshape M b lo h t = true -> np (stack_pick X h t hint target ex).
  Proof.
    intros lo h t hint target ex Hlo H. unfold stack_pick.
    assert (Hl : 1 <= tlen t). { pose proof (WildQ.shape_len M b _ _ _ H). lia. }
    apply np_bind; [auto with np|]. intros tot _. destruct (negb (ix_eqb X target tot)); [nps|]. destruct h; [|nps].
    destruct (tlen t); [lia|nps].
  Qed.

  Lemma np_stack : forall h lo (t : tree) p hints hp target ex, 1 <= lo -> wshape M b lo h t = true -> np (make_stack X h t p hints hp target ex).
  Proof.
    induction h as [|h IH]; intros lo t p hints hp target ex Hlo H; cbn [make_stack]; apply np_bind; try (eapply np_pick; eauto); intros [k kp|c cp] _; nps.
    eapply IH; [exact Hb|]. match goal with E : child t _ = Ok _ |- _ => pose proof (WildQ.child_bound _ _ _ E) as Hc; destruct (WildQ.shape_child M b _ _ _ _ H Hc) as (ch & E' & Hch); rewrite E in E'; inversion E'; subst; exact Hch end.
  Qed.

  Lemma np_fwd_down : forall h (t : tree) p c, np (fwd_down h t p c).
  Proof. induction h as [|h IH]; intros t p c; cbn [fwd_down]; nps. Qed.
  Lemma np_bkwd_down : forall h (t : tree) p c, np (bkwd_down h t p c).
  Proof. induction h as [|h IH]; intros t p c; cbn [bkwd_down]; nps. Qed.
  Lemma np_fwd_up : forall rp (t : tree), np (fwd_up t rp).
  Proof. induction rp as [|c rp IH]; intros t; cbn [fwd_up]; nps. Qed.
  Lemma np_bkwd_up : forall rp (t : tree), np (bkwd_up t rp).
  Proof. induction rp as [|c rp IH]; intros t; cbn [bkwd_up]; nps. Qed.
  #[local] Hint Resolve np_fwd_down np_bkwd_down np_fwd_up np_bkwd_up : np.
  Lemma np_fwd : forall h (t : tree) s, np (fwd_step X h t s).
  Proof. intros. unfold fwd_step, fwd_head. nps. Qed.
  Lemma np_bkwd : forall h (t : tree) s, np (bkwd_step X h t s).
  Proof. intros. unfold bkwd_step, bkwd_head. nps. Qed.
  #[local] Hint Resolve np_fwd np_bkwd : np.

  Lemma np_new : forall (r : @rle I V) hints sb eb, np (iter_new X r hints sb eb).
  Proof. intros [r|] hints sb eb; unfold iter_new, rle_size; nps. Qed.

  Lemma np_calls : forall (r : @rle I V), match r with None => True | Some r => wshape M b b (r_height r) (r_node r) = true end ->
    forall calls it, np (iter_calls X r it calls).
  Proof.
    intros r Hr. assert (Hs : forall bk it, np (iter_step X r bk it)).
    { intros bk it. destruct r as [r|]; cbn [iter_step]; [|nps].
      assert (Mk : forall p hints hp target ex, np (make_stack X (r_height r) (r_node r) p hints hp target ex)) by (intros; eapply np_stack; eauto).
      destruct bk; [unfold iter_next_back|unfold iter_next]; nps. }
    induction calls as [|c calls IH]; intros it; cbn [iter_calls]; nps.
  Qed.
End Quiet.
