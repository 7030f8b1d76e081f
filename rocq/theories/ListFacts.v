(** Facts about lists used by the smaller models. *)
From Coq Require Import List Arith Bool Lia.
From Verif Require Import Base.
Import ListNotations.

Section Facts.
  Context {A : Type}.

  Lemma replace_len : forall i x (l : list A), length (replace_at i x l) = length l.
  Proof.
    intros i x l. unfold replace_at. destruct (skipn i l) as [|y r] eqn:E; auto.
    rewrite <- (firstn_skipn i l) at 2. rewrite E, !app_length. reflexivity.
  Qed.

  Lemma replace_cons : forall i x y (l : list A), replace_at (S i) x (y :: l) = y :: replace_at i x l.
  Proof. intros. unfold replace_at. cbn [skipn firstn]. destruct (skipn i l); reflexivity. Qed.

  Lemma replace_0 : forall x y (l : list A), replace_at 0 x (y :: l) = x :: l.
  Proof. reflexivity. Qed.

  Lemma replace_nth_same : forall i x (l : list A), i < length l -> nth_error (replace_at i x l) i = Some x.
  Proof.
    induction i as [|i IH]; intros x [|y l] H; cbn [length] in H; try lia; [reflexivity|].
    rewrite replace_cons. cbn [nth_error]. apply IH. lia.
  Qed.

  Lemma replace_nth_other : forall i j x (l : list A), i <> j -> nth_error (replace_at i x l) j = nth_error l j.
  Proof.
    induction i as [|i IH]; intros j x [|y l] H; auto.
    - destruct j; [lia|reflexivity].
    - rewrite replace_cons. destruct j; [reflexivity|]. cbn [nth_error]. apply IH. lia.
  Qed.

  Lemma replace_out : forall i x (l : list A), length l <= i -> replace_at i x l = l.
  Proof. intros. unfold replace_at. rewrite skipn_all2 by auto. reflexivity. Qed.

  Lemma nth_error_lt : forall (l : list A) i x, nth_error l i = Some x -> i < length l.
  Proof. intros. apply nth_error_Some. congruence. Qed.

  Lemma nth_snoc : forall (l : list A) x, nth_error (l ++ [x]) (length l) = Some x.
  Proof. intros. rewrite nth_error_app2, Nat.sub_diag; auto. Qed.

  Lemma nth_app_l : forall (l m : list A) i x, nth_error l i = Some x -> nth_error (l ++ m) i = Some x.
  Proof. intros. rewrite nth_error_app1; auto. eapply nth_error_lt; eauto. Qed.
End Facts.

Lemma replace_map : forall (A B : Type) (f : A -> B) i x (l : list A), replace_at i (f x) (map f l) = map f (replace_at i x l).
Proof.
  induction i as [|i IH]; intros x [|y l]; auto. cbn [map]. rewrite !replace_cons. cbn [map]. f_equal. apply IH.
Qed.
