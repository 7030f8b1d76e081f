(** Index types: directional arithmetic (src/public_traits.rs 15-36, 186-328). *)
From Coq Require Import List ZArith Lia Bool Arith Sorted.
From Verif Require Import Base.
Import ListNotations.
Local Open Scope Z_scope.

(** `trait Index` = Copy + Ord + ZERO + DirectionalAdd + DirectionalSub
    (src/public_traits.rs 15-36; methods 255-267, 285-295).  Arithmetic may panic.
    The last two fields are not part of the trait: they are what else the tree takes from outside, the
    standard library's search in a slice of indexes (called in src/tree/mod.rs 892) and whether
    debug assertions are compiled in (src/tree/mod.rs 852, 914). *)
Record index_ops (I : Type) : Type := {
  ix_zero : I;                               (* Zero::ZERO *)
  ix_add_left : I -> I -> res I;             (* self.add_left(lhs)  : lhs placed to the left of self *)
  ix_add_right : I -> I -> res I;            (* self.add_right(rhs) *)
  ix_sub_left : I -> I -> res I;             (* self.sub_left(lhs)  : removes lhs from the left *)
  ix_sub_right : I -> I -> res I;            (* self.sub_right(rhs) *)
  ix_ltb : I -> I -> bool;                   (* Ord *)
  ix_eqb : I -> I -> bool;                   (* Eq *)
  ix_search : list I -> I -> nat + nat;      (* [I]::binary_search: [inl i] is Ok(i), [inr i] is Err(i) *)
  ix_debug : bool;                           (* debug assertions *)
}.
Arguments ix_zero {I}.
Arguments ix_add_left {I}.
Arguments ix_add_right {I}.
Arguments ix_sub_left {I}.
Arguments ix_sub_right {I}.
Arguments ix_ltb {I}.
Arguments ix_eqb {I}.
Arguments ix_search {I}.
Arguments ix_debug {I}.

Definition ix_leb {I} (X : index_ops I) (a b : I) : bool := negb (ix_ltb X b a).

(** What is assumed of an index type: the values [inj 0 .. inj MAX] behave like the integers
    [0 .. MAX] as long as no addition exceeds MAX and no subtraction goes below zero. *)
Record index_laws {I : Type} (X : index_ops I) (MAX : Z) (inj : Z -> I) : Prop := {
  il_zero : ix_zero X = inj 0;
  il_addl : forall a b, 0 <= a -> 0 <= b -> a + b <= MAX ->
            ix_add_left X (inj a) (inj b) = Ok (inj (b + a));
  il_addr : forall a b, 0 <= a -> 0 <= b -> a + b <= MAX ->
            ix_add_right X (inj a) (inj b) = Ok (inj (a + b));
  il_subl : forall a b, 0 <= b -> b <= a -> a <= MAX ->
            ix_sub_left X (inj a) (inj b) = Ok (inj (a - b));
  il_subr : forall a b, 0 <= b -> b <= a -> a <= MAX ->
            ix_sub_right X (inj a) (inj b) = Ok (inj (a - b));
  il_ltb : forall a b, 0 <= a <= MAX -> 0 <= b <= MAX ->
           ix_ltb X (inj a) (inj b) = (a <? b);
  il_eqb : forall a b, 0 <= a <= MAX -> 0 <= b <= MAX ->
           ix_eqb X (inj a) (inj b) = (a =? b);
  il_search : forall ps t, StronglySorted Z.lt ps -> Forall (fun p => 0 <= p <= MAX) ps -> 0 <= t <= MAX ->
              match ix_search X (map inj ps) (inj t) with
              | inl i => nth_error ps i = Some t
              | inr i => (i <= length ps)%nat /\
                         forall j p, nth_error ps j = Some p -> ((j < i)%nat -> p < t) /\ ((i <= j)%nat -> t < p)
              end;
}.

(** `binary_search` (core::slice::binary_search_by, in the form it had when the repository was written): the part of
    the slice between [left] and [right] is halved; on a slice that is not sorted the result means nothing
    but is in range.  [fuel] is the length of the slice, which is enough. *)
Fixpoint std_search_loop {I} (ltb eqb : I -> I -> bool) (l : list I) (t : I) (fuel left right : nat) : nat + nat :=
  match fuel with
  | O => inr left
  | S f =>
    if (left <? right)%nat then
      let mid := (left + (right - left) / 2)%nat in
      match nth_error l mid with
      | None => inr left
      | Some p => if ltb p t then std_search_loop ltb eqb l t f (mid + 1)%nat right
                  else if eqb p t then inl mid
                  else std_search_loop ltb eqb l t f left mid
      end
    else inr left
  end.
Definition std_search {I} (ltb eqb : I -> I -> bool) (l : list I) (t : I) : nat + nat :=
  std_search_loop ltb eqb l t (length l) 0 (length l).

(** Unsigned integers with maximum [MAX], overflow checks on (debug build):
    src/public_traits.rs 298-328. *)
Definition checked_ops (MAX : Z) : index_ops Z := {|
  ix_zero := 0;
  ix_add_left := fun a b => if b + a <=? MAX then Ok (b + a) else Panic PArith;
  ix_add_right := fun a b => if a + b <=? MAX then Ok (a + b) else Panic PArith;
  ix_sub_left := fun a b => if b <=? a then Ok (a - b) else Panic PArith;
  ix_sub_right := fun a b => if b <=? a then Ok (a - b) else Panic PArith;
  ix_ltb := Z.ltb;
  ix_eqb := Z.eqb;
  ix_search := std_search Z.ltb Z.eqb;
  ix_debug := true;
|}.

(** The same with wrapping arithmetic modulo MAX+1 and without debug assertions (release build). *)
Definition wrapping_ops (MAX : Z) : index_ops Z := {|
  ix_zero := 0;
  ix_add_left := fun a b => Ok ((b + a) mod (MAX + 1));
  ix_add_right := fun a b => Ok ((a + b) mod (MAX + 1));
  ix_sub_left := fun a b => Ok ((a - b) mod (MAX + 1));
  ix_sub_right := fun a b => Ok ((a - b) mod (MAX + 1));
  ix_ltb := Z.ltb;
  ix_eqb := Z.eqb;
  ix_search := std_search Z.ltb Z.eqb;
  ix_debug := false;
|}.

(** On a sorted slice the search does what its documentation says. *)
Lemma sorted_nth : forall ps, StronglySorted Z.lt ps -> forall i j x y,
  nth_error ps i = Some x -> nth_error ps j = Some y -> (i < j)%nat -> x < y.
Proof.
  intros ps H. induction H as [|p ps H IH F]; intros i j x y Ei Ej Hij; [destruct i; discriminate|].
  destruct j as [|j]; [lia|]. cbn [nth_error] in Ej. destruct i as [|i]; cbn [nth_error] in Ei.
  - injection Ei as <-. rewrite Forall_forall in F. exact (F _ (nth_error_In _ _ Ej)).
  - eapply IH; eauto. lia.
Qed.

Lemma std_search_ok : forall {I} (ltb eqb : I -> I -> bool) (inj : Z -> I) (P : Z -> Prop),
  (forall a b, P a -> P b -> ltb (inj a) (inj b) = (a <? b)) -> (forall a b, P a -> P b -> eqb (inj a) (inj b) = (a =? b)) ->
  forall ps t, StronglySorted Z.lt ps -> Forall P ps -> P t ->
  match std_search ltb eqb (map inj ps) (inj t) with
  | inl i => nth_error ps i = Some t
  | inr i => (i <= length ps)%nat /\
             forall j p, nth_error ps j = Some p -> ((j < i)%nat -> p < t) /\ ((i <= j)%nat -> t < p)
  end.
Proof.
  intros I ltb eqb inj P Hl He ps t Hs Hp Ht. unfold std_search. rewrite map_length.
  assert (G : forall fuel left right, (left <= right)%nat -> (right <= length ps)%nat -> (right - left <= fuel)%nat ->
    (forall j p, nth_error ps j = Some p -> ((j < left)%nat -> p < t) /\ ((right <= j)%nat -> t < p)) ->
    match std_search_loop ltb eqb (map inj ps) (inj t) fuel left right with
    | inl i => nth_error ps i = Some t
    | inr i => (i <= length ps)%nat /\
               forall j p, nth_error ps j = Some p -> ((j < i)%nat -> p < t) /\ ((i <= j)%nat -> t < p)
    end).
  { induction fuel as [|f IH]; intros left right H1 H2 H3 H4; cbn [std_search_loop].
    - split; [lia|]. intros j p Ej. destruct (H4 j p Ej). split; [auto|]. intros. apply H0. lia.
    - destruct (Nat.ltb_spec left right) as [Hlr|Hlr].
      + set (mid := (left + (right - left) / 2)%nat).
        assert (Hmid : (left <= mid < right)%nat).
        { unfold mid. assert ((right - left) / 2 < right - left)%nat by (apply Nat.div_lt; lia). lia. }
        rewrite nth_error_map. destruct (nth_error ps mid) as [p|] eqn:Ep; [|apply nth_error_None in Ep; lia].
        cbn [option_map]. rewrite Forall_forall in Hp. pose proof (Hp _ (nth_error_In _ _ Ep)) as Pp.
        rewrite Hl, He by auto. destruct (Z.ltb_spec p t) as [Hpt|Hpt].
        * apply IH; try lia. intros j q Ej. split; [|intros; apply (H4 j q Ej); lia].
          intros Hj. destruct (Nat.eq_dec j mid) as [->|]; [congruence|].
          assert (q < p) by (eapply sorted_nth; [exact Hs|exact Ej|exact Ep|lia]). lia.
        * destruct (Z.eqb_spec p t) as [->|Hne]; [exact Ep|].
          apply IH; try lia. intros j q Ej. split; [intros; apply (H4 j q Ej); lia|].
          intros Hj. destruct (Nat.eq_dec j mid) as [->|]; [replace q with p by congruence; lia|].
          assert (p < q) by (eapply sorted_nth; [exact Hs|exact Ep|exact Ej|lia]). lia.
      + split; [lia|]. intros j p Ej. destruct (H4 j p Ej). split; [auto|]. intros. apply H0. lia. }
  apply G; try lia. intros j p Ej. split; [lia|]. intros Hj.
  assert (j < length ps)%nat by (apply nth_error_Some; congruence). lia.
Qed.

Lemma checked_laws : forall MAX, index_laws (checked_ops MAX) MAX (fun z => z).
Proof.
  intros MAX; constructor; simpl; intros; try reflexivity.
  - destruct (Z.leb_spec (b + a) MAX); [reflexivity | lia].
  - destruct (Z.leb_spec (a + b) MAX); [reflexivity | lia].
  - destruct (Z.leb_spec b a); [reflexivity | lia].
  - destruct (Z.leb_spec b a); [reflexivity | lia].
  - apply (std_search_ok Z.ltb Z.eqb (fun z => z) (fun p => 0 <= p <= MAX)); auto.
Qed.

Lemma wrapping_laws : forall MAX, 0 <= MAX -> index_laws (wrapping_ops MAX) MAX (fun z => z).
Proof.
  intros MAX HM; constructor; simpl; intros; try reflexivity;
    try (f_equal; apply Z.mod_small; lia).
  apply (std_search_ok Z.ltb Z.eqb (fun z => z) (fun p => 0 <= p <= MAX)); auto.
Qed.
