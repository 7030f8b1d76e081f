(** Proofs of the properties in IterCostProps.v. *)
From Coq Require Import List ZArith Bool Arith Lia.
From Verif Require Import Base Index Slice Tree Insert Range Iter Wild WildCalls WildQ WildPropsP IterCost IterCostP.
Import ListNotations.

Lemma new_heads : forall {I V : Type} X (r : @rle I V) hints sb eb it, iter_new X r hints sb eb = Ok it -> heads_in r it.
Proof.
  intros I V X r hints sb eb it E. unfold iter_new in E. destruct (rle_size X r) as [sz| |]; try discriminate. cbn [bind] in E.
  destruct eb as [e|e|].
  all: cbv zeta in E; repeat match type of E with (if ?c then _ else _) = _ => destruct c; try discriminate end.
  all: inversion E; subst; unfold heads_in; cbn [it_state]; destruct r as [r|]; try exact Logic.I.
  all: match goal with |- context [if ?c then None else _] => destruct c end; try exact Logic.I.
  all: exists r; repeat split; intros s Es; discriminate.
Qed.

(** All loops of a sequence of calls of next and next_back together go round at most twice for every M items, and
    a number of times that depends on the height of the tree alone. *)
Lemma C61_iteration_cost_proof : forall (I V : Type) (M : nat) (nop : bool) (cs : list (@ins_call I V)) r X hints sb eb it calls W,
  (forall c, In c cs -> index_any (ic_x c)) -> (1 <= M)%nat -> run_calls M nop None cs = Ok r ->
  iter_new X r hints sb eb = Ok it -> (rle_len r < 2 ^ W)%nat ->
  (M * rounds r it calls <= 2 * length calls + 7 * M * W)%nat.
Proof.
  intros I V M nop cs r X hints sb eb it calls W HX HM E Ei HW.
  pose proof (calls_run M HM nop cs None HX Logic.I) as R. rewrite E in R. cbn [post] in R. pose proof (rle_shape_sh _ _ R) as Sh.
  pose proof (rounds_pays M HM calls r it Sh (new_heads _ _ _ _ _ _ Ei)) as P.
  destruct r as [r|].
  - destruct (C06_any_index_height_proof I V M nop cs r HX HM E) as (_ & Hh & _). specialize (Hh W HW). cbn [rle_len] in HW.
    assert (F : (phi M (Some r) it <= 2 * Z.of_nat (M * (2 * r_height r + 1)))%Z).
    { unfold iter_new in Ei. destruct (rle_size X (Some r)) as [sz| |]; try discriminate. cbn [bind] in Ei. destruct eb as [e|e|].
      all: cbv zeta in Ei; repeat match type of Ei with (if ?c then _ else _) = _ => destruct c; try discriminate end.
      all: inversion Ei; subst; unfold phi; cbn [it_state].
      all: match goal with |- context [if ?c then None else _] => destruct c end; cbn [s_fwd s_bkwd ph]; nia. }
    assert (M * r_height r + M <= M * W) by nia. nia.
  - rewrite Nat.mul_0_r in P. unfold phi in P. lia.
Qed.

(** One call goes round its loops at most once more than the tree is high. *)
Lemma C61_call_cost_proof : forall (I V : Type) (M : nat) (nop : bool) (cs : list (@ins_call I V)) r X hints sb eb it calls outs it' X' back,
  (forall c, In c cs -> index_any (ic_x c)) -> (1 <= M)%nat -> run_calls M nop None cs = Ok (Some r) ->
  iter_new X (Some r) hints sb eb = Ok it -> next_calls (Some r) it calls = Ok (outs, it') ->
  (call_rounds X' (Some r) back it' <= r_height r + 1)%nat.
Proof.
  intros I V M nop cs r X hints sb eb it calls outs it' X' back HX HM E Ei Ec.
  pose proof (calls_run M HM nop cs None HX Logic.I) as R. rewrite E in R. cbn [post] in R. pose proof (rle_shape_sh _ _ R) as Sh.
  pose proof (calls_heads M HM calls (Some r) it outs it' Sh (new_heads _ _ _ _ _ _ Ei) Ec) as Hh.
  exact (rounds_le M HM X' (Some r) back it' Hh).
Qed.

(** What is counted: in a step that finds its place, every round is a move from a node to its parent or to one of
    its children, and the moves go straight; a first call visits as many nodes as are on the path to its place. *)
Lemma C61_rounds_are_moves_proof : forall (I V : Type) (T : tree I V) (H : nat) (a a' : handle),
  (fwd_head H T a = Ok a' -> Z.of_nat (fwd_rounds H T a) = Z.abs (Z.of_nat (length (fst a')) - Z.of_nat (length (fst a)))) /\
  (bkwd_head H T a = Ok a' -> Z.of_nat (bkwd_rounds H T a) = Z.abs (Z.of_nat (length (fst a')) - Z.of_nat (length (fst a)))) /\
  (forall X hints zero target ex s, make_stack X H T [] hints zero target ex = Ok s ->
     stack_rounds X H T hints target ex = length (fst (k_head s)) + 1)%nat.
Proof.
  intros I V T H [p k] a'. split; [|split].
  - intros E. unfold fwd_head, fwd_rounds in *. destruct (node_at T p) as [n| |] eqn:En; try discriminate. cbn [bind] in E.
    destruct (H - length p) as [|h].
    + destruct (k + 1 <? tlen n); [inversion E; subst; cbn [fst]; lia|]. destruct a' as [q k']. cbn [fst].
      enough (G : forall rp, fwd_up T rp = Ok (q, k') -> fwd_ups T rp + length q = length rp).
      { specialize (G _ E). rewrite rev_length in G. lia. }
      induction rp as [|c rp IH]; intros Er; cbn [fwd_up fwd_ups length] in *; [discriminate|].
      destruct (node_at T (rev rp)) as [par| |]; try discriminate. cbn [bind] in Er. destruct (c <? tlen par).
      * inversion Er; subst. rewrite rev_length. lia.
      * specialize (IH Er). lia.
    + destruct (fwd_down_is _ _ _ _ _ E) as [-> Q]. cbn [fst]. rewrite app_length. cbn [length]. rewrite repeat_length, Q. lia.
  - intros E. unfold bkwd_head, bkwd_rounds in *. destruct (node_at T p) as [n| |] eqn:En; try discriminate. cbn [bind] in E.
    destruct a' as [q k']. cbn [fst]. destruct (H - length p) as [|h].
    + destruct k as [|k]; [|inversion E; subst; lia]. destruct (bkwd_up_is 1 (le_n 1) _ _ _ _ E) as (m & Er & Q). rewrite rev_involutive in Er.
      rewrite Q, Er, app_length. cbn [length]. rewrite repeat_length. lia.
    + destruct (bkwd_down_is 1 (le_n 1) _ _ _ _ _ _ _ En E) as (L & _ & Q). rewrite L, Q. lia.
  - intros X. cut (forall h (t : tree I V) p0 hints zero target ex s, make_stack X h t p0 hints zero target ex = Ok s ->
      stack_rounds X h t hints target ex + length p0 = length (fst (k_head s)) + 1).
    { intros G hints zero target ex s E. specialize (G _ _ _ _ _ _ _ _ E). cbn [length] in G. lia. }
    induction h as [|h IH]; intros t p0 hints zero target ex s E; cbn [make_stack stack_rounds] in *.
    all: destruct (stack_pick X _ t (hd_error hints) target ex) as [[c cp|k0 kp]| |]; try discriminate; cbn [bind] in E.
    2: { destruct (child t c) as [ch| |]; try discriminate. cbn [bind] in E. destruct (ix_sub_left X target cp) as [t'| |]; try discriminate. cbn [bind] in E.
         destruct (ix_add_right X zero cp) as [hp'| |]; try discriminate. cbn [bind] in E. specialize (IH _ _ _ _ _ _ _ E). rewrite app_length in IH. cbn [length] in IH. lia. }
    all: destruct (slice_size X _ t k0) as [sz| |]; try discriminate; cbn [bind] in E; destruct (ix_add_right X zero kp) as [a1| |]; try discriminate; cbn [bind] in E.
    all: destruct (ix_add_right X a1 sz) as [e| |]; try discriminate; inversion E; subst; cbn [k_head fst]; lia.
Qed.
