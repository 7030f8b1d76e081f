(** Proofs about counts that wrap. *)
From Coq Require Import List Arith Bool Lia.
From Verif Require Import Base CountWrap.
Import ListNotations.

Section CountWrapP.
  Variables W L : nat.

  Lemma wrun_app es1 : forall s es2, wrun W L s (es1 ++ es2) =
    match wrun W L s es1 with
    | Some (os1, s1) => match wrun W L s1 es2 with Some (os2, s2) => Some (os1 ++ os2, s2) | None => None end
    | None => None
    end.
  Proof.
    induction es1 as [|e es IH]; intros s es2; cbn [app wrun]; [destruct (wrun W L s es2) as [[? ?]|]; reflexivity|].
    destruct (wstep W L s e) as [[s' o]|]; [|reflexivity]. rewrite IH.
    destruct (wrun W L s' es) as [[os1 s1]|]; [|reflexivity]. destruct (wrun W L s1 es2) as [[? ?]|]; reflexivity.
  Qed.

  (** [g]: pointers that are gone for good; [p]: calls that panicked so far. *)
  Definition winv (s : cword) (g p : nat) : Prop :=
    if w_live s then w_cnt s = w_ptrs s + g + p /\ 1 <= w_cnt s /\ w_cnt s <= L + 1 + p
    else w_ptrs s = 0 /\ g = 0 /\ p = 0.

  Lemma wstep_inv s e s' o g p : L + 2 <= W -> winv s g p -> wstep W L s e = Some (s', o) ->
    p + (if is_panic o then 1 else 0) <= W - L - 2 ->
    winv s' (g + (if is_forgot o then 1 else 0)) (p + (if is_panic o then 1 else 0)) /\ o <> OBad.
  Proof.
    intros HW Hi Hs Hp. unfold wstep in Hs. destruct (w_ptrs s =? 0) eqn:E0; [discriminate|]. apply Nat.eqb_neq in E0.
    unfold winv in Hi. destruct (w_live s) eqn:El; [|lia]. destruct Hi as (H1 & H2 & H3).
    destruct e; apply (f_equal (fun o => match o with Some x => x | None => (s, OBad) end)) in Hs; cbv beta iota in Hs.
    - unfold increment in Hs. cbv zeta in Hs. destruct (L <? w_cnt s) eqn:EL; injection Hs as <- <-; cbn [is_panic is_forgot] in *; (split; [|discriminate]); unfold winv; cbn [w_live w_cnt w_ptrs].
      + rewrite Nat.mod_small by lia. lia.
      + apply Nat.ltb_ge in EL. rewrite Nat.mod_small by lia. lia.
    - injection Hs as <- <-. cbn [is_panic is_forgot] in *. split; [|discriminate]. unfold winv. cbn [w_live w_cnt w_ptrs]. lia.
    - unfold decrement in Hs. cbv zeta in Hs. destruct (w_cnt s =? 1) eqn:E1; injection Hs as <- <-; cbn [is_panic is_forgot negb] in *; (split; [|discriminate]); unfold winv; cbn [w_live w_cnt w_ptrs].
      + apply Nat.eqb_eq in E1. lia.
      + apply Nat.eqb_neq in E1. replace (w_cnt s + (W - 1)) with ((w_cnt s - 1) + 1 * W) by lia. rewrite Nat.mod_add by lia. rewrite Nat.mod_small by lia. lia.
    - injection Hs as <- <-. cbn [is_panic is_forgot] in *. split; [|discriminate]. unfold winv. rewrite El. lia.
  Qed.

  Lemma wrun_inv es : forall s g p os s', L + 2 <= W -> winv s g p -> wrun W L s es = Some (os, s') -> p + panics os <= W - L - 2 ->
    winv s' (g + forgotten os) (p + panics os) /\ ~ In OBad os.
  Proof.
    induction es as [|e es IH]; intros s g p os s' HW Hi Hr Hp; cbn [wrun] in Hr.
    - injection Hr as <- <-. unfold panics, forgotten. cbn [filter length]. rewrite !Nat.add_0_r. split; [exact Hi|intros []].
    - destruct (wstep W L s e) as [[s1 o]|] eqn:E1; [|discriminate]. destruct (wrun W L s1 es) as [[os1 s2]|] eqn:E2; [|discriminate].
      injection Hr as <- <-.
      assert (HP : panics (o :: os1) = (if is_panic o then 1 else 0) + panics os1) by (unfold panics; cbn [filter]; destruct (is_panic o); reflexivity).
      assert (HF : forgotten (o :: os1) = (if is_forgot o then 1 else 0) + forgotten os1) by (unfold forgotten; cbn [filter]; destruct (is_forgot o); reflexivity).
      rewrite HP, HF in *. destruct (wstep_inv s e s1 o g p HW Hi E1) as (Hi1 & Hb); [lia|].
      destruct (IH s1 _ _ os1 s2 HW Hi1 E2) as (Hi2 & Hnb); [lia|]. rewrite !Nat.add_assoc. split; [exact Hi2|].
      intros [->|H]; [exact (Hb eq_refl)|exact (Hnb H)].
  Qed.

  (** ** Past the limit *)

  Lemma grow_run n : forall c, 1 <= c -> c + n <= L + 1 -> L + 2 <= W ->
    wrun W L {| w_cnt := c; w_ptrs := 1; w_live := true |} (concat (repeat [WCopy; WForget] n)) =
    Some (concat (repeat [OCopied; OForgot] n), {| w_cnt := c + n; w_ptrs := 1; w_live := true |}).
  Proof.
    induction n as [|n IH]; intros c Hc Hn HW; [cbn [repeat concat wrun]; rewrite Nat.add_0_r; reflexivity|].
    cbn [repeat concat app wrun]. unfold wstep at 1. cbn [w_ptrs w_live Nat.eqb]. unfold increment. cbn [w_cnt w_ptrs].
    replace (L <? c) with false by (symmetry; apply Nat.ltb_ge; lia). unfold wstep at 1. cbn [w_ptrs w_cnt w_live Nat.eqb Nat.add Nat.sub].
    rewrite Nat.mod_small by lia. rewrite IH by lia. replace (c + 1 + n) with (c + S n) by lia. reflexivity.
  Qed.

  Lemma panic_run n : forall c, L < c -> c + n <= W -> 1 <= n ->
    wrun W L {| w_cnt := c; w_ptrs := 1; w_live := true |} (repeat WCopy n) =
    Some (repeat OPanic n, {| w_cnt := (c + n) mod W; w_ptrs := 1; w_live := true |}).
  Proof.
    induction n as [|n IH]; intros c Hc Hn H1; [lia|].
    cbn [repeat wrun]. unfold wstep. cbn [w_ptrs w_live Nat.eqb]. unfold increment. cbn [w_cnt w_ptrs].
    replace (L <? c) with true by (symmetry; apply Nat.ltb_lt; lia).
    destruct n as [|n].
    - cbn [repeat wrun]. reflexivity.
    - rewrite Nat.mod_small by lia. rewrite IH by lia. replace (c + 1 + S n) with (c + S (S n)) by lia. reflexivity.
  Qed.

  Lemma panics_app a b : panics (a ++ b) = panics a + panics b.
  Proof. unfold panics. rewrite filter_app, app_length. reflexivity. Qed.
  Lemma panics_none n : panics (concat (repeat [OCopied; OForgot] n)) = 0.
  Proof. induction n; [reflexivity|]. cbn [repeat concat]. rewrite panics_app, IHn. reflexivity. Qed.
  Lemma panics_all n : panics (repeat OPanic n) = n.
  Proof. induction n; [reflexivity|]. cbn [repeat]. unfold panics in *. cbn [filter is_panic length]. rewrite IHn. reflexivity. Qed.
End CountWrapP.

(** As long as at most W - L - 2 calls have panicked on overflow (for a 64-bit `usize`: 2^63 - 1), the count is exact:
    it counts the pointers, those forgotten, and one for every call that panicked.  So the node is freed only when no
    pointer is left, it is not used after that, and an owner that is told it is the only one is the only one. *)
Lemma C56_exact_below_proof : forall (W L : nat) (es : list wev) (os : list wout) (s : cword),
  L + 2 <= W -> wrun W L wnew es = Some (os, s) -> panics os <= W - L - 2 ->
  ~ In OBad os /\
  (w_live s = true -> w_cnt s = w_ptrs s + forgotten os + panics os) /\
  (w_live s = false -> w_ptrs s = 0) /\
  (w_live s = true -> is_unique s = true -> w_ptrs s <= 1).
Proof.
  intros W L es os s HW Hr Hp. destruct (wrun_inv W L es wnew 0 0 os s HW) as (Hi & Hb); [unfold winv; cbn; lia|exact Hr|lia|].
  cbn [Nat.add] in Hi. unfold winv in Hi. split; [exact Hb|].
  destruct (w_live s); repeat split; intros; try discriminate; try lia.
  unfold is_unique in *. match goal with H : (_ =? _) = true |- _ => apply Nat.eqb_eq in H end. lia.
Qed.

(** One more, and it is not: a call that panics on overflow has raised the count all the same.  A caller that forgets
    clones and catches panics takes the count past its greatest value, never having more than two pointers; then a
    node with two owners counts as unique, so one of them writes it in place, or frees it under the other. *)
Lemma C56_exact_refuted_proof : forall W L : nat, L + 2 <= W ->
  exists (es : list wev) (os : list wout) (s : cword),
    wrun W L wnew es = Some (os, s) /\ panics os = W - L - 1 /\ length es = W + L /\
    w_ptrs s = 2 /\ w_live s = true /\ is_unique s = true /\
    exists s', wrun W L s [WGive; WAsk] = Some ([OFreed; OBad], s') /\ w_ptrs s' = 1.
Proof.
  intros W L HW.
  exists (concat (repeat [WCopy; WForget] L) ++ repeat WCopy (W - L - 1) ++ [WCopy]).
  exists (concat (repeat [OCopied; OForgot] L) ++ repeat OPanic (W - L - 1) ++ [OCopied]).
  exists {| w_cnt := 1; w_ptrs := 2; w_live := true |}.
  assert (HL : length (concat (repeat [WCopy; WForget] L)) = 2 * L).
  { clear HW. induction L as [|L' IH]; [reflexivity|]. cbn [repeat concat app length]. rewrite IH. lia. }
  split; [|split; [|split; [|split; [reflexivity|split; [reflexivity|split; [reflexivity|]]]]]].
  - rewrite wrun_app. unfold wnew. rewrite grow_run by lia. rewrite wrun_app. rewrite panic_run by lia.
    replace (1 + L + (W - L - 1)) with W by lia. rewrite Nat.mod_same by lia.
    cbn [wrun]. unfold wstep. cbn [w_ptrs w_live Nat.eqb]. unfold increment. cbn [w_cnt w_ptrs Nat.add].
    replace (L <? 0) with false by reflexivity. rewrite Nat.mod_small by lia. reflexivity.
  - rewrite !panics_app, panics_none, panics_all. cbn. lia.
  - rewrite !app_length, HL, repeat_length. cbn [length]. lia.
  - cbn [wrun]. unfold wstep at 1. cbn [w_ptrs w_live Nat.eqb]. unfold decrement. cbn [w_cnt w_ptrs Nat.eqb Nat.sub Nat.add negb].
    unfold wstep. cbn [w_ptrs w_live Nat.eqb]. eexists. split; [reflexivity|reflexivity].
Qed.
