(** The potential that pays for the rounds of an iteration.  Proof support only. *)
From Coq Require Import List ZArith Bool Arith Lia.
From Verif Require Import Base Index Slice Tree Insert Range Iter Path Wild WildQ WildCalls IterCost.
Import ListNotations.

Section Pot.
  Context (M : nat).
  Hypothesis HM : 1 <= M.

  (** Of each node on the path, top first, how many keys have been passed; the top node does not count. *)
  Fixpoint sm (l : list nat) : nat := match l with [] => 0 | x :: l' => Nat.min M x + sm l' end.
  Definition sc (l : list nat) : nat := sm (tl l).
  Definition pot (l : list nat) : Z := (2 * Z.of_nat (sc l) - Z.of_nat (M * (length l - 1)))%Z.

  Lemma sm_app : forall a b, sm (a ++ b) = sm a + sm b.
  Proof. induction a as [|x a IH]; intros b; cbn [app sm]; [reflexivity|]. rewrite IH. lia. Qed.
  Lemma sm_zero : forall h, sm (repeat 0 h) = 0.
  Proof. induction h as [|h IH]; [reflexivity|]. cbn [repeat sm]. rewrite IH. lia. Qed.
  Lemma sm_full : forall l, Forall (le M) l -> sm l = M * length l.
  Proof. induction 1 as [|x l H _ IH]; cbn [sm length]; [lia|]. rewrite IH. lia. Qed.
  Lemma sm_le : forall l, sm l <= M * length l.
  Proof. induction l as [|x l IH]; cbn [sm length]; lia. Qed.
  Lemma sc_app : forall A x B, sc (A ++ x :: B) + (if A then Nat.min M x else 0) = sm (tl A) + Nat.min M x + sm B.
  Proof. intros [|a A] x B; cbn [app tl]; unfold sc; cbn [tl sm]; [lia|]. rewrite sm_app. cbn [sm]. lia. Qed.

  Lemma pot_range : forall H l, 1 <= length l <= H + 1 -> (- Z.of_nat (M * H) <= pot l <= Z.of_nat (M * H))%Z.
  Proof.
    intros H [|x l] Hl; [cbn in Hl; lia|]. unfold pot, sc. cbn [tl length] in *. pose proof (sm_le l) as L.
    replace (S (length l) - 1) with (length l) by lia. assert (M * length l <= M * H) by (apply Nat.mul_le_mono_l; lia). lia.
  Qed.
  Lemma pot_next : forall A x y, y <= x + 1 -> (0 <= 2 + pot (A ++ [x]) - pot (A ++ [y]))%Z.
  Proof.
    intros A x y H. unfold pot. rewrite !app_length. cbn [length]. pose proof (sc_app A x []) as P. pose proof (sc_app A y []) as Q.
    cbn [sm] in *. destruct A; lia.
  Qed.
  Lemma pot_down : forall A x h, (Z.of_nat (M * (h + 1)) <= 2 + pot (A ++ [x]) - pot (A ++ x :: repeat 0%nat h ++ [1%nat]))%Z.
  Proof.
    intros A x h. unfold pot. rewrite !app_length. cbn [length]. rewrite app_length, repeat_length. cbn [length].
    pose proof (sc_app A x []) as P. pose proof (sc_app A x (repeat 0 h ++ [1])) as Q. rewrite sm_app, sm_zero in Q.
    assert (E1 : sm [] = 0) by reflexivity. assert (E2 : sm [1] = 1) by (cbn [sm]; lia). rewrite E1 in P. rewrite E2 in Q.
    assert (Es : sc (A ++ x :: repeat 0 h ++ [1]) = sc (A ++ [x]) + 1) by (destruct A; lia). rewrite Es. nia.
  Qed.
  Lemma pot_up : forall A x y B, Forall (le M) B -> B <> [] -> y <= x + 1 ->
    (Z.of_nat (M * length B) <= 2 + pot (A ++ x :: B) - pot (A ++ [y]))%Z.
  Proof.
    intros A x y B HB HN Hy. unfold pot. rewrite !app_length. cbn [length].
    pose proof (sc_app A x B) as P. pose proof (sc_app A y []) as Q. rewrite (sm_full _ HB) in P.
    assert (E1 : sm [] = 0) by reflexivity. rewrite E1 in Q.
    assert (Es : sc (A ++ [y]) + M * length B <= sc (A ++ x :: B) + 1) by (destruct A; lia).
    destruct B as [|b B]; [congruence|]. cbn [length] in *. nia.
  Qed.

  Context {I V : Type}.
  Notation tree := (tree I V).
  Notation shape := (@wshape I V M M).

  Lemma sh_child : forall lo h (t ch : tree) c, shape lo (S h) t = true -> child t c = Ok ch -> shape M h ch = true.
  Proof.
    intros lo h t ch c Hs E. destruct (le_gt_dec c (tlen t)) as [L|L].
    - destruct (shape_child M M _ _ _ c Hs L) as (ch' & E' & H'). congruence.
    - exfalso. destruct t as [|tot c0 es]; [discriminate|]. destruct c as [|k]; [lia|]. cbn [child child_of] in E.
      unfold nth_ub in E. unfold tlen in L. cbn [keys] in L. destruct (nth_error es k) eqn:En; [|discriminate].
      assert (k < length es) by (apply nth_error_Some; congruence). lia.
  Qed.
  Lemma sh_at : forall p lo h (t n : tree), shape lo h t = true -> node_at t p = Ok n -> length p <= h ->
    shape (match p with [] => lo | _ => M end) (h - length p) n = true.
  Proof.
    induction p as [|c p IH]; intros lo h t n Hs E L; cbn [node_at length] in *.
    - inversion E; subst. rewrite Nat.sub_0_r. exact Hs.
    - destruct (child t c) as [ch| |] eqn:Ec; try discriminate. cbn [bind] in E. destruct h as [|h]; [lia|].
      pose proof (IH M h ch n (sh_child _ _ _ _ _ Hs Ec) E ltac:(lia)) as R. cbn [Nat.sub]. destruct p; exact R.
  Qed.
  Lemma sh_len : forall p lo h (t n : tree), shape lo h t = true -> node_at t p = Ok n -> p <> [] -> length p <= h -> M <= tlen n.
  Proof.
    intros p lo h t n Hs E Hp L. pose proof (sh_at _ _ _ _ _ Hs E L) as R. destruct p; [congruence|]. apply shape_len in R. lia.
  Qed.

  (** ** Forwards *)
  Definition fl (a : handle) : list nat := fst a ++ [snd a + 1].
  Lemma fwd_down_is : forall h (t : tree) p c a, fwd_down h t p c = Ok a -> a = (p ++ c :: repeat 0 h, 0) /\ fwd_downs h t c = h + 1.
  Proof.
    induction h as [|h IH]; intros t p c a E; cbn [fwd_down fwd_downs] in *; destruct (child t c) as [ch| |]; try discriminate; cbn [bind] in E.
    - destruct (tlen ch =? 0); [discriminate|]. inversion E; subst. auto.
    - destruct (IH _ _ _ _ E) as [-> R]. rewrite <- app_assoc. cbn [app]. rewrite R. auto.
  Qed.
  Lemma fwd_downs_le : forall h (t : tree) c, fwd_downs h t c <= h + 1.
  Proof.
    induction h as [|h IH]; intros t c; cbn [fwd_downs]; destruct (child t c) as [ch| |]; try lia. specialize (IH ch 0). lia.
  Qed.
  Lemma fwd_ups_le : forall (T : tree) rp, fwd_ups T rp <= length rp.
  Proof.
    induction rp as [|c rp IH]; cbn [fwd_ups length]; [lia|]. destruct (node_at T (rev rp)) as [n| |]; try lia. destruct (c <? tlen n); lia.
  Qed.
  Lemma fwd_up_is : forall lo H (T : tree) rp q k, shape lo H T = true -> length rp <= H -> fwd_up T rp = Ok (q, k) ->
    exists B, rev rp = q ++ k :: B /\ Forall (le M) B /\ fwd_ups T rp = 1 + length B.
  Proof.
    intros lo H T. induction rp as [|c rp IH]; intros q k Hs L E; cbn [fwd_up fwd_ups length] in *; [discriminate|].
    destruct (node_at T (rev rp)) as [par| |] eqn:En; try discriminate. cbn [bind] in E. destruct (c <? tlen par) eqn:Ec.
    - inversion E; subst. exists []. cbn. repeat split. constructor.
    - destruct (IH q k Hs ltac:(lia) E) as (B & Eb & FB & R). exists (B ++ [c]). cbn [rev]. rewrite Eb, <- app_assoc. cbn [app].
      split; [reflexivity|]. split.
      + apply Forall_app. split; [exact FB|]. constructor; [|constructor]. apply Nat.ltb_ge in Ec.
        pose proof (sh_len _ _ _ _ _ Hs En) as P. rewrite rev_length in P. specialize (P ltac:(rewrite Eb; destruct q; discriminate) ltac:(lia)). lia.
      + rewrite R, app_length. cbn. lia.
  Qed.
  Lemma fwd_rounds_le : forall H (T : tree) a, length (fst a) <= H -> fwd_rounds H T a <= H.
  Proof.
    intros H T [p k] L. cbn [fst] in L. unfold fwd_rounds. destruct (node_at T p) as [n| |]; try lia.
    destruct (H - length p) as [|h] eqn:Eh.
    - destruct (k + 1 <? tlen n); [lia|]. pose proof (fwd_ups_le T (rev p)) as U. rewrite rev_length in U. lia.
    - pose proof (fwd_downs_le h n (k + 1)). lia.
  Qed.
  Lemma fwd_pays : forall lo H (T : tree) a a', shape lo H T = true -> length (fst a) <= H -> fwd_head H T a = Ok a' ->
    length (fst a') <= H /\ (Z.of_nat (M * fwd_rounds H T a) <= 2 + pot (fl a) - pot (fl a'))%Z.
  Proof.
    intros lo H T [p k] a' Hs L E. cbn [fst] in L. unfold fwd_head, fwd_rounds in *. destruct (node_at T p) as [n| |] eqn:En; try discriminate.
    cbn [bind] in E. destruct (H - length p) as [|h] eqn:Eh.
    - destruct (k + 1 <? tlen n) eqn:Ek.
      + inversion E; subst. cbn [fst]. split; [exact L|]. rewrite Nat.mul_0_r. unfold fl. cbn [fst snd]. apply pot_next. lia.
      + destruct a' as [q k']. destruct (fwd_up_is lo H T (rev p) q k' Hs ltac:(rewrite rev_length; lia) E) as (B & Eb & FB & R).
        rewrite rev_involutive in Eb. subst p. rewrite app_length in L. cbn [fst length] in *. split; [lia|]. rewrite R.
        unfold fl. cbn [fst snd]. rewrite <- app_assoc. cbn [app]. replace (1 + length B) with (length (B ++ [k + 1])) by (rewrite app_length; cbn; lia).
        apply pot_up; [|destruct B; discriminate|lia]. apply Forall_app. split; [exact FB|]. constructor; [|constructor].
        apply Nat.ltb_ge in Ek. pose proof (sh_len _ _ _ _ _ Hs En ltac:(destruct q; discriminate) ltac:(rewrite app_length; cbn; lia)). lia.
    - destruct (fwd_down_is _ _ _ _ _ E) as [-> R]. cbn [fst]. rewrite app_length. cbn [length]. rewrite repeat_length. split; [lia|].
      rewrite R. unfold fl. cbn [fst snd]. rewrite <- app_assoc. cbn [app]. apply pot_down.
  Qed.

  (** ** Backwards *)
  Fixpoint anc (t : tree) (p : list nat) : list nat :=
    match p with
    | [] => []
    | c :: p' => match child t c with Ok ch => (tlen t - c) :: anc ch p' | _ => [] end
    end.
  Definition bl (T : tree) (a : handle) : list nat :=
    anc T (fst a) ++ [match node_at T (fst a) with Ok n => tlen n - snd a | _ => 0 end].
  Lemma anc_app : forall p q (t n : tree), node_at t p = Ok n -> anc t (p ++ q) = anc t p ++ anc n q.
  Proof.
    induction p as [|c p IH]; intros q t n E; cbn [node_at anc app] in *; [inversion E; reflexivity|].
    destruct (child t c) as [ch| |]; try discriminate. cbn [bind] in E. cbn [app]. f_equal. apply IH, E.
  Qed.
  Lemma anc_le : forall p (t : tree), length (anc t p) <= length p.
  Proof. induction p as [|c p IH]; intros t; cbn [anc length]; [lia|]. destruct (child t c) as [ch| |]; cbn [length]; try lia. specialize (IH ch). lia. Qed.
  Lemma bkwd_down_is : forall h (T t : tree) p c q k, node_at T p = Ok t -> bkwd_down h t p c = Ok (q, k) ->
    length q = length p + h + 1 /\ bl T (q, k) = anc T p ++ (tlen t - c) :: repeat 0 h ++ [1] /\ bkwd_downs h t c = h + 1.
  Proof.
    induction h as [|h IH]; intros T t p c q k En E; cbn [bkwd_down bkwd_downs] in *; destruct (child t c) as [ch| |] eqn:Ec; try discriminate; cbn [bind] in E.
    all: assert (En' : node_at T (p ++ [c]) = Ok ch) by (rewrite (node_at_app _ _ _ _ En); cbn [node_at]; rewrite Ec; reflexivity).
    all: assert (Ea : anc T (p ++ [c]) = anc T p ++ [tlen t - c]) by (rewrite (anc_app _ _ _ _ En); cbn [anc]; rewrite Ec; reflexivity).
    - destruct (tlen ch) as [|k0] eqn:Et; [discriminate|]. inversion E; subst. split; [rewrite app_length; cbn; lia|]. split; [|reflexivity].
      unfold bl. cbn [fst snd]. rewrite En', Ea, Et, <- app_assoc. cbn [app repeat]. do 2 f_equal. f_equal. lia.
    - destruct (IH _ _ _ _ _ _ En' E) as (R1 & R2 & R3). rewrite R1, R2, R3, app_length, Ea, <- app_assoc, Nat.sub_diag. cbn [length app repeat].
      split; [lia|]. split; [reflexivity|lia].
  Qed.
  Lemma bkwd_downs_le : forall h (t : tree) c, bkwd_downs h t c <= h + 1.
  Proof.
    induction h as [|h IH]; intros t c; cbn [bkwd_downs]; destruct (child t c) as [ch| |]; try lia. specialize (IH ch (tlen ch)). lia.
  Qed.
  Lemma bkwd_ups_le : forall rp, bkwd_ups rp <= length rp.
  Proof. induction rp as [|[|c] rp IH]; cbn [bkwd_ups length]; lia. Qed.
  Lemma bkwd_up_is : forall (T : tree) rp q k, bkwd_up T rp = Ok (q, k) ->
    exists m, rev rp = q ++ S k :: repeat 0 m /\ bkwd_ups rp = 1 + m.
  Proof.
    intros T. induction rp as [|[|c] rp IH]; intros q k E; cbn [bkwd_up bkwd_ups] in *; [discriminate| |].
    - destruct (IH _ _ E) as (m & Er & R). exists (S m). cbn [rev]. rewrite Er, R, <- app_assoc. cbn [app]. split; [|lia].
      do 2 f_equal. clear. induction m as [|m IH]; [reflexivity|]. cbn [repeat app] in *. rewrite IH. reflexivity.
    - inversion E; subst. exists 0. auto.
  Qed.
  Lemma bkwd_rounds_le : forall H (T : tree) a, length (fst a) <= H -> bkwd_rounds H T a <= H.
  Proof.
    intros H T [p k] L. cbn [fst] in L. unfold bkwd_rounds. destruct (node_at T p) as [n| |]; try lia.
    destruct (H - length p) as [|h] eqn:Eh.
    - destruct k; [|lia]. pose proof (bkwd_ups_le (rev p)) as U. rewrite rev_length in U. lia.
    - pose proof (bkwd_downs_le h n k). lia.
  Qed.
  Lemma first_full : forall m h (t n : tree), shape M h t = true -> node_at t (repeat 0 m) = Ok n -> m <= h ->
    Forall (le M) (anc t (repeat 0 m) ++ [tlen n]) /\ length (anc t (repeat 0 m)) = m.
  Proof.
    induction m as [|m IH]; intros h t n Hs E L; cbn [repeat node_at anc] in *.
    - inversion E; subst. split; [|reflexivity]. constructor; [|constructor]. apply shape_len in Hs. lia.
    - destruct (child t 0) as [ch| |] eqn:Ec; try discriminate. cbn [bind] in E. destruct h as [|h]; [lia|].
      destruct (IH h ch n (sh_child _ _ _ _ _ Hs Ec) E ltac:(lia)) as [F Ln]. cbn [app length]. split; [|lia].
      constructor; [|exact F]. apply shape_len in Hs. lia.
  Qed.
  Lemma bkwd_pays : forall lo H (T : tree) a a', shape lo H T = true -> length (fst a) <= H -> bkwd_head H T a = Ok a' ->
    length (fst a') <= H /\ (Z.of_nat (M * bkwd_rounds H T a) <= 2 + pot (bl T a) - pot (bl T a'))%Z.
  Proof.
    intros lo H T [p k] a' Hs L E. cbn [fst] in L. unfold bkwd_head, bkwd_rounds in *. destruct (node_at T p) as [n| |] eqn:En; try discriminate.
    cbn [bind] in E. destruct (H - length p) as [|h] eqn:Eh.
    - destruct k as [|k].
      + destruct a' as [q k']. destruct (bkwd_up_is T (rev p) q k' E) as (m & Er & R). rewrite rev_involutive in Er. subst p.
        rewrite app_length in L. cbn [fst length] in *. rewrite repeat_length in L. split; [lia|]. rewrite R.
        destruct (node_at_prefix q (S k' :: repeat 0 m) T n En) as [nq Eq]. pose proof (node_at_app q (S k' :: repeat 0 m) T nq Eq) as En2.
        rewrite En in En2. cbn [node_at] in En2. destruct (child nq (S k')) as [ch| |] eqn:Ec; try discriminate. cbn [bind] in En2. symmetry in En2.
        assert (Lq : length q <= H) by lia. pose proof (sh_at _ _ _ _ _ Hs Eq Lq) as Hq.
        destruct (H - length q) as [|hq] eqn:Ehq; [lia|]. pose proof (sh_child _ _ _ _ _ Hq Ec) as Hch.
        destruct (first_full m hq ch n Hch En2 ltac:(lia)) as [F Ln].
        unfold bl. cbn [fst snd]. rewrite En, Eq, (anc_app _ _ _ _ Eq), <- app_assoc. cbn [anc]. rewrite Ec. cbn [app]. rewrite Nat.sub_0_r.
        replace (1 + m) with (length (anc ch (repeat 0 m) ++ [tlen n])) by (rewrite app_length; cbn; lia).
        apply pot_up; [exact F| |lia]. destruct (anc ch (repeat 0 m)); discriminate.
      + inversion E; subst. cbn [fst]. split; [exact L|]. rewrite Nat.mul_0_r. unfold bl. cbn [fst snd]. rewrite En. apply pot_next. lia.
    - destruct a' as [q k']. destruct (bkwd_down_is h T n p k q k' En E) as (R1 & R2 & R3). cbn [fst]. split; [lia|]. rewrite R2, R3.
      unfold bl. cbn [fst snd]. rewrite En. apply pot_down.
  Qed.

  (** ** Calls *)
  Lemma stack_rounds_le : forall X h (t : tree) hints target ex, stack_rounds X h t hints target ex <= h + 1.
  Proof.
    intros X. induction h as [|h IH]; intros t hints target ex; cbn [stack_rounds].
    - destruct (stack_pick X 0 t (hd_error hints) target ex) as [[]| |]; lia.
    - destruct (stack_pick X (S h) t (hd_error hints) target ex) as [[c cp|k kp]| |]; try lia.
      destruct (child t c) as [ch| |]; try lia. destruct (ix_sub_left X target cp) as [t'| |]; try lia. specialize (IH ch (tl hints) t' ex). lia.
  Qed.
  Lemma stack_len : forall X h (t : tree) p hints hp target ex s, make_stack X h t p hints hp target ex = Ok s -> length (fst (k_head s)) <= length p + h.
  Proof.
    intros X. induction h as [|h IH]; intros t p hints hp target ex s E; cbn [make_stack] in E.
    - destruct (stack_pick X 0 t (hd_error hints) target ex) as [[c cp|k kp]| |]; try discriminate. cbn [bind] in E.
      destruct (slice_size X 0 t k) as [sz| |]; try discriminate. cbn [bind] in E. destruct (ix_add_right X hp kp) as [a| |]; try discriminate. cbn [bind] in E.
      destruct (ix_add_right X a _) as [e| |]; try discriminate. inversion E; subst. cbn. lia.
    - destruct (stack_pick X (S h) t (hd_error hints) target ex) as [[c cp|k kp]| |]; try discriminate; cbn [bind] in E.
      2: { destruct (slice_size X (S h) t k) as [sz| |]; try discriminate. cbn [bind] in E. destruct (ix_add_right X hp kp) as [a| |]; try discriminate. cbn [bind] in E.
        destruct (ix_add_right X a _) as [e| |]; try discriminate. inversion E; subst. cbn. lia. }
      destruct (child t c) as [ch| |]; try discriminate. cbn [bind] in E. destruct (ix_sub_left X target cp) as [t'| |]; try discriminate. cbn [bind] in E.
        destruct (ix_add_right X hp cp) as [hp'| |]; try discriminate. cbn [bind] in E. apply IH in E. rewrite app_length in E. cbn in E. lia.
  Qed.

  Definition heads_in (r : @rle I V) (it : @iter I) : Prop :=
    match it_state it with
    | None => True
    | Some st => exists r0, r = Some r0 /\
        (forall s, s_fwd st = Some s -> length (fst (k_head s)) <= r_height r0) /\
        (forall s, s_bkwd st = Some s -> length (fst (k_head s)) <= r_height r0)
    end.
  Definition ph (H : nat) (f : handle -> list nat) (s : option (@istack I)) : Z :=
    match s with None => Z.of_nat (M * (2 * H + 1)) | Some s => pot (f (k_head s)) end.
  Definition phi (r : @rle I V) (it : @iter I) : Z :=
    match r, it_state it with
    | Some r, Some st => (ph (r_height r) fl (s_fwd st) + ph (r_height r) (bl (r_node r)) (s_bkwd st))%Z
    | Some r, None => (- 2 * Z.of_nat (M * r_height r))%Z
    | None, _ => 0%Z
    end.
  Lemma fl_len : forall a, length (fl a) = length (fst a) + 1.
  Proof. intros [p k]. unfold fl. cbn [fst snd]. rewrite app_length. reflexivity. Qed.
  Lemma fl_range : forall H a, length (fst a) <= H -> (- Z.of_nat (M * H) <= pot (fl a) <= Z.of_nat (M * H))%Z.
  Proof. intros H a L. apply pot_range. rewrite fl_len. lia. Qed.
  Lemma bl_range : forall H T a, length (fst a) <= H -> (- Z.of_nat (M * H) <= pot (bl T a) <= Z.of_nat (M * H))%Z.
  Proof. intros H T a L. apply pot_range. unfold bl. rewrite app_length. cbn [length]. pose proof (anc_le (fst a) T). lia. Qed.
  Lemma ph_low : forall H f s, (forall s0, s = Some s0 -> (- Z.of_nat (M * H) <= pot (f (k_head s0)))%Z) -> (- Z.of_nat (M * H) <= ph H f s)%Z.
  Proof. intros H f [s|] L; cbn [ph]; [apply L; reflexivity|lia]. Qed.

  Lemma rounds_le : forall X r b it, heads_in r it -> call_rounds X r b it <= match r with None => 0 | Some r => r_height r + 1 end.
  Proof.
    intros X [r|] b it Hh; unfold call_rounds; [|lia]. unfold heads_in in Hh. destruct (it_state it) as [st|]; [|lia].
    destruct Hh as (r0 & E0 & Hf & Hb). inversion E0; subst r0. destruct b.
    - destruct (s_bkwd st) as [s|]; [|apply stack_rounds_le]. pose proof (bkwd_rounds_le (r_height r) (r_node r) (k_head s) (Hb s eq_refl)).
      destruct (let* sz := handle_size X (r_height r) (r_node r) (k_head s) in ix_sub_right X (k_end s) sz) as [e| |]; try lia.
      destruct (ix_leb X e (it_start it)); lia.
    - destruct (s_fwd st) as [s|]; [|apply stack_rounds_le]. pose proof (fwd_rounds_le (r_height r) (r_node r) (k_head s) (Hf s eq_refl)).
      match goal with |- context [if ?c then 0 else _] => destruct c end; lia.
  Qed.

  Lemma step_pays : forall X r b it o it', match r with None => True | Some r => exists lo, shape lo (r_height r) (r_node r) = true end ->
    heads_in r it -> iter_step X r b it = Ok (o, it') ->
    heads_in r it' /\ (Z.of_nat (M * call_rounds X r b it) <= 2 + phi r it - phi r it')%Z.
  Proof.
    intros X [r|] b it o it' Hr Hh E.
    2: { cbn [iter_step] in E. unfold heads_in in Hh. destruct (it_state it) as [st|] eqn:Es; [discriminate|]. inversion E; subst.
         unfold heads_in. rewrite Es. cbn. split; [exact Logic.I|]. lia. }
    destruct Hr as [lo Hs]. cbn [iter_step] in E. unfold heads_in in Hh.
    destruct (it_state it) as [st|] eqn:Es.
    2: { assert (E' : it' = it) by (destruct b; unfold iter_next, iter_next_back in E; rewrite Es in E; inversion E; reflexivity). subst it'.
         unfold heads_in, call_rounds. rewrite Es. split; [exact Logic.I|]. lia. }
    destruct Hh as (r0 & E0 & Hf & Hb). inversion E0; subst r0. clear E0.
    set (H := r_height r) in *. set (T := r_node r) in *.
    assert (LF : (- Z.of_nat (M * H) <= ph H fl (s_fwd st))%Z) by (apply ph_low; intros s Ea; apply fl_range, Hf, Ea).
    assert (LB : (- Z.of_nat (M * H) <= ph H (bl T) (s_bkwd st))%Z) by (apply ph_low; intros s Ea; apply bl_range, Hb, Ea).
    assert (P0 : phi (Some r) it = (ph H fl (s_fwd st) + ph H (bl T) (s_bkwd st))%Z) by (unfold phi; rewrite Es; reflexivity).
    assert (P1 : phi (Some r) (ended it) = (- 2 * Z.of_nat (M * H))%Z) by reflexivity.
    destruct b.
    - unfold iter_next_back in E. rewrite Es in E. fold H T in E. unfold call_rounds. rewrite Es. fold H T. rewrite P0.
      assert (Step : forall q, (match s_bkwd st with
                    | Some bkwd => let* sz := handle_size X H T (k_head bkwd) in let* next_end := ix_sub_right X (k_end bkwd) sz in
                        if ix_leb X next_end (it_start it) then Ok None else let* b' := bkwd_step X H T bkwd in Ok (Some (b', s_cursor st))
                    | None => let* s := make_stack X H T [] (s_cursor st) (ix_zero X) (it_end it) (it_excl it) in Ok (Some (s, []))
                    end) = Ok q ->
        match q with
        | None => (match s_bkwd st with Some b => match (let* sz := handle_size X H T (k_head b) in ix_sub_right X (k_end b) sz) with
                     | Ok next_end => if ix_leb X next_end (it_start it) then 0 else bkwd_rounds H T (k_head b) | _ => 0 end
                   | None => stack_rounds X H T (s_cursor st) (it_end it) (it_excl it) end) = 0
        | Some (s, _) => length (fst (k_head s)) <= H /\
            (Z.of_nat (M * match s_bkwd st with Some b => match (let* sz := handle_size X H T (k_head b) in ix_sub_right X (k_end b) sz) with
                     | Ok next_end => if ix_leb X next_end (it_start it) then 0 else bkwd_rounds H T (k_head b) | _ => 0 end
                   | None => stack_rounds X H T (s_cursor st) (it_end it) (it_excl it) end) <= 2 + ph H (bl T) (s_bkwd st) - pot (bl T (k_head s)))%Z
        end).
      { intros q Eq. destruct (s_bkwd st) as [bk|] eqn:Eb.
        - destruct (handle_size X H T (k_head bk)) as [sz| |] eqn:Ez; try discriminate. cbn [bind] in *.
          destruct (ix_sub_right X (k_end bk) sz) as [ne| |]; try discriminate. cbn [bind] in *.
          destruct (ix_leb X ne (it_start it)); [inversion Eq; subst; reflexivity|].
          unfold bkwd_step in Eq. destruct (bkwd_head H T (k_head bk)) as [a| |] eqn:Ea; try discriminate. cbn [bind] in Eq. rewrite Ez in Eq. cbn [bind] in Eq.
          destruct (ix_sub_right X (k_end bk) sz) as [e| |]; try discriminate. cbn [bind] in Eq. inversion Eq; subst q. cbn [k_head ph].
          exact (bkwd_pays lo H T _ _ Hs (Hb _ eq_refl) Ea).
        - destruct (make_stack X H T [] (s_cursor st) (ix_zero X) (it_end it) (it_excl it)) as [s| |] eqn:Em; try discriminate. cbn [bind] in Eq. inversion Eq; subst q.
          pose proof (stack_len _ _ _ _ _ _ _ _ _ Em) as L. cbn [length] in L. split; [lia|].
          pose proof (stack_rounds_le X H T (s_cursor st) (it_end it) (it_excl it)) as R. pose proof (bl_range H T (k_head s) ltac:(lia)) as G. cbn [ph].
          assert (M * stack_rounds X H T (s_cursor st) (it_end it) (it_excl it) <= M * (H + 1)) by (apply Nat.mul_le_mono_l, R). nia. }
      match type of E with bind ?m _ = _ => destruct m as [q| |] eqn:Eq; try discriminate end. cbn [bind] in E. specialize (Step q eq_refl).
      destruct q as [[s cur]|].
      + destruct Step as [Ls Ps]. pose proof (bl_range H T (k_head s) Ls) as G.
        match type of E with (if ?c then _ else _) = _ => destruct c end; [inversion E; subst; split; [exact Logic.I|]; rewrite P1; lia|].
        destruct (handle_size X H T (k_head s)) as [sz| |]; try discriminate. cbn [bind] in E. destruct (ix_sub_right X (k_end s) sz) as [e| |]; try discriminate. cbn [bind] in E.
        destruct (handle_slice T (k_head s)) as [v| |]; try discriminate. cbn [bind] in E. inversion E; subst. split.
        * unfold heads_in. cbn. exists r. split; [reflexivity|]. split; [exact Hf|]. intros s0 E0. inversion E0; subst. exact Ls.
        * unfold phi. cbn [it_state with_state s_fwd s_bkwd ph]. fold H T. lia.
      + inversion E; subst. split; [exact Logic.I|]. rewrite P1, Step. lia.
    - unfold iter_next in E. rewrite Es in E. fold H T in E. unfold call_rounds. rewrite Es. fold H T. rewrite P0.
      match type of E with bind ?m _ = _ => remember m as mm eqn:Em end. destruct mm as [q| |]; try discriminate. cbn [bind] in E.
      assert (Step : match q with
        | None => (match s_fwd st with Some f => if (if it_excl it then ix_leb X (it_end it) (k_end f) else ix_ltb X (it_end it) (k_end f)) then 0 else fwd_rounds H T (k_head f)
                   | None => stack_rounds X H T (s_cursor st) (it_start it) false end) = 0
        | Some (s, _, _) => length (fst (k_head s)) <= H /\
            (Z.of_nat (M * match s_fwd st with Some f => if (if it_excl it then ix_leb X (it_end it) (k_end f) else ix_ltb X (it_end it) (k_end f)) then 0 else fwd_rounds H T (k_head f)
                   | None => stack_rounds X H T (s_cursor st) (it_start it) false end) <= 2 + ph H fl (s_fwd st) - pot (fl (k_head s)))%Z
        end).
      { destruct (s_fwd st) as [fw|] eqn:Ef.
        - cbv zeta in Em. match type of Em with context [if ?c then Ok None else _] => destruct c end; [inversion Em; subst; reflexivity|].
          unfold fwd_step in Em. destruct (fwd_head H T (k_head fw)) as [a| |] eqn:Ea; try discriminate. cbn [bind] in Em.
          destruct (handle_size X H T a) as [sz| |]; try discriminate. cbn [bind] in Em.
          destruct (ix_add_right X (k_end fw) sz) as [e| |]; try discriminate. cbn [bind] in Em. inversion Em; subst q. cbn [k_head ph].
          exact (fwd_pays lo H T _ _ Hs (Hf _ eq_refl) Ea).
        - destruct (make_stack X H T [] (s_cursor st) (ix_zero X) (it_start it) false) as [s| |] eqn:Es2; try discriminate. cbn [bind] in Em.
          destruct (handle_size X H T (k_head s)) as [sz| |]; try discriminate. cbn [bind] in Em.
          destruct (ix_sub_right X (k_end s) sz) as [e| |]; try discriminate. cbn [bind] in Em. inversion Em; subst q.
          pose proof (stack_len _ _ _ _ _ _ _ _ _ Es2) as L. cbn [length] in L. split; [lia|].
          pose proof (stack_rounds_le X H T (s_cursor st) (it_start it) false) as R. pose proof (fl_range H (k_head s) ltac:(lia)) as G. cbn [ph].
          assert (M * stack_rounds X H T (s_cursor st) (it_start it) false <= M * (H + 1)) by (apply Nat.mul_le_mono_l, R). nia. }
      destruct q as [[[s ns] cur]|].
      + destruct Step as [Ls Ps]. pose proof (fl_range H (k_head s) Ls) as G.
        match type of E with (if ?c then _ else _) = _ => destruct c end; [inversion E; subst; split; [exact Logic.I|]; rewrite P1; lia|].
        destruct (handle_slice T (k_head s)) as [v| |]; try discriminate. cbn [bind] in E. inversion E; subst. split.
        * unfold heads_in. cbn. exists r. split; [reflexivity|]. split; [|exact Hb]. intros s0 E0. inversion E0; subst. exact Ls.
        * unfold phi. cbn [it_state with_state s_fwd s_bkwd ph]. fold H T. lia.
      + inversion E; subst. split; [exact Logic.I|]. rewrite P1, Step. lia.
  Qed.

  Lemma phi_low : forall r it, heads_in r it -> (- 2 * Z.of_nat (M * match r with None => 0 | Some r => r_height r end) <= phi r it)%Z.
  Proof.
    intros [r|] it Hh; [|unfold phi; rewrite Nat.mul_0_r; destruct (it_state it); cbn; lia]. unfold phi, heads_in in *. destruct (it_state it) as [st|]; [|lia].
    destruct Hh as (r0 & E0 & Hf & Hb). inversion E0; subst r0.
    pose proof (ph_low (r_height r) fl (s_fwd st) (fun s Ea => proj1 (fl_range _ _ (Hf s Ea)))).
    pose proof (ph_low (r_height r) (bl (r_node r)) (s_bkwd st) (fun s Ea => proj1 (bl_range _ (r_node r) _ (Hb s Ea)))). lia.
  Qed.
  Lemma rounds_pays : forall cs r it, match r with None => True | Some r => exists lo, shape lo (r_height r) (r_node r) = true end -> heads_in r it ->
    (Z.of_nat (M * rounds r it cs) <= 2 * Z.of_nat (length cs) + phi r it +
      Z.of_nat (M * match r with None => 0 | Some r => 3 * r_height r + 1 end))%Z.
  Proof.
    induction cs as [|[X b] cs IH]; intros r it Hr Hh; cbn [rounds length].
    - pose proof (phi_low r it Hh). destruct r; nia.
    - pose proof (rounds_le X r b it Hh) as L. destruct (iter_step X r b it) as [[o it']| |] eqn:E.
      + destruct (step_pays X r b it o it' Hr Hh E) as [Hh' P]. specialize (IH r it' Hr Hh'). nia.
      + pose proof (phi_low r it Hh). rewrite Nat.add_0_r. destruct r; nia.
      + pose proof (phi_low r it Hh). rewrite Nat.add_0_r. destruct r; nia.
  Qed.
  Lemma calls_heads : forall cs r it outs it', match r with None => True | Some r => exists lo, shape lo (r_height r) (r_node r) = true end ->
    heads_in r it -> next_calls r it cs = Ok (outs, it') -> heads_in r it'.
  Proof.
    induction cs as [|[X b] cs IH]; intros r it outs it' Hr Hh E; cbn [next_calls] in E; [inversion E; subst; exact Hh|].
    destruct (iter_step X r b it) as [[o it1]| |] eqn:E1; try discriminate. cbn [bind] in E.
    destruct (step_pays X r b it o it1 Hr Hh E1) as [Hh1 _].
    destruct (next_calls r it1 cs) as [[os it2]| |] eqn:E2; try discriminate. cbn [bind] in E. inversion E; subst. eapply IH; eauto.
  Qed.
End Pot.
