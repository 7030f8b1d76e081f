(** Proofs about `BoundedCursor`, the gradual arrays and the range predicates. *)
From Coq Require Import List ZArith Arith Bool Lia.
From Verif Require Import Base Index Range ListFacts Bounded Gradual SmallSpec.
Import ListNotations.

(** ** BoundedCursor *)

Section BoundedP.
  Variable len : nat.

  Fixpoint prepend_all (cs : list nat) (c : bcursor) : res bcursor :=
    match cs with [] => Ok c | x :: cs' => let* c' := bc_prepend len c x in prepend_all cs' c' end.

  Lemma path_after : forall cs, bc_path_after len cs = let* c := bc_new len in let* c := prepend_all cs c in bc_collect (S len) len c.
  Proof.
    reflexivity.
  Qed.

  Lemma collect_ok : forall fuel c, length (bc_path c) = len -> bc_start c <= len -> len - bc_start c < fuel ->
    bc_collect fuel len c = Ok (skipn (bc_start c) (bc_path c)).
  Proof.
    induction fuel as [|f IH]; intros c Hl Hs Hf; [lia|]. cbn [bc_collect]. unfold bc_next.
    destruct (Nat.eqb_spec (bc_start c) len) as [E|E]; cbn [bind].
    - rewrite skipn_all2 by lia. reflexivity.
    - destruct (nth_error (bc_path c) (bc_start c)) as [x|] eqn:En; [|apply nth_error_None in En; lia]. cbn [bind].
      rewrite IH by (cbn [bc_path bc_start]; lia). cbn [bind bc_path bc_start]. f_equal.
      apply nth_error_split in En. destruct En as (l1 & l2 & E1 & E2). rewrite E1, <- E2.
      rewrite !skipn_app, skipn_all, skipn_all2, Nat.sub_diag by lia.
      replace (S (length l1) - length l1) with 1 by lia. reflexivity.
  Qed.

  (** Phase one: the buffer fills from the right, leaving one unwritten slot in front. *)
  Lemma fill_ok : forall cs done, 1 <= len -> length done + length cs <= len - 1 ->
    prepend_all cs {| bc_path := repeat absent (len - length done) ++ rev done; bc_start := len - 1 - length done |}
    = Ok {| bc_path := repeat absent (len - length done - length cs) ++ rev (done ++ cs); bc_start := len - 1 - length done - length cs |}.
  Proof.
    induction cs as [|x cs IH]; intros done Hl H; cbn [length] in H; cbn [prepend_all].
    - rewrite app_nil_r, !Nat.sub_0_r. reflexivity.
    - unfold bc_prepend. cbn [bc_start bc_path]. destruct (Nat.eqb_spec (len - 1 - length done) 0); [lia|].
      destruct (Nat.ltb_spec (len - 1 - length done) (length (repeat absent (len - length done) ++ rev done))) as [_|Hx];
        [|rewrite app_length, repeat_length, rev_length in Hx; lia].
      cbn [bind].
      assert (E : replace_at (len - 1 - length done) x (repeat absent (len - length done) ++ rev done)
                  = repeat absent (len - length (done ++ [x])) ++ rev (done ++ [x])).
      { rewrite app_length, rev_app_distr. cbn [length rev app]. unfold replace_at.
        replace (len - length done) with ((len - (length done + 1)) + 1) by lia. rewrite repeat_app. cbn [repeat].
        replace (len - 1 - length done) with (len - (length done + 1)) by lia.
        rewrite <- app_assoc. rewrite skipn_app, firstn_app, repeat_length, Nat.sub_diag. cbn [skipn firstn app].
        rewrite skipn_all2, firstn_all2 by (rewrite repeat_length; lia). cbn [app]. rewrite app_nil_r. reflexivity. }
      rewrite E. replace (len - 1 - length done - 1) with (len - 1 - length (done ++ [x])) by (rewrite app_length; cbn [length]; lia).
      rewrite IH by (rewrite ?app_length; cbn [length]; lia).
      rewrite <- app_assoc. cbn [app length]. rewrite app_length. cbn [length]. 
      replace (len - (length done + 1) - length cs) with (len - length done - S (length cs)) by lia.
      replace (len - 1 - (length done + 1) - length cs) with (len - 1 - length done - S (length cs)) by lia. reflexivity.
  Qed.

  (** Phase two: the buffer is a window on the sequence with the unwritten slot in the middle. *)
  Lemma shift_ok : forall cs p, 1 <= len -> length p = len ->
    prepend_all cs {| bc_path := p; bc_start := 0 |} = Ok {| bc_path := firstn len (rev cs ++ p); bc_start := 0 |}.
  Proof.
    induction cs as [|x cs IH]; intros p Hl Hp; cbn [prepend_all].
    - cbn [rev app]. rewrite firstn_all2 by lia. reflexivity.
    - unfold bc_prepend. cbn [bc_start bc_path Nat.eqb]. destruct (Nat.eqb_spec len 0); [lia|]. cbn [bind].
      rewrite IH; [|auto|cbn [length]; rewrite firstn_length; lia]. do 2 f_equal.
      cbn [rev]. rewrite <- app_assoc. cbn [app]. rewrite !firstn_app. f_equal.
      destruct (Nat.le_gt_cases len (length (rev cs))) as [Hc|Hc].
      + replace (len - length (rev cs)) with 0 by lia. reflexivity.
      + destruct (len - length (rev cs)) as [|m] eqn:Em; [lia|]. cbn [firstn]. f_equal. rewrite firstn_firstn. f_equal. lia.
  Qed.

  Theorem bounded_exact : forall cs, 1 <= len <= 255 ->
    bc_path_after len cs = Ok (last_components len (firstn (len - 1) cs ++ absent :: skipn (len - 1) cs)).
  Proof.
    intros cs Hl. rewrite path_after. unfold bc_new. destruct (Nat.ltb_spec 255 len); [lia|]. cbn [bind].
    assert (E0 : {| bc_path := repeat absent len; bc_start := match len with O => 0 | S n => n end |}
                 = {| bc_path := repeat absent (len - length (@nil nat)) ++ rev []; bc_start := len - 1 - length (@nil nat) |}).
    { cbn [rev length]. rewrite app_nil_r, !Nat.sub_0_r. f_equal. destruct len; lia. }
    rewrite E0. clear E0.
    assert (Eapp : forall a b c, prepend_all (a ++ b) c = let* c' := prepend_all a c in prepend_all b c').
    { induction a as [|x a IH]; intros b c; cbn [app prepend_all]; auto. destruct (bc_prepend len c x); cbn [bind]; auto. }
    rewrite <- (firstn_skipn (len - 1) cs) at 1. rewrite Eapp.
    set (a := firstn (len - 1) cs). set (b := skipn (len - 1) cs).
    assert (Ha : length a <= len - 1) by apply firstn_le_length.
    rewrite fill_ok by (cbn [length]; lia). cbn [bind app length]. rewrite !Nat.sub_0_r.
    unfold last_components. rewrite rev_app_distr. cbn [rev]. rewrite <- app_assoc. cbn [app].
    destruct (Nat.eq_dec (length a) (len - 1)) as [Eq|Ne].
    - rewrite Eq. replace (len - 1 - (len - 1)) with 0 by lia. replace (len - (len - 1)) with 1 by lia. cbn [repeat app].
      rewrite shift_ok by (cbn [length]; rewrite ?rev_length; lia). cbn [bind].
      rewrite collect_ok; cbn [bc_path bc_start skipn]; [reflexivity| |lia|lia].
      rewrite firstn_length, app_length. cbn [length]. rewrite !rev_length. lia.
    - assert (b = []) as ->.
      { apply length_zero_iff_nil. subst b. rewrite skipn_length. subst a. rewrite firstn_length in Ne. lia. }
      cbn [prepend_all bind rev app]. rewrite collect_ok; cbn [bc_path bc_start].
      + f_equal. rewrite firstn_all2 by (cbn [length]; rewrite rev_length; lia).
        rewrite skipn_app, repeat_length.
        replace (len - 1 - length a - (len - length a)) with 0 by lia. cbn [skipn].
        replace (len - length a) with ((len - 1 - length a) + 1) by lia. rewrite repeat_app, skipn_app, skipn_all2 by (rewrite repeat_length; lia).
        rewrite repeat_length, Nat.sub_diag. reflexivity.
      + rewrite app_length, repeat_length, rev_length. lia.
      + lia.
      + lia.
  Qed.
End BoundedP.

(** What a `BoundedCursor` really yields: the last LEN components of the sequence with one extra component
    0xFF after the first LEN-1 ones. *)
Lemma C31_bounded_cursor_exact_proof : forall (len : nat) (cs : list nat), 1 <= len <= 255 ->
  bc_path_after len cs = Ok (last_components len (firstn (len - 1) cs ++ absent :: skipn (len - 1) cs)).
Proof. intros len cs H. apply bounded_exact; auto. Qed.

(** A path long enough to push the extra component out again is exact. *)
Lemma C31_bounded_cursor_partial_proof : forall (len : nat) (cs : list nat), len <= 255 -> 2 * len <= length cs + 1 ->
  bc_path_after len cs = Ok (last_components len cs).
Proof.
  intros len cs Hl Hc. destruct len as [|n].
  - unfold last_components. cbn [firstn]. rewrite path_after. unfold bc_new. cbn [Nat.ltb Nat.leb bind repeat].
    assert (E : forall cs, prepend_all 0 cs {| bc_path := []; bc_start := 0 |} = Ok {| bc_path := []; bc_start := 0 |})
      by (induction cs0; cbn [prepend_all]; auto).
    rewrite E. reflexivity.
  - rewrite bounded_exact by lia. f_equal. unfold last_components. cbn [Nat.sub]. rewrite Nat.sub_0_r.
    rewrite <- (firstn_skipn n cs) at 3. rewrite !rev_app_distr. cbn [rev]. rewrite <- !app_assoc. cbn [app].
    rewrite !firstn_app. rewrite rev_length, skipn_length.
    replace (S n - (length cs - n)) with 0 by lia. reflexivity.
Qed.

(** For short paths, which are all paths in practice, the first component yielded is the filler. *)
Lemma C31_bounded_cursor_refuted_proof : exists (len : nat) (cs : list nat), len <= 255 /\
  bc_path_after len cs = Ok (absent :: rev cs) /\ bc_path_after len cs <> Ok (last_components len cs).
Proof. exists 8, [3; 1; 4]. vm_compute. split; [lia|]. split; [reflexivity|discriminate]. Qed.

(** ** Gradual arrays *)
Section GradualP.
  Context {E F : Type} (f : nat -> E -> option F).

  Lemma drop_some : forall T (xs : list T), drop_slots (map Some xs) = Ok xs.
  Proof. induction xs as [|x xs IH]; cbn [map drop_slots]; auto. rewrite IH. reflexivity. Qed.

  Lemma map_loop_ok : forall (rest done : list E) (out : list F), length out = length done ->
    let u := {| ua_mem := repeat None (length done) ++ map Some rest; ua_next := length done |} in
    let a := {| ia_mem := map Some out ++ repeat None (length rest); ia_len := length done |} in
    exists o log, map_loop f (length rest) (length done) u a = Ok (o, log) /\
      log = combine (seq (length done) (length log)) (firstn (length log) rest) /\ length log <= length rest /\
      match o with
      | Mapped out' => length log = length rest /\ exists new, out' = out ++ new /\ map Some new = map (fun p => f (fst p) (snd p)) log
      | Unwound dn dold => exists new i e log', log = log' ++ [(i, e)] /\ f i e = None /\ dn = out ++ new /\
          map Some new = map (fun p => f (fst p) (snd p)) log' /\ dold = skipn (length log) rest
      end.
  Proof.
    induction rest as [|e rest IH]; intros done out Ho u a; cbn [length map_loop].
    - unfold ia_finish. subst a. cbn [ia_len ia_mem length repeat]. rewrite app_nil_r, map_length, Ho, Nat.eqb_refl, drop_some. cbn [bind ia_drop ia_mem ia_len].
      unfold ia_drop. cbn [ia_len ia_mem firstn drop_slots bind].
      exists (Mapped out), []. repeat split; auto. exists []. rewrite app_nil_r. auto.
    - unfold ua_take. subst u. cbn [ua_mem ua_next].
      assert (En : nth_error (repeat None (length done) ++ map Some (e :: rest)) (length done) = Some (Some e)).
      { rewrite nth_error_app2; rewrite repeat_length; [rewrite Nat.sub_diag; reflexivity|lia]. }
      rewrite En. cbn [bind].
      assert (Em : replace_at (length done) None (repeat None (length done) ++ map Some (e :: rest)) = repeat None (length (done ++ [e])) ++ map Some rest).
      { unfold replace_at. rewrite skipn_app, firstn_app, repeat_length, Nat.sub_diag, skipn_all2, firstn_all2 by (rewrite repeat_length; lia).
        cbn [skipn map app firstn]. rewrite app_nil_r, app_length. cbn [length]. rewrite repeat_app, <- app_assoc. reflexivity. }
      rewrite Em. destruct (f (length done) e) as [v|] eqn:Ef.
      + unfold ia_push. subst a. cbn [ia_len ia_mem length].
        destruct (Nat.ltb_spec (length done) (length (map Some out ++ repeat None (S (length rest))))) as [_|Hx];
          [|rewrite app_length, map_length, repeat_length in Hx; lia].
        cbn [bind].
        assert (Em2 : replace_at (length done) (Some v) (map Some out ++ repeat None (S (length rest))) = map Some (out ++ [v]) ++ repeat None (length rest)).
        { unfold replace_at. rewrite <- Ho. rewrite skipn_app, firstn_app, map_length, Nat.sub_diag, skipn_all2, firstn_all2 by (rewrite map_length; lia).
          cbn [skipn repeat app firstn]. rewrite app_nil_r, map_app, <- app_assoc. reflexivity. }
        rewrite Em2. replace (S (length done)) with (length (done ++ [e])) by (rewrite app_length; cbn [length]; lia).
        destruct (IH (done ++ [e]) (out ++ [v])) as (o & log & E1 & E2 & E3 & E4); [rewrite !app_length; cbn [length]; lia|].
        cbn zeta in E1. rewrite E1. cbn [bind]. exists o, ((length done, e) :: log). split; auto. cbn [length]. split.
        { cbn [seq combine firstn]. f_equal. rewrite E2 at 1. rewrite app_length. cbn [length]. rewrite Nat.add_1_r. reflexivity. }
        split; [lia|]. destruct o as [out'|dn dold].
        * destruct E4 as (E4 & new & -> & E5). split; [lia|]. exists (v :: new). split; [rewrite <- app_assoc; reflexivity|].
          cbn [map fst snd]. rewrite Ef, E5. reflexivity.
        * destruct E4 as (new & i & e0 & log' & -> & Ef0 & -> & E5 & E6). exists (v :: new), i, e0, ((length done, e) :: log').
          split; [reflexivity|]. split; auto. split; [rewrite <- app_assoc; reflexivity|]. split; [cbn [map fst snd]; rewrite Ef, E5; reflexivity|].
          cbn [skipn]. exact E6.
      + subst a. unfold ia_drop. cbn [ia_len ia_mem]. rewrite <- Ho, firstn_app, map_length, Nat.sub_diag, firstn_all2 by (rewrite map_length; lia).
        cbn [firstn]. rewrite app_nil_r, drop_some. cbn [bind]. unfold ua_drop. cbn [ua_mem ua_next].
        rewrite Ho. rewrite !app_length, repeat_length. cbn [length].
        destruct (Nat.leb_spec (S (length done)) (length done + 1 + length (map Some rest))) as [_|Hx]; [|lia].
        rewrite skipn_app, repeat_length, skipn_all2 by (rewrite repeat_length; lia). replace (S (length done) - (length done + 1)) with 0 by lia.
        cbn [skipn app]. rewrite drop_some. cbn [bind]. exists (Unwound out rest), [(length done, e)].
        split; [reflexivity|]. cbn [length seq firstn combine]. split; [reflexivity|]. split; [lia|].
        exists [], (length done), e, []. rewrite app_nil_r. repeat split; auto.
  Qed.
End GradualP.

(** Every element is passed to the mapping function or dropped, and every mapped value is returned or
    dropped, exactly once and in order; no slot is read or dropped while empty. *)
Lemma C33_map_array_accounts_proof : forall (E F : Type) (f : nat -> E -> option F) (xs : list E),
  exists o log, map_array_with_index f xs = Ok (o, log) /\ map fst log = seq 0 (length log) /\
    match o with
    | Mapped out => map snd log = xs /\ map Some out = map (fun p => f (fst p) (snd p)) log
    | Unwound dropped_new dropped_old => map snd log ++ dropped_old = xs /\
        exists done last, log = done ++ [last] /\ f (fst last) (snd last) = None /\
          map Some dropped_new = map (fun p => f (fst p) (snd p)) done
    end.
Proof.
  intros E F f xs. unfold map_array_with_index.
  destruct (map_loop_ok f xs [] [] eq_refl) as (o & log & E1 & E2 & E3 & E4). exists o, log. split; [exact E1|].
  assert (G : forall (a : list nat) (b : list E), length a = length b -> map fst (combine a b) = a /\ map snd (combine a b) = b).
  { induction a as [|x a IH]; intros [|y b] Hab; cbn in *; try lia; auto. destruct (IH b ltac:(lia)) as [-> ->]. auto. }
  specialize (G (seq 0 (length log)) (firstn (length log) xs) ltac:(rewrite seq_length, firstn_length; lia)).
  cbn [length] in E2. rewrite <- E2 in G. destruct G as [Hf1 Hf2].
  split; auto. destruct o as [out|dn dold].
  - destruct E4 as (E4 & new & -> & E5). split; [rewrite Hf2, firstn_all2; auto; lia|exact E5].
  - destruct E4 as (new & i & e & log' & E6 & Ef & -> & E5 & ->). split; [rewrite Hf2; apply firstn_skipn|].
    exists log', (i, e). auto.
Qed.

(** ** Range predicates *)
Lemma to_leb {I} (X : index_ops I) : total_order X -> forall a b, ix_leb X a b = true <-> ix_ltb X a b = true \/ a = b.
Proof.
  intros H a b. unfold ix_leb. destruct (ix_ltb X b a) eqn:E; cbn [negb].
  - split; [discriminate|]. intros [L| ->].
    + rewrite <- (to_irrefl _ H a). eapply to_trans; eauto.
    + rewrite to_irrefl in E; auto.
  - split; auto. intros _. destruct (to_total _ H a b) as [L|[L|L]]; auto. congruence.
Qed.

Section RangeQ.
  Context {I : Type} (X : index_ops I) (H : total_order X).
  Notation lt := (fun a b => ix_ltb X a b = true).

  Lemma leb_not : forall a b, ix_leb X a b = false <-> ix_ltb X b a = true.
  Proof.
    intros a b. pose proof (to_leb _ H a b) as L. destruct (ix_leb X a b).
    - split; [discriminate|]. intros Hb. exfalso. destruct (proj1 L eq_refl) as [Ha| ->].
      + pose proof (to_trans _ H _ _ _ Ha Hb) as T. rewrite (to_irrefl _ H) in T. discriminate.
      + rewrite (to_irrefl _ H) in Hb. discriminate.
    - split; auto. intros _. destruct (to_total _ H a b) as [Ha|[Ha|Ha]]; auto; assert (false = true) by (apply L; auto); discriminate.
  Qed.
  Lemma ltb_not : forall a b, ix_ltb X a b = false <-> ix_leb X b a = true.
  Proof.
    intros a b. pose proof (leb_not b a) as L. destruct (ix_leb X b a), (ix_ltb X a b); split; auto; try discriminate; intros.
    - assert (true = false) by (apply L; reflexivity). discriminate.
    - assert (false = true) by (apply L; reflexivity). discriminate.
  Qed.
  Lemma le_lt_trans : forall a b c, ix_leb X a b = true -> ix_ltb X b c = true -> ix_ltb X a c = true.
  Proof. intros a b c Ha Hb. apply (to_leb _ H) in Ha. destruct Ha as [Ha| ->]; eauto using to_trans. Qed.
  Lemma le_trans' : forall a b c, ix_leb X a b = true -> ix_leb X b c = true -> ix_leb X a c = true.
  Proof. intros a b c Ha Hb. apply (to_leb _ H) in Hb. destruct Hb as [Hb| <-]; auto. apply (to_leb _ H). left. eapply le_lt_trans; eauto. Qed.
  Lemma leb_refl : forall a, ix_leb X a a = true.
  Proof. intros. apply (to_leb _ H). auto. Qed.
  Lemma lt_le : forall a b, ix_ltb X a b = true -> ix_leb X a b = true.
  Proof. intros. apply (to_leb _ H). auto. Qed.

  Lemma contains_ok : forall r i, contains X r i = true <-> above lt (fst r) i /\ below lt (snd r) i.
  Proof.
    intros [s e] i. unfold contains, above, below. cbn [fst snd]. rewrite andb_true_iff.
    destruct s as [a|], e as [b|b|]; rewrite ?(to_leb _ H); intuition congruence.
  Qed.
End RangeQ.

(** `contains` is membership. *)
Lemma C30_contains_proof : forall (I : Type) (X : index_ops I) (r : sbound I * ebound I) (i : I), total_order X ->
  (contains X r i = true <-> above (fun a b => ix_ltb X a b = true) (fst r) i /\ below (fun a b => ix_ltb X a b = true) (snd r) i).
Proof. intros I X r i H. apply contains_ok; auto. Qed.

Section RangeR.
  Context {I : Type} (X : index_ops I) (H : total_order X).

  Definition in_end (e : ebound I) (i : I) : bool :=
    match e with EIncl b => ix_leb X i b | EExcl b => ix_ltb X i b | EUnb => true end.
  Definition in_start (s : sbound I) (i : I) : bool := match s with SIncl a => ix_leb X a i | SUnb => true end.
  (** The start is not after the end. *)
  Definition fine (s : sbound I) (e : ebound I) : bool := match s with SIncl a => in_end e a | SUnb => true end.

  Lemma not_leb : forall a b, ix_ltb X b a = negb (ix_leb X a b).
  Proof. intros a b. pose proof (leb_not X H a b). destruct (ix_leb X a b), (ix_ltb X b a); cbn; intuition congruence. Qed.

  Lemma empty_fine : forall s e, is_empty_naive X (s, e) = negb (fine s e).
  Proof. intros [a|] [b|b|]; cbn [is_empty_naive fine in_end negb]; auto; rewrite not_leb, ?negb_involutive; reflexivity. Qed.

  Lemma overlaps_fine : forall s e s' e', overlaps_naive X (s, e) (s', e') = fine s e && fine s' e' && fine s e' && fine s' e.
  Proof.
    intros s e s' e'. unfold overlaps_naive. rewrite !empty_fine. cbn [fst snd].
    assert (E1 : match s, e' with SIncl s, EExcl e => ix_leb X e s | SIncl s, EIncl e => ix_ltb X e s | _, _ => false end = negb (fine s e')).
    { destruct s as [a|], e' as [b|b|]; cbn [fine in_end negb]; auto; rewrite not_leb, ?negb_involutive; reflexivity. }
    assert (E2 : match e, s' with EExcl e, SIncl s => ix_leb X e s | EIncl e, SIncl s => ix_ltb X e s | _, _ => false end = negb (fine s' e)).
    { destruct s' as [a|], e as [b|b|]; cbn [fine in_end negb]; auto; rewrite not_leb, ?negb_involutive; reflexivity. }
    rewrite E1, E2. destruct (fine s e), (fine s' e'), (fine s e'), (fine s' e); reflexivity.
  Qed.

  Lemma in_end_down : forall e i j, in_end e i = true -> ix_leb X j i = true -> in_end e j = true.
  Proof. intros [b|b|] i j Hi Hj; cbn [in_end] in *; auto; [eapply (le_trans' X H)|eapply (le_lt_trans X H)]; eauto. Qed.

  Lemma contains_in : forall s e i, contains X (s, e) i = in_start s i && in_end e i.
  Proof. intros [a|] [b|b|] i; reflexivity. Qed.

  Lemma contains_fine : forall s e i, in_start s i = true -> in_end e i = true -> fine s e = true.
  Proof. intros [a|] e i Hs He; cbn [fine in_start] in *; auto. eapply in_end_down; eauto. Qed.
End RangeR.

(** `is_empty_naive`, and with it `starts_after_end`, tells exactly whether anything is contained, for all
    ranges except `..b` with an excluded bound. *)
Lemma C30_is_empty_proof : forall (I : Type) (X : index_ops I) (s : sbound I) (e : ebound I), total_order X -> inhabited I ->
  (forall b, (s, e) <> (SUnb, EExcl b)) ->
  starts_after_end X (s, e) = is_empty_naive X (s, e) /\
  (is_empty_naive X (s, e) = true <-> forall i, contains X (s, e) i = false).
Proof.
  intros I X s e H [i0] Hr. split; [destruct s, e; reflexivity|]. rewrite (empty_fine X H). split.
  - intros Hn i. rewrite contains_in. destruct (in_start X s i) eqn:Es; auto. destruct (in_end X e i) eqn:Ee; auto.
    rewrite (contains_fine X H s e i Es Ee) in Hn. discriminate.
  - intros Hc. destruct s as [a|].
    + specialize (Hc a). rewrite contains_in in Hc. cbn [in_start] in Hc. rewrite (leb_refl X H) in Hc. cbn [andb fine] in *. rewrite Hc. reflexivity.
    + exfalso. destruct e as [b|b|].
      * specialize (Hc b). rewrite contains_in in Hc. cbn [in_start in_end] in Hc. rewrite (leb_refl X H) in Hc. discriminate.
      * apply (Hr b). reflexivity.
      * specialize (Hc i0). discriminate.
Qed.

(** `overlaps_naive` tells exactly whether there is a common element, unless both ranges are unbounded at
    the start (a shared unbounded end does no harm). *)
Lemma C30_overlaps_proof : forall (I : Type) (X : index_ops I) (r o : sbound I * ebound I), total_order X ->
  ~ (fst r = SUnb /\ fst o = SUnb) ->
  (overlaps_naive X r o = true <-> exists i, contains X r i = true /\ contains X o i = true).
Proof.
  intros I X [s e] [s' e'] H Hs. cbn [fst] in Hs. rewrite (overlaps_fine X H), !andb_true_iff. split.
  - intros [[[F1 F2] F3] F4].
    assert (Hm : exists m, in_start X s m = true /\ in_start X s' m = true /\ in_end X e m = true /\ in_end X e' m = true).
    { destruct s as [a|], s' as [a'|]; cbn [fine in_start] in *.
      - destruct (to_total _ H a a') as [L|[<-|L]].
        + exists a'. rewrite (leb_refl X H), (lt_le X H a a' L). auto.
        + exists a. rewrite (leb_refl X H). auto.
        + exists a. rewrite (leb_refl X H), (lt_le X H a' a L). auto.
      - exists a. rewrite (leb_refl X H). auto.
      - exists a'. rewrite (leb_refl X H). auto.
      - exfalso. auto. }
    destruct Hm as (m & A & B & C & D). exists m. rewrite !contains_in, A, B, C, D. auto.
  - intros (i & Hi & Hi'). rewrite contains_in, andb_true_iff in Hi, Hi'. destruct Hi, Hi'.
    repeat split; eapply (contains_fine X H); eauto.
Qed.

(** The exceptions: below an excluded bound there may be nothing, which the predicates cannot see. *)
Lemma C30_unbounded_start_proof : forall (I : Type) (X : index_ops I) (r : sbound I * ebound I) (e : ebound I) (b : I), total_order X ->
  is_empty_naive X (SUnb, e) = false /\
  ((forall i, ix_ltb X i b = false) -> (forall i, contains X (SUnb, EExcl b) i = false) /\ overlaps_naive X (SUnb, EExcl b) (SUnb, e) = true).
Proof.
  intros I X r e b H. split; [destruct e; reflexivity|]. intros Hb. split; [intros i; cbn; auto|].
  rewrite (overlaps_fine X H). reflexivity.
Qed.
