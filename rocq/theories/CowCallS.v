(** Proofs about calls on trees that share nodes: a call that has been started can always be finished by its thread
    alone. *)
From Coq Require Import List Arith Bool Lia.
From Verif Require Import Base ListFacts Index Slice Tree Insert LInsert LCow Cow CowSpec CowP CowT CowU CowV CowPropsP CowCall CowCallP CowCallQ CowCallR.
Import ListNotations.

Section H.
  Context {D : Type}.
  Notation heap := (heap D).
  Notation cnode := (cnode D).
  Notation cstate := (cstate D).

  Definition leafh (m : heap) : Prop := forall a n, look m a = Some n -> n_kids n = [] -> n_h n = 0.

  Lemma lh_put : forall m b n n', leafh m -> look m b = Some n -> (n_kids n' = [] -> n_h n' = 0) -> leafh (put m b n').
  Proof. intros m b n n' H L F a x LA. rewrite (look_put _ _ _ _ a L) in LA. destruct (a =? b); [injection LA as <-; exact F|eapply H; eauto]. Qed.
  Lemma lh_alloc : forall m b n m', leafh m -> alloc m b n = Some m' -> (n_kids n = [] -> n_h n = 0) -> leafh m'.
  Proof. intros m b n m' H A F a x LA. rewrite (look_alloc _ _ _ _ a A) in LA. destruct (a =? b); [injection LA as <-; exact F|eapply H; eauto]. Qed.
  Lemma lh_free : forall m b n, leafh m -> look m b = Some n -> leafh (free m b).
  Proof. intros m b n H L a x LA. rewrite (look_free _ _ _ a L) in LA. destruct (a =? b); [discriminate|eapply H; eauto]. Qed.
  Lemma lh_work : forall m w m' ws, leafh m -> work_step m w = Some (m', ws) -> leafh m'.
  Proof.
    intros m [a|a] m' ws H W; cbn in W; destruct (look m a) as [n|] eqn:L; try discriminate.
    - destruct (n_cnt n) as [|[|c]]; try discriminate; injection W as <- <-; (eapply lh_put; [exact H|exact L|]); exact (H a n L).
    - injection W as <- <-. eapply lh_free; eauto.
  Qed.
  Lemma insert_ne : forall {A} k (x : A) l, insert_at k x l <> [].
  Proof. intros A k x l E. apply (f_equal (@length A)) in E. rewrite insert_at_len in E. cbn in E. lia. Qed.

  Lemma leaf_step : forall (s : cstate) t e s' o, leafh (c_mem s) -> inv s -> cstep s t e = Next s' o -> leafh (c_mem s').
  Proof.
    intros s t e s' o H I E. unfold cstep in E. destruct (nth_error (c_threads s) t) as [p|] eqn:NT; [|discriminate].
    destruct p as [|h is x|w|h fr en|h fr x fl old].
    - destruct e; try discriminate E.
      + injection E as <- _. exact H.
      + destruct (nth_error (c_handles s) h) as [[[r|]|]|]; try discriminate. destruct (existsb _ _); [discriminate|]. destruct (alloc _ _ _) eqn:A; [|discriminate]. injection E as <- _.
        cbn [hand mem c_mem]. eapply lh_alloc; eauto.
      + destruct (nth_error (c_handles s) h) as [[[r|]|]|]; try discriminate; (destruct (existsb _ _); [discriminate|]).
        * destruct (look (c_mem s) r) as [n|] eqn:L; [|discriminate]. injection E as <- _. cbn [c_mem]. eapply lh_put; [exact H|exact L|]. exact (H r n L).
        * injection E as <- _. exact H.
      + destruct (nth_error (c_handles s) h) as [[[r|]|]|]; try discriminate; (destruct (existsb _ _); [discriminate|]); injection E as <- _; exact H.
      + destruct (nth_error (c_handles s) h) as [[[r|]|]|]; try discriminate. destruct (existsb _ _); [discriminate|]. destruct (look (c_mem s) r); [|discriminate]. injection E as <- _. exact H.
      + destruct (nth_error (c_handles s) h) as [[[r|]|]|]; try discriminate. destruct (existsb _ _); [discriminate|]. injection E as <- _. exact H.
    - destruct e; try discriminate E.
      + destruct (look (c_mem s) x) as [n|]; [|discriminate]. destruct (nth_error (n_kids n) i); [|discriminate]. destruct (look (c_mem s) a); [|discriminate]. injection E as <- _. exact H.
      + injection E as <- _. exact H.
    - destruct e; try (destruct w; discriminate E). destruct w as [|w ws]; [injection E as <- _; exact H|].
      destruct (work_step (c_mem s) w) as [[m ws2]|] eqn:W; [|discriminate]. injection E as <- _. eapply lh_work; eauto.
    - assert (Q : e = VShared \/ (exists a, e = VStep a) \/ e = VAbort \/ False) by (destruct e; auto; try discriminate E; try (right; left; eexists; reflexivity)).
      destruct Q as [->|[[a ->]|[->|[]]]].
      + destruct en; try discriminate. destruct (slot s h fr) as [b|]; [|discriminate]. destruct (look (c_mem s) b); [|discriminate]. injection E as <- _. exact H.
      + unfold ens_step in E. destruct en as [|d par done|b w|b].
        * destruct (slot s h fr) as [b|]; [|discriminate]. destruct (look (c_mem s) b); [|discriminate]. injection E as <- _. exact H.
        * destruct (slot s h fr) as [b|] eqn:SL; [|discriminate]. destruct (look (c_mem s) b) as [n|] eqn:L; [|discriminate]. destruct (nth_error (n_kids n) (length done)) as [c|] eqn:NK.
          -- destruct (look (c_mem s) c) as [k|] eqn:LC; [|discriminate]. injection E as <- _. cbn [go mem c_mem]. eapply lh_put; [exact H|exact LC|]. exact (H c k LC).
          -- destruct (alloc _ _ _) as [m|] eqn:A; [|discriminate]. destruct (set_slot _ _ _ _) as [s1|] eqn:SS; [|discriminate]. injection E as <- _. cbn [go c_mem].
             assert (LM : leafh m) by (eapply lh_alloc; [exact H|exact A|]; cbn [n_kids n_h]; exact (H b n L)).
             unfold set_slot in SS. destruct fr as [|[q i] fr]; [injection SS as <-; exact LM|]. cbn [mem c_mem] in SS. destruct (look m q) as [nq|] eqn:LQ; [|discriminate]. injection SS as <-. cbn [mem c_mem].
             eapply lh_put; [exact LM|exact LQ|]. cbn [with_body n_kids n_h]. intros Z. apply (LM q nq LQ). apply (f_equal (@length _)) in Z. rewrite replace_len in Z. destruct (n_kids nq); [reflexivity|discriminate].
        * destruct w as [|w ws]; [injection E as <- _; exact H|]. destruct (work_step (c_mem s) w) as [[m ws2]|] eqn:W; [|discriminate]. injection E as <- _. eapply lh_work; eauto.
        * destruct (look (c_mem s) b) as [n|] eqn:L; [|discriminate]. injection E as <- _. cbn [go mem c_mem]. eapply lh_put; [exact H|exact L|]. exact (H b n L).
      + destruct en; try discriminate. injection E as <- _. exact H.
    - unfold at_step in E. destruct (look (c_mem s) x) as [n|] eqn:L; [|discriminate].
      destruct e as [|h0 a d|h0|h0|h0|i| |h0|a|i|tg d|mm d d' a|tg k r d|j r|c d|a r d|tg i| | | |]; try discriminate E.
      + destruct (_ && _); [|discriminate]. injection E as <- _. exact H.
      + destruct (pick x fl tg) as [b|]; [|discriminate]. destruct (look (c_mem s) b) as [nb|] eqn:LB; [|discriminate]. injection E as <- _. cbn [mem c_mem]. eapply lh_put; [exact H|exact LB|]. exact (H b nb LB).
      + destruct ((n_h n =? 0) || (mm + 1 <? length (n_kids n))) eqn:G; [|discriminate]. destruct (alloc _ _ _) as [m|] eqn:A; [|discriminate]. injection E as <- _. cbn [go mem c_mem].
        assert (AX : a <> x) by (intros ->; apply alloc_none in A; congruence).
        apply orb_true_iff in G. eapply lh_put; [eapply lh_alloc; [exact H|exact A|]| |].
        * cbn [n_kids n_h]. intros Z. destruct G as [G|G]; [apply Nat.eqb_eq; exact G|]. apply Nat.ltb_lt in G. apply (f_equal (@length _)) in Z. rewrite skipn_length in Z. cbn in Z. lia.
        * rewrite (look_alloc _ _ _ _ x A). destruct (Nat.eqb_spec x a); [congruence|exact L].
        * cbn [with_body n_kids n_h]. intros Z. destruct G as [G|G]; [apply Nat.eqb_eq; exact G|]. apply Nat.ltb_lt in G. apply (f_equal (@length _)) in Z. rewrite firstn_length in Z. cbn in Z. lia.
      + destruct (pick x fl tg) as [b|]; [|discriminate]. destruct (nth_error fl r) as [c|]; [|discriminate]. destruct (look (c_mem s) b) as [nb|] eqn:LB; [|discriminate]. destruct (look (c_mem s) c) as [nc|]; [|discriminate].
        destruct (_ && _); [|discriminate]. injection E as <- _. cbn [go mem c_mem]. eapply lh_put; [exact H|exact LB|]. cbn [with_body n_kids]. intros Z. exfalso. eapply insert_ne; eauto.
      + destruct (nth_error fl j) as [b|]; [|discriminate]. destruct (nth_error fl r) as [c|]; [|discriminate]. destruct (look (c_mem s) b) as [nb|] eqn:LB; [|discriminate]. destruct (look (c_mem s) c) as [nc|] eqn:LC; [|discriminate].
        destruct (n_kids nb) as [|y ks] eqn:KB; [discriminate|]. destruct (negb (b =? c) && (n_h nb =? n_h nc + 1)) eqn:G; [|discriminate]. injection E as <- _. cbn [go mem c_mem].
        apply andb_true_iff in G. destruct G as [G _]. apply negb_true_iff, Nat.eqb_neq in G.
        eapply lh_put; [eapply lh_put; [exact H|exact LB|discriminate]| |].
        * rewrite (look_put _ _ _ _ c LB). destruct (Nat.eqb_spec c b); [congruence|exact LC].
        * exact (H c nc LC).
      + destruct (nth_error old c) as [b|]; [|discriminate]. destruct (look (c_mem s) b) as [nb|] eqn:LB; [|discriminate]. destruct (_ =? _); [|discriminate]. injection E as <- _. cbn [go mem c_mem].
        eapply lh_put; [exact H|exact L|]. cbn [with_body n_kids]. intros Z. destruct (n_kids n); discriminate.
      + destruct fr; [|discriminate]. destruct (nth_error fl r) as [b|] eqn:NB; [|discriminate]. destruct (look (c_mem s) b) as [nb|] eqn:LB; [|discriminate]. destruct (_ =? _); [|discriminate].
        destruct (alloc _ _ _) as [m|] eqn:A; [|discriminate]. injection E as <- _. cbn [go hand mem c_mem]. eapply lh_alloc; [|exact A|discriminate].
        destruct (Nat.eq_dec b x) as [->|NE].
        * exfalso. pose proof (i_own s I t _ NT) as ND. unfold claims in ND. cbn [dying frames tips map app] in ND. inversion ND as [|? ? U _]; subst. apply U. eapply nth_error_In; eauto.
        * eapply lh_put; [eapply lh_put; [exact H|exact L|]; exact (H x n L)| |].
          -- rewrite (look_put _ _ _ _ b L). destruct (Nat.eqb_spec b x); [congruence|exact LB].
          -- exact (H b nb LB).
      + destruct (pick x fl tg) as [b|]; [|discriminate]. destruct (look (c_mem s) b) as [nb|] eqn:LB; [|discriminate]. destruct (nth_error (n_kids nb) i) as [c|]; [|discriminate]. destruct (look (c_mem s) c) as [nc|] eqn:LC; [|discriminate].
        injection E as <- _. destruct (_ =? _); [|exact H]. cbn [mem c_mem]. eapply lh_put; [exact H|exact LC|]. exact (H c nc LC).
      + destruct fr as [|[q i] fr]; [discriminate|]. injection E as <- _. exact H.
      + destruct (_ =? _); [|discriminate]. injection E as <- _. exact H.
      + injection E as <- _. exact H.
      + injection E as <- _. exact H.
  Qed.

  Lemma run_leaf : forall es (s : cstate) outs s', inv s -> leafh (c_mem s) -> crun s es = Some (outs, s') -> leafh (c_mem s').
  Proof.
    induction es as [|[t e] es IH]; intros s outs s' I H R; cbn [crun] in R; [injection R as <- <-; exact H|].
    pose proof (step_good s t e I) as G. destruct (cstep s t e) as [| |s1 o] eqn:E; [discriminate|contradiction|].
    destruct (crun s1 es) as [[os s2]|] eqn:E2; [|discriminate]. injection R as <- <-. eapply IH; [exact G| |exact E2]. eapply leaf_step; eauto.
  Qed.

  (** The height stored in a node is that of the tree below it. *)
  Lemma shows_h : forall (s : cstate) (r : rose D) a n, inv s -> leafh (c_mem s) -> shows (c_mem s) a r -> look (c_mem s) a = Some n -> n_h n = rh r.
  Proof.
    intros s r a n I H. remember (n_h n) as k eqn:EK. revert r a n EK. induction k as [k IH] using lt_wf_ind. intros r a n EK SH L.
    destruct (shows_elim _ _ _ SH) as (n' & L' & _ & F). rewrite L in L'. injection L' as <-. destruct r as [d ks]. cbn [rkids rh] in *.
    destruct (n_kids n) as [|c kk] eqn:K.
    - inversion F; subst. exact (H a n L K).
    - inversion F as [|? y ? ys SY FY]; subst. destruct (i_height s I a n c L) as (nc & LC & EH); [rewrite K; left; reflexivity|].
      rewrite <- (IH (n_h nc) ltac:(lia) y c nc eq_refl SY LC). lia.
  Qed.

  Lemma cstep_len : forall (s : cstate) t e s' o, cstep s t e = Next s' o -> length (c_threads s') = length (c_threads s).
  Proof.
    intros s t e s' o E. unfold cstep in E. destruct (nth_error (c_threads s) t) as [p|]; [|discriminate].
    assert (SS : forall (s0 : cstate) h fr a s1, set_slot s0 h fr a = Some s1 -> length (c_threads s1) = length (c_threads s0)).
    { intros s0 h fr a s1 H. unfold set_slot in H. destruct fr as [|[q i] fr]; [injection H as <-; reflexivity|]. destruct (look _ q); [|discriminate]. injection H as <-. reflexivity. }
    destruct p as [|h is x|w|h fr en|h fr x fl old]; destruct e; try discriminate E; unfold ens_step, at_step in E.
    all: repeat match type of E with
      | context [match set_slot ?s0 ?h ?f ?a with _ => _ end] => destruct (set_slot s0 h f a) eqn:?
      | context [match ?y with _ => _ end] => destruct y; try discriminate E
      | Next _ _ = Next _ _ => injection E as <- _; cbn [go mem hand c_threads]; rewrite ?replace_len
      end; try reflexivity; try discriminate E.
    all: erewrite SS by eassumption; reflexivity.
  Qed.

  (** ** Making a node unique comes to an end *)
  Definition stp (t : nat) (a : addr) : nat * ev D := (t, VStep a).

  Lemma not_bad : forall (s : cstate) t e, inv s -> cstep s t e <> Bad.
  Proof. intros s t e I E. pose proof (step_good s t e I) as G. rewrite E in G. exact G. Qed.

  Lemma par_ends : forall (s : cstate) t h fr a, inv s -> nth_error (c_threads s) t = Some (PEns h fr (EPar a)) ->
    exists es outs s' b, crun s (map (stp t) es) = Some (outs, s') /\ nth_error (c_threads s') t = Some (PAt h fr b [] []).
  Proof.
    intros s t h fr a I N. pose proof (not_bad s t (VStep 0) I) as B. exists [0]. cbn [map stp crun]. unfold stp in *. unfold cstep in *. rewrite N in *. unfold ens_step in *.
    destruct (look (c_mem s) a) as [n|]; [|contradiction]. do 3 eexists. split; [reflexivity|]. cbn [go mem c_threads]. apply replace_nth_same. eapply nth_error_lt; eauto.
  Qed.
  Lemma work_ends : forall k (s : cstate) t h fr a ws, inv s -> nth_error (c_threads s) t = Some (PEns h fr (EWork a ws)) -> weight (c_mem s) <= k ->
    exists es outs s' b, crun s (map (stp t) es) = Some (outs, s') /\ nth_error (c_threads s') t = Some (PAt h fr b [] []).
  Proof.
    induction k as [k IH] using lt_wf_ind. intros s t h fr a ws I N W. pose proof (step_good s t (VStep 0) I) as G. pose proof (not_bad s t (VStep 0) I) as B.
    destruct (cstep s t (VStep 0)) as [| |s1 o] eqn:E; [|contradiction|].
    { unfold cstep in E. rewrite N in E. cbn [ens_step] in E. destruct ws as [|w ws]; [discriminate|]. destruct (work_step (c_mem s) w) as [[m ws']|]; discriminate. }
    assert (NX : exists es outs s' b, crun s1 (map (stp t) es) = Some (outs, s') /\ nth_error (c_threads s') t = Some (PAt h fr b [] [])).
    { unfold cstep in E. rewrite N in E. cbn [ens_step] in E. destruct ws as [|w ws].
      - injection E as <- _. apply (par_ends _ t h fr a G). cbn [go c_threads]. apply replace_nth_same. eapply nth_error_lt; eauto.
      - destruct (work_step (c_mem s) w) as [[m ws']|] eqn:EW; [|discriminate]. injection E as <- _.
        assert (weight m + 1 = weight (c_mem s)).
        { eapply weight_step; eauto. intros b n -> L. pose proof (i_thread s I t _ N) as T. cbn in T. destruct T as (_ & a' & _ & _ & _ & T). inversion T as [|? ? (x & L' & Z) _]. congruence. }
        eapply (IH (weight m)); [lia|exact G| |reflexivity]. cbn [go mem c_threads]. apply replace_nth_same. eapply nth_error_lt; eauto. }
    destruct NX as (es & outs & s' & b & R & NB). exists (0 :: es). cbn [map crun]. unfold stp at 1. rewrite E, R. eauto.
  Qed.
  Lemma alloc_new : forall (m : heap) n, alloc m (length m) n = Some (m ++ [Some n]).
  Proof. intros m n. unfold alloc. rewrite Nat.eqb_refl. reflexivity. Qed.
  Lemma inc_ends : forall k (s : cstate) t h fr d p done, inv s -> nth_error (c_threads s) t = Some (PEns h fr (EInc d p done)) ->
    (forall a n, slot s h fr = Some a -> look (c_mem s) a = Some n -> length (n_kids n) - length done <= k) ->
    exists es outs s' b, crun s (map (stp t) es) = Some (outs, s') /\ nth_error (c_threads s') t = Some (PAt h fr b [] []).
  Proof.
    induction k as [k IH] using lt_wf_ind. intros s t h fr d p done I N W. assert (LT : t < length (c_threads s)) by (eapply nth_error_lt; eauto).
    pose proof (step_good s t (VStep (length (c_mem s))) I) as G. pose proof (not_bad s t (VStep (length (c_mem s))) I) as B.
    destruct (cstep s t (VStep (length (c_mem s)))) as [| |s1 o] eqn:E; [|contradiction|].
    { unfold cstep in E. rewrite N in E. cbn [ens_step] in E. destruct (slot s h fr) as [a|]; [|discriminate]. destruct (look (c_mem s) a) as [n|]; [|discriminate].
      destruct (nth_error (n_kids n) (length done)) as [c|]; [destruct (look (c_mem s) c); discriminate|]. rewrite alloc_new in E. destruct (set_slot _ _ _ _); discriminate. }
    assert (NX : exists es outs s' b, crun s1 (map (stp t) es) = Some (outs, s') /\ nth_error (c_threads s') t = Some (PAt h fr b [] [])).
    { unfold cstep in E. rewrite N in E. cbn [ens_step] in E. destruct (slot s h fr) as [a|] eqn:SL; [|discriminate]. destruct (look (c_mem s) a) as [n|] eqn:L; [|discriminate]. specialize (W a n eq_refl L).
      destruct (nth_error (n_kids n) (length done)) as [c|] eqn:NK.
      - destruct (look (c_mem s) c) as [nc|] eqn:LC; [|discriminate]. injection E as <- _. apply nth_error_lt in NK.
        eapply (IH (k - 1)); [lia|exact G|cbn [go mem c_threads]; apply replace_nth_same; exact LT|].
        intros a' n' SL' L'. cbn [go mem c_mem] in L'. rewrite app_length. cbn [length].
        assert (EA : a' = a).
        { unfold slot in SL, SL'. cbn [go mem c_handles c_mem] in SL'. destruct fr as [|[q i] fr]; [congruence|]. rewrite (look_put _ _ _ _ q LC) in SL'. destruct (Nat.eqb_spec q c) as [->|]; [|congruence].
          cbn [with_cnt n_kids] in SL'. rewrite LC in SL. congruence. }
        subst a'. rewrite (look_put _ _ _ _ a LC) in L'. destruct (Nat.eqb_spec a c) as [->|].
        + injection L' as <-. cbn [with_cnt n_kids]. rewrite LC in L. injection L as ->. lia.
        + rewrite L in L'. injection L' as <-. lia.
      - rewrite alloc_new in E. destruct (set_slot _ _ _ _) as [s2|] eqn:SS; [|discriminate]. injection E as <- _.
        eapply (work_ends _ _ t h fr); [exact G| |reflexivity]. cbn [go c_threads].
        assert (TE : c_threads s2 = c_threads s) by (unfold set_slot in SS; destruct fr as [|[q i] fr]; [injection SS as <-; reflexivity|]; cbn [mem c_mem] in SS; destruct (look _ q); [|discriminate]; injection SS as <-; reflexivity).
        rewrite TE. apply replace_nth_same. exact LT. }
    destruct NX as (es & outs & s' & b & R & NB). exists (length (c_mem s) :: es). cbn [map crun]. unfold stp at 1. rewrite E, R. eauto.
  Qed.
  Lemma ens_ends : forall (s : cstate) t h fr en, inv s -> nth_error (c_threads s) t = Some (PEns h fr en) ->
    exists es outs s' b, crun s (map (stp t) es) = Some (outs, s') /\ nth_error (c_threads s') t = Some (PAt h fr b [] []).
  Proof.
    intros s t h fr en I N. destruct en as [|d p done|a ws|a].
    - pose proof (step_good s t (VStep 0) I) as G. pose proof (not_bad s t (VStep 0) I) as B. destruct (cstep s t (VStep 0)) as [| |s1 o] eqn:E; [|contradiction|].
      { unfold cstep in E. rewrite N in E. cbn [ens_step] in E. destruct (slot s h fr) as [a|]; [|discriminate]. destruct (look (c_mem s) a); discriminate. }
      assert (NX : exists es outs s' b, crun s1 (map (stp t) es) = Some (outs, s') /\ nth_error (c_threads s') t = Some (PAt h fr b [] [])).
      { unfold cstep in E. rewrite N in E. cbn [ens_step] in E. destruct (slot s h fr) as [a|] eqn:SL; [|discriminate]. destruct (look (c_mem s) a) as [n|] eqn:L; [|discriminate]. injection E as <- _.
        destruct (n_cnt n =? 1).
        - apply (par_ends _ t h fr a G). cbn [go c_threads]. apply replace_nth_same. eapply nth_error_lt; eauto.
        - eapply (inc_ends (length (n_kids n)) _ t h fr); [exact G|cbn [go c_threads]; apply replace_nth_same; eapply nth_error_lt; eauto|].
          intros a' n' SL' L'. change (slot (go s t (PEns h fr (EInc (n_data n) (n_par n) []))) h fr) with (slot s h fr) in SL'. rewrite SL in SL'. injection SL' as <-. cbn [go c_mem] in L'. rewrite L in L'. injection L' as <-. lia. }
      destruct NX as (es & outs & s' & b & R & NB). exists (0 :: es). cbn [map crun]. unfold stp at 1. rewrite E, R. eauto.
    - destruct (slot s h fr) as [a|] eqn:SL.
      + destruct (look (c_mem s) a) as [n|] eqn:L.
        * eapply (inc_ends (length (n_kids n))); [exact I|exact N|]. intros a' n' SL' L'. rewrite SL in SL'. injection SL' as <-. rewrite L in L'. injection L' as <-. lia.
        * eapply (inc_ends 0); [exact I|exact N|]. intros a' n' SL' L'. congruence.
      + eapply (inc_ends 0); [exact I|exact N|]. intros a' n' SL' L'. congruence.
    - eapply work_ends; eauto.
    - eapply par_ends; eauto.
  Qed.

  (** ** Every step of a program can be taken *)
  Lemma forall2_nth_r : forall A B (P : A -> B -> Prop) l r i y, Forall2 P l r -> nth_error r i = Some y -> exists x, nth_error l i = Some x /\ P x y.
  Proof. intros A B P l r i y F. revert i. induction F as [|a b l r X F IH]; intros i H; [destruct i; discriminate|]. destruct i as [|i]; cbn in *; [injection H as <-; eauto|auto]. Qed.
  Lemma forall2_len : forall A B (P : A -> B -> Prop) l r, Forall2 P l r -> length l = length r.
  Proof. intros A B P l r F. induction F; cbn; auto. Qed.

  Lemma can_step : forall (s : cstate) sp t h fr a fl old R rfl rold is e l', inv s -> leafh (c_mem s) -> rel s sp ->
    nth_error (c_threads s) t = Some (PAt h fr a fl old) -> nth_error (s_threads sp) t = Some (SIns h is rfl rold) ->
    nth_error (s_trees sp) h = Some (Some (Some R)) -> lstep (R, is, rfl, rold) e = Some l' ->
    match e with VSplit _ _ _ b | VNewRoot b _ _ => b = length (c_mem s) | _ => True end ->
    exists s' o, cstep s t e = Next s' o.
  Proof.
    intros s sp t h fr a fl old R rfl rold is e l' I LH RL N NS TR EL PL.
    assert (B : cstep s t e <> Blocked); [|pose proof (not_bad s t e I) as B'; destruct (cstep s t e); [contradiction|contradiction|eauto]].
    intros E. pose proof (r_threads _ _ RL t) as Q. rewrite N, NS in Q. cbn [orel trel] in Q. destruct Q as (_ & -> & FF & FO).
    pose proof (r_trees _ _ RL h) as HR. rewrite TR in HR. destruct (nth_error (c_handles s) h) as [[[top|]|]|] eqn:NH; try contradiction. cbn [holds] in HR.
    pose proof (i_thread s I t _ N) as TI. cbn [tinv] in TI. destruct TI as (_ & CH & (n & LA & _) & C1).
    assert (RT : root (c_handles s) h = Some top) by (unfold root; rewrite NH; reflexivity).
    destruct (chain_sub _ _ _ _ _ _ _ CH RT HR) as (ra & SR & SA).
    assert (HA : n_h n = rh ra) by (eapply shows_h; eauto).
    assert (KA : length (n_kids n) = length (rkids ra)) by (destruct (shows_elim _ _ _ SA) as (n' & L' & _ & F); rewrite LA in L'; injection L' as <-; eapply forall2_len; exact F).
    assert (ND : NoDup (map fst fr ++ a :: fl)) by (pose proof (i_own s I t _ N) as ND; exact ND).
    assert (SEE : forall b r, shows (c_mem s) b r -> exists nb, look (c_mem s) b = Some nb /\ n_h nb = rh r /\ length (n_kids nb) = length (rkids r)).
    { intros b r SB. destruct (shows_elim _ _ _ SB) as (nb & L' & _ & F). exists nb. split; [exact L'|]. split; [eapply shows_h; eauto|eapply forall2_len; exact F]. }
    unfold lstep in EL. rewrite SR in EL. unfold cstep in E. rewrite N in E. unfold at_step in E. rewrite LA in E.
    destruct e as [|h0 b d|h0|h0|h0|i| |h0|b|i|tg d|mm d d' b|tg k j d|i j|c d|b j d|tg i| | | |]; try discriminate EL.
    - rewrite KA, (forall2_len _ _ _ _ _ FF), (forall2_len _ _ _ _ _ FO) in E. destruct (_ && _); discriminate.
    - destruct tg; [|discriminate]. cbn [pick] in E. rewrite LA in E. discriminate.
    - rewrite KA in E. subst b. destruct ((length (rkids ra) =? 0) || (mm + 1 <? length (rkids ra))) eqn:G; [|discriminate].
      assert (G' : (n_h n =? 0) || (mm + 1 <? length (rkids ra)) = true).
      { apply orb_true_iff in G. apply orb_true_iff. destruct G as [G|G]; [left|right; exact G]. apply Nat.eqb_eq in G. rewrite HA. destruct ra as [d0 [|]]; [reflexivity|discriminate]. }
      rewrite G', alloc_new in E. discriminate.
    - destruct tg as [|i].
      + destruct (nth_error rfl j) as [c|] eqn:NC; [|discriminate]. destruct ((rh ra =? rh c + 1) && (k <=? length (rkids ra))) eqn:G; [|discriminate].
        destruct (forall2_nth_r _ _ _ _ _ _ _ FF NC) as (ca & NCA & SC). destruct (SEE _ _ SC) as (nc & LC & HC & _). cbn [pick] in E. rewrite NCA, LA, LC, HA, HC, KA in E.
        assert (NE : (a =? ca) = false) by (apply Nat.eqb_neq; intros Z; symmetry in Z; exact (fl_not_a _ _ _ _ _ ND NCA Z)). rewrite NE in E. cbn [negb andb] in E. rewrite G in E. discriminate.
      + destruct (nth_error rfl i) as [b|] eqn:NB; [|discriminate]. destruct (nth_error rfl j) as [c|] eqn:NC; [|discriminate].
        destruct (negb (i =? j) && (rh b =? rh c + 1) && (k <=? length (rkids b))) eqn:G; [|discriminate].
        destruct (forall2_nth_r _ _ _ _ _ _ _ FF NC) as (ca & NCA & SC). destruct (SEE _ _ SC) as (nc & LC & HC & _).
        destruct (forall2_nth_r _ _ _ _ _ _ _ FF NB) as (ba & NBA & SB). destruct (SEE _ _ SB) as (nb & LB & HB & KB). cbn [pick] in E. rewrite NBA, NCA, LB, LC, HB, HC, KB in E.
        apply andb_true_iff in G. destruct G as [G G3]. apply andb_true_iff in G. destruct G as [G1 G2].
        assert (NE : (ba =? ca) = false). { apply Nat.eqb_neq. intros <-. rewrite (fl_nodup _ _ _ _ _ _ ND NBA NCA), Nat.eqb_refl in G1. discriminate. }
        rewrite NE, G2, G3 in E. discriminate.
    - destruct (nth_error rfl i) as [[d [|x ks]]|] eqn:NB; try discriminate. destruct (nth_error rfl j) as [c|] eqn:NC; [|discriminate].
      destruct (negb (i =? j) && (S (rh x) =? rh c + 1)) eqn:G; [|discriminate].
      destruct (forall2_nth_r _ _ _ _ _ _ _ FF NC) as (ca & NCA & SC). destruct (SEE _ _ SC) as (nc & LC & HC & _).
      destruct (forall2_nth_r _ _ _ _ _ _ _ FF NB) as (ba & NBA & SB). destruct (SEE _ _ SB) as (nb & LB & HB & KB). rewrite NBA, NCA, LB, LC in E. cbn [rh] in HB. rewrite HB, HC in E.
      apply andb_true_iff in G. destruct G as [G1 G2].
      assert (NE : (ba =? ca) = false). { apply Nat.eqb_neq. intros <-. rewrite (fl_nodup _ _ _ _ _ _ ND NBA NCA), Nat.eqb_refl in G1. discriminate. }
      destruct (n_kids nb); [discriminate|]. rewrite NE, G2 in E. discriminate.
    - destruct (nth_error rold c) as [b|] eqn:NB; [|discriminate]. destruct (rh ra =? rh b + 1) eqn:G; [|discriminate].
      destruct (forall2_nth_r _ _ _ _ _ _ _ FO NB) as (ba & NBA & SB). destruct (SEE _ _ SB) as (nb & LB & HB & _). rewrite NBA, LB, HA, HB, G in E. discriminate.
    - destruct fr as [|[q i] fr]; [|discriminate]. cbn [map] in EL. destruct (nth_error rfl j) as [r|] eqn:NB; [|discriminate]. destruct (rh r =? rh ra) eqn:G; [|discriminate]. subst b.
      destruct (forall2_nth_r _ _ _ _ _ _ _ FF NB) as (ba & NBA & SB). destruct (SEE _ _ SB) as (nb & LB & HB & _). rewrite NBA, LB, HA, HB, G in E.
      destruct (alloc _ _ _) eqn:A; [discriminate|]. unfold alloc, put in A. rewrite !replace_len, Nat.eqb_refl in A. discriminate.
    - destruct fr as [|[q i] fr]; discriminate.
  Qed.
End H.

Section S.
  Context {I V : Type} (X : index_ops I) (Y : slice_ops I V) (M : nat).
  Notation D := (@ndata I V).
  Notation client := (@client I V).
  Notation act := (@act I V).
  Hypothesis HM : 1 <= M.

  Lemma krun_app : forall xs ys (k : client), krun X Y M k (xs ++ ys) = match krun X Y M k xs with Some k' => krun X Y M k' ys | None => None end.
  Proof. induction xs as [|x xs IH]; intros ys k; cbn [krun app]; [reflexivity|]. destruct (kstep X Y M k x); auto. Qed.

  (** Steps that only concern sharing, as steps of a client. *)
  Lemma krun_steps : forall es (k : client) t outs s', crun (k_c k) (map (stp t) es) = Some (outs, s') ->
    inv (k_c k) -> krun X Y M k (map (KStep t) es) = Some {| k_c := s'; k_todo := k_todo k; k_trees := k_trees k |}.
  Proof.
    induction es as [|a es IH]; intros k t outs s' R I0; cbn [map krun crun] in *; [injection R as <- <-; destruct k; reflexivity|].
    unfold stp at 1 in R. cbn [kstep]. unfold only, machine. pose proof (step_good _ t (VStep a) I0) as G. destruct (cstep (k_c k) t (VStep a)) as [| |s1 o] eqn:E; [discriminate|contradiction|].
    destruct (crun s1 (map (stp t) es)) as [[os s2]|] eqn:E2; [|discriminate]. injection R as <- <-.
    eapply (IH {| k_c := s1; k_todo := k_todo k; k_trees := k_trees k |}); eauto.
  Qed.

  Lemma krun_leaf : forall xs (k k' : client), inv (k_c k) -> leafh (c_mem (k_c k)) -> krun X Y M k xs = Some k' -> leafh (c_mem (k_c k')).
  Proof. intros xs k k' I0 LH H. destruct (krun_crun X Y M _ _ _ H) as (es & outs & R). eapply run_leaf; eauto. Qed.

  (** A step that a thread [t] takes to finish. *)
  Definition ends (t : nat) (x : act) : Prop := who x = t /\ match x with KNext _ _ | KStep _ _ | KReadEnd _ => True | _ => False end.
  Definition finishes (k : client) (t : nat) : Prop := exists xs k', krun X Y M k xs = Some k' /\ Forall (ends t) xs /\
      nth_error (k_todo k') t = Some [] /\ nth_error (c_threads (k_c k')) t = Some PIdle.

  Lemma finish_more : forall xs (k k1 : client) t, krun X Y M k xs = Some k1 -> Forall (ends t) xs -> finishes k1 t -> finishes k t.
  Proof.
    intros xs k k1 t R W (ys & k' & R' & W' & H). exists (xs ++ ys), k'. split; [rewrite krun_app, R; exact R'|]. split; [apply Forall_app; auto|exact H].
  Qed.
  Lemma steps_who : forall t (l : list addr), Forall (ends t) (map (KStep t) l).
  Proof. induction l; constructor; auto. split; auto. Qed.
  Lemma ends_calls : forall t xs, Forall (ends t) xs -> calls xs = [].
  Proof. induction 1 as [|x xs [_ H] F IH]; [reflexivity|]. destruct x; try contradiction; exact IH. Qed.

  Lemma finish : forall n (k : client) sp t es, kinv k sp -> leafh (c_mem (k_c k)) -> nth_error (k_todo k) t = Some es -> length es <= n -> t < length (c_threads (k_c k)) -> finishes k t.
  Proof.
    induction n as [n IH] using lt_wf_ind. intros k sp t es K LH NT LE LT.
    destruct (nth_error (c_threads (k_c k)) t) as [p|] eqn:NP; [|apply nth_error_None in NP; lia].
    pose proof (r_threads _ _ (ki_rel _ _ K) t) as Q. rewrite NP in Q. destruct (nth_error (s_threads sp) t) as [q|] eqn:NQ; [|contradiction]. cbn [orel] in Q. pose proof (ki_thread _ _ K _ _ NQ) as TG.
    pose proof (ki_inv _ _ K) as KI.
    assert (AT : forall (k : client) sp h fr a fl old, kinv k sp -> leafh (c_mem (k_c k)) -> nth_error (k_todo k) t = Some es -> nth_error (c_threads (k_c k)) t = Some (PAt h fr a fl old) -> finishes k t).
    { clear - IH LE HM. intros k sp h fr a fl old K LH NT NP. pose proof (nth_error_lt _ _ _ NP) as LT.
      pose proof (r_threads _ _ (ki_rel _ _ K) t) as Q. rewrite NP in Q. destruct (nth_error (s_threads sp) t) as [q|] eqn:NQ; [|contradiction]. cbn [orel] in Q. pose proof (ki_thread _ _ K _ _ NQ) as TG.
      destruct q as [|h' is|h' is rfl rold]; cbn [trel] in Q; try contradiction. destruct Q as (-> & Q). cbn [tgood] in TG. destruct TG as (b & R & r & NB & TR & TS & RUN). rewrite NT in NB. injection NB as ->.
      assert (ST : exists e es', b ++ [VEnd] = e :: es' /\ exists s' o, cstep (k_c k) t (placed (length (c_mem (k_c k))) e) = Next s' o).
      { destruct b as [|e b].
        - exists VEnd, []. split; [reflexivity|]. cbn [placed]. cbn [lrun] in RUN. injection RUN as -> -> -> ->. destruct Q as (_ & F1 & F2). inversion F1; subst. inversion F2; subst.
          pose proof (not_bad _ t VEnd (ki_inv _ _ K)) as B. unfold cstep in *. rewrite NP in *. unfold at_step in *. destruct (look (c_mem (k_c k)) a); [|contradiction]. cbn. eauto.
        - exists e, (b ++ [VEnd]). split; [reflexivity|]. cbn [lrun] in RUN. destruct (lstep (R, is, rfl, rold) e) as [l1|] eqn:EL; [|discriminate].
          eapply (can_step (k_c k) sp t h fr a fl old R rfl rold is _ l1); eauto; [apply K|apply K|apply placed_same; exact EL|destruct e; cbn; auto]. }
      destruct ST as (e & es' & EE & s' & o & Hc). rewrite EE in NT, LE.
      assert (KN : kstep X Y M k (KNext t (length (c_mem (k_c k)))) = Some {| k_c := s'; k_todo := replace_at t es' (k_todo k); k_trees := k_trees k |}) by (cbn [kstep]; rewrite NT; unfold machine; rewrite Hc; reflexivity).
      eapply (finish_more [KNext t (length (c_mem (k_c k)))]); [cbn [krun]; rewrite KN; reflexivity|constructor; [split; [reflexivity|exact Logic.I]|constructor]|].
      destruct (kinv_kstep X Y M HM _ _ _ _ K KN) as [sp' K'].
      eapply (IH (length es')); [cbn in LE; lia|exact K'| |cbn [k_todo]; apply replace_nth_same; eapply nth_error_lt; eauto|reflexivity|].
      - cbn [k_c]. eapply leaf_step; [exact LH|apply K|exact Hc].
      - cbn [k_c]. rewrite (cstep_len _ _ _ _ _ Hc). exact LT. }
    destruct p as [|h is x|w|h fr en|h fr x fl old].
    - assert (es = []) by (destruct q; cbn [trel] in Q; try contradiction; cbn [tgood] in TG; congruence). subst es. exists [], k. cbn. auto.
    - assert (es = []) by (destruct q; cbn [trel] in Q; try contradiction; cbn [tgood] in TG; congruence). subst es.
      exists [KReadEnd t]. eexists. cbn [krun kstep]. unfold only, machine, cstep. rewrite NP. split; [reflexivity|]. split; [repeat constructor|]. cbn [k_todo k_c go c_threads].
      split; [exact NT|apply replace_nth_same; exact LT].
    - assert (es = []) by (destruct q; cbn [trel] in Q; try contradiction; cbn [tgood] in TG; congruence). subst es.
      destruct (drop_ends _ (k_c k) t w KI NP (le_n _)) as (j & outs & s' & _ & R & NI & _).
      assert (ER : repeat (t, VStep 0) j = map (@stp D t) (repeat 0 j)) by (clear; induction j; cbn; [reflexivity|]; f_equal; auto). rewrite ER in R.
      exists (map (KStep t) (repeat 0 j)). eexists. split; [eapply krun_steps; eauto|]. split; [apply steps_who|]. cbn. auto.
    - destruct (ens_ends _ _ _ _ _ KI NP) as (l & outs & s' & b & R & NI). pose proof (krun_steps _ _ _ _ _ R KI) as KR.
      destruct (kinv_krun X Y M HM _ _ _ _ K KR) as [sp' K']. eapply finish_more; [exact KR|apply steps_who|].
      eapply AT; [exact K'|eapply krun_leaf; eauto|exact NT|exact NI].
    - eapply AT; eauto.
  Qed.
End S.
