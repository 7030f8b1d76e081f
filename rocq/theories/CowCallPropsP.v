(** Proofs of the properties of calls on trees that share nodes. *)
From Coq Require Import List Arith Bool ZArith Lia.
From Verif Require Import Base ListFacts Index Slice Tree Insert Range Spec Iter Hist LTree Rep Ins HistP IterQ LInsert LRef LSpec LCow Cow CowSpec CowP CowT CowU CowV CowPropsP CowCall CowCallP CowCallQ CowCallR CowCallS.
Import ListNotations.

Section P.
  Context {I V : Type} (X : index_ops I) (Y : slice_ops I V) (M : nat).
  Hypothesis HM : 1 <= M.

  Lemma kreach : forall n xs (k : @client I V), krun X Y M (kstart n) xs = Some k -> exists sp, kinv k sp /\ leafh (c_mem (k_c k)).
  Proof.
    intros n xs k H. destruct (kinv_krun X Y M HM _ _ _ _ (kinv_start n) H) as [sp K]. exists sp. split; [exact K|].
    eapply krun_leaf; [|  |exact H]; cbn [kstart k_c]; [apply start_inv|]. intros a nd L. cbn in L. destruct a; discriminate.
  Qed.

  Lemma unborrowed_holds : forall (k : @client I V) sp j, kinv k sp -> existsb (writes j) (c_threads (k_c k)) = false ->
    holds (c_mem (k_c k)) (nth_error (c_handles (k_c k)) j) (option_map (option_map rle_rose) (nth_error (k_trees k) j)).
  Proof. intros k sp j K U. rewrite <- (ki_tree _ _ K j (unwritten _ _ _ (ki_rel _ _ K) U)). apply (r_trees _ _ (ki_rel _ _ K)). Qed.
End P.

(** Any number of threads, any interleaving of their steps: memory shows, for every tree that is not just being
    written, what the calls make of that tree if they are made one after another, in the order in which they were
    started; so does every reader on its way down a tree, at its node.  Trees may share nodes. *)
Lemma C55_one_after_another_proof : forall (I V : Type) (X : index_ops I) (Y : slice_ops I V) (M n : nat) (xs : list act) (k : client),
  (1 <= M)%nat -> krun X Y M (kstart n) xs = Some k ->
  exists ts, seq X Y M [] (calls xs) = Some ts /\
    (forall j, existsb (writes j) (c_threads (k_c k)) = false ->
       holds (c_mem (k_c k)) (nth_error (c_handles (k_c k)) j) (option_map (option_map rle_rose) (nth_error ts j))) /\
    (forall t j is a, nth_error (c_threads (k_c k)) t = Some (PRead j is a) ->
       exists r x nd, nth_error ts j = Some (Some (Some r)) /\ sub (rose_of (r_height r) (r_node r)) (rev is) = Some x /\
         look (c_mem (k_c k)) a = Some nd /\ n_data nd = rdata x).
Proof.
  intros I V X Y M n xs k HM H. destruct (kreach X Y M HM _ _ _ H) as (sp & K & _). exists (k_trees k). split; [exact (krun_seq X Y M _ _ _ H)|]. split.
  - intros j U. eapply unborrowed_holds; eauto.
  - intros t j is a N. pose proof (r_threads _ _ (ki_rel _ _ K) t) as Q. rewrite N in Q. destruct (nth_error (s_threads sp) t) as [q|] eqn:NQ; [|contradiction]. cbn [orel] in Q.
    destruct q; cbn [trel] in Q; try contradiction. destruct Q as [-> ->].
    pose proof (read_unwritten _ _ _ _ _ (ki_inv _ _ K) (ki_rel _ _ K) NQ) as UN. pose proof (ki_tree _ _ K j UN) as T.
    pose proof (i_thread _ (ki_inv _ _ K) t _ N) as TI. cbn [tinv] in TI. destruct TI as (top & RT & FO).
    pose proof (r_trees _ _ (ki_rel _ _ K) j) as HR. rewrite (root_nth _ _ _ RT), T in HR. destruct (nth_error (k_trees k) j) as [[[r|]|]|]; cbn [option_map rle_rose holds] in HR; try contradiction.
    destruct (follow_sub _ _ _ _ _ FO HR) as (x & SX & SH). destruct (shows_elim _ _ _ SH) as (nd & LA & ED & _). exists r, x, nd. auto.
Qed.

(** The steps of calls are steps of the machine of Cow.v, of which C20 and C21 speak; no call uses freed memory. *)
Lemma C55_machine_proof : forall (I V : Type) (X : index_ops I) (Y : slice_ops I V) (M n : nat) (xs : list act) (k : client),
  krun X Y M (kstart n) xs = Some k -> exists es outs, crun (start n) es = Some (outs, k_c k) /\ ~ In BBad outs.
Proof.
  intros I V X Y M n xs k H. destruct (krun_crun X Y M _ _ _ H) as (es & outs & R). cbn [kstart k_c] in R. exists es, outs. split; [exact R|]. eapply (run_from_start n); exact R.
Qed.

Lemma C55_ends : forall (I V : Type) (X : index_ops I) (Y : slice_ops I V) (M n : nat) (xs : list act) (k : client) (t : nat),
  (1 <= M)%nat -> krun X Y M (kstart n) xs = Some k -> (t < n)%nat -> finishes X Y M k t.
Proof.
  intros I V X Y M n xs k t HM H LT. destruct (kreach X Y M HM _ _ _ H) as (sp & K & LH).
  assert (LEN : forall xs (k k' : @client I V), krun X Y M k xs = Some k' -> length (c_threads (k_c k')) = length (c_threads (k_c k))).
  { clear. induction xs as [|x xs IH]; intros k k' H; cbn [krun] in H; [injection H as <-; reflexivity|]. destruct (kstep X Y M k x) as [k1|] eqn:E; [|discriminate]. rewrite (IH _ _ H).
    destruct (kstep_cstep X Y M _ _ _ E) as (t & e & o & Hc). eapply cstep_len; exact Hc. }
  assert (L : t < length (c_threads (k_c k))) by (rewrite (LEN _ _ _ H); cbn [kstart k_c start c_threads]; rewrite repeat_length; exact LT).
  destruct (nth_error (c_threads (k_c k)) t) as [p|] eqn:NP; [|apply nth_error_None in NP; lia]. pose proof (r_threads _ _ (ki_rel _ _ K) t) as Q. rewrite NP in Q.
  destruct (nth_error (s_threads sp) t) as [q|] eqn:NQ; [|contradiction]. pose proof (ki_thread _ _ K _ _ NQ) as TG.
  assert (NT : exists es, nth_error (k_todo k) t = Some es) by (destruct q; cbn [tgood] in TG; [eauto|eauto|destruct TG as (es & _ & _ & E & _); eauto]). destruct NT as [es NT].
  eapply (finish X Y M HM (length es)); eauto.
Qed.

(** No call waits for another thread: once it has been started, its thread alone can finish it, wherever the other
    threads have stopped. *)
Lemma C55_finish_proof : forall (I V : Type) (X : index_ops I) (Y : slice_ops I V) (M n : nat) (xs : list act) (k : client) (t : nat),
  (1 <= M)%nat -> krun X Y M (kstart n) xs = Some k -> (t < n)%nat ->
  exists ys k', krun X Y M k ys = Some k' /\ Forall (fun y => who y = t) ys /\ calls ys = [] /\
    nth_error (k_todo k') t = Some [] /\ nth_error (c_threads (k_c k')) t = Some PIdle.
Proof.
  intros I V X Y M n xs k t HM H LT. destruct (C55_ends _ _ _ _ _ _ _ _ _ HM H LT) as (ys & k' & R & E & H1). exists ys, k'. split; [exact R|]. split; [|split; [eapply ends_calls; exact E|exact H1]].
  eapply Forall_impl; [|exact E]. intros y [W _]. exact W.
Qed.

(** Nothing but a borrow of the tree keeps a thread from starting a call that would not panic. *)
Lemma C55_start_proof : forall (I V : Type) (X : index_ops I) (Y : slice_ops I V) (M n : nat) (xs : list act) (k : client) (t : nat) (c : call) (ts : list (option rle)),
  (1 <= M)%nat -> krun X Y M (kstart n) xs = Some k -> nth_error (k_todo k) t = Some [] -> nth_error (c_threads (k_c k)) t = Some PIdle ->
  seq X Y M [] (calls xs ++ [c]) = Some ts ->
  match c with
  | CNew => True
  | CInsert _ j _ _ _ _ | CDrop j => existsb (uses j) (c_threads (k_c k)) = false
  | CClone j => existsb (writes j) (c_threads (k_c k)) = false
  end -> exists a k', kstep X Y M k (KCall t c a) = Some k'.
Proof.
  intros I V X Y M n xs k t c ts HM H NT NP HS U. destruct (kreach X Y M HM _ _ _ H) as (sp & K & LH).
  assert (SA : forall cs ts0, seq X Y M ts0 (cs ++ [c]) = match seq X Y M ts0 cs with Some ts1 => seq1 X Y M ts1 c | None => None end).
  { clear. induction cs as [|c0 cs IH]; intros ts0; cbn [seq app]; [destruct (seq1 X Y M ts0 c); reflexivity|]. destruct (seq1 X Y M ts0 c0); auto. }
  rewrite SA in HS. pose proof (krun_seq X Y M _ _ _ H) as SQ. cbn [kstart k_trees] in SQ. rewrite SQ in HS. clear SA.
  assert (UW : forall j, existsb (uses j) (c_threads (k_c k)) = false -> existsb (writes j) (c_threads (k_c k)) = false).
  { intros j UJ. destruct (existsb (writes j) (c_threads (k_c k))) eqn:E; auto. apply existsb_exists in E. destruct E as (p & IN & W).
    assert (X1 : existsb (uses j) (c_threads (k_c k)) = true); [|congruence]. apply existsb_exists. exists p. split; auto. destruct p; try discriminate W; exact W. }
  exists (length (c_mem (k_c k))). cbn [kstep]. rewrite NT, HS.
  assert (ST : exists e es, steps_of X Y M (k_trees k) c = Some (e, es)).
  { destruct c as [|nop j hints idx slice size|j|j]; cbn [steps_of seq1] in *; eauto. destruct (nth_error (k_trees k) j) as [[r|]|]; try discriminate.
    destruct (insert_with_cursor X Y M nop r hints idx slice size) as [[r' cur]| |] eqn:Ei; try discriminate. destruct (insert_grew X Y M HM _ _ _ _ _ _ _ _ Ei) as (pl & fp & r1 & -> & -> & -> & _).
    destruct r as [r0|]; cbn [program]; eauto. }
  destruct ST as (e & es & ST). rewrite ST. pose proof (seq_steps X Y M HM _ _ _ _ _ ST HS) as Z. pose proof (not_bad _ t (placed (length (c_mem (k_c k))) e) (ki_inv _ _ K)) as B.
  assert (NX : exists s o, cstep (k_c k) t (placed (length (c_mem (k_c k))) e) = Next s o); [|destruct NX as (s & o & NX); unfold machine; rewrite NX; eauto].
  destruct c as [|nop j hints idx slice size|j|j].
  - destruct Z as (-> & _). unfold cstep. rewrite NP. cbn. eauto.
  - destruct Z as (r & r1 & NJ & _ & Z). pose proof (unborrowed_holds _ _ _ K (UW _ U)) as HH. rewrite NJ in HH. cbn [option_map] in HH.
    destruct r as [r0|]; cbn [rle_rose] in HH; destruct (nth_error (c_handles (k_c k)) j) as [[[a0|]|]|] eqn:NH; cbn [holds] in HH; try contradiction.
    + destruct Z as (-> & _). unfold cstep. rewrite NP. cbn [placed]. rewrite NH, U. eauto.
    + destruct Z as (-> & _). unfold cstep. rewrite NP. cbn [placed]. rewrite NH, U, alloc_new. eauto.
  - destruct Z as (-> & _ & r & NJ & _). pose proof (unborrowed_holds _ _ _ K U) as HH. rewrite NJ in HH. cbn [option_map] in HH. unfold cstep in *. rewrite NP in *. cbn [placed] in *.
    destruct (nth_error (c_handles (k_c k)) j) as [[[a0|]|]|] eqn:NH; destruct r; cbn [holds rle_rose] in HH; try contradiction; rewrite U in *; [destruct (look (c_mem (k_c k)) a0); [eauto|contradiction]|eauto].
  - destruct Z as (-> & _ & (r & NJ) & _). pose proof (unborrowed_holds _ _ _ K (UW _ U)) as HH. rewrite NJ in HH. cbn [option_map] in HH. unfold cstep in *. rewrite NP in *. cbn [placed] in *.
    destruct (nth_error (c_handles (k_c k)) j) as [[[a0|]|]|] eqn:NH; destruct r; cbn [holds rle_rose] in HH; try contradiction; rewrite U in *; eauto.
Qed.

Local Open Scope Z_scope.

Section L.
  Context {I V : Type} (X : index_ops I) (Y : slice_ops I V) (MAX : Z) (inj : Z -> I) (M : nat) (L : index_laws X MAX inj) (HM : (1 <= M)%nat).

  Definition fl_ok (b : Z) (r : option (@rle I V)) (l : option (list (V * Z))) : Prop :=
    match r, l with Some r, Some l => rle_rep inj M r l /\ rsum l <= b | None, None => True | _, _ => False end.
  Lemma f2_nth : forall {A B} (P : A -> B -> Prop) l l' j x, Forall2 P l l' -> nth_error l j = Some x -> exists y, nth_error l' j = Some y /\ P x y.
  Proof. intros A B P l l' j x F. revert j. induction F as [|a b l l' H F IH]; intros [|j] N; cbn in *; try discriminate; [injection N as <-; eauto|eauto]. Qed.
  Lemma f2_set : forall {A B} (P : A -> B -> Prop) l l' j x y z, Forall2 P l l' -> nth_error l j = Some z -> P x y -> Forall2 P (replace_at j x l) (set_nth j y l').
  Proof.
    intros A B P l l' j x y z F N H. revert j N. unfold replace_at, set_nth. induction F as [|a b l l' H1 F IH]; intros [|j] N; cbn [nth_error] in N; try discriminate; cbn [skipn firstn app].
    - constructor; auto.
    - specialize (IH j N). destruct (skipn j l) eqn:E; [|constructor; auto]. exfalso. apply nth_error_lt in N. apply (f_equal (@length _)) in E. rewrite skipn_length in E. cbn in E. lia.
  Qed.

  Lemma seq_val : forall cs nop ts st b ts', Forall (fun c => match c with MInsert _ _ i _ n => 0 <= i <= MAX /\ 0 <= n | _ => True end) cs -> 0 <= b -> b + isum cs <= MAX ->
    Forall2 (fl_ok b) ts (fst st) -> seq X Y M ts (map (as_call inj nop) cs) = Some ts' ->
    exists st', val_run Y inj st cs = Ok st' /\ Forall2 (fl_ok (b + isum cs)) ts' (fst st').
  Proof.
    assert (MONO : forall b b' ts ls, b <= b' -> Forall2 (fl_ok b) ts ls -> Forall2 (fl_ok b') ts ls).
    { intros b b' ts ls LE F. induction F as [|r l ts ls H F IH]; constructor; auto. destruct r, l; cbn in *; auto. destruct H. split; [assumption|lia]. }
    assert (NNEG : forall cs : list (@mcall V), Forall (fun c => match c with MInsert _ _ i _ n => 0 <= i <= MAX /\ 0 <= n | _ => True end) cs -> 0 <= isum cs).
    { induction cs as [|c cs IHc]; intros F; cbn [isum]; [lia|]. inversion F; subst. destruct c; specialize (IHc H2); cbn in *; lia. }
    induction cs as [|c cs IH]; intros nop ts st b ts' FI B0 BM F H; cbn [map seq val_run isum] in *.
    - injection H as <-. exists st. split; [reflexivity|]. rewrite Z.add_0_r. exact F.
    - inversion FI as [|? ? HC FI']; subst. pose proof (NNEG _ FI') as NN. destruct (seq1 X Y M ts (as_call inj nop c)) as [ts1|] eqn:E1; [|discriminate]. destruct st as [ls d].
      destruct c as [|j hints idx x n|j|j]; cbn [as_call seq1 val_call fst] in *.
      + injection E1 as <-. cbn [bind]. eapply IH; eauto. cbn [fst]. apply Forall2_app; [exact F|]. constructor; [|constructor]. cbn. split; [reflexivity|exact B0].
      + destruct (nth_error ts j) as [[r|]|] eqn:NJ; try discriminate. destruct (f2_nth _ _ _ _ _ F NJ) as (l & NL & HL). rewrite NL. destruct l as [l|]; [|contradiction]. destruct HL as [HR HS].
        pose proof (insert_full_ok X Y MAX inj M L HM nop r l hints idx x n HR (proj1 HC) (proj2 HC) ltac:(lia)) as IO.
        destruct (insert_with_cursor X Y M nop r hints (inj idx) x (inj n)) as [[r' cur]| |] eqn:Ei; try discriminate. injection E1 as <-.
        destruct (spec_insert Y inj l idx x n) as [l'| |] eqn:ESI; [|discriminate|contradiction]. destruct IO as (r'' & cur' & EE & HR' & _). injection EE as <- <-. cbn [bind].
        destruct (spec_insert_sum _ _ _ _ _ _ _ ESI) as (SUM & NP & _).
        rewrite Z.add_assoc. eapply IH; [exact FI'|lia|lia| |exact H]. cbn [fst]. eapply f2_set; [eapply MONO; [|exact F]; lia|exact NJ|]. cbn. split; [exact HR'|lia].
      + destruct (nth_error ts j) as [[r|]|] eqn:NJ; try discriminate. destruct (f2_nth _ _ _ _ _ F NJ) as (l & NL & HL). rewrite NL. destruct l as [l|]; [|contradiction]. injection E1 as <-. cbn [bind].
        eapply IH; eauto. cbn [fst]. apply Forall2_app; [exact F|]. constructor; [exact HL|constructor].
      + destruct (nth_error ts j) as [[r|]|] eqn:NJ; try discriminate. destruct (f2_nth _ _ _ _ _ F NJ) as (l & NL & HL). rewrite NL. destruct l as [l|]; [|contradiction]. injection E1 as <-. cbn [bind].
        eapply IH; eauto. cbn [fst]. eapply f2_set; [exact F|exact NJ|exact Logic.I].
  Qed.
End L.

(** The same for the lists of runs that trees stand for: whatever tree is not just being written has in memory a tree
    that holds the runs that the calls make one after another. *)
Lemma C55_values_proof : forall (I V : Type) (X : index_ops I) (Y : slice_ops I V) (MAX : Z) (inj : Z -> I) (M n : nat) (nop : bool) (cs : list mcall) (xs : list act) (k : client),
  index_laws X MAX inj -> (1 <= M)%nat -> krun X Y M (kstart n) xs = Some k -> calls xs = map (as_call inj nop) cs -> mcalls_fit MAX cs ->
  exists st, val_run Y inj ([], []) cs = Ok st /\
    forall j, existsb (writes j) (c_threads (k_c k)) = false ->
    match nth_error (c_handles (k_c k)) j, nth_error (fst st) j with
    | Some (Some a), Some (Some l) => exists r, iter_collect X r [] SUnb EUnb = Ok (map (inj_item inj) (spans 0 l)) /\
        match a, rle_rose r with Some a, Some x => shows (c_mem (k_c k)) a x | None, None => True | _, _ => False end
    | Some None, Some None | None, None => True
    | _, _ => False
    end.
Proof.
  intros I V X Y MAX inj M n nop cs xs k L HM H EC [F1 F2]. destruct (C55_one_after_another_proof _ _ _ _ _ _ _ _ HM H) as (ts & SQ & HO & _). rewrite EC in SQ.
  destruct (seq_val X Y MAX inj M L HM cs nop [] ([], []) 0 ts F1) as (st & VR & F); [lia|exact F2|constructor|exact SQ|].
  exists st. split; [exact VR|]. intros j U. specialize (HO j U). cbn [Z.add] in F.
  destruct (nth_error ts j) as [r|] eqn:NJ.
  - destruct (f2_nth _ _ _ _ _ F NJ) as (l & NL & HL). rewrite NL. destruct r as [r|]; destruct l as [l|]; cbn [fl_ok] in HL; try contradiction; cbn [option_map holds] in HO.
    + destruct HL as [HR HS]. destruct (nth_error (c_handles (k_c k)) j) as [[a|]|]; try contradiction.
      exists r. split; [|exact HO]. apply (iter_all_ok X MAX inj M L HM _ _ [] HR). lia.
    + destruct (nth_error (c_handles (k_c k)) j) as [[[a|]|]|]; try contradiction. exact Logic.I.
  - assert (NL : nth_error (fst st) j = None). { apply nth_error_None. apply nth_error_None in NJ. clear - F NJ. apply forall2_len in F. lia. }
    rewrite NL. cbn [option_map holds] in HO. destruct (nth_error (c_handles (k_c k)) j) as [[[a|]|]|]; try contradiction. exact Logic.I.
Qed.
