(** Statements about insertions in which the index type panics, with proofs. *)
From Coq Require Import List ZArith Bool Arith Lia Permutation Relations.
From Verif Require Import Base Index Slice Tree Insert Range Iter Hist Validate Spec Zip Rep Ins IterQ HistP OrderP TreePropsP Crash Wild WildCalls WildP WildQ WildR WildPropsP
  Unwind UnwindSpec UnwindE UnwindP UnwindQ UnwindR UnwindS UnwindT UnwindU UnwindV Samples UnwindSamples.
Import ListNotations.

Lemma least_ok : forall M, least M = 0 \/ least M = 1 /\ 3 <= M.
Proof. intros M. unfold least. destruct (Nat.leb_spec 3 M); auto. Qed.

Lemma least_low : forall M, 1 <= M -> least M <= 1 /\ least M <= M.
Proof. intros M H. unfold least. destruct (Nat.leb_spec 3 M); lia. Qed.

Lemma wshape_mono : forall (I V : Type) M b b', b' <= b -> forall h lo lo' (t : tree I V), lo' <= lo -> wshape M b lo h t = true -> wshape M b' lo' h t = true.
Proof.
  intros I V M b b' Hb. induction h as [|h IH]; intros lo lo' [|tot c0 es] Hl H; try discriminate; cbn [wshape] in *;
    apply andb_prop in H; destruct H as [H H2]; apply andb_prop in H; destruct H as [H0 H1]; apply Nat.leb_le in H0.
  - rewrite H1, H2, !andb_true_r. apply Nat.leb_le. lia.
  - rewrite H1, andb_true_r. apply andb_true_intro. split; [apply Nat.leb_le; lia|]. rewrite forallb_forall in *. intros c Hc. eapply IH; [exact Hb|]. apply H2. exact Hc.
Qed.

Lemma intact_sh : forall (I V : Type) M (r : @rle I V), intact M r -> rle_sh M (least M) r.
Proof. intros I V M [r|] H; [|exact Logic.I]. exists (least M). apply H. Qed.

Lemma shape_intact : forall (I V : Type) M (r : @rle I V), 1 <= M -> rle_shape M r -> intact M r.
Proof.
  intros I V M [r|] HM H; [|exact Logic.I]. destruct H as [H Hl]. split; [|lia]. destruct (least_low M HM).
  rewrite <- shape_wshape in H. eapply wshape_mono; [| |exact H]; lia.
Qed.

Lemma intact_insert : forall (I V : Type) (X : index_ops I) (B : @cmp_panics I) (Y : slice_ops I V) M nop r hints idx x n, index_any X -> 1 <= M -> intact M r ->
  match uinsert_with_cursor X B Y M nop r hints idx x n with
  | UOk (r', _) => intact M r' /\ put Y (rle_slices r) x (rle_slices r')
  | UPan _ rest lost => form_kept M r rest /\ exists L, put Y (rle_slices r) x L /\ accounted (left_slices rest) lost L
  | UUB => False
  end.
Proof.
  intros I V X B Y M nop r hints idx x n HX HM Hr.
  pose proof (q_insert X B Y M (least M) HX HM (least_ok M) nop r hints idx x n Hr) as Q.
  destruct (uinsert_with_cursor X B Y M nop r hints idx x n) as [[r' cur]|w rest lost|]; cbn [uspec fst] in Q; [exact Q| |exact Q].
  destruct Q as [F A]. split; [|exact A]. destruct rest as [o|].
  - destruct F as ((r0 & -> & Eh) & W & Hl). cbn [form_kept]. auto.
  - subst r. exact Logic.I.
Qed.

Lemma form_intact : forall (I V : Type) M (r r1 : @rle I V), form_kept M r (unholed r1) -> intact M r1.
Proof.
  intros I V M r [r1|] H; [|exact Logic.I]. destruct r as [r|]; [|destruct H]. destruct H as (_ & W & Hl).
  unfold unholed, untouched, remaining, whole in *. cbn [r_height r_node r_len m_tree m_added m_taken] in *.
  rewrite slices_tmap, somes_some in Hl. rewrite wshape_tmap in W. split; [exact W|lia].
Qed.

Lemma caught_intact : forall (I V : Type) M nop, 1 <= M ->
  forall (r : @rle I V) ops r', caught (fun X _ _ => index_any X) M nop r ops r' -> intact M r -> intact M r'.
Proof.
  intros I V M nop HM r ops r' H. induction H as [r|X B Y r r1 r2 cur o ops HX E H IH|X B Y r r1 r2 w lost o ops HX E H IH]; intros Hr; [exact Hr| |];
    apply IH; pose proof (intact_insert I V X B Y M nop r (o_hints o) (o_idx o) (o_slice o) (o_size o) HX HM Hr) as Q; rewrite E in Q.
  - apply Q.
  - eapply form_intact. apply Q.
Qed.

(** The functions with panics of the index type are the modelled ones: they return what `insert_with_cursor` returns,
    and panic as it does or because a comparison did; if no comparison panics, forgetting what is left gives back the
    outcome. *)
Lemma C51_same_outcome_proof : forall (I V : Type) (X : index_ops I) (B : @cmp_panics I) (Y : slice_ops I V) (M : nat) (nop : bool) (r : @rle I V) hints idx x n,
  forget (uinsert_with_cursor X calm Y M nop r hints idx x n) = insert_with_cursor X Y M nop r hints idx x n /\
  match uinsert_with_cursor X B Y M nop r hints idx x n with
  | UOk q => insert_with_cursor X Y M nop r hints idx x n = Ok q
  | UPan w _ _ => insert_with_cursor X Y M nop r hints idx x n = Panic w \/ raised B w
  | UUB => insert_with_cursor X Y M nop r hints idx x n = UB
  end.
Proof.
  intros. split; [|exact (e_insert X B Y M nop r hints idx x n)].
  pose proof (e_insert X calm Y M nop r hints idx x n) as E. unfold fol in E.
  destruct (uinsert_with_cursor X calm Y M nop r hints idx x n); cbn [forget]; [auto| |auto].
  destruct E as [E|[E|(a & b & E)]]; [auto|discriminate|discriminate].
Qed.

(** An insertion in which the index type panics, into any tree that earlier insertions left, returned or unwound:
    the height and the form of the nodes are kept, every slice is still in the tree in its order or was dropped, once,
    and nothing else is in the tree. *)
Lemma C51_unwinding_accounts_for_slices_proof : forall (I V : Type) (X : index_ops I) (B : @cmp_panics I) (Y : slice_ops I V) (M : nat) (nop : bool) (ops : list (@op V I)) r hints idx x n,
  index_any X -> (1 <= M)%nat -> caught (fun X _ _ => index_any X) M nop None ops r ->
  match uinsert_with_cursor X B Y M nop r hints idx x n with
  | UOk (r', _) => intact M r' /\ put Y (rle_slices r) x (rle_slices r')
  | UPan _ rest lost => form_kept M r rest /\ exists L, put Y (rle_slices r) x L /\ accounted (left_slices rest) lost L
  | UUB => False
  end.
Proof.
  intros I V X B Y M nop ops r hints idx x n HX HM H. apply intact_insert; auto. exact (caught_intact _ _ M nop HM _ _ _ H Logic.I).
Qed.

(** A caller that catches such panics: as long as no hole is left, lookups and iterations access nothing that is not
    there, and show only slices of the tree. *)
Lemma C51_caught_memory_safe_proof : forall (I V : Type) (X : index_ops I) (M : nat) (nop : bool) (ops : list (@op V I)) r,
  index_any X -> (1 <= M)%nat -> caught (fun X _ _ => index_any X) M nop None ops r ->
  intact M r /\
  (forall hints idx, get_with_cursor X r hints idx <> UB /\
     forall a b s, get_with_cursor X r hints idx = Ok (a, b, s) -> In s (rle_slices r)) /\
  (forall hints sb eb, iter_new X r hints sb eb <> UB /\
     forall it calls, iter_new X r hints sb eb = Ok it -> (forall c, In c calls -> index_any (fst c)) -> next_calls r it calls <> UB /\
       forall outs it', next_calls r it calls = Ok (outs, it') -> forall a b s, In (Some (a, b, s)) outs -> In s (rle_slices r)).
Proof.
  intros I V X M nop ops r HX HM H. pose proof (caught_intact _ _ M nop HM _ _ _ H Logic.I) as R. apply intact_sh in R as R'.
  split; [exact R|split].
  - intros hints idx. pose proof (p_get X M (least M) HX r hints idx R') as G. split; [exact (post_nub _ _ G)|].
    intros a b s Eg. rewrite Eg in G. exact G.
  - intros hints sb eb. pose proof (p_iter_new X M (least M) r hints sb eb R') as N. split; [exact (post_nub _ _ N)|].
    intros it calls Ei HC. rewrite Ei in N. cbn [post] in N. pose proof (p_next_calls M (least M) r calls it HC R' N) as C. split; [exact (post_nub _ _ C)|].
    intros outs it' Ec a b s Hin. rewrite Ec in C. cbn [post fst] in C. rewrite Forall_forall in C. exact (C _ Hin _ eq_refl).
Qed.

(** The documented panics leave the tree alone, and drop the new slice only. *)
Lemma C51_documented_panics_change_nothing_proof : forall (I V : Type) (X : index_ops I) (B : @cmp_panics I) (Y : slice_ops I V) (MAX : Z) (inj : Z -> I)
    (M : nat) (nop : bool) (r : @rle I V) (l : list (V * Z)) (hints : list nat) (idx : Z) (x : V) (n : Z),
  index_laws X MAX inj -> (1 <= M)%nat -> reaches MAX inj X Y M nop r l -> (0 <= idx <= MAX)%Z -> (0 <= n <= MAX)%Z ->
  (rsum l < idx)%Z \/ n = 0%Z -> cp_search B = None ->
  exists w, (w = POutOfBounds \/ w = PBadSize) /\ uinsert_with_cursor X B Y M nop r hints (inj idx) x (inj n) = UPan w (unholed r) [x].
Proof.
  intros I V X B Y MAX inj M nop r l hints idx x n L HM Hr Hi Hn Hd HB.
  destruct (reaches_rep X Y MAX inj M L HM _ _ _ Hr) as [R Hl].
  unfold uinsert_with_cursor. rewrite (rle_size_ok X MAX inj M L _ _ R), HB. cbn [at_ ubind cmp_res].
  pose proof (rle_rep_pos _ _ _ _ R) as Hp. pose proof (pos_runs_nonneg _ Hp).
  rewrite (il_ltb _ _ _ L) by lia. destruct (Z.ltb_spec (rsum l) idx); [exists POutOfBounds; auto|].
  replace n with 0%Z by lia. unfold ix_leb. rewrite (il_zero _ _ _ L), (il_ltb _ _ _ L) by lia. exists PBadSize. auto.
Qed.

(** An insertion that overflows is not undone: here four of seven slices are gone, and `root.len` counts them all. *)
Lemma C51_contents_kept_refuted_proof : exists (M : nat) (r : @rle Z nat) (l : list (nat * Z)) (idx n : Z) (x : nat) o lost,
  (3 <= M)%nat /\ reaches 255 (fun z => z) (checked_ops 255) sc M false r l /\ (0 <= idx <= rsum l)%Z /\ (0 < n <= 255)%Z /\
  uinsert_with_cursor (checked_ops 255) calm sc M false r [] idx x n = UPan PArith (Some o) lost /\
  rle_slices r = [1; 2; 3; 4; 5; 6]%nat /\ left_slices (Some o) = [7; 1; 2]%nat /\ lost = [3; 4; 5; 6]%nat /\ r_len o = 7%nat.
Proof.
  exists 3%nat, u_tree, u_runs, 0%Z, 255%Z, 7%nat. eexists. eexists. split; [auto|]. split; [exact u_reaches|].
  split; [vm_compute; split; discriminate|]. split; [vm_compute; split; [reflexivity|discriminate]|].
  split; [vm_compute; reflexivity|]. repeat (split; [vm_compute; reflexivity|]). vm_compute. reflexivity.
Qed.

(** An overflow while the new slice is joined to its neighbour leaves a hole, which a lookup returns. *)
Lemma C51_no_hole_refuted_proof : exists (M : nat) (r : @rle Z nat) (l : list (nat * Z)) (idx n i : Z) (x : nat) o lost,
  (3 <= M)%nat /\ reaches 255 (fun z => z) (checked_ops 255) sc M false r l /\ (0 <= idx <= rsum l)%Z /\ (0 < n <= 255)%Z /\
  uinsert_with_cursor (checked_ops 255) calm sc M false r [] idx x n = UPan PArith (Some o) lost /\ rle_slices r = [1; 2]%nat /\ lost = [1%nat] /\
  get (checked_ops 255) (Some o) i = Ok (0%Z, 200%Z, None).
Proof.
  exists 3%nat, v_tree, v_runs, 200%Z, 100%Z, 7%Z, 1%nat. eexists. eexists. split; [auto|]. split; [exact v_reaches|].
  split; [vm_compute; split; discriminate|]. split; [vm_compute; split; [reflexivity|discriminate]|].
  split; [vm_compute; reflexivity|]. repeat (split; [vm_compute; reflexivity|]). vm_compute. reflexivity.
Qed.

(** If M is at least three, no iteration over what is left computes `len - 1` for an empty leaf: it underflows only if
    the index type does. *)
Lemma C51_no_underflow_proof : forall (I V : Type) (X2 : index_ops I) (M : nat) (nop : bool) (ops : list (@op V I)) r hints sb eb,
  (3 <= M)%nat -> caught (fun X _ _ => index_any X) M nop None ops r -> no_overflow X2 ->
  iter_new X2 r hints sb eb <> Panic PArith /\
  forall it calls, iter_new X2 r hints sb eb = Ok it -> iter_calls X2 r it calls <> Panic PArith.
Proof.
  intros I V X2 M nop ops r hints sb eb HM H H2.
  pose proof (caught_intact _ _ M nop ltac:(lia) _ _ _ H Logic.I) as R.
  assert (E : least M = 1) by (unfold least; destruct (Nat.leb_spec 3 M); lia).
  split; [apply np_new; exact H2|]. intros it calls _. apply (np_calls X2 M 1 H2 (le_n 1)). destruct r as [r|]; [|exact Logic.I]. destruct R as [W _]. rewrite E in W. exact W.
Qed.

(** For M = 2 a leaf may be left empty, and `next_back` then underflows, whatever index operations it uses. *)
Lemma C51_no_underflow_small_refuted_proof : exists (ops : list (@op nat Z)) (r : @rle Z nat) it,
  caught (fun X B Y => X = checked_ops 255 /\ B = calm /\ Y = sc) 2 false None ops r /\ no_overflow (wrapping_ops 255) /\
  iter_new (wrapping_ops 255) r [] SUnb EUnb = Ok it /\ iter_calls (wrapping_ops 255) r it [true] = Panic PArith.
Proof.
  exists (w_ops ++ [w_over]), w_left. eexists. split; [|split; [|split; vm_compute; reflexivity]].
  - cbn [w_ops app]. do 6 (eapply (caught_ok _ _ _ (checked_ops 255) calm sc); [repeat split; reflexivity|vm_compute; reflexivity|]). eapply (caught_panic _ _ _ (checked_ops 255) calm sc _ w_left); [repeat split; reflexivity|vm_compute; reflexivity|]. apply caught_nil.
  - intros a b. repeat split; discriminate.
Qed.
