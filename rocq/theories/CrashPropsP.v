(** Proofs about panics of the slice type during an insertion. *)
From Coq Require Import List ZArith Lia Bool Arith.
From Verif Require Import Base Index Slice Tree Insert Range Spec Zip Rep Ins Iter IterQ Hist HistP Validate OrderP TreePropsP Crash CrashSpec CrashP Samples.
Import ListNotations.
Local Open Scope Z_scope.

Section Local.
  Context {I V : Type} (F : fslice_ops I V) (inj : Z -> I).

  Lemma lost_between_sizes : forall b x c T todo, lost_between F b x c = Some (T, todo) ->
    map snd T = map snd ((match b with Some b => [b] | None => [] end) ++ match c with Some c => [c] | None => [] end).
  Proof.
    intros b x c T todo E. unfold lost_between in E. destruct (fs_may_join F); [|discriminate].
    destruct b as [[s z]|], c as [[s2 z2]|]; try discriminate.
    - destruct (fs_try_join F s x) as [[m|[s' x']]|]; [destruct (fs_try_join F m s2) as [[j|?]|]|destruct (fs_try_join F x' s2)|]; inversion E; reflexivity.
    - destruct (fs_try_join F s x); inversion E; reflexivity.
    - destruct (fs_try_join F x s2); inversion E; reflexivity.
  Qed.

  Lemma lost_inside_sizes : forall s z q x T todo, lost_inside F inj s z q x = Some (T, todo) -> map snd T = [z].
  Proof.
    intros s z q x T todo E. unfold lost_inside in E. destruct (fs_split_at F s (inj q)) as [[a b]|]; [|inversion E; reflexivity].
    destruct (fs_may_join F); [|discriminate].
    destruct (fs_try_join F a x) as [[m|[s' x']]|]; [destruct (fs_try_join F m b)|destruct (fs_try_join F x' b)|]; inversion E; reflexivity.
  Qed.

  Lemma lost_local : forall l idx x l' todo, pos_runs l -> 0 <= idx -> lost F inj l idx x = Some (l', todo) ->
    exists A T T' B, l = A ++ T ++ B /\ l' = map keep A ++ T' ++ map keep B /\ map snd T' = map snd T /\
      (1 <= length T <= 2)%nat /\ rsum A <= idx <= rsum A + rsum T.
  Proof.
    induction l as [|[s z] l IH]; intros idx x l' todo Hp Hi E; [discriminate|].
    inversion Hp as [|? ? Hz Hp']; subst. cbn [snd] in Hz. cbn [lost] in E.
    destruct (Z.eqb_spec idx 0) as [->|Hn].
    { destruct (lost_between F None x (Some (s, z))) as [[T td]|] eqn:EB; [|discriminate]. inversion E; subst.
      apply lost_between_sizes in EB. exists [], [(s, z)], T, l. cbn [app map length rsum fst]. repeat split; auto; lia. }
    destruct (Z.ltb_spec idx z) as [Hlt|Hge].
    { destruct (lost_inside F inj s z idx x) as [[T td]|] eqn:EB; [|discriminate]. inversion E; subst.
      apply lost_inside_sizes in EB. exists [], [(s, z)], T, l. cbn [app map length rsum fst]. repeat split; auto; lia. }
    destruct (Z.eqb_spec idx z) as [->|Hne].
    { destruct l as [|[s2 z2] l].
      - apply lost_between_sizes in E. exists [], [(s, z)], l', []. cbn [app map length rsum]. rewrite app_nil_r. repeat split; auto; lia.
      - destruct (lost_between F (Some (s, z)) x (Some (s2, z2))) as [[T td]|] eqn:EB; [|discriminate]. inversion E; subst.
        inversion Hp' as [|? ? Hz2 _]; subst. cbn [snd] in Hz2.
        apply lost_between_sizes in EB. exists [], [(s, z); (s2, z2)], T, l. cbn [app map length rsum fst]. repeat split; auto; lia. }
    destruct (lost F inj l (idx - z) x) as [[l1 td]|] eqn:E1; [|discriminate]. inversion E; subst.
    destruct (IH (idx - z) x l1 todo Hp' ltac:(lia) E1) as (A & T & T' & B & -> & -> & H1 & H2 & H3).
    exists ((s, z) :: A), T, T', B. cbn [app map rsum fst]. repeat split; auto; lia.
  Qed.

  Lemma keep_rsum : forall A : list (V * Z), rsum (map keep A) = rsum A.
  Proof. induction A as [|[s z] A IH]; [reflexivity|]. change (z + rsum (map keep A) = z + rsum A). lia. Qed.

  Lemma rsum_snd : forall {A B} (l : list (A * Z)) (m : list (B * Z)), map snd l = map snd m -> rsum l = rsum m.
  Proof.
    intros A B. induction l as [|[a z] l IH]; intros [|[b y] m] E; cbn [map rsum snd] in *; try discriminate; auto.
    inversion E; subst. f_equal. apply IH. assumption.
  Qed.
End Local.

Lemma walk_len : forall {I S} (X : index_ops I) h (t : tree I S) n m fuel, walk X (Build_root h t n) fuel = walk X (Build_root h t m) fuel.
Proof.
  intros I S X h t n m fuel. unfold walk. change (iter_new X (Some (Build_root h t n)) [] SUnb EUnb) with (iter_new X (Some (Build_root h t m)) [] SUnb EUnb).
  destruct (iter_new X (Some (Build_root h t m)) [] SUnb EUnb) as [it| |]; cbn [bind]; auto.
  revert it. induction fuel as [|fuel IH]; intros it; cbn [collect]; auto.
  change (iter_step X (Some (Build_root h t n)) false it) with (iter_step X (Some (Build_root h t m)) false it).
  destruct (iter_step X (Some (Build_root h t m)) false it) as [[[o|] it']| |]; cbn [bind]; auto. rewrite IH. reflexivity.
Qed.

(** Exactly what is left of a tree when the slice type panics in an insertion, and that nothing else panics: without a
    panic of the slice type, the insertion is the one of the other theorems. *)
Lemma C44_panic_state_partial_proof : forall (I V : Type) (X : index_ops I) (Y : slice_ops I V) (F : fslice_ops I V) (MAX : Z)
    (inj : Z -> I) (M : nat) (nop : bool) (r : @rle I V) (l : list (V * Z)) (hints : list nat) (idx : Z) (x : V) (n : Z),
  index_laws X MAX inj -> (1 <= M)%nat -> reaches MAX inj X Y M nop r l -> 0 <= idx <= rsum l -> 0 < n -> rsum l + n <= MAX ->
  let call := finsert_with_cursor X F M nop r hints (inj idx) x (inj n) in
  match lost F inj l idx x with
  | None => call = let* (r', cur) := insert_with_cursor X (unfailing F) M nop r hints (inj idx) x (inj n) in Ok (FReturned r' cur)
  | Some (l', todo) => exists r', call = Ok (FPanicked r') /\
      walk X r' (S (length l)) = Ok (map (inj_item inj) (spans 0 l')) /\
      rle_size X (Some r') = Ok (inj (rsum l)) /\ r_len r' = (length l - (if todo then 1 else 0))%nat /\
      shape M 1 (r_height r') (r_node r') = true
  end.
Proof.
  intros I V X Y F MAX inj M nop r l hints idx x n L HM Hr Hi Hn Hm. cbn zeta.
  destruct (reaches_rep X Y MAX inj M L HM _ _ _ Hr) as [R Hl].
  pose proof (finsert_ok X F MAX inj M L HM nop r l hints idx x n R Hi Hn Hm) as H.
  destruct (lost F inj l idx x) as [[l' todo]|] eqn:EL; [|exact H].
  destruct H as (h & t & E & R'). eexists. split; [exact E|].
  pose proof (rle_rep_pos _ _ _ _ R) as Hp.
  assert (HS : rsum l' = rsum l).
  { destruct (lost_local F inj l idx x l' todo Hp ltac:(lia) EL) as (A & T & T' & B & -> & -> & ET & _).
    rewrite !rsum_app, !keep_rsum. rewrite (rsum_snd _ _ ET). reflexivity. }
  assert (RR : rle_rep inj M (Some {| r_height := h; r_node := t; r_len := length l' |}) l') by (split; auto).
  assert (HN : length l' = length l).
  { destruct (lost_local F inj l idx x l' todo Hp ltac:(lia) EL) as (A & T & T' & B & -> & -> & ET & _).
    apply (f_equal (@length _)) in ET. rewrite !map_length in ET. rewrite !app_length, !map_length. lia. }
  split; [rewrite (walk_len X h t _ (length l')), <- HN; exact (iter_all_ok X MAX inj M L HM _ l' [] RR ltac:(lia))|].
  split; [rewrite <- HS; exact (rle_size_ok X MAX inj M L _ l' RR)|].
  split; [reflexivity|]. cbn [r_height r_node]. eapply rep_shape; eauto.
Qed.

(** The damage is local: all runs keep their places, and at most the two runs that touch the index change. *)
Lemma C44_panic_is_local_proof : forall (I V : Type) (X : index_ops I) (Y : slice_ops I V) (F : fslice_ops I V) (MAX : Z)
    (inj : Z -> I) (M : nat) (nop : bool) (r : @rle I V) (l : list (V * Z)) (hints : list nat) (idx : Z) (x : V) (n : Z) r',
  index_laws X MAX inj -> (1 <= M)%nat -> reaches MAX inj X Y M nop r l -> 0 <= idx <= rsum l -> 0 < n -> rsum l + n <= MAX ->
  finsert_with_cursor X F M nop r hints (inj idx) x (inj n) = Ok (FPanicked r') ->
  exists A T T' B, l = A ++ T ++ B /\
    walk X r' (S (length l)) = Ok (map (inj_item inj) (spans 0 (map keep A ++ T' ++ map keep B))) /\
    map snd T' = map snd T /\ (1 <= length T <= 2)%nat /\ rsum A <= idx <= rsum A + rsum T /\
    (r_len r' <= length l <= r_len r' + 1)%nat.
Proof.
  intros I V X Y F MAX inj M nop r l hints idx x n r' L HM Hr Hi Hn Hm E.
  pose proof (C44_panic_state_partial_proof I V X Y F MAX inj M nop r l hints idx x n L HM Hr Hi Hn Hm) as H. cbn zeta in H.
  destruct (reaches_rep X Y MAX inj M L HM _ _ _ Hr) as [R Hl]. pose proof (rle_rep_pos _ _ _ _ R) as Hp.
  destruct (lost F inj l idx x) as [[l' todo]|] eqn:EL.
  2:{ rewrite E in H. destruct (insert_with_cursor X (unfailing F) M nop r hints (inj idx) x (inj n)) as [[? ?]| |]; discriminate. }
  destruct H as (r1 & E1 & E2 & E3 & E4 & _). rewrite E in E1. inversion E1; subst r1.
  destruct (lost_local F inj l idx x l' todo Hp ltac:(lia) EL) as (A & T & T' & B & -> & -> & ET & HT & HI).
  exists A, T, T', B. repeat (split; [solve [auto]|]). rewrite E4. destruct todo; cbn; rewrite !app_length in *; lia.
Qed.

(** Intervals whose `try_join` panics when the left one starts at 50. *)
Definition fifty : fslice_ops Z (Z * Z) := {|
  fs_may_join := true;
  fs_split_at := fun s q => Some (sl_split_at interval_ops s q);
  fs_try_join := fun a b => if fst a =? 50 then None else Some (sl_try_join interval_ops a b);
|}.
(** Intervals that never panic. *)
Definition never : fslice_ops Z (Z * Z) := {|
  fs_may_join := true;
  fs_split_at := fun s q => Some (sl_split_at interval_ops s q);
  fs_try_join := fun a b => Some (sl_try_join interval_ops a b);
|}.

Lemma fifty_denotes : denotes (unfailing fifty) sid interval_den interval_fits.
Proof.
  destruct interval_denotes as [D1 D2 D3]. constructor; [exact D1| |].
  - intros a za b zb j Ha Hb Hza Hzb E. cbn [unfailing fifty sl_try_join fs_try_join] in E. destruct (fst a =? 50); [discriminate|]. eapply D2; eauto.
  - intros a za b zb x y Ha Hb Hza Hzb E. cbn [unfailing fifty sl_try_join fs_try_join] in E. destruct (fst a =? 50); [inversion E; subst; repeat split; auto|]. eapply D3; eauto.
Qed.

(** The property itself fails.  First, when the second `try_join` for the parts of a cut run panics, the left part stays with the length
    of the whole run: a slice that does not fit its range.  Second, when the new slice joins both neighbours, the count of slices is one
    too small and a slice is missing. *)
Lemma C44_panic_state_refuted_proof :
  (exists (F : fslice_ops Z (Z * Z)) (r : @rle Z (Z * Z)) l idx x n r' a b s,
    reaches 1000 sid sx (unfailing F) 1 false r l /\ Forall (fun e => interval_fits (fst e) (snd e)) l /\
    denotes (unfailing F) sid interval_den interval_fits /\
    finsert_with_cursor sx F 1 false r [] idx x n = Ok (FPanicked r') /\
    exists is, walk sx r' (S (length l)) = Ok is /\ In (a, b, Some s) is /\ ~ interval_fits s (b - a)) /\
  (exists (F : fslice_ops Z (Z * Z)) (r : @rle Z (Z * Z)) l idx x n r',
    reaches 1000 sid sx (unfailing F) 1 false r l /\
    finsert_with_cursor sx F 1 false r [] idx x n = Ok (FPanicked r') /\
    (forall a b, fs_try_join F a b <> None) /\ (forall s q, fs_split_at F s q <> None) /\
    exists is, walk sx r' (S (length l)) = Ok is /\ length is = S (r_len r')).
Proof.
  split.
  - exists fifty, (match run_ops sx (unfailing fifty) 1 false None [Build_op [] 0 (0, 10) 10; Build_op [] 10 (20, 25) 5] with Ok r => r | _ => None end),
      [((0, 10), 10); ((20, 25), 5)], 3, (50, 52), 2. eexists. exists 0, 10, (0, 3).
    split; [exists [Build_op [] 0 (0, 10) 10; Build_op [] 10 (20, 25) 5]; split; [fits_now|split; vm_compute; reflexivity]|].
    split; [repeat constructor|]. split; [exact fifty_denotes|]. split; [vm_compute; reflexivity|].
    eexists. split; [vm_compute; reflexivity|]. split; [left; reflexivity|]. unfold interval_fits. cbn [fst snd]. lia.
  - exists never, (match run_ops sx (unfailing never) 1 false None [Build_op [] 0 (0, 10) 10; Build_op [] 10 (20, 25) 5] with Ok r => r | _ => None end),
      [((0, 10), 10); ((20, 25), 5)], 10, (10, 20), 10. eexists.
    split; [exists [Build_op [] 0 (0, 10) 10; Build_op [] 10 (20, 25) 5]; split; [fits_now|split; vm_compute; reflexivity]|].
    split; [vm_compute; reflexivity|]. split; [discriminate|]. split; [discriminate|].
    eexists. split; vm_compute; reflexivity.
Qed.
