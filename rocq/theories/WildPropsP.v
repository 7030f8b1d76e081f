(** Statements about index types that keep no laws, with proofs. *)
From Coq Require Import List ZArith Bool Arith Lia.
From Verif Require Import Base Index Slice Tree Insert Range Iter Hist Validate Spec Wild WildCalls WildP WildQ WildR.
Import ListNotations.

(** ** Calls with operations of their own *)
Lemma calls_run : forall {I V : Type} (M : nat), (1 <= M)%nat -> forall nop (cs : list (@ins_call I V)) r,
  (forall c, In c cs -> index_any (ic_x c)) -> rle_shape M r -> post (rle_shape M) (run_calls M nop r cs).
Proof.
  intros I V M HM nop. induction cs as [|c cs IH]; intros r HX Hr; cbn [run_calls]; [exact Hr|]. cbv zeta.
  eapply post_bind; [apply wild_insert; [exact (HX c (or_introl eq_refl))|exact HM|exact Hr]|].
  intros [r' cur] _ [Hr' _]. apply IH; [intros c' H'; exact (HX c' (or_intror H'))|exact Hr'].
Qed.

Lemma p_next_calls : forall {I V : Type} (M low : nat) (r : @rle I V) calls it,
  (forall c, In c calls -> index_any (fst c)) -> rle_sh M low r -> it_ok r it ->
  post (fun q => Forall (item_ok r) (fst q)) (next_calls r it calls).
Proof.
  intros I V M low r. induction calls as [|[X b] calls IH]; intros it HX Hr Hi; cbn [next_calls]; [constructor|].
  eapply post_bind; [eapply (p_iter_step X M low); [exact (HX _ (or_introl eq_refl))|exact Hr|exact Hi]|]. intros [o it'] _ [Ho Hi']. cbn [fst snd] in *.
  eapply post_bind; [apply IH; [intros c' H'; exact (HX c' (or_intror H'))|exact Hr|exact Hi']|]. intros [os it''] _ Hos. cbn [fst snd] in *. constructor; auto.
Qed.

(** ** Counting keys *)
Section Count.
  Context {I V : Type} (M : nat) (HM : 1 <= M).

  Lemma leaf_kids : forall (es : list (entry_of I V)) (c0 : tree I V),
    forallb (fun c => match c with Nil => true | Node _ _ _ => false end) (c0 :: map e_child es) = true ->
    node_count c0 = 0 /\ slices c0 = [] /\ fold_right plus 0 (map (fun e => node_count (e_child e)) es) = 0 /\
    length (flat_map (fun e => snd (fst e) :: slices (snd e)) es) = length es.
  Proof.
    intros es c0 H. cbn [map forallb] in H. apply andb_prop in H. destruct H as [H0 H]. destruct c0; [|discriminate].
    split; [reflexivity|]. split; [reflexivity|]. induction es as [|[[q v] c] es IH]; [split; reflexivity|].
    cbn [map forallb e_child snd fst fold_right flat_map] in *. apply andb_prop in H. destruct H as [H1 H]. destruct c; [|discriminate].
    destruct (IH H) as [A B]. split; [exact A|]. cbn [slices app length]. rewrite B. reflexivity.
  Qed.

  Lemma shape_counts : forall h lo (t : tree I V), Validate.shape M lo h t = true ->
    M * node_count t + lo <= length (slices t) + M /\ (lo + 1) * (M + 1) ^ h <= length (slices t) + 1.
  Proof.
    induction h as [|h IH]; intros lo [|tot c0 es] H; try discriminate; cbn [Validate.shape] in H;
      apply andb_prop in H; destruct H as [H HK]; apply andb_prop in H; destruct H as [Hl Hu]; apply Nat.leb_le in Hl, Hu; cbn [node_count slices].
    - destruct (leaf_kids _ _ HK) as (-> & -> & -> & E). cbn [app]. rewrite E. cbn [Nat.pow]. nia.
    - cbn [map forallb] in HK. apply andb_prop in HK. destruct HK as [H0 HK]. destruct (IH _ _ H0) as [A0 B0]. rewrite app_length.
      assert (Q : M * fold_right plus 0 (map (fun e => node_count (e_child e)) es) + length es <= length (flat_map (fun e => snd (fst e) :: slices (snd e)) es) /\
                  length es * (M + 1) ^ S h <= length (flat_map (fun e => snd (fst e) :: slices (snd e)) es)).
      { clear - IH HK. induction es as [|[[q v] c] es IHe]; [cbn [map fold_right flat_map length]; lia|].
        cbn [map forallb e_child snd fst fold_right flat_map app length] in *. apply andb_prop in HK. destruct HK as [H1 HK]. destruct (IH _ _ H1) as [A B].
        destruct (IHe HK) as [C D]. rewrite app_length. cbn [Nat.pow] in *. nia. }
      destruct Q as [Q1 Q2]. cbn [Nat.pow] in *. nia.
  Qed.
End Count.

(** Whatever the index and slice operations do, in every call anew, insertion accesses no key or child that is
    not there, leaves a B-tree and counts its slices; lookups and iterations then access nothing that is not
    there, and every slice they show is one of the tree's. *)
Lemma C40_any_index_memory_safe_proof : forall (I V : Type) (M : nat) (nop : bool) (cs : list (@ins_call I V)),
  (forall c, In c cs -> index_any (ic_x c)) -> (1 <= M)%nat ->
  run_calls M nop None cs <> UB /\
  forall r, run_calls M nop None cs = Ok r ->
    match r with None => True | Some r0 => Validate.shape M 1 (r_height r0) (r_node r0) = true end /\
    rle_len r = length (rle_slices r) /\
    (forall X hints idx, index_any X -> get_with_cursor X r hints idx <> UB /\
       forall a b s, get_with_cursor X r hints idx = Ok (a, b, s) -> In s (rle_slices r)) /\
    (forall X hints sb eb, index_any X -> iter_new X r hints sb eb <> UB /\
       forall it calls, iter_new X r hints sb eb = Ok it -> (forall c, In c calls -> index_any (fst c)) ->
         next_calls r it calls <> UB /\
         forall outs it', next_calls r it calls = Ok (outs, it') -> forall a b s, In (Some (a, b, s)) outs -> In s (rle_slices r)).
Proof.
  intros I V M nop cs HX HM. pose proof (calls_run M HM nop cs None HX Logic.I) as R. split; [exact (post_nub _ _ R)|].
  intros r E. rewrite E in R. cbn [post] in R. split; [|split; [|split]].
  - destruct r as [r|]; [exact (proj1 R)|exact Logic.I].
  - destruct r as [r|]; [exact (proj2 R)|reflexivity].
  - intros X hints idx HX1. pose proof (p_get X M M HX1 r hints idx (rle_shape_sh _ _ R)) as G. split; [exact (post_nub _ _ G)|].
    intros a b s Eg. rewrite Eg in G. exact G.
  - intros X hints sb eb HX1. pose proof (p_iter_new X M M r hints sb eb (rle_shape_sh _ _ R)) as N. split; [exact (post_nub _ _ N)|].
    intros it calls Ei HX2. rewrite Ei in N. cbn [post] in N. pose proof (p_next_calls M M r calls it HX2 (rle_shape_sh _ _ R) N) as C. split; [exact (post_nub _ _ C)|].
    intros outs it' Ec a b s Hin. rewrite Ec in C. cbn [post fst] in C. rewrite Forall_forall in C. exact (C _ Hin _ eq_refl).
Qed.

(** An insertion that returns loses and invents no slice: the slices afterwards are what the flat
    specification makes of the slices before at one place.  The place, and the point [q] where a slice is
    cut, are the only things that depend on the index operations. *)
Lemma C40_any_index_no_slice_lost_proof : forall (I V : Type) (X : index_ops I) (Y : slice_ops I V) (M : nat) (nop : bool) (cs : list (@ins_call I V)) r hints idx x n r' cur,
  (forall c, In c cs -> index_any (ic_x c)) -> index_any X -> (1 <= M)%nat -> run_calls M nop None cs = Ok r ->
  insert_with_cursor X Y M nop r hints idx x n = Ok (r', cur) ->
  exists (l l' : list (V * Z)) (i : Z) (q : I),
    map fst l = rle_slices r /\ Forall (fun run => 0 < snd run)%Z l /\ (0 <= i <= rsum l)%Z /\
    insert_runs (cut_at Y q) (fun z => z) l i x 1 = Ok l' /\ map fst l' = rle_slices r'.
Proof.
  intros I V X Y M nop cs r hints idx x n r' cur HC HX HM E Ei.
  pose proof (calls_run M HM nop cs None HC Logic.I) as R. rewrite E in R. cbn [post] in R.
  pose proof (wild_insert M X Y HX HM nop r hints idx x n R) as W. rewrite Ei in W. cbn [post fst] in W.
  destruct W as (_ & l & i & q & l' & A & B & C & D & F). exists l, l', i, q. auto.
Qed.

(** Whatever the index operations do, a tree of height [h] has at least 2(M+1)^h - 1 slices; so the height is less
    than the number of bits in which the number of slices can be written.  Every node but the top one is at least
    half full: the number of nodes is at most one more than one M-th of the number of slices. *)
Lemma C06_any_index_height_proof : forall (I V : Type) (M : nat) (nop : bool) (cs : list (@ins_call I V)) r,
  (forall c, In c cs -> index_any (ic_x c)) -> (1 <= M)%nat -> run_calls M nop None cs = Ok (Some r) ->
  (2 * (M + 1) ^ r_height r <= r_len r + 1)%nat /\
  (forall W, r_len r < 2 ^ W -> r_height r < W)%nat /\
  (M * (node_count (r_node r) - 1) + 1 <= r_len r)%nat.
Proof.
  intros I V M nop cs r HX HM E. pose proof (calls_run M HM nop cs None HX Logic.I) as R. rewrite E in R. cbn [post rle_shape] in R. destruct R as [R Rl].
  destruct (shape_counts M HM _ _ _ R) as [A B]. rewrite <- Rl in *. split; [lia|].
  assert (N : 1 <= node_count (r_node r)) by (destruct (r_node r); [destruct (r_height r); discriminate|cbn; lia]). split; [|nia].
  intros W HW. destruct (Nat.lt_ge_cases (r_height r) W) as [H|H]; [exact H|exfalso].
  assert (P1 : 2 ^ W <= 2 ^ r_height r) by (apply Nat.pow_le_mono_r; lia).
  assert (P2 : 2 ^ r_height r <= (M + 1) ^ r_height r) by (apply Nat.pow_le_mono_l; lia). lia.
Qed.

(** Integers are such index types, also where they overflow. *)
Lemma C40_overflow_memory_safe_proof : forall (V : Type) (Y : slice_ops Z V) (MAX : Z) (M : nat) (nop : bool) (ops : list (@op V Z)),
  (1 <= M)%nat ->
  run_ops (wrapping_ops MAX) Y M nop None ops <> UB /\ run_ops (checked_ops MAX) Y M nop None ops <> UB.
Proof.
  intros V Y MAX M nop ops HM. split.
  - exact (post_nub _ _ (wild_run M (wrapping_ops MAX) Y (wrapping_any MAX) HM nop ops None Logic.I)).
  - exact (post_nub _ _ (wild_run M (checked_ops MAX) Y (checked_any MAX) HM nop ops None Logic.I)).
Qed.

Lemma runs_growth : forall {I V : Type} (Y : slice_ops I V) (inj : Z -> I) l idx x n l',
  insert_runs Y inj l idx x n = Ok l' -> (length l <= length l' <= length l + 2)%nat /\ (1 <= length l' <= Nat.max 1 (length l + 2))%nat /\ (l = [] -> length l' = 1%nat).
Proof.
  intros I V Y inj.
  assert (P : forall b x n c l', place Y b x n c = Ok l' ->
    (length (match b with Some _ => [0] | None => [] end) + length (match c with Some _ => [0] | None => [] end) <= length l' /\
     1 <= length l' <= length (match b with Some _ => [0] | None => [] end) + length (match c with Some _ => [0] | None => [] end) + 1)%nat).
  { intros b x n c l' E. unfold place in E. repeat match type of E with
      | context [match ?b with Some _ => _ | None => _ end] => destruct b as [[? ?]|] | context [match join ?Y ?a ?b with _ => _ end] => destruct (join Y a b) as [?|[? ?]] end;
      try discriminate; inversion E; subst; cbn; lia. }
  assert (Q : forall s z q x n, (1 <= length (place_inside Y inj s z q x n) <= 3)%nat).
  { intros. unfold place_inside. repeat match goal with
      | |- context [let (_, _) := sl_split_at ?a ?b ?c in _] => destruct (sl_split_at a b c) | |- context [match join ?Y ?a ?b with _ => _ end] => destruct (join Y a b) as [?|[? ?]] end; cbn; lia. }
  induction l as [|[s z] l IH]; intros idx x n l' E; cbn [insert_runs] in E.
  - apply P in E. cbn in *. lia.
  - destruct (Z.eqb idx 0).
    { destruct (place Y None x n (Some (s, z))) as [r| |] eqn:Er; try discriminate. cbn [bind] in E. inversion E; subst. apply P in Er. rewrite app_length. cbn in *. split; [lia|]. split; [lia|discriminate]. }
    destruct (Z.ltb idx z).
    { inversion E; subst. rewrite app_length. specialize (Q s z idx x n). cbn [length]. split; [lia|]. split; [lia|discriminate]. }
    destruct (Z.eqb idx z).
    { destruct l as [|c l].
      - apply P in E. cbn in *. split; [lia|]. split; [lia|discriminate].
      - destruct (place Y (Some (s, z)) x n (Some c)) as [r| |] eqn:Er; try discriminate. cbn [bind] in E. inversion E; subst. apply P in Er. rewrite app_length. cbn in *. split; [lia|]. split; [lia|discriminate]. }
    destruct (insert_runs Y inj l (idx - z) x n) as [r| |] eqn:Er; try discriminate. cbn [bind] in E. inversion E; subst. apply IH in Er. cbn [length]. split; [lia|]. split; [lia|discriminate].
Qed.

(** An insertion that returns adds at most two slices and loses none; so after n of them there are fewer than 2n, in
    at most one node more than 2(n-1)/M. *)
Lemma C62_growth_proof : forall (I V : Type) (M : nat) (nop : bool) (cs : list (@ins_call I V)) r,
  (forall c, In c cs -> index_any (ic_x c)) -> (1 <= M)%nat -> run_calls M nop None cs = Ok r ->
  (forall X Y hints idx x n r' cur, index_any X -> insert_with_cursor X Y M nop r hints idx x n = Ok (r', cur) ->
     rle_len r <= rle_len r' <= rle_len r + 2)%nat /\
  (cs <> [] -> 1 <= rle_len r <= 2 * length cs - 1)%nat /\
  (forall r0, r = Some r0 -> M * (node_count (r_node r0) - 1) <= 2 * (length cs - 1))%nat.
Proof.
  intros I V M nop cs r HX HM E.
  assert (One : forall c0 s0 (X : index_ops I) (Y : slice_ops I V) hints idx x n s1 cur, (forall c, In c c0 -> index_any (ic_x c)) ->
    run_calls M nop None c0 = Ok s0 -> index_any X -> insert_with_cursor X Y M nop s0 hints idx x n = Ok (s1, cur) ->
    (rle_len s0 <= rle_len s1 <= rle_len s0 + 2 /\ 1 <= rle_len s1 /\ (rle_len s0 = 0 -> rle_len s1 = 1))%nat).
  { intros c0 s0 X Y hints idx x n s1 cur H0 E0 HX1 Ei.
    destruct (C40_any_index_no_slice_lost_proof I V X Y M nop c0 s0 hints idx x n s1 cur H0 HX1 HM E0 Ei) as (l & l' & i & q & A & _ & _ & B & C).
    pose proof (calls_run M HM nop c0 None H0 Logic.I) as R. rewrite E0 in R. cbn [post] in R.
    pose proof (wild_insert M X Y HX1 HM nop s0 hints idx x n R) as W. rewrite Ei in W. cbn [post fst] in W. destruct W as [W _].
    assert (Ln : forall r : @rle I V, rle_shape M r -> @rle_len I V r = length (rle_slices r)) by (intros [r1|] Q; [exact (proj2 Q)|reflexivity]).
    rewrite (Ln _ R), (Ln _ W), <- A, <- C, !map_length. destruct (runs_growth _ _ _ _ _ _ _ B) as (G1 & G2 & G3).
    split; [lia|]. split; [lia|]. intros G. apply G3. destruct l; [reflexivity|discriminate]. }
  assert (Two : (cs <> [] -> 1 <= rle_len r <= 2 * length cs - 1)%nat).
  { revert r E HX. induction cs as [|c cs IH] using rev_ind; intros r E HX N; [congruence|clear N].
    assert (Ea : forall l2 r0, run_calls M nop r0 (l2 ++ [c]) = (let* s := run_calls M nop r0 l2 in run_calls M nop s [c])).
    { induction l2 as [|d l2 IH2]; intros r0; [reflexivity|]. cbn [run_calls app]. cbv zeta.
      destruct (insert_with_cursor _ _ _ _ _ _ _ _ _) as [[s1 c1]| |]; cbn [bind]; [apply IH2|reflexivity|reflexivity]. }
    rewrite Ea in E. destruct (run_calls M nop None cs) as [s| |] eqn:Es; try discriminate. cbn [bind run_calls] in E. cbv zeta in E.
    destruct (insert_with_cursor (ic_x c) (ic_y c) M nop s _ _ _ _) as [[s1 c1]| |] eqn:Ei; try discriminate. cbn [bind] in E. inversion E; subst s1.
    assert (HX0 : forall c', In c' cs -> index_any (ic_x c')) by (intros c' H'; apply HX, in_or_app; auto).
    destruct (One cs s _ _ _ _ _ _ _ _ HX0 Es (HX c ltac:(apply in_or_app; right; left; reflexivity)) Ei) as (G1 & G2 & G3).
    rewrite app_length. cbn [length]. destruct cs as [|d cs].
    + cbn in Es. inversion Es; subst. cbn in *. lia.
    + specialize (IH s eq_refl HX0 ltac:(discriminate)). cbn [length] in *. lia. }
  split; [|split; [exact Two|]].
  - intros X Y hints idx x n r' cur HX1 Ei. exact (proj1 (One cs r X Y hints idx x n r' cur HX E HX1 Ei)).
  - intros r0 ->. destruct (C06_any_index_height_proof I V M nop cs r0 HX HM E) as (_ & _ & N).
    assert (G : cs <> []) by (intros ->; discriminate).
    specialize (Two G). cbn [rle_len] in Two. lia.
Qed.
