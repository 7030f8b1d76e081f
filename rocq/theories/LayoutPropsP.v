(** Proofs of the theorems about memory layouts. *)
From Coq Require Import List Arith Bool Lia.
From Verif Require Import Base ListFacts Layout.
Import ListNotations.

Lemma up_mul : forall q a, a <> 0 -> up (q * a) a = q * a.
Proof.
  intros q a H. unfold up. rewrite Nat.div_add_l by auto. rewrite (Nat.div_small (a - 1) a) by lia. rewrite Nat.add_0_r. reflexivity.
Qed.
Lemma up_0 : forall a, a <> 0 -> up 0 a = 0.
Proof. intros a H. exact (up_mul 0 a H). Qed.
Lemma up_ge : forall n a, a <> 0 -> n <= up n a.
Proof.
  intros n a H. unfold up. pose proof (Nat.div_mod (n + (a - 1)) a H) as D. pose proof (Nat.mod_upper_bound (n + (a - 1)) a H). nia.
Qed.
Lemma up_divide : forall n a, Nat.divide a (up n a).
Proof. intros n a. unfold up. exists ((n + (a - 1)) / a). reflexivity. Qed.
Lemma align_pos : forall t, valid t -> l_align t <> 0.
Proof. intros t [[k E] _]. rewrite E. apply Nat.pow_nonzero. lia. Qed.
Lemma align_max1 : forall t, valid t -> max (l_align t) 1 = l_align t.
Proof. intros t H. pose proof (align_pos t H). lia. Qed.

Lemma array_size : forall t n, valid t -> up (n * l_size t) (l_align t) = n * l_size t.
Proof.
  intros t n V. pose proof (align_pos t V). destruct V as [_ [q E]]. rewrite E. rewrite Nat.mul_assoc. apply up_mul; auto.
Qed.

(** The layout of one of the arrays. *)
Lemma hack_layout : forall h t, valid t -> h_layout h t = Lay (h_len h * l_size t) (l_align t).
Proof.
  induction h as [n|l IHl r IHr|a IH m]; intros t V; cbn [h_layout h_len]; pose proof (align_pos t V) as A.
  - reflexivity.
  - rewrite IHl, IHr by auto. unfold repr_c. cbn [c_fields l_align l_size snd fold_right]. rewrite up_0 by auto. cbn [Nat.add].
    rewrite (array_size t (h_len l) V). cbn [snd]. rewrite align_max1, Nat.max_id by auto. f_equal. rewrite <- Nat.mul_add_distr_r. apply (array_size t _ V).
  - rewrite IH by auto. unfold repr_c, array_of. cbn [c_fields l_align l_size snd fold_right]. rewrite up_0 by auto. cbn [Nat.add].
    rewrite align_max1 by auto. f_equal. rewrite Nat.mul_assoc. rewrite (array_size t _ V). lia.
Qed.

Lemma map_add_places : forall o s n, map (Nat.add (o * s)) (map (fun i => i * s) (seq 0 n)) = map (fun i => i * s) (seq o n).
Proof.
  intros o s n. rewrite map_map. replace (seq o n) with (seq (o + 0) n) by (f_equal; lia). generalize 0 as b.
  induction n as [|n IH]; intro b; cbn [seq map]; auto. rewrite IH, Nat.add_succ_r. f_equal. lia.
Qed.
Lemma flat_seq : forall s k m b, flat_map (fun i => map (fun j => j * s) (seq (i * k) k)) (seq b m) = map (fun j => j * s) (seq (b * k) (k * m)).
Proof.
  intros s k m. induction m as [|m IH]; intro b; cbn [seq flat_map].
  - rewrite Nat.mul_0_r. reflexivity.
  - rewrite IH. rewrite <- map_app. f_equal. replace (k * Datatypes.S m) with (k + k * m) by lia. rewrite seq_app. do 2 f_equal; lia.
Qed.
Lemma hack_places : forall h t, valid t -> places h t = map (fun i => i * l_size t) (seq 0 (h_len h)).
Proof.
  induction h as [n|l IHl r IHr|a IH m]; intros t V; cbn [places h_len]; pose proof (align_pos t V) as A.
  - reflexivity.
  - rewrite !hack_layout by auto. cbn [c_fields l_align l_size fst]. rewrite up_0 by auto. cbn [Nat.add].
    rewrite (array_size t (h_len l) V). cbn [fst]. rewrite IHl, IHr by auto. rewrite map_add_places. rewrite seq_app, map_app. cbn [Nat.add]. f_equal.
    rewrite map_map. reflexivity.
  - rewrite !hack_layout by auto. unfold array_of. cbn [c_fields l_align l_size fst]. rewrite up_0 by auto. cbn [fst Nat.add].
    rewrite IH by auto. erewrite flat_map_ext; [|intro i; rewrite Nat.mul_assoc; apply map_add_places].
    rewrite flat_seq. reflexivity.
Qed.

(** `Add` and `Mul` look in memory like arrays: size, alignment, and the place of every element. *)
Lemma C46_array_layout_proof : forall (h : hack) (t : layout), valid t ->
  l_size (h_layout h t) = l_size (array_of t (h_len h)) /\ l_align (h_layout h t) = l_align (array_of t (h_len h)) /\
  length (places h t) = h_len h /\ forall i p, nth_error (places h t) i = Some p -> p = i * l_size t.
Proof.
  intros h t V. rewrite hack_layout, hack_places by auto. cbn [l_size l_align array_of]. split; auto. split; auto. split.
  - rewrite map_length, seq_length. reflexivity.
  - intros i p E. rewrite nth_error_map in E. destruct (nth_error (seq 0 (h_len h)) i) as [j|] eqn:N; [|discriminate]. cbn [option_map] in E. injection E as <-.
    assert (i < h_len h) by (rewrite <- (seq_length (h_len h) 0); apply nth_error_Some; congruence).
    rewrite nth_error_nth' with (d := 0) in N by (rewrite seq_length; auto). rewrite seq_nth in N by auto. injection N as <-. reflexivity.
Qed.

(** Unchecked element access finds the element: its address is where the compiler put it, in bounds and aligned, for
    objects that fit the address space.  One past the end is allowed.  Slices made of the array list the same addresses. *)
Lemma C46_element_pointers_proof : forall (usize_max isize_max : nat) (h : hack) (t : layout) (base : nat), valid t ->
  l_size (h_layout h t) <= isize_max -> base + l_size (h_layout h t) <= usize_max -> Nat.divide (l_align (h_layout h t)) base ->
  (forall i p, nth_error (places h t) i = Some p ->
     elem_ptr usize_max isize_max h t base i = Ok (base + p) /\ p + l_size t <= l_size (h_layout h t) /\ Nat.divide (l_align t) (base + p)) /\
  elem_ptr usize_max isize_max h t base (h_len h) = Ok (base + l_size (h_layout h t)) /\
  slice_ptrs h t base = map (Nat.add base) (places h t).
Proof.
  intros usize_max isize_max h t base V LI LU D. pose proof (align_pos t V) as A. destruct (C46_array_layout_proof h t V) as (_ & _ & PL & PN).
  rewrite hack_layout in * by auto. cbn [l_size l_align] in *.
  assert (G : forall i, i <= h_len h -> elem_ptr usize_max isize_max h t base i = Ok (base + i * l_size t)).
  { intros i L. unfold elem_ptr. destruct (Nat.ltb_spec (h_len h) i); [lia|]. rewrite hack_layout by auto. cbn [l_size].
    assert (i * l_size t <= h_len h * l_size t) by (apply Nat.mul_le_mono_r; auto).
    destruct (h_len h * l_size t <? isize_max).
    - destruct (Nat.leb_spec (i * l_size t) isize_max); [|lia]. destruct (Nat.leb_spec (i * l_size t) (h_len h * l_size t)); [|lia]. reflexivity.
    - rewrite Nat.mod_small by lia. reflexivity. }
  split; [|split].
  - intros i p N. assert (L : i < h_len h) by (rewrite <- PL; apply nth_error_Some; congruence). pose proof (PN i p N) as ->.
    split; [apply G; lia|]. split.
    + replace (i * l_size t + l_size t) with (Datatypes.S i * l_size t) by lia. apply Nat.mul_le_mono_r. lia.
    + destruct V as [_ [q E]]. rewrite E. apply Nat.divide_add_r; auto. rewrite Nat.mul_assoc. apply Nat.divide_factor_r.
  - apply G. lia.
  - unfold slice_ptrs. rewrite hack_places by auto. rewrite map_map. reflexivity.
Qed.

(** The arrays of a node have 2M and 2M + 1 elements, and changing the element type to one of the same layout, as
    `into_uninit` does by copying bytes, moves no element. *)
Lemma C46_node_arrays_proof : forall (M : nat) (h : hack) (t e : layout), valid t ->
  length (places (key_array M) t) = 2 * M /\ length (places (child_array M) t) = 2 * M + 1 /\
  (l_size e = l_size t -> valid e -> l_size (h_layout h e) = l_size (h_layout h t) /\ places h e = places h t).
Proof.
  intros M h t e V. rewrite (hack_places (key_array M)), (hack_places (child_array M)) by auto. rewrite !map_length, !seq_length. cbn [h_len key_array child_array]. split; [lia|]. split; [lia|].
  intros ES VE. rewrite !hack_layout by auto. cbn [l_size]. rewrite (hack_places h e), (hack_places h t) by auto. rewrite ES. split; reflexivity.
Qed.

Lemma pow2_divide : forall j k, j <= k -> Nat.divide (2 ^ j) (2 ^ k).
Proof. intros j k H. exists (2 ^ (k - j)). rewrite <- Nat.pow_add_r. f_equal. lia. Qed.
Lemma max_divide : forall a b, valid a -> valid b -> Nat.divide (l_align a) (max (l_align a) (l_align b)) /\ Nat.divide (l_align b) (max (l_align a) (l_align b)).
Proof.
  intros a b [[j A] _] [[k B] _]. rewrite A, B. destruct (le_ge_dec j k) as [L|L].
  - pose proof (pow2_divide j k L) as D. pose proof (Nat.pow_le_mono_r 2 j k ltac:(lia) L). rewrite Nat.max_r by auto. split; auto. apply Nat.divide_refl.
  - pose proof (pow2_divide k j L) as D. pose proof (Nat.pow_le_mono_r 2 k j ltac:(lia) L). rewrite Nat.max_l by auto. split; auto. apply Nat.divide_refl.
Qed.

(** A pointer to an internal node can be used as a pointer to a leaf: the leaf is at its start, ends inside it, and is
    aligned wherever the node is; the children come after the leaf and inside the node. *)
Lemma C46_internal_as_leaf_proof : forall (usize_max isize_max : nat) (leaf ptr : layout) (M base : nat), valid leaf -> valid ptr ->
  let t := internal leaf ptr M in
  l_size t <= isize_max -> base + l_size t <= usize_max -> Nat.divide (l_align t) base ->
  hd_error (fst (c_fields 0 (internal_fields leaf ptr M))) = Some 0 /\
  l_size leaf <= l_size t /\ Nat.divide (l_align leaf) base /\ valid t /\
  forall i, i <= 2 * M -> exists p, child_ptr usize_max isize_max leaf ptr M base i = Ok p /\
    base + l_size leaf + i * l_size ptr <= p /\ p + l_size ptr <= base + l_size t /\ Nat.divide (l_align ptr) p /\
    forall j q, j < i -> child_ptr usize_max isize_max leaf ptr M base j = Ok q -> q + l_size ptr <= p.
Proof.
  intros usize_max isize_max leaf ptr M base VL VP t LI LU D.
  pose proof (align_pos leaf VL) as AL. pose proof (align_pos ptr VP) as AP.
  set (cl := h_layout (child_array M) ptr) in *.
  assert (CL : cl = Lay ((2 * M + 1) * l_size ptr) (l_align ptr)).
  { unfold cl. rewrite hack_layout by auto. f_equal. }
  set (o := up (l_size leaf) (l_align ptr)).
  assert (FS : c_fields 0 (internal_fields leaf ptr M) = ([0; o], o + (2 * M + 1) * l_size ptr)).
  { unfold internal_fields. fold cl. rewrite CL. cbn [c_fields l_align l_size]. rewrite up_0 by auto. reflexivity. }
  assert (AT : l_align t = max (l_align leaf) (l_align ptr)).
  { unfold t, internal, repr_c, internal_fields. fold cl. rewrite CL. cbn [l_align fold_right]. rewrite align_max1 by auto. reflexivity. }
  assert (ST : l_size t = up (o + (2 * M + 1) * l_size ptr) (l_align t)).
  { unfold t at 1, internal, repr_c. cbn [l_size]. rewrite FS. cbn [snd]. f_equal. }
  pose proof (max_divide leaf ptr VL VP) as [DL DP]. rewrite <- AT in DL, DP.
  assert (AT0 : l_align t <> 0) by lia.
  pose proof (up_ge (o + (2 * M + 1) * l_size ptr) (l_align t) AT0) as U. rewrite <- ST in U.
  pose proof (up_ge (l_size leaf) (l_align ptr) AP) as U2. fold o in U2.
  assert (DO : Nat.divide (l_align ptr) o) by apply up_divide.
  split; [rewrite FS; reflexivity|]. split; [lia|]. split; [exact (Nat.divide_trans _ _ _ DL D)|]. split.
  { split.
    - rewrite AT. destruct VL as [[j A] _], VP as [[k B] _]. rewrite A, B. destruct (Nat.max_spec (2 ^ j) (2 ^ k)) as [[_ ->]|[_ ->]]; eauto.
    - rewrite ST. destruct (up_divide (o + (2 * M + 1) * l_size ptr) (l_align t)) as [q ->]. eauto. }
  assert (CP : forall i, i <= 2 * M -> child_ptr usize_max isize_max leaf ptr M base i = Ok (base + o + i * l_size ptr)).
  { intros i L. unfold child_ptr. rewrite FS. cbn [fst].
    destruct (C46_element_pointers_proof usize_max isize_max (child_array M) ptr (base + o) VP) as (E & _ & _).
    - fold cl. rewrite CL. cbn [l_size]. lia.
    - fold cl. rewrite CL. cbn [l_size]. lia.
    - fold cl. rewrite CL. cbn [l_align]. apply Nat.divide_add_r; auto. exact (Nat.divide_trans _ _ _ DP D).
    - apply E. rewrite hack_places by auto. rewrite nth_error_map. rewrite nth_error_nth' with (d := 0).
      + rewrite seq_nth; [reflexivity|]. cbn [h_len child_array]. lia.
      + rewrite seq_length. cbn [h_len child_array]. lia. }
  intros i L. exists (base + o + i * l_size ptr). rewrite (CP i L). split; [reflexivity|]. split; [lia|]. split; [|split].
  - assert ((i + 1) * l_size ptr <= (2 * M + 1) * l_size ptr) by (apply Nat.mul_le_mono_r; lia). lia.
  - apply Nat.divide_add_r; [apply Nat.divide_add_r; auto; exact (Nat.divide_trans _ _ _ DP D)|]. destruct VP as [_ [q E]]. rewrite E, Nat.mul_assoc. apply Nat.divide_factor_r.
  - intros j q J E. rewrite CP in E by lia. injection E as <-. assert ((j + 1) * l_size ptr <= i * l_size ptr) by (apply Nat.mul_le_mono_r; lia). lia.
Qed.

(** A type can be allocated exactly if it has a size and that size, rounded up to the alignment, fits.  It is given back to
    the allocator with the layout it was allocated with, which is aligned for the type and for a cache line. *)
Lemma C46_dealloc_layout_proof : forall (isize_max : nat) (t : layout), valid t ->
  ((exists a, alloc_layout isize_max t = Ok a) <-> l_size t <> 0 /\ exists k, l_size t <= k * max (l_align t) 64 /\ k * max (l_align t) 64 <= isize_max) /\
  (forall a, alloc_layout isize_max t = Ok a ->
     dealloc_layout isize_max t = Ok a /\ l_size a = l_size t /\ l_size a <> 0 /\ Nat.divide (l_align t) (l_align a) /\ Nat.divide 64 (l_align a) /\
     (l_align a = l_align t \/ l_align a = 64)).
Proof.
  intros isize_max t V. pose proof (align_pos t V) as A0. split.
  - unfold alloc_layout. set (a := max (l_align t) 64). assert (Ha : 0 < a) by lia.
    assert (Hup : l_size t <= up (l_size t) a).
    { unfold up. pose proof (Nat.div_mod (l_size t + (a - 1)) a ltac:(lia)). pose proof (Nat.mod_upper_bound (l_size t + (a - 1)) a ltac:(lia)). lia. }
    destruct (Nat.eqb_spec (l_size t) 0) as [Z|NZ].
    + split; [intros [x E]; discriminate|intros [H _]; contradiction].
    + split.
      * intros [x E]. split; [exact NZ|]. destruct (Nat.ltb_spec isize_max (up (l_size t) a)) as [|H]; [discriminate|].
        exists ((l_size t + (a - 1)) / a). split; [exact Hup|exact H].
      * intros (_ & k & H1 & H2). destruct (Nat.ltb_spec isize_max (up (l_size t) a)) as [H|H]; [|eauto]. exfalso.
        assert (Hk : (l_size t + (a - 1)) / a <= k). { apply Nat.lt_succ_r. apply Nat.div_lt_upper_bound; lia. }
        unfold up in H. apply (Nat.mul_le_mono_r _ _ a) in Hk. lia.
  - intros a E. unfold alloc_layout in E. destruct (Nat.eqb_spec (l_size t) 0) as [|NZ]; [discriminate|].
    unfold dealloc_layout. destruct (isize_max <? up (l_size t) (max (l_align t) 64)); [discriminate|]. injection E as <-. cbn [l_size l_align].
    assert (V64 : valid (Lay 0 64)) by (split; [exists 6; reflexivity|exists 0; reflexivity]).
    destruct (max_divide t (Lay 0 64) V V64) as [A B]. cbn [l_align] in A, B. split; auto. split; auto. split; auto. split; auto. split; auto. lia.
Qed.

(** Handles with any two markers for the height have the same layout, so one can be read as the other. *)
Lemma C46_handle_layout_proof : forall (ptr height height' : layout), valid ptr -> l_size height = 1 -> l_size height' = 1 -> valid height -> valid height' ->
  node_handle ptr height = node_handle ptr height' /\ fst (c_fields 0 (handle_fields ptr height)) = [0; l_size ptr; l_size ptr + 1].
Proof.
  intros ptr height height' VP S1 S2 V1 V2.
  assert (G : forall h, l_size h = 1 -> valid h -> l_align h = 1).
  { intros h E [_ [q Q]]. rewrite E in Q. symmetry in Q. apply Nat.mul_eq_1 in Q. lia. }
  pose proof (G _ S1 V1) as A1. pose proof (G _ S2 V2) as A2.
  destruct height as [s a], height' as [s' a']. cbn [l_size l_align] in *. subst. split; auto.
  unfold handle_fields. cbn [c_fields l_align l_size fst]. rewrite up_0 by (apply align_pos; auto). cbn [Nat.add].
  assert (U1 : forall n, up n 1 = n) by (intro n; rewrite <- (Nat.mul_1_r n) at 1; rewrite up_mul by lia; lia).
  rewrite !U1. reflexivity.
Qed.
