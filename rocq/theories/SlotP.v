(** The slot-level node operations do what the list-level ones say: proofs about single operations. *)
From Coq Require Import List Arith Bool Lia.
From Verif Require Import Base ListFacts Gradual SmallP Slots SlotSpec.
Import ListNotations.

Section Lists.
  Context {A : Type}.
  Lemma nth_ext' : forall (l m : list A), (forall i, nth_error l i = nth_error m i) -> l = m.
  Proof.
    induction l as [|x l IH]; intros [|y m] H; auto.
    - specialize (H 0). discriminate.
    - specialize (H 0). discriminate.
    - pose proof (H 0) as H0. cbn in H0. injection H0 as ->. f_equal. apply IH. intro i. exact (H (S i)).
  Qed.
  Lemma nth_firstn : forall n (l : list A) i, nth_error (firstn n l) i = if i <? n then nth_error l i else None.
  Proof.
    induction n as [|n IH]; intros [|x l] [|i]; cbn [firstn nth_error]; auto.
    - destruct (S i <? S n); reflexivity.
    - rewrite IH. change (S i <? S n) with (i <? n). reflexivity.
  Qed.
  Lemma nth_skipn : forall n (l : list A) i, nth_error (skipn n l) i = nth_error l (n + i).
  Proof.
    induction n as [|n IH]; intros [|x l] i; cbn [skipn plus nth_error]; auto. destruct i; reflexivity.
  Qed.
  Lemma nth_app : forall (a b : list A) i, nth_error (a ++ b) i = if i <? length a then nth_error a i else nth_error b (i - length a).
  Proof.
    intros. destruct (Nat.ltb_spec i (length a)); [apply nth_error_app1|apply nth_error_app2]; lia.
  Qed.
  Lemma nth_cons : forall (x : A) l i, nth_error (x :: l) i = if i =? 0 then Some x else nth_error l (i - 1).
  Proof. intros x l [|i]; cbn [nth_error Nat.eqb Nat.sub]; auto. rewrite Nat.sub_0_r. reflexivity. Qed.
  Lemma nth_rep : forall (x : A) n i, nth_error (repeat x n) i = if i <? n then Some x else None.
  Proof. induction n as [|n IH]; intros [|i]; cbn [repeat nth_error]; auto. rewrite IH. reflexivity. Qed.
  Lemma nth_repl : forall i (x : A) l j, nth_error (replace_at i x l) j = if (i =? j) && (j <? length l) then Some x else nth_error l j.
  Proof.
    intros. destruct (Nat.eqb_spec i j) as [->|N]; cbn [andb].
    - destruct (Nat.ltb_spec j (length l)); [apply replace_nth_same; auto|]. rewrite replace_out; auto.
    - apply replace_nth_other. auto.
  Qed.
  Lemma nth_ins : forall k (x : A) l i, k <= length l ->
    nth_error (insert_at k x l) i = if i <? k then nth_error l i else if i =? k then Some x else nth_error l (i - 1).
  Proof.
    intros. unfold insert_at. rewrite nth_app, firstn_length, min_l, nth_firstn, nth_cons, nth_skipn by lia.
    destruct (Nat.ltb_spec i k); auto. destruct (Nat.eqb_spec i k) as [->|]; [rewrite Nat.sub_diag; reflexivity|].
    destruct (Nat.eqb_spec (i - k) 0); [lia|]. f_equal. lia.
  Qed.
  Lemma nth_out : forall (l : list A) i, length l <= i -> nth_error l i = None.
  Proof. intros. apply nth_error_None. auto. Qed.
  Lemma nth_in : forall (l : list A) i, i < length l -> exists x, nth_error l i = Some x.
  Proof. intros l i H. destruct (nth_error l i) eqn:E; eauto. apply nth_error_None in E. lia. Qed.
  Lemma ins_len : forall k (x : A) l, length (insert_at k x l) = S (length l).
  Proof. intros. unfold insert_at. rewrite app_length. cbn [length]. rewrite <- (firstn_skipn k l) at 3. rewrite app_length. lia. Qed.
End Lists.
Lemma nth_mapp : forall A B (f : A -> B) l i, nth_error (map f l) i = option_map f (nth_error l i).
Proof. induction l; intros [|i]; cbn; auto. Qed.
Lemma map_ins : forall A B (f : A -> B) k x l, map f (insert_at k x l) = insert_at k (f x) (map f l).
Proof. intros. unfold insert_at. rewrite map_app, firstn_map, skipn_map. reflexivity. Qed.

Section Pad.
  Context {T : Type}.
  Lemma pad_nth : forall n (l : list T) i, length l <= n -> nth_error (pad n l) i = if i <? n then Some (nth_error l i) else None.
  Proof.
    intros n l i H. unfold pad. rewrite nth_app, map_length, nth_mapp, nth_rep.
    destruct (Nat.ltb_spec i (length l)).
    - destruct (nth_in l i) as [x ->]; auto. destruct (Nat.ltb_spec i n); [reflexivity|lia].
    - rewrite (nth_out l i) by auto. destruct (Nat.ltb_spec (i - length l) (n - length l)), (Nat.ltb_spec i n); auto; lia.
  Qed.
  Lemma pad_len : forall n (l : list T), length l <= n -> length (pad n l) = n.
  Proof. intros. unfold pad. rewrite app_length, map_length, repeat_length. lia. Qed.
  Lemma pad_nil : forall n, pad n (@nil T) = repeat None n.
  Proof. intros. unfold pad. cbn. rewrite Nat.sub_0_r. reflexivity. Qed.
  Lemma pad_eq : forall n (l : list T) m, length l <= n -> length m = n -> (forall i, i < n -> nth_error m i = Some (nth_error l i)) -> m = pad n l.
  Proof.
    intros n l m H L E. apply nth_ext'. intro i. rewrite pad_nth by auto. destruct (Nat.ltb_spec i n); auto.
    apply nth_out. lia.
  Qed.

  Lemma rd_pad : forall n (l : list T) i x, length l <= n -> nth_error l i = Some x -> rd (pad n l) i = Ok x.
  Proof.
    intros n l i x H E. unfold rd. rewrite pad_nth by auto. pose proof (nth_error_lt _ _ _ E).
    destruct (Nat.ltb_spec i n); [|lia]. rewrite E. reflexivity.
  Qed.
  Lemma wr_pad : forall n (l : list T) i x, length l <= n -> i < length l -> wr (pad n l) i x = Ok (pad n (replace_at i x l)).
  Proof.
    intros n l i x H E. unfold wr. rewrite pad_len by auto. destruct (Nat.ltb_spec i n); [|lia]. f_equal.
    apply pad_eq; rewrite ?replace_len, ?pad_len; auto. intros j J. rewrite !nth_repl, pad_len, pad_nth by auto.
    destruct (Nat.ltb_spec j n); [|lia]. destruct (Nat.eqb_spec i j) as [->|]; cbn [andb]; auto.
    destruct (Nat.ltb_spec j (length l)); [reflexivity|lia].
  Qed.
  Lemma wr_push : forall n (l : list T) x, length l < n -> wr (pad n l) (length l) x = Ok (pad n (l ++ [x])).
  Proof.
    intros n l x H. unfold wr. rewrite pad_len by lia. destruct (Nat.ltb_spec (length l) n); [|lia]. f_equal.
    apply pad_eq; rewrite ?replace_len, ?app_length, ?pad_len; cbn [length]; try lia.
    intros j J. rewrite nth_repl, pad_len, pad_nth, nth_app, nth_cons by lia.
    destruct (Nat.ltb_spec j n); [|lia]. destruct (Nat.eqb_spec (length l) j) as [<-|]; cbn [andb].
    - destruct (Nat.ltb_spec (length l) (length l)); [lia|]. rewrite Nat.sub_diag. reflexivity.
    - destruct (Nat.ltb_spec j (length l)); auto. rewrite (nth_out l) by auto.
      destruct (Nat.eqb_spec (j - length l) 0); [lia|]. rewrite nth_out; auto. cbn. lia.
  Qed.
  Lemma mv_wr_pad : forall n (l : list T) i x y, length l <= n -> nth_error l i = Some x ->
    (let* (o, l') := mv (pad n l) i in let* l'' := wr l' i y in Ok (o, l'')) = Ok (x, pad n (replace_at i y l)).
  Proof.
    intros n l i x y H E. unfold mv. pose proof (nth_error_lt _ _ _ E). rewrite pad_nth by auto.
    destruct (Nat.ltb_spec i n); [|lia]. rewrite E. cbn [bind]. unfold wr. rewrite replace_len, pad_len by auto.
    destruct (Nat.ltb_spec i n); [|lia]. cbn [bind]. do 2 f_equal.
    apply pad_eq; rewrite ?replace_len, ?pad_len; auto. intros j J. rewrite !nth_repl, !replace_len, !pad_len, pad_nth by auto.
    destruct (Nat.ltb_spec j n); [|lia]. destruct (Nat.eqb_spec i j) as [->|]; cbn [andb]; auto.
    destruct (Nat.ltb_spec j (length l)); [reflexivity|lia].
  Qed.

  (** `shift` and the write behind it. *)
  Lemma shift_wr : forall n (l : list T) k e x, k <= length l -> length l < n -> e = length l ->
    (let* l' := shift (pad n l) k e in wr l' k x) = Ok (pad n (insert_at k x l)).
  Proof.
    intros n l k e x K N ->. unfold shift. rewrite pad_len by lia.
    destruct (Nat.leb_spec k (length l)); [|lia]. destruct (Nat.ltb_spec (length l) n); [|lia]. cbn [negb].
    destruct (Nat.eqb_spec k (length l)) as [->|D].
    - cbn [bind]. rewrite wr_push by auto. unfold insert_at. rewrite firstn_all, skipn_all. reflexivity.
    - unfold copy_slots. rewrite pad_len by lia.
      destruct (Nat.leb_spec (k + (length l - k)) n); [|lia]. destruct (Nat.leb_spec (k + 1 + (length l - k)) n); [|lia].
      cbn [andb bind].
      assert (L : length (firstn (k + 1) (pad n l) ++ firstn (length l - k) (skipn k (pad n l)) ++ skipn (k + 1 + (length l - k)) (pad n l)) = n)
        by (rewrite !app_length, !firstn_length, !skipn_length, pad_len by lia; lia).
      set (m := firstn (k + 1) (pad n l) ++ _) in *.
      assert (LV : length (vacate m k 1) = n)
        by (unfold vacate; rewrite !app_length, repeat_length, firstn_length, skipn_length, L; lia).
      unfold wr. rewrite LV. destruct (Nat.ltb_spec k n); [|lia]. f_equal.
      apply pad_eq; rewrite ?replace_len, ?ins_len; auto. intros j J.
      rewrite nth_repl, LV, nth_ins by lia. destruct (Nat.eqb_spec k j) as [->|Q]; cbn [andb].
      + destruct (Nat.ltb_spec j n); [|lia]. destruct (Nat.ltb_spec j j); [lia|]. rewrite Nat.eqb_refl. reflexivity.
      + destruct (Nat.eqb_spec j k); [lia|]. unfold vacate. rewrite !nth_app, firstn_length, repeat_length, L, !nth_firstn, nth_rep, !nth_skipn.
        rewrite !min_l by lia. destruct (Nat.ltb_spec j k).
        * subst m. rewrite nth_app, firstn_length, pad_len, min_l, nth_firstn, pad_nth by lia.
          destruct (Nat.ltb_spec j (k + 1)); [|lia]. destruct (Nat.ltb_spec j n); [reflexivity|lia].
        * destruct (Nat.ltb_spec (j - k) 1); [lia|]. replace (k + 1 + (j - k - 1)) with j by lia.
          subst m. rewrite nth_app, firstn_length, pad_len, min_l, nth_firstn, nth_app, firstn_length, skipn_length, nth_firstn, !nth_skipn, pad_len by lia.
          rewrite min_l by lia. destruct (Nat.ltb_spec j (k + 1)); [lia|].
          destruct (Nat.ltb_spec (j - (k + 1)) (length l - k)).
          -- rewrite pad_nth by lia. destruct (Nat.ltb_spec (k + (j - (k + 1))) n); [|lia]. do 2 f_equal. lia.
          -- rewrite pad_nth by lia. destruct (Nat.ltb_spec (k + 1 + (length l - k) + (j - (k + 1) - (length l - k))) n); [|lia].
             f_equal. rewrite !nth_out; auto; lia.
  Qed.

  Lemma rd_range_pad : forall c n (l : list T) from, length l <= n -> from + c <= length l ->
    rd_range (pad n l) from c = Ok (numbered from (firstn c (skipn from l))).
  Proof.
    induction c as [|c IH]; intros n l from N H; [reflexivity|]. cbn [rd_range].
    destruct (nth_in l from) as [x E]; [lia|]. rewrite (rd_pad _ _ _ x) by auto. cbn [bind]. rewrite IH by lia. cbn [bind].
    assert (SK : skipn from l = x :: skipn (S from) l).
    { clear - E. revert from E. induction l as [|y l IH]; intros [|f] E; try discriminate; cbn in *.
      - injection E as ->. reflexivity.
      - apply IH in E. exact E. }
    rewrite SK. cbn [firstn]. reflexivity.
  Qed.
  Lemma rd_range_all : forall n (l : list T), length l <= n -> rd_range (pad n l) 0 (length l) = Ok (numbered 0 l).
  Proof. intros. rewrite rd_range_pad by lia. cbn [skipn]. rewrite firstn_all. reflexivity. Qed.

  Lemma copy_pad : forall n (l : list T) s c, length l <= n -> s + c = length l ->
    copy_slots (pad n l) s (repeat None n) 0 c = Ok (pad n (skipn s l)).
  Proof.
    intros n l s c N E. unfold copy_slots. rewrite pad_len, repeat_length by auto.
    destruct (Nat.leb_spec (s + c) n); [|lia]. destruct (Nat.leb_spec (0 + c) n); [|lia]. cbn [andb]. f_equal.
    apply pad_eq.
    - rewrite skipn_length. lia.
    - rewrite !app_length, !firstn_length, !skipn_length, repeat_length, pad_len by lia. lia.
    - intros j J. cbn [firstn app]. rewrite nth_app, firstn_length, skipn_length, pad_len, min_l, nth_firstn, !nth_skipn, nth_rep, pad_nth by lia.
      destruct (Nat.ltb_spec j c).
      + destruct (Nat.ltb_spec (s + j) n); [reflexivity|lia].
      + rewrite (nth_out l) by lia. destruct (Nat.ltb_spec (0 + c + (j - c)) n); [reflexivity|lia].
  Qed.
  Lemma vacate_pad : forall n (l : list T) s c, length l <= n -> s + c = length l -> vacate (pad n l) s c = pad n (firstn s l).
  Proof.
    intros n l s c N E. unfold vacate. rewrite pad_len by auto. apply pad_eq.
    - rewrite firstn_length. lia.
    - rewrite !app_length, firstn_length, skipn_length, repeat_length, pad_len by lia. lia.
    - intros j J. rewrite !nth_app, firstn_length, repeat_length, pad_len, !nth_firstn, nth_skipn, nth_rep, !pad_nth by lia.
      rewrite !min_l by lia. destruct (Nat.ltb_spec j s); [destruct (Nat.ltb_spec j n); [reflexivity|lia]|].
      destruct (Nat.ltb_spec (j - s) c); [reflexivity|]. rewrite nth_out by lia.
      destruct (Nat.ltb_spec (s + c + (j - s - c)) n); [reflexivity|lia].
  Qed.
  Lemma mv_last : forall n (l : list T) mid x, length l <= n -> nth_error l mid = Some x ->
    mv (pad n (firstn (mid + 1) l)) mid = Ok (x, pad n (firstn mid l)).
  Proof.
    intros n l mid x N E. pose proof (nth_error_lt _ _ _ E) as L. unfold mv.
    assert (LF : length (firstn (mid + 1) l) = mid + 1) by (rewrite firstn_length; lia).
    rewrite pad_nth by lia. destruct (Nat.ltb_spec mid n); [|lia]. rewrite nth_firstn. destruct (Nat.ltb_spec mid (mid + 1)); [|lia].
    rewrite E. do 2 f_equal. apply pad_eq.
    - rewrite firstn_length. lia.
    - rewrite replace_len, pad_len; lia.
    - intros j J. rewrite nth_repl, pad_len, pad_nth, !nth_firstn by lia. destruct (Nat.ltb_spec j n); [|lia].
      destruct (Nat.eqb_spec mid j) as [->|]; cbn [andb]; [destruct (Nat.ltb_spec j j); [lia|reflexivity]|].
      destruct (Nat.ltb_spec j (mid + 1)), (Nat.ltb_spec j mid); auto; lia.
  Qed.
  Lemma wrc_push : forall n (l : list T) x, length l < n -> wr_checked (pad n l) (length l) x = Ok (pad n (l ++ [x])).
  Proof.
    intros n l x H. pose proof (wr_push n l x H) as E. unfold wr, wr_checked in *. destruct (length l <? length (pad n l)); auto. discriminate.
  Qed.
  Lemma firstn_pad : forall n (l : list T) , length l <= n -> firstn (length l) (pad n l) = map Some l.
  Proof. intros. unfold pad. rewrite firstn_app, map_length, Nat.sub_diag, firstn_O, app_nil_r. rewrite <- (map_length Some l) at 1. apply firstn_all. Qed.
End Pad.

Section Pad2.
  Context {T : Type}.
  Lemma mv_pad : forall n (l : list T) i x, length l <= n -> nth_error l i = Some x -> mv (pad n l) i = Ok (x, replace_at i None (pad n l)).
  Proof.
    intros n l i x H E. unfold mv. pose proof (nth_error_lt _ _ _ E). rewrite pad_nth by auto.
    destruct (Nat.ltb_spec i n); [|lia]. rewrite E. reflexivity.
  Qed.
  Lemma wr_hole : forall n (l : list T) i x y, length l <= n -> nth_error l i = Some x ->
    wr (replace_at i None (pad n l)) i y = Ok (pad n (replace_at i y l)).
  Proof.
    intros n l i x y H E. pose proof (mv_wr_pad n l i x y H E) as Q. rewrite (mv_pad n l i x H E) in Q. cbn [bind] in Q.
    destruct (wr _ i y); cbn [bind] in Q; congruence.
  Qed.
  Lemma shift_ex : forall n (l : list T) k (x0 : T), k <= length l -> length l < n ->
    exists l', shift (pad n l) k (length l) = Ok l' /\ forall x, wr l' k x = Ok (pad n (insert_at k x l)).
  Proof.
    intros n l k x0 K N. destruct (shift (pad n l) k (length l)) as [l'|w|] eqn:E.
    - exists l'. split; auto. intro x. pose proof (shift_wr n l k (length l) x K N eq_refl) as Q. rewrite E in Q. exact Q.
    - pose proof (shift_wr n l k (length l) x0 K N eq_refl) as Q. rewrite E in Q. discriminate.
    - pose proof (shift_wr n l k (length l) x0 K N eq_refl) as Q. rewrite E in Q. discriminate.
  Qed.
End Pad2.

Lemma ok_pair : forall A B (a a' : A) (b b' : B), Ok (a, b) = Ok (a', b') -> a' = a /\ b' = b.
Proof. intros A B a a' b b' H. injection H as -> ->. auto. Qed.

Section Ops.
  Context {I S R C : Type}.
  Variables (zero : I) (no_ref : R).
  Variable M : nat.
  Hypothesis HM : 1 <= M <= 127.
  Notation nodeval := (nodeval I S R C).
  Notation encode := (encode (I := I) (S := S) (R := R) (C := C) M).
  Notation v_ok := (v_ok (I := I) (S := S) (R := R) (C := C) M).

  Lemma u8_small : forall n, n <= 255 -> as_u8 n = n.
  Proof. intros. unfold as_u8. apply Nat.mod_small. lia. Qed.
  Lemma u8_add_ok : forall a b, a + b <= 255 -> u8_add a b = Ok (a + b).
  Proof. intros. unfold u8_add. destruct (Nat.leb_spec (a + b) 255); [reflexivity|lia]. Qed.
  Lemma max_len_enc : forall v, v_ok v -> a_max_len (encode v) = 2 * M.
  Proof. intros v [L _]. unfold a_max_len. cbn [a_keys SlotSpec.encode]. rewrite pad_len by (rewrite map_length; auto). apply u8_small. lia. Qed.

  Lemma key_pos_enc : forall v k, v_ok v -> a_key_pos_or_total (encode v) k = Ok (pos_at v k).
  Proof.
    intros v k [L _]. unfold a_key_pos_or_total, a_key_pos, pos_at. cbn [a_len a_keys a_total SlotSpec.encode].
    destruct (Nat.leb_spec (length (v_keys v)) k).
    - rewrite nth_out by auto. reflexivity.
    - destruct (Nat.ltb_spec k (length (v_keys v))); [|lia]. destruct (nth_in (v_keys v) k) as [x E]; auto. rewrite E.
      apply rd_pad; [rewrite map_length; auto|]. rewrite nth_mapp, E. reflexivity.
  Qed.

  Lemma map_skipn_refs : forall k (l : list (I * S * R)), skipn k (map k_ref l) = map k_ref (skipn k l).
  Proof. intros. apply skipn_map. Qed.

  Lemma insert_key_ok : forall me v k s v' evs, v_ok v -> v_insert_key no_ref M me v k s = Ok (v', evs) ->
    a_insert_key no_ref me (encode v) k s = Ok (encode v', evs) /\ v_ok v'.
  Proof.
    intros me v k s v' evs V E. pose proof V as [L HC]. unfold v_insert_key in E.
    destruct (v_childs v) as [cs|] eqn:EC; [discriminate|].
    unfold may_insert in E. destruct (Nat.leb_spec k (length (v_keys v))) as [K|]; [|discriminate].
    destruct (Nat.ltb_spec (length (v_keys v)) (2 * M)) as [LT|]; [|discriminate]. cbn [andb] in E. injection E as <- <-.
    split.
    - unfold a_insert_key. rewrite max_len_enc, key_pos_enc by auto. cbn [a_childs a_len a_keys a_vals a_refs a_total SlotSpec.encode].
      rewrite EC. cbn [option_map].
      destruct (Nat.leb_spec k (length (v_keys v))); [|lia]. destruct (Nat.ltb_spec (length (v_keys v)) (2 * M)); [|lia]. cbn [negb bind].
      destruct (shift_ex (2 * M) (map k_pos (v_keys v)) k (pos_at v k)) as [ks [Ek Wk]]; rewrite ?map_length; auto.
      destruct (shift_ex (2 * M) (map k_slice (v_keys v)) k s) as [vs [Ev Wv]]; rewrite ?map_length; auto.
      destruct (shift_ex (2 * M) (map k_ref (v_keys v)) k no_ref) as [rs [Er Wr]]; rewrite ?map_length; auto.
      rewrite map_length in Ek, Ev, Er.
      rewrite Ek, Ev, Er. cbn [bind]. rewrite Wk, Wv, Wr. cbn [bind]. rewrite !u8_add_ok by lia. cbn [bind].
      rewrite rd_range_pad; rewrite ?ins_len, ?map_length; try lia. cbn [bind].
      f_equal. f_equal.
      + unfold SlotSpec.encode, with_keys. cbn [v_keys v_total v_childs]. rewrite !map_ins, ins_len, EC. cbn [k_pos k_slice k_ref fst snd option_map].
        f_equal; try lia.
      + f_equal. unfold tell_refs. do 2 f_equal.
        unfold insert_at. rewrite skipn_app, firstn_length, map_length, min_l by lia.
        rewrite (skipn_all2 (firstn k _)) by (rewrite firstn_length; lia). replace (k + 1 - k) with 1 by lia. cbn [skipn app].
        rewrite map_skipn_refs. apply firstn_all2. rewrite map_length, skipn_length. lia.
    - split; cbn [v_keys v_childs with_keys]; [rewrite ins_len; lia|rewrite EC; auto].
  Qed.

  Lemma push_key_ok : forall me v s r t v' evs, v_ok v -> v_push_key M me v s r t = Ok (v', evs) ->
    a_push_key me (encode v) s r t = Ok (encode v', evs) /\ v_ok v'.
  Proof.
    intros me v s r t v' evs V E. pose proof V as [L HC]. unfold v_push_key in E.
    destruct (v_childs v) as [cs|] eqn:EC; [discriminate|].
    unfold may_insert in E. cbn [Nat.leb andb] in E.
    destruct (Nat.ltb_spec (length (v_keys v)) (2 * M)) as [LT|]; [|discriminate]. injection E as <- <-.
    split.
    - unfold a_push_key. rewrite max_len_enc by auto. cbn [a_childs a_len a_keys a_vals a_refs a_total SlotSpec.encode].
      rewrite EC. cbn [option_map]. destruct (Nat.ltb_spec (length (v_keys v)) (2 * M)); [|lia]. cbn [negb].
      assert (Wk := wr_push (2 * M) (map k_pos (v_keys v)) (v_total v)). assert (Wv := wr_push (2 * M) (map k_slice (v_keys v)) s).
      assert (Wr := wr_push (2 * M) (map k_ref (v_keys v)) r). rewrite map_length in Wk, Wv, Wr.
      rewrite Wk, Wv, Wr by auto. cbn [bind]. rewrite u8_add_ok by lia. cbn [bind].
      rewrite (rd_pad _ _ _ r); cycle 1.
      { rewrite app_length, map_length. cbn [length]. lia. }
      { rewrite nth_app, map_length. destruct (Nat.ltb_spec (length (v_keys v)) (length (v_keys v))); [lia|]. rewrite Nat.sub_diag. reflexivity. }
      cbn [bind]. f_equal. f_equal. unfold SlotSpec.encode. cbn [v_keys v_total v_childs]. rewrite !map_app, app_length. reflexivity.
    - split; cbn [v_keys v_childs]; auto. rewrite app_length. cbn [length]. lia.
  Qed.

  Lemma replace_first_ok : forall me v c v' evs, v_ok v -> v_replace_first_child me v c = Ok (v', evs) ->
    a_replace_first_child me (encode v) c = Ok (encode v', evs) /\ v_ok v'.
  Proof.
    intros me v c v' evs V E. pose proof V as [L HC]. unfold v_replace_first_child in E.
    destruct (v_childs v) as [[|old cs]|] eqn:EC; try discriminate. injection E as <- <-.
    unfold a_replace_first_child. cbn [a_childs a_len a_keys a_vals a_refs a_total SlotSpec.encode]. rewrite EC. cbn [option_map].
    split.
    - rewrite (mv_pad _ _ 0 old); [|lia|reflexivity]. cbn [bind]. rewrite (wr_hole _ _ 0 old); [|lia|reflexivity]. cbn [bind]. reflexivity.
    - split; auto.
  Qed.

  Lemma push_both_ok : forall me v s r c t v' evs, v_ok v -> v_push_key_and_child M me v s r c t = Ok (v', evs) ->
    a_push_key_and_child me (encode v) s r c t = Ok (encode v', evs) /\ v_ok v'.
  Proof.
    intros me v s r c t v' evs V E. pose proof V as [L HC]. unfold v_push_key_and_child in E.
    destruct (v_childs v) as [cs|] eqn:EC; [|discriminate].
    unfold may_insert in E. cbn [Nat.leb andb] in E.
    destruct (Nat.ltb_spec (length (v_keys v)) (2 * M)) as [LT|]; [|discriminate]. injection E as <- <-.
    split.
    - unfold a_push_key_and_child. rewrite max_len_enc by auto. cbn [a_childs a_len a_keys a_vals a_refs a_total SlotSpec.encode].
      rewrite EC. cbn [option_map]. destruct (Nat.ltb_spec (length (v_keys v)) (2 * M)); [|lia]. cbn [negb].
      assert (Wk := wr_push (2 * M) (map k_pos (v_keys v)) (v_total v)). assert (Wv := wr_push (2 * M) (map k_slice (v_keys v)) s).
      assert (Wr := wr_push (2 * M) (map k_ref (v_keys v)) r). assert (Wc := wr_push (2 * M + 1) cs c).
      rewrite HC in Wc. rewrite map_length in Wk, Wv, Wr.
      rewrite Wk, Wv, Wr, Wc by lia. cbn [bind]. rewrite u8_add_ok by lia. cbn [bind].
      rewrite !u8_small by lia. f_equal. f_equal.
      + unfold SlotSpec.encode. cbn [v_keys v_total v_childs]. rewrite !map_app, app_length. reflexivity.
      + rewrite HC. reflexivity.
    - split; cbn [v_keys v_childs]; rewrite !app_length; cbn [length]; lia.
  Qed.

  Lemma insert_both_ok : forall me v k s r c v' evs, v_ok v -> v_insert_key_and_child M me v k s r c = Ok (v', evs) ->
    a_insert_key_and_child me (encode v) k s r c = Ok (encode v', evs) /\ v_ok v'.
  Proof.
    intros me v k s r c v' evs V E. pose proof V as [L HC]. unfold v_insert_key_and_child in E.
    destruct (v_childs v) as [cs|] eqn:EC; [|discriminate].
    unfold may_insert in E. destruct (Nat.leb_spec k (length (v_keys v))) as [K|]; [|discriminate].
    destruct (Nat.ltb_spec (length (v_keys v)) (2 * M)) as [LT|]; [|discriminate]. cbn [andb] in E. apply ok_pair in E as [-> ->].
    split.
    - unfold a_insert_key_and_child. rewrite max_len_enc, key_pos_enc by auto. cbn [a_childs a_len a_keys a_vals a_refs a_total SlotSpec.encode].
      rewrite EC. cbn [option_map].
      destruct (Nat.leb_spec k (length (v_keys v))); [|lia]. destruct (Nat.ltb_spec (length (v_keys v)) (2 * M)); [|lia]. cbn [negb bind].
      destruct (shift_ex (2 * M) (map k_pos (v_keys v)) k (pos_at v k)) as [ks [Ek Wk]]; rewrite ?map_length; auto.
      destruct (shift_ex (2 * M) (map k_slice (v_keys v)) k s) as [vs [Ev Wv]]; rewrite ?map_length; auto.
      destruct (shift_ex (2 * M) (map k_ref (v_keys v)) k r) as [rs [Er Wr]]; rewrite ?map_length; auto.
      destruct (shift_ex (2 * M + 1) cs (k + 1) c) as [cs' [Ec Wc]]; try lia.
      rewrite map_length in Ek, Ev, Er. rewrite HC in Ec.
      rewrite Ek, Ev, Er, Ec. cbn [bind]. rewrite Wk, Wv, Wr, Wc. cbn [bind]. rewrite !u8_add_ok by lia. cbn [bind].
      rewrite !u8_small by lia.
      rewrite rd_range_pad; rewrite ?ins_len, ?map_length; try lia. cbn [bind].
      rewrite rd_range_pad; rewrite ?ins_len, ?HC; try lia. cbn [bind].
      f_equal. f_equal.
      + unfold SlotSpec.encode. cbn [v_keys v_total v_childs option_map]. rewrite !map_ins, ins_len. cbn [k_pos k_slice k_ref fst snd].
        f_equal; try lia.
      + apply (f_equal2 (@app _)).
        * unfold tell_refs. apply (f_equal (stores me)), (f_equal (numbered k)). unfold insert_at.
          rewrite skipn_app, firstn_length, map_length, min_l by lia.
          rewrite (skipn_all2 (firstn k _)) by (rewrite firstn_length; lia). rewrite Nat.sub_diag. cbn [skipn app map].
          rewrite map_skipn_refs. apply firstn_all2. cbn [length]. rewrite map_length, skipn_length. lia.
        * apply (f_equal2 (@app _)); [|reflexivity]. unfold tell_childs. apply (f_equal (parents me)), (f_equal (numbered (k + 1))). unfold insert_at.
          rewrite skipn_app, firstn_length, min_l by lia.
          rewrite (skipn_all2 (firstn (k + 1) _)) by (rewrite firstn_length; lia). rewrite Nat.sub_diag. cbn [skipn app].
          apply firstn_all2. cbn [length]. rewrite skipn_length. lia.
    - split; cbn [v_keys v_childs]; rewrite !ins_len; lia.
  Qed.

  Lemma split_ok : forall me new v mid l r evs, v_ok v -> v_split new v mid = Ok (l, r, evs) ->
    a_split M me new (encode v) mid = Ok (encode l, encode r, evs) /\ v_ok l /\ v_ok r.
  Proof.
    intros me new v mid l r evs V E. pose proof V as [L HC]. unfold v_split in E.
    destruct (nth_error (v_keys v) mid) as [x|] eqn:EM; [|discriminate]. injection E as <- <- <-.
    pose proof (nth_error_lt _ _ _ EM) as LM.
    split.
    - unfold a_split. rewrite u8_add_ok by lia. cbn [bind a_childs a_len a_keys a_vals a_refs a_total SlotSpec.encode].
      destruct (Nat.ltb_spec (length (v_keys v)) (mid + 1)); [lia|]. unfold key_array, child_array.
      rewrite !copy_pad by (rewrite map_length; lia). cbn [bind]. rewrite u8_small by lia.
      rewrite (rd_range_pad (length (v_keys v) - (mid + 1)) (2 * M) (skipn (mid + 1) (map k_ref (v_keys v))) 0) by (rewrite skipn_length, map_length; lia). cbn [bind].
      rewrite !vacate_pad by (rewrite map_length; lia).
      rewrite (mv_last _ _ _ (k_pos x)) by (rewrite ?map_length, ?nth_mapp, ?EM; auto). cbn [bind].
      rewrite (mv_last _ _ _ (k_slice x)) by (rewrite ?map_length, ?nth_mapp, ?EM; auto). cbn [bind].
      rewrite (mv_last _ _ _ (k_ref x)) by (rewrite ?map_length, ?nth_mapp, ?EM; auto). cbn [bind].
      assert (TR : stores new (numbered 0 (firstn (length (v_keys v) - (mid + 1)) (skipn 0 (skipn (mid + 1) (map k_ref (v_keys v)))))) = tell_refs (C := C) new 0 (skipn (mid + 1) (v_keys v))).
      { unfold tell_refs. do 2 f_equal. rewrite map_skipn_refs. cbn [skipn]. apply firstn_all2. rewrite map_length, skipn_length. lia. }
      rewrite TR. clear TR.
      destruct (v_childs v) as [cs|] eqn:EC; cbn [option_map].
      + rewrite copy_pad by lia. cbn [bind]. rewrite rd_range_pad by (rewrite skipn_length; lia). cbn [bind].
        rewrite vacate_pad by lia. f_equal. f_equal; [f_equal|].
        * unfold SlotSpec.encode. cbn [v_keys v_total v_childs option_map]. rewrite firstn_length, !firstn_map. f_equal. lia.
        * unfold SlotSpec.encode. cbn [v_keys v_total v_childs option_map]. rewrite skipn_length, !skipn_map. reflexivity.
        * rewrite <- !app_assoc. cbn [skipn]. rewrite (firstn_all2 (skipn (mid + 1) cs)) by (rewrite skipn_length; lia). reflexivity.
      + f_equal. f_equal; [f_equal|].
        * unfold SlotSpec.encode. cbn [v_keys v_total v_childs option_map]. rewrite firstn_length, !firstn_map. f_equal. lia.
        * unfold SlotSpec.encode. cbn [v_keys v_total v_childs option_map]. rewrite skipn_length, !skipn_map. reflexivity.
        * rewrite <- !app_assoc. reflexivity.
    - split; split; cbn [v_keys v_childs]; rewrite ?firstn_length, ?skipn_length; try lia;
        destruct (v_childs v) as [cs|]; cbn [option_map]; auto; rewrite ?firstn_length, ?skipn_length; lia.
  Qed.

  Lemma set_pos_ok : forall v k p v', v_ok v -> v_set_single_key_pos v k p = Ok v' ->
    a_set_single_key_pos (encode v) k p = Ok (encode v') /\ v_ok v'.
  Proof.
    intros v k p v' V E. pose proof V as [L HC]. unfold v_set_single_key_pos in E.
    destruct (nth_error (v_keys v) k) as [x|] eqn:EX; [|discriminate]. injection E as <-. pose proof (nth_error_lt _ _ _ EX) as LK.
    split.
    - unfold a_set_single_key_pos. cbn [a_childs a_len a_keys a_vals a_refs a_total SlotSpec.encode].
      destruct (Nat.ltb_spec k (length (v_keys v))); [|lia]. cbn [negb]. rewrite wr_pad by (rewrite map_length; auto). cbn [bind].
      f_equal. unfold SlotSpec.encode, with_keys. cbn [v_keys v_total v_childs]. rewrite replace_len, <- !replace_map. cbn [k_pos k_slice k_ref fst snd].
      f_equal.
      + f_equal. apply nth_ext'. intro i. rewrite nth_repl, nth_mapp. destruct (Nat.eqb_spec k i) as [<-|]; cbn [andb]; auto.
        rewrite map_length. destruct (Nat.ltb_spec k (length (v_keys v))); [|lia]. rewrite EX. reflexivity.
      + f_equal. apply nth_ext'. intro i. rewrite nth_repl, nth_mapp. destruct (Nat.eqb_spec k i) as [<-|]; cbn [andb]; auto.
        rewrite map_length. destruct (Nat.ltb_spec k (length (v_keys v))); [|lia]. rewrite EX. reflexivity.
    - split; cbn [v_keys v_childs with_keys]; rewrite replace_len; auto.
  Qed.

  Lemma swap_ok : forall v k s v' evs, v_ok v -> v_swap_slice v k s = Ok (v', evs) ->
    a_swap_slice (encode v) k s = Ok (encode v', evs) /\ v_ok v'.
  Proof.
    intros v k s v' evs V E. pose proof V as [L HC]. unfold v_swap_slice in E.
    destruct (nth_error (v_keys v) k) as [x|] eqn:EX; [|discriminate]. injection E as <- <-. pose proof (nth_error_lt _ _ _ EX) as LK.
    split.
    - unfold a_swap_slice. cbn [a_childs a_len a_keys a_vals a_refs a_total SlotSpec.encode].
      destruct (Nat.ltb_spec k (length (v_keys v))); [|lia]. cbn [negb].
      rewrite (mv_pad _ _ k (k_slice x)) by (rewrite ?map_length, ?nth_mapp, ?EX; auto). cbn [bind].
      rewrite (wr_hole _ _ k (k_slice x)) by (rewrite ?map_length, ?nth_mapp, ?EX; auto). cbn [bind].
      f_equal. f_equal. unfold SlotSpec.encode, with_keys. cbn [v_keys v_total v_childs]. rewrite replace_len, <- !replace_map. cbn [k_pos k_slice k_ref fst snd].
      f_equal.
      + f_equal. apply nth_ext'. intro i. rewrite nth_repl, nth_mapp. destruct (Nat.eqb_spec k i) as [<-|]; cbn [andb]; auto.
        rewrite map_length. destruct (Nat.ltb_spec k (length (v_keys v))); [|lia]. rewrite EX. reflexivity.
      + f_equal. apply nth_ext'. intro i. rewrite nth_repl, nth_mapp. destruct (Nat.eqb_spec k i) as [<-|]; cbn [andb]; auto.
        rewrite map_length. destruct (Nat.ltb_spec k (length (v_keys v))); [|lia]. rewrite EX. reflexivity.
    - split; cbn [v_keys v_childs with_keys]; rewrite replace_len; auto.
  Qed.

  Lemma remap_props : forall f (ks ks' : list (I * S * R)) b, remap f ks = (ks', b) ->
    length ks' = length ks /\ map k_slice ks' = map k_slice ks /\ map k_ref ks' = map k_ref ks.
  Proof.
    induction ks as [|k ks IH]; intros ks' b E; cbn [remap] in E.
    - injection E as <- <-. auto.
    - destruct (f (k_pos k)) as [p|]; [|injection E as <- <-; auto].
      destruct (remap f ks) as [r b'] eqn:ER. injection E as <- <-. destruct (IH _ _ eq_refl) as (A & B & D).
      cbn [map length k_slice k_ref fst snd]. rewrite A, B, D. auto.
  Qed.
  Lemma set_keys_ok : forall f (post : list (I * S * R)) n (pre : list I), length pre + length post <= n ->
    a_set_keys f (pad n (pre ++ map k_pos post)) (length pre) (length post) =
    Ok (pad n (pre ++ map k_pos (fst (remap f post))), snd (remap f post)).
  Proof.
    induction post as [|k post IH]; intros n pre H; cbn [length a_set_keys remap fst snd].
    - reflexivity.
    - cbn [map]. rewrite (rd_pad _ _ _ (k_pos k)); cycle 1.
      { rewrite app_length. cbn [length] in *. rewrite map_length. lia. }
      { rewrite nth_error_app2 by lia. rewrite Nat.sub_diag. reflexivity. }
      cbn [bind]. destruct (f (k_pos k)) as [p|]; [|reflexivity].
      rewrite wr_pad by (rewrite app_length; cbn [length] in *; rewrite map_length; lia). cbn [bind].
      replace (replace_at (length pre) p (pre ++ k_pos k :: map k_pos post)) with ((pre ++ [p]) ++ map k_pos post); cycle 1.
      { clear. induction pre as [|x pre IH]; cbn [app length]; [reflexivity|]. rewrite replace_cons. cbn [app]. f_equal. apply IH. }
      specialize (IH n (pre ++ [p])). rewrite app_length in IH. cbn [length] in IH, H. rewrite Nat.add_1_r in IH.
      rewrite IH by lia. destruct (remap f post) as [r b]. cbn [fst snd map k_pos]. rewrite <- app_assoc. reflexivity.
  Qed.
  Lemma set_poss_ok : forall v f from v' evs, v_ok v -> v_set_key_poss_with v f from = Ok (v', evs) ->
    a_set_key_poss_with (encode v) f from = Ok (encode v', evs) /\ v_ok v'.
  Proof.
    intros v f from v' evs V E. pose proof V as [L HC]. unfold v_set_key_poss_with in E.
    destruct (Nat.leb_spec from (length (v_keys v))) as [F|]; [|discriminate].
    destruct (remap f (skipn from (v_keys v))) as [ks b] eqn:ER. destruct (remap_props _ _ _ _ ER) as (P1 & P2 & P3).
    rewrite skipn_length in P1.
    assert (AS : a_set_keys f (pad (2 * M) (map k_pos (v_keys v))) from (length (v_keys v) - from) = Ok (pad (2 * M) (map k_pos (firstn from (v_keys v) ++ ks)), b)).
    { pose proof (set_keys_ok f (skipn from (v_keys v)) (2 * M) (map k_pos (firstn from (v_keys v)))) as Q.
      rewrite ER, <- !map_app, firstn_skipn, map_length, firstn_length, skipn_length, min_l in Q by lia. apply Q. lia. }
    assert (EN : forall t, encode {| v_total := t; v_keys := firstn from (v_keys v) ++ ks; v_childs := v_childs v |} =
      {| a_len := length (v_keys v); a_total := t; a_keys := pad (2 * M) (map k_pos (firstn from (v_keys v) ++ ks));
         a_vals := pad (2 * M) (map k_slice (v_keys v)); a_refs := pad (2 * M) (map k_ref (v_keys v)); a_childs := option_map (pad (2 * M + 1)) (v_childs v) |}).
    { intro t. unfold SlotSpec.encode. cbn [v_keys v_total v_childs]. rewrite app_length, firstn_length, !map_app, P2, P3.
      rewrite <- !map_app, firstn_skipn. f_equal. lia. }
    assert (OK : forall t, v_ok {| v_total := t; v_keys := firstn from (v_keys v) ++ ks; v_childs := v_childs v |}).
    { intro t. split; cbn [v_keys v_childs]; rewrite app_length, firstn_length, P1; try lia.
      destruct (v_childs v); auto. lia. }
    unfold a_set_key_poss_with. cbn [a_childs a_len a_keys a_vals a_refs a_total SlotSpec.encode].
    destruct (Nat.leb_spec from (length (v_keys v))); [|lia]. cbn [negb]. rewrite AS. cbn [bind].
    destruct b.
    - destruct (f (v_total v)) as [t|]; injection E as <- <-; unfold with_keys; rewrite EN; auto.
    - injection E as <- <-. unfold with_keys. rewrite EN. auto.
  Qed.

  Lemma push_pad : forall T n (l : list T) x, length l < n ->
    ia_push {| ia_mem := pad n l; ia_len := length l |} x = Ok {| ia_mem := pad n (l ++ [x]); ia_len := length (l ++ [x]) |}.
  Proof.
    intros T n l x H. unfold ia_push. cbn [ia_mem ia_len]. pose proof (wr_push n l x H) as E. unfold wr in E.
    destruct (length l <? length (pad n l)); [|discriminate]. injection E as ->. rewrite app_length. cbn [length]. rewrite Nat.add_1_r. reflexivity.
  Qed.
  Lemma drop_pad : forall T n (l : list T), length l <= n -> drop_slots (firstn (length l) (pad n l)) = Ok l.
  Proof. intros. rewrite firstn_pad by auto. apply drop_some. Qed.
  Lemma pad_skip : forall T n (pre rest : list T) x, length (pre ++ x :: rest) <= n -> rd (pad n (pre ++ x :: rest)) (length pre) = Ok x.
  Proof. intros. apply rd_pad; auto. rewrite nth_error_app2, Nat.sub_diag; auto. Qed.

  Lemma clone_vals_ok : forall cl (rest pre done : list S) n m, length (pre ++ rest) <= n -> length done + length rest <= m ->
    clone_vals (I := I) (R := R) (C := C) cl (pad n (pre ++ rest)) (length pre) (length rest) {| ia_mem := pad m done; ia_len := length done |} =
    let (ss, fine) := cloned cl rest in
    if fine then Ok (Some {| ia_mem := pad m (done ++ ss); ia_len := length (done ++ ss) |}, map EMade ss)
    else Ok (None, map EMade ss ++ map EDrop (done ++ ss) ++ [EPanic]).
  Proof.
    intros cl. induction rest as [|x rest IH]; intros pre done n m H1 H2; cbn [length clone_vals cloned].
    - rewrite app_nil_r. reflexivity.
    - rewrite pad_skip by auto. cbn [bind]. destruct (cl x) as [y|].
      + cbn [length] in H2. rewrite push_pad by lia. cbn [bind].
        specialize (IH (pre ++ [x]) (done ++ [y]) n m). rewrite <- app_assoc in IH. cbn [app] in IH.
        rewrite (app_length pre [x]) in IH. cbn [length] in IH. rewrite Nat.add_1_r in IH.
        rewrite IH by (rewrite ?app_length in *; cbn [length] in *; lia).
        destruct (cloned cl rest) as [ss b]. rewrite <- !app_assoc. cbn [app]. destruct b; reflexivity.
      + unfold ia_drop. cbn [ia_mem ia_len]. rewrite drop_pad by lia. cbn [bind map app]. rewrite app_nil_r. reflexivity.
  Qed.
  Lemma clone_childs_ok : forall dc (rest pre done : list C) n m, length (pre ++ rest) <= n -> length done + length rest <= m ->
    clone_childs (I := I) (S := S) (R := R) dc (pad n (pre ++ rest)) (length pre) (length rest) {| ia_mem := pad m done; ia_len := length done |} =
    let (ss, fine) := cloned dc rest in
    if fine then Ok (Some {| ia_mem := pad m (done ++ ss); ia_len := length (done ++ ss) |}, map EMadeChild ss)
    else Ok (None, map EMadeChild ss ++ map EDropChild (done ++ ss) ++ [EPanic]).
  Proof.
    intros dc. induction rest as [|x rest IH]; intros pre done n m H1 H2; cbn [length clone_childs cloned].
    - rewrite app_nil_r. reflexivity.
    - rewrite pad_skip by auto. cbn [bind]. destruct (dc x) as [y|].
      + cbn [length] in H2. rewrite push_pad by lia. cbn [bind].
        specialize (IH (pre ++ [x]) (done ++ [y]) n m). rewrite <- app_assoc in IH. cbn [app] in IH.
        rewrite (app_length pre [x]) in IH. cbn [length] in IH. rewrite Nat.add_1_r in IH.
        rewrite IH by (rewrite ?app_length in *; cbn [length] in *; lia).
        destruct (cloned dc rest) as [ss b]. rewrite <- !app_assoc. cbn [app]. destruct b; reflexivity.
      + unfold ia_drop. cbn [ia_mem ia_len]. rewrite drop_pad by lia. cbn [bind map app]. rewrite app_nil_r. reflexivity.
  Qed.
  Lemma cloned_len : forall T (cl : T -> option T) l ss, cloned cl l = (ss, true) -> length ss = length l.
  Proof.
    induction l as [|x l IH]; intros ss E; cbn [cloned] in E; [injection E as <-; auto|].
    destruct (cl x); [|discriminate]. destruct (cloned cl l) as [r b]. injection E as <- ->. cbn [length]. f_equal. apply IH. auto.
  Qed.
  Lemma cloned_le : forall T (cl : T -> option T) l, length (fst (cloned cl l)) <= length l.
  Proof.
    induction l as [|x l IH]; cbn [cloned]; auto. destruct (cl x); cbn [fst length]; [|lia]. destruct (cloned cl l). cbn [fst length] in *. lia.
  Qed.
  Lemma with_slices_props : forall (ks : list (I * S * R)) ss, length ss = length ks ->
    length (with_slices no_ref ks ss) = length ks /\ map k_pos (with_slices no_ref ks ss) = map k_pos ks /\
    map k_slice (with_slices no_ref ks ss) = ss /\ map k_ref (with_slices no_ref ks ss) = repeat no_ref (length ks).
  Proof.
    induction ks as [|k ks IH]; intros [|s ss] H; try discriminate; cbn [with_slices]; auto.
    injection H as H. destruct (IH _ H) as (A & B & D & E). cbn [length map repeat k_pos k_slice k_ref fst snd].
    rewrite A, B, D, E. auto.
  Qed.
  Lemma zst_enc : forall n, zst_refs no_ref M n = pad (2 * M) (repeat no_ref n).
  Proof.
    intros. unfold zst_refs, pad. rewrite repeat_length. f_equal.
    induction n as [|n IH]; [reflexivity|]. cbn [repeat map]. f_equal. auto.
  Qed.
  Lemma enc_clone : forall v ss cs, v_ok v -> length ss = length (v_keys v) ->
    encode {| v_total := v_total v; v_keys := with_slices no_ref (v_keys v) ss; v_childs := cs |} =
    {| a_len := length (v_keys v); a_total := v_total v; a_keys := pad (2 * M) (map k_pos (v_keys v)); a_vals := pad (2 * M) ss;
       a_refs := zst_refs no_ref M (length (v_keys v)); a_childs := option_map (pad (2 * M + 1)) cs |}.
  Proof.
    intros v ss cs V H. destruct (with_slices_props _ _ H) as (A & B & D & E). unfold SlotSpec.encode. cbn [v_keys v_total v_childs].
    rewrite A, B, D, E, zst_enc. reflexivity.
  Qed.
  Lemma clone_start : forall T n, {| ia_mem := pad n (@nil T); ia_len := length (@nil T) |} = ia_new n.
  Proof. intros. unfold ia_new. rewrite pad_nil. reflexivity. Qed.
  Lemma numbered_share : forall (cs : list C), map (fun p => EShare (I := I) (S := S) (R := R) (fst p)) (numbered 0 cs) = map EShare cs.
  Proof.
    intro cs. unfold numbered. generalize 0. induction cs as [|c cs IH]; intro n; cbn [length seq combine map]; [reflexivity|]. cbn [fst]. f_equal. apply IH.
  Qed.
  Lemma numbered_drop : forall (cs : list C), map (fun p => EDropChild (I := I) (S := S) (R := R) (fst p)) (numbered 0 cs) = map EDropChild cs.
  Proof.
    intro cs. unfold numbered. generalize 0. induction cs as [|c cs IH]; intro n; cbn [length seq combine map]; [reflexivity|]. cbn [fst]. f_equal. apply IH.
  Qed.

  Lemma shallow_ok : forall cl v o evs, v_ok v -> v_shallow_clone no_ref cl v = (o, evs) ->
    a_shallow_clone no_ref M cl (encode v) = Ok (option_map encode o, evs) /\ (forall b, o = Some b -> v_ok b).
  Proof.
    intros cl v o evs V E. pose proof V as [L HC]. unfold v_shallow_clone in E. unfold a_shallow_clone.
    cbn [a_childs a_len a_keys a_vals a_refs a_total SlotSpec.encode].
    pose proof (clone_vals_ok cl (map k_slice (v_keys v)) [] [] (2 * M) (2 * M)) as Q.
    rewrite clone_start in Q. cbn [app length] in Q. rewrite map_length in Q. rewrite Q by lia. clear Q.
    destruct (cloned cl (map k_slice (v_keys v))) as [ss b] eqn:EC. destruct b.
    - assert (LS : length ss = length (v_keys v)) by (apply cloned_len in EC; rewrite map_length in EC; auto).
      injection E as <- <-. cbn [bind ia_mem option_map]. destruct (with_slices_props _ _ LS) as (A & B & D & EE).
      destruct (v_childs v) as [cs|] eqn:ECH; cbn [option_map].
      + rewrite <- HC, rd_range_all by lia. cbn [bind]. rewrite enc_clone, numbered_share by auto. split; [reflexivity|].
        intros b [= <-]. split; cbn [v_keys v_childs]; rewrite A; auto.
      + rewrite enc_clone, app_nil_r by auto. split; [reflexivity|]. intros b [= <-]. split; cbn [v_keys v_childs]; rewrite ?A; auto.
    - injection E as <- <-. cbn [bind]. split; [reflexivity|discriminate].
  Qed.

  Lemma unbox_ok : forall (cs : list C) n i N len, N <= 255 -> length cs = len + 1 -> len + 1 <= N -> i + n = N ->
    unbox len (pad N cs) i n = Ok (skipn i (pad N cs)).
  Proof.
    intros cs n. induction n as [|n IH]; intros i N len HN HL HLN E; cbn [unbox].
    - rewrite skipn_all2; auto. rewrite pad_len; lia.
    - rewrite u8_small by lia. rewrite (IH (Datatypes.S i)) by (auto; lia).
      assert (SK : skipn i (pad N cs) = nth_error cs i :: skipn (Datatypes.S i) (pad N cs)).
      { apply nth_ext'. intro j. rewrite nth_cons, !nth_skipn. destruct (Nat.eqb_spec j 0) as [->|].
        - rewrite pad_nth by lia. rewrite Nat.add_0_r. destruct (Nat.ltb_spec i N); [reflexivity|lia].
        - f_equal. lia. }
      rewrite SK. destruct (Nat.leb_spec i len).
      + destruct (nth_in cs i) as [x EX]; [lia|]. rewrite (rd_pad _ _ _ x), EX by (auto; lia). reflexivity.
      + rewrite nth_out by lia. reflexivity.
  Qed.

  Lemma deep_ok : forall new cl dc v o evs, v_ok v -> v_deep_clone no_ref new cl dc v = (o, evs) ->
    a_deep_clone no_ref M new cl dc (encode v) = Ok (option_map encode o, evs) /\ (forall b, o = Some b -> v_ok b).
  Proof.
    intros new cl dc v o evs V E. pose proof V as [L HC]. unfold v_deep_clone in E. unfold a_deep_clone.
    cbn [a_childs a_len a_keys a_vals a_refs a_total SlotSpec.encode].
    pose proof (clone_vals_ok cl (map k_slice (v_keys v)) [] [] (2 * M) (2 * M)) as Q.
    rewrite clone_start in Q. cbn [app length] in Q. rewrite map_length in Q. rewrite Q by lia. clear Q.
    destruct (cloned cl (map k_slice (v_keys v))) as [ss b] eqn:EC. destruct b.
    - assert (LS : length ss = length (v_keys v)) by (apply cloned_len in EC; rewrite map_length in EC; auto).
      cbn [bind ia_mem ia_len option_map]. destruct (with_slices_props _ _ LS) as (A & B & D & EE).
      destruct (v_childs v) as [cs|] eqn:ECH; cbn [option_map].
      + pose proof (clone_childs_ok dc cs [] [] (2 * M + 1) (2 * M + 1)) as Q. rewrite clone_start in Q. cbn [app length] in Q.
        rewrite <- HC, Q by lia. clear Q. destruct (cloned dc cs) as [cs' bc] eqn:EDC. destruct bc.
        * injection E as <- <-. assert (LC : length cs' = length cs) by (apply cloned_len in EDC; auto). cbn [bind ia_mem].
          rewrite (unbox_ok cs') by (auto; lia). cbn [bind skipn]. rewrite <- LC, rd_range_all by lia. cbn [bind option_map].
          rewrite enc_clone by auto. split; [reflexivity|]. intros b [= <-]. split; cbn [v_keys v_childs]; rewrite A; auto. lia.
        * injection E as <- <-. cbn [bind]. rewrite drop_pad by lia. cbn [bind option_map]. split; [reflexivity|discriminate].
      + injection E as <- <-. cbn [option_map]. rewrite enc_clone by auto. split; [reflexivity|]. intros b [= <-]. split; cbn [v_keys v_childs]; rewrite ?A; auto.
    - injection E as <- <-. cbn [bind]. split; [reflexivity|discriminate].
  Qed.

  Lemma drop_ok : forall v, v_ok v -> a_do_drop (encode v) = Ok (v_do_drop v).
  Proof.
    intros v [L HC]. unfold a_do_drop, v_do_drop. cbn [a_childs a_len a_keys a_vals a_refs a_total SlotSpec.encode].
    rewrite pad_len by (rewrite map_length; auto). destruct (Nat.leb_spec (length (v_keys v)) (2 * M)); [|lia]. cbn [negb].
    pose proof (drop_pad S (2 * M) (map k_slice (v_keys v))) as Q. rewrite map_length in Q. rewrite Q by auto. cbn [bind].
    rewrite map_map. destruct (v_childs v) as [cs|]; cbn [option_map].
    - rewrite pad_len by lia. destruct (Nat.ltb_spec (2 * M + 1) (length (v_keys v) + 1)); [lia|].
      rewrite <- HC, rd_range_all by lia. cbn [bind]. rewrite numbered_drop. reflexivity.
    - rewrite app_nil_r. reflexivity.
  Qed.

  Lemma wrc_one : forall T n (x : T), 1 <= n -> wr_checked (repeat None n) 0 x = Ok (pad n [x]).
  Proof. intros. rewrite <- pad_nil. apply (wrc_push n [] x). cbn. lia. Qed.
  Lemma new_root_ok : forall s size, a_new_root (C := C) zero no_ref M s size =
    Ok (encode {| v_total := size; v_keys := [(zero, s, no_ref)]; v_childs := None |}).
  Proof. intros. unfold a_new_root, key_array. rewrite !wrc_one by lia. reflexivity. Qed.
  Lemma new_parent_ok : forall me pos total s r lhs rhs, a_make_new_parent (C := C) M me pos total s r lhs rhs =
    Ok (encode {| v_total := total; v_keys := [(pos, s, r)]; v_childs := Some [lhs; rhs] |}, [EParent lhs me 0; EParent rhs me 1; EStore r me 0]).
  Proof.
    intros. unfold a_make_new_parent, key_array, child_array. rewrite !wrc_one by lia. cbn [bind].
    pose proof (wrc_push (2 * M + 1) [lhs] rhs) as Q. cbn [length app] in Q. rewrite Q by lia. cbn [bind].
    rewrite (rd_pad _ _ 0 r) by (cbn [length]; auto; lia). reflexivity.
  Qed.

  (** Histories. *)
  Notation encp := (map (option_map encode)).
  Definition pool_ok (p : list (option nodeval)) : Prop := forall n v, nth_error p n = Some (Some v) -> v_ok v.

  Lemma rd_enc : forall p n v, rd p n = Ok v -> rd (encp p) n = Ok (encode v) /\ nth_error p n = Some (Some v).
  Proof.
    intros p n v. unfold rd. rewrite nth_mapp. destruct (nth_error p n) as [[x|]|]; cbn [option_map]; try discriminate.
    intros [= ->]. auto.
  Qed.
  Lemma pool_set : forall p n v, pool_ok p -> v_ok v -> pool_ok (replace_at n (Some v) p).
  Proof.
    intros p n v P V m w E. rewrite nth_repl in E. destruct ((n =? m) && (m <? length p)); [injection E as <-; auto|]. eapply P; eauto.
  Qed.
  Lemma pool_hole : forall p n, pool_ok p -> pool_ok (replace_at n None p).
  Proof.
    intros p n P m w E. rewrite nth_repl in E. destruct ((n =? m) && (m <? length p)); [discriminate|]. eapply P; eauto.
  Qed.
  Lemma pool_snoc : forall p v, pool_ok p -> v_ok v -> pool_ok (p ++ [Some v]).
  Proof.
    intros p v P V m w E. rewrite nth_app in E. destruct (m <? length p); [eapply P; eauto|].
    destruct (m - length p) as [|k]; cbn in E; [injection E as <-; auto|]. destruct k; discriminate.
  Qed.

  Lemma on_ok : forall p n (fv : nodeval -> res (nodeval * list (event I S R C))) (fa : raw I S R C -> res (raw I S R C * list (event I S R C))) p' evs,
    pool_ok p -> (forall v v' es, v_ok v -> fv v = Ok (v', es) -> fa (encode v) = Ok (encode v', es) /\ v_ok v') ->
    v_on p n fv = Ok (p', evs) -> a_on (encp p) n fa = Ok (encp p', evs) /\ pool_ok p'.
  Proof.
    intros p n fv fa p' evs P H E. unfold v_on in E. destruct (rd p n) as [v| |] eqn:R0; try discriminate. cbn [bind] in E.
    destruct (rd_enc _ _ _ R0) as [R1 N]. destruct (fv v) as [[v' es]| |] eqn:F; try discriminate. cbn [bind] in E. injection E as <- <-.
    destruct (H v v' es) as [FA V']; eauto. unfold a_on. rewrite R1. cbn [bind]. rewrite FA. cbn [bind]. split.
    - rewrite <- replace_map. reflexivity.
    - apply pool_set; auto.
  Qed.

  Lemma step_ok : forall p o p' evs, pool_ok p -> v_step zero no_ref M p o = Ok (p', evs) ->
    a_step zero no_ref M (encp p) o = Ok (encp p', evs) /\ pool_ok p'.
  Proof.
    intros p o p' evs P E. destruct o; cbn [v_step a_step] in *.
    - injection E as <- <-. rewrite new_root_ok. cbn [bind]. rewrite map_app. split; [reflexivity|]. apply pool_snoc; auto.
      split; cbn [v_keys v_childs length]; auto. lia.
    - injection E as <- <-. rewrite map_length, new_parent_ok. cbn [bind]. rewrite map_app. split; [reflexivity|]. apply pool_snoc; auto.
      split; cbn [v_keys v_childs length]; auto. lia.
    - eapply on_ok; eauto. intros. eapply insert_key_ok; eauto.
    - eapply on_ok; eauto. intros. eapply push_key_ok; eauto.
    - eapply on_ok; eauto. intros. eapply replace_first_ok; eauto.
    - eapply on_ok; eauto. intros. eapply push_both_ok; eauto.
    - eapply on_ok; eauto. intros. eapply insert_both_ok; eauto.
    - destruct (rd p n) as [v| |] eqn:R0; try discriminate. cbn [bind] in E. destruct (rd_enc _ _ _ R0) as [R1 N].
      destruct (v_split (length p) v mid) as [[[l r] es]| |] eqn:F; try discriminate. cbn [bind] in E. injection E as <- <-.
      rewrite R1. cbn [bind]. rewrite map_length. destruct (split_ok n (length p) v mid l r es) as (FA & V1 & V2); eauto.
      rewrite FA. cbn [bind]. split.
      + rewrite map_app, <- replace_map. reflexivity.
      + apply pool_snoc; auto. apply pool_set; auto.
    - eapply on_ok; eauto. intros v v' es V F. cbn beta in F. destruct (v_set_single_key_pos v k p0) eqn:G; try discriminate. cbn [bind] in F.
      injection F as <- <-. destruct (set_pos_ok _ _ _ _ V G) as [-> ?]. auto.
    - eapply on_ok; eauto. intros v v' es V F. injection F as <- <-. split; auto.
    - eapply on_ok; eauto. intros. eapply set_poss_ok; eauto.
    - eapply on_ok; eauto. intros. eapply swap_ok; eauto.
    - destruct (rd p n) as [v| |] eqn:R0; try discriminate. cbn [bind] in E. destruct (rd_enc _ _ _ R0) as [R1 N].
      destruct (v_shallow_clone no_ref cl v) as [o es] eqn:F. injection E as <- <-. rewrite R1. cbn [bind].
      destruct (shallow_ok cl v o es) as [FA V']; eauto. rewrite FA. cbn [bind]. destruct o as [b|]; cbn [option_map].
      + rewrite map_app. split; [reflexivity|]. apply pool_snoc; auto.
      + rewrite !app_nil_r. auto.
    - destruct (rd p n) as [v| |] eqn:R0; try discriminate. cbn [bind] in E. destruct (rd_enc _ _ _ R0) as [R1 N].
      destruct (v_deep_clone no_ref (length p) cl dc v) as [o es] eqn:F. injection E as <- <-. rewrite R1. cbn [bind]. rewrite map_length.
      destruct (deep_ok (length p) cl dc v o es) as [FA V']; eauto. rewrite FA. cbn [bind]. destruct o as [b|]; cbn [option_map].
      + rewrite map_app. split; [reflexivity|]. apply pool_snoc; auto.
      + rewrite !app_nil_r. auto.
    - unfold mv in *. rewrite nth_mapp. destruct (nth_error p n) as [[v|]|] eqn:N; try discriminate. cbn [option_map bind] in *.
      injection E as <- <-. rewrite drop_ok by eauto. cbn [bind]. split.
      + rewrite <- replace_map. reflexivity.
      + apply pool_hole; auto.
  Qed.

  Lemma run_ok : forall ops p p' evs, pool_ok p -> v_run zero no_ref M p ops = Ok (p', evs) ->
    a_run zero no_ref M (encp p) ops = Ok (encp p', evs) /\ pool_ok p'.
  Proof.
    induction ops as [|o ops IH]; intros p p' evs P E; cbn [v_run a_run] in *.
    - injection E as <- <-. auto.
    - destruct (v_step zero no_ref M p o) as [[p1 e1]| |] eqn:S1; try discriminate. cbn [bind] in E.
      destruct (v_run zero no_ref M p1 ops) as [[p2 e2]| |] eqn:S2; try discriminate. cbn [bind] in E. injection E as <- <-.
      destruct (step_ok _ _ _ _ P S1) as [-> P1]. cbn [bind]. destruct (IH _ _ _ P1 S2) as [-> P2]. auto.
  Qed.
End Ops.
