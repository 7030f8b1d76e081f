(** Proofs about calls on trees that share nodes: what an insertion makes of the nodes on its path. *)
From Coq Require Import List Arith Bool Lia.
From Verif Require Import Base ListFacts Index Slice Tree Insert Zip Path LTree LInsert LRef LCow LCowG LCowR Cow CowSpec CowCall.
Import ListNotations.

Section A.
  Context {I S : Type} (X : index_ops I) (Y : slice_ops I S) (M : nat).
  Notation tree := (tree I S).
  Notation D := (@ndata I S).

  (** [grew q r news]: the node [r] became [news], and all changes are at nodes on the path [q]. *)
  Inductive grew : list nat -> rose D -> list (rose D) -> Prop :=
  | grew_here : forall r n, rkids n = rkids r -> grew [] r [n]
  | grew_leaf : forall r l n, rkids r = [] -> rkids l = [] -> rkids n = [] -> grew [] r [l; n]
  | grew_one : forall c q r k k' n, nth_error (rkids r) c = Some k -> grew q k [k'] -> rkids n = replace_at c k' (rkids r) -> grew (c :: q) r [n]
  | grew_add : forall c q r k l r' n, nth_error (rkids r) c = Some k -> grew q k [l; r'] -> rkids n = insert_at (c + 1) r' (replace_at c l (rkids r)) -> grew (c :: q) r [n]
  | grew_split : forall c q r k l r' n1 n2, nth_error (rkids r) c = Some k -> grew q k [l; r'] -> 2 * M + 1 <= length (rkids r) ->
      rkids n1 = firstn (M + 1) (insert_at (c + 1) r' (replace_at c l (rkids r))) ->
      rkids n2 = skipn (M + 1) (insert_at (c + 1) r' (replace_at c l (rkids r))) -> grew (c :: q) r [n1; n2].

  Definition st_roses (h : nat) (st : @upstate I S) : list (rose D) :=
    match st with Done n _ _ _ => [rose_of h n] | Bubble b => [rose_of h (b_lhs b); rose_of h (b_rhs b)] end.

  Lemma rkids_rose : forall h (t : tree), rkids (rose_of h t) = match h with 0 => [] | Datatypes.S h' => map (rose_of h') (below t) end.
  Proof. intros [|h] t; reflexivity. Qed.
  Lemma below_kids : forall t : tree, kids_of t <> [] -> below t = kids_of t.
  Proof. intros [|tot c0 es] H; [contradiction|reflexivity]. Qed.
  Lemma below_same : forall t u : tree, kids_of t = kids_of u -> below t = below u.
  Proof. intros [|tot c0 es] [|tot' c0' es'] H; try discriminate H; try reflexivity. exact H. Qed.
  Lemma map_insert : forall {A B} (f : A -> B) k x l, map f (insert_at k x l) = insert_at k (f x) (map f l).
  Proof. intros A B f k x l. unfold insert_at. rewrite map_app, firstn_map. cbn [map]. rewrite skipn_map. reflexivity. Qed.
  Lemma insert_at_len : forall {A} k (x : A) l, length (insert_at k x l) = length l + 1.
  Proof. intros A k x l. unfold insert_at. rewrite app_length. cbn [length]. rewrite firstn_length, skipn_length. lia. Qed.

  Lemma skipn2 : forall {A} a b (l : list A), skipn a (skipn b l) = skipn (b + a) l.
  Proof. intros A a b. revert a. induction b as [|b IH]; intros a l; [reflexivity|]. destruct l as [|x l]; [rewrite !skipn_nil; reflexivity|]. cbn [skipn plus]. apply IH. Qed.

  (** A split in the middle after a child was added, whichever side it was added on. *)
  Lemma bubble_list : forall {A} (K : list A) c rhs g lhs, g_bubble M K c rhs = Some g -> 1 <= M -> nth_error K c = Some lhs ->
    match g with
    | GDone ks => ks = insert_at (c + 1) rhs K
    | GBub l r => 2 * M + 1 <= length K /\ l = firstn (M + 1) (insert_at (c + 1) rhs K) /\ r = skipn (M + 1) (insert_at (c + 1) rhs K) /\ l <> [] /\ r <> []
    end.
  Proof.
    intros A K c rhs g lhs H HM Hc. unfold g_bubble in H. pose proof (nth_error_lt _ _ _ Hc) as Lc.
    destruct (Nat.ltb_spec (length K - 1) (2 * M)) as [L|L].
    - unfold g_ins in H. destruct ((length K - 1 <? c) || (2 * M <=? length K - 1)); cbn [ob] in H; [discriminate|]. injection H as <-. reflexivity.
    - unfold g_split in H. destruct (Nat.leb_spec (length K - 1) (if M <? c then M else M - 1)) as [?|L1]; cbn [ob] in H; [discriminate|].
      assert (LL : 2 * M + 1 <= length K) by lia.
      assert (Q : forall l r : list A, l = firstn (M + 1) (insert_at (c + 1) rhs K) -> r = skipn (M + 1) (insert_at (c + 1) rhs K) -> l <> [] /\ r <> []).
      { intros l r -> ->. split; intros Z; apply (f_equal (@length A)) in Z; revert Z; [rewrite firstn_length|rewrite skipn_length]; rewrite insert_at_len; cbn [length]; lia. }
      assert (F : forall l r : list A, l ++ r = insert_at (c + 1) rhs K -> length l = M + 1 -> l = firstn (M + 1) (insert_at (c + 1) rhs K) /\ r = skipn (M + 1) (insert_at (c + 1) rhs K)).
      { intros l r E LE. rewrite <- E, <- LE. rewrite firstn_app, skipn_app, Nat.sub_diag, firstn_all, skipn_all. cbn. rewrite app_nil_r. auto. }
      assert (G : forall l r : list A, l ++ r = insert_at (c + 1) rhs K -> length l = M + 1 -> 2 * M + 1 <= length K /\ l = firstn (M + 1) (insert_at (c + 1) rhs K) /\ r = skipn (M + 1) (insert_at (c + 1) rhs K) /\ l <> [] /\ r <> []).
      { intros l r E LE. destruct (F l r E LE) as [E1 E2]. destruct (Q l r E1 E2). auto. }
      destruct (Nat.eqb_spec c M) as [->|NE]; cbn [negb] in H.
      + rewrite Nat.ltb_irrefl in *. replace (M - 1 + 1) with M in H by lia. destruct (skipn M K) as [|x r'] eqn:ES; [discriminate|].
        unfold g_push in H. destruct (2 * M <=? _); cbn [ob] in H; [discriminate|]. injection H as <-. apply G.
        * unfold insert_at. assert (EK : K = firstn M K ++ x :: r') by (rewrite <- ES, firstn_skipn; reflexivity). set (l := firstn M K) in *.
          assert (Ll : length l = M) by (unfold l; rewrite firstn_length; lia). rewrite EK.
          replace (l ++ x :: r') with ((l ++ [x]) ++ r') by (rewrite <- app_assoc; reflexivity).
          replace (M + 1) with (length (l ++ [x])) by (rewrite app_length; cbn; lia).
          rewrite firstn_app, skipn_app, Nat.sub_diag, firstn_all, skipn_all. cbn [firstn skipn]. rewrite app_nil_r. reflexivity.
        * rewrite app_length, firstn_length. cbn. lia.
      + destruct (Nat.ltb_spec M c) as [LT|GE].
        * unfold g_ins in H. destruct (_ || _); cbn [ob] in H; [discriminate|]. injection H as <-. apply G; [|rewrite firstn_length; lia].
          unfold insert_at. replace (c - (M + 1) + 1) with (c - M) by lia. rewrite app_assoc. f_equal; [|f_equal].
          -- rewrite <- (firstn_skipn (M + 1) K) at 3. rewrite firstn_app. rewrite firstn_length. replace (Nat.min (M + 1) (length K)) with (M + 1) by lia.
             replace (c + 1 - (M + 1)) with (c - M) by lia. rewrite (firstn_all2 (firstn (M + 1) K)) by (rewrite firstn_length; lia). reflexivity.
          -- rewrite skipn2. f_equal. lia.
        * replace (M - 1 + 1) with M in H by lia. unfold g_ins in H. destruct (_ || _); cbn [ob] in H; [discriminate|]. injection H as <-. apply G; [|rewrite insert_at_len, firstn_length; lia].
          unfold insert_at. rewrite <- app_assoc. cbn [app]. f_equal; [rewrite firstn_firstn; f_equal; lia|]. f_equal.
          rewrite <- (firstn_skipn M K) at 3. rewrite skipn_app. rewrite firstn_length. replace (c + 1 - Nat.min M (length K)) with 0 by lia. reflexivity.
  Qed.

  (** ** Trees that differ in the data of nodes on a path only *)
  Fixpoint near (q : list nat) (r n : rose D) : Prop :=
    match q with
    | [] => rkids n = rkids r
    | c :: q' => exists k k', nth_error (rkids r) c = Some k /\ near q' k k' /\ rkids n = replace_at c k' (rkids r)
    end.
  Lemma replace2 : forall {A} c (x y : A) l, replace_at c x (replace_at c y l) = replace_at c x l.
  Proof.
    intros A c x y l. revert c. induction l as [|z l IH]; intros c; [unfold replace_at; rewrite skipn_nil; cbn; rewrite skipn_nil; reflexivity|].
    destruct c as [|c]; [rewrite !replace_0; reflexivity|]. rewrite !replace_cons. f_equal. apply IH.
  Qed.
  Lemma replace_id : forall {A} c (x : A) l, nth_error l c = Some x -> replace_at c x l = l.
  Proof.
    intros A c x l. revert c. induction l as [|z l IH]; intros c H; [destruct c; discriminate|].
    destruct c as [|c]; [injection H as ->; apply replace_0|]. rewrite replace_cons. f_equal. apply IH. exact H.
  Qed.
  Lemma near_eq : forall q r n, sub r q <> None -> rkids n = rkids r -> near q r n.
  Proof.
    induction q as [|c q IH]; intros r n V E; cbn [near]; [exact E|]. cbn [sub] in V. destruct (nth_error (rkids r) c) as [k|] eqn:N; [|contradiction].
    exists k, k. split; [reflexivity|]. split; [apply IH; auto|]. rewrite (replace_id c k) by exact N. exact E.
  Qed.
  Lemma near_grew : forall q r r2 news, near q r r2 -> grew q r2 news -> grew q r news.
  Proof.
    induction q as [|c q IH]; intros r r2 news H G; cbn [near] in H.
    - inversion G; subst; [apply grew_here; congruence|apply grew_leaf; congruence].
    - destruct H as (k & k' & N & Hk & E). assert (L : c < length (rkids r)) by (eapply nth_error_lt; exact N).
      inversion G; subst; rewrite E in *; rewrite ?replace2, ?replace_len in *;
        match goal with H : nth_error (replace_at c k' _) c = Some _ |- _ => rewrite replace_nth_same in H by exact L; injection H as <- end.
      + eapply grew_one; [exact N|eapply IH; eassumption|assumption].
      + eapply grew_add; [exact N|eapply IH; eassumption|assumption].
      + eapply grew_split; [exact N|eapply IH; eassumption|assumption|assumption|assumption].
  Qed.
  Lemma near_one : forall q r n, near q r n -> grew q r [n].
  Proof.
    induction q as [|c q IH]; intros r n H; cbn [near] in H; [apply grew_here; exact H|]. destruct H as (k & k' & N & Hk & E).
    eapply grew_one; [exact N|apply IH; exact Hk|exact E].
  Qed.

  (** ** Contents *)
  Lemma sub_rose : forall q h (t n : tree), node_at t q = Ok n -> length q <= h -> sub (rose_of h t) q = Some (rose_of (h - length q) n).
  Proof.
    induction q as [|c q IH]; intros h t n H L; cbn [node_at sub length] in *; [injection H as <-; rewrite Nat.sub_0_r; reflexivity|].
    destruct h as [|h]; [lia|]. destruct (child t c) as [ch| |] eqn:E; cbn [bind] in H; try discriminate. apply child_kids in E.
    rewrite rkids_rose, below_kids by (intros Z; rewrite Z in E; destruct c; discriminate E).
    rewrite (map_nth_error _ _ _ E). rewrite (IH h ch n H) by lia. reflexivity.
  Qed.

  Lemma rose_replace : forall h (t t1 : tree) c n, kids_of t1 = replace_at c n (kids_of t) -> c < length (kids_of t) ->
    rkids (rose_of (Datatypes.S h) t1) = replace_at c (rose_of h n) (rkids (rose_of (Datatypes.S h) t)).
  Proof.
    intros h t t1 c n E L. rewrite !rkids_rose. rewrite (below_kids t) by (intros Z; rewrite Z in L; cbn in L; lia).
    rewrite below_kids by (intros Z; apply (f_equal (@length _)) in Z; rewrite E, replace_len in Z; cbn in Z; lia). rewrite E. rewrite replace_map. reflexivity.
  Qed.

  Lemma set_slice_near : forall p u h (t t' n : tree) k v, set_slice_at t p k v = Ok t' -> node_at t (p ++ u) = Ok n -> length (p ++ u) <= h ->
    near (p ++ u) (rose_of h t) (rose_of h t').
  Proof.
    induction p as [|c p IH]; intros u h t t' n k v H Hn L; cbn [set_slice_at app] in *.
    - apply near_eq; [rewrite (sub_rose _ _ _ _ Hn L); discriminate|]. apply set_slice_kids in H. rewrite !rkids_rose, (below_same _ _ H). reflexivity.
    - cbn [node_at length] in *. destruct (child t c) as [ch| |] eqn:Ec; cbn [bind] in *; try discriminate.
      destruct (set_slice_at ch p k v) as [ch'| |] eqn:E; cbn [bind] in H; try discriminate. apply set_child_kids in H. destruct H as [H Hc]. apply child_kids in Ec.
      destruct h as [|h]; [lia|]. cbn [near]. exists (rose_of h ch), (rose_of h ch'). split.
      + rewrite rkids_rose, below_kids by (intros Z; rewrite Z in Ec; destruct c; discriminate Ec). apply map_nth_error. exact Ec.
      + split; [eapply IH; [exact E|exact Hn|lia]|]. apply rose_replace; assumption.
  Qed.
  Lemma alike_grew : forall p (t t1 : tree), alike p t t1 -> forall h n news, node_at t1 p = Ok n -> length p <= h -> grew p (rose_of h t1) news -> grew p (rose_of h t) news.
  Proof.
    intros p t t1 H. induction H as [t|t t1 t2 q u k v H IH -> Hs]; intros h n news Hn L G; [exact G|].
    destruct (set_slice_node_at _ _ _ _ _ Hs _ _ Hn) as [n' Hn']. eapply IH; [exact Hn'|exact L|]. eapply near_grew; [|exact G]. eapply set_slice_near; eassumption.
  Qed.

  Lemma nth_replace_fwd : forall {A} (l : list A) c d x y, nth_error l d = Some y -> exists z, nth_error (replace_at c x l) d = Some z /\ (c <> d -> z = y) /\ (c = d -> z = x).
  Proof.
    intros A l c d x y H. destruct (Nat.eq_dec c d) as [->|N].
    - exists x. split; [apply replace_nth_same; eapply nth_error_lt; exact H|]. split; [congruence|auto].
    - exists y. split; [rewrite replace_nth_other; auto|]. split; [auto|congruence].
  Qed.
  Lemma set_slice_fwd : forall p (t t' : tree) k v, set_slice_at t p k v = Ok t' -> forall q n, node_at t q = Ok n -> exists n', node_at t' q = Ok n'.
  Proof.
    induction p as [|c p IH]; intros t t' k v H q n Hq; cbn [set_slice_at] in H.
    - apply set_slice_kids in H. destruct q as [|d q]; [cbn; eauto|]. apply node_at_cons in Hq. rewrite <- H in Hq. exists n. apply node_at_cons. exact Hq.
    - destruct (child t c) as [ch| |] eqn:Ec; cbn [bind] in H; try discriminate. apply child_kids in Ec.
      destruct (set_slice_at ch p k v) as [ch'| |] eqn:E; cbn [bind] in H; try discriminate. apply set_child_kids in H. destruct H as [H Hc].
      destruct q as [|d q]; [cbn; eauto|]. apply node_at_cons in Hq. destruct Hq as (e & H1 & H2).
      destruct (nth_replace_fwd _ c d ch' _ H1) as (z & Hz & Z1 & Z2). rewrite <- H in Hz. destruct (Nat.eq_dec c d) as [->|N].
      + rewrite Ec in H1. injection H1 as <-. rewrite (Z2 eq_refl) in Hz. destruct (IH _ _ _ _ E _ _ H2) as [n' Hn']. exists n'. apply node_at_cons. eauto.
      + rewrite (Z1 N) in Hz. exists n. apply node_at_cons. eauto.
  Qed.
  Lemma alike_fwd : forall p (t t' : tree), alike p t t' -> forall q n, node_at t q = Ok n -> exists n', node_at t' q = Ok n'.
  Proof.
    intros p t t' H. induction H as [t|t t1 t2 q u k v H IH -> Hs]; intros q0 n Hn; [eauto|].
    destruct (IH _ _ Hn) as [n' Hn']. eapply set_slice_fwd; eassumption.
  Qed.

  (** The plan exists whenever the insertion succeeds. *)
  Lemma edge_join_ok : forall h (t : tree) lhs rhs slice size jr, edge_try_join X Y M h t lhs rhs slice size = Ok jr -> exists j, edge_join Y t lhs rhs slice = Ok j.
  Proof.
    intros h t lhs rhs slice size jr H. unfold edge_try_join in H. unfold edge_join. destruct (negb (sl_may_join Y)); [eauto|].
    destruct lhs as [la|]; destruct rhs as [ra|]; cbn [bind] in H; try discriminate.
    - destruct (handle_size X h t la); cbn [bind] in H; try discriminate. destruct (handle_size X h t ra); cbn [bind] in H; try discriminate.
      destruct (handle_slice t la) as [ls| |]; cbn [bind] in *; try discriminate. destruct (sl_try_join Y ls slice) as [mid|[l s]].
      + destruct (ix_add_right X _ size); cbn [bind] in H; try discriminate. destruct (handle_slice t ra) as [rs| |]; cbn [bind] in *; try discriminate.
        destruct (sl_try_join Y mid rs) as [?|[? ?]]; [|eauto]. destruct (ix_add_right X _ _); cbn [bind] in H; discriminate.
      + destruct (set_slice_at t (fst la) (snd la) l) as [t1| |]; cbn [bind] in *; try discriminate. destruct (handle_slice t1 ra) as [rs| |]; cbn [bind] in *; try discriminate.
        destruct (sl_try_join Y s rs) as [?|[? ?]]; eauto.
    - destruct (handle_size X h t la); cbn [bind] in H; try discriminate. destruct (handle_slice t la) as [ls| |]; cbn [bind] in *; try discriminate. destruct (sl_try_join Y ls slice); eauto.
    - destruct (handle_size X h t ra); cbn [bind] in H; try discriminate. destruct (handle_slice t ra) as [ls| |]; cbn [bind] in *; try discriminate. destruct (sl_try_join Y slice ls); eauto.
  Qed.
  Lemma split_plan_ok : forall nop h (t : tree) p hk k q slice size x, insert_split_key X Y M nop h t p hk k q slice size = Ok x -> exists pl, split_plan Y t p hk k q slice = Ok pl.
  Proof.
    intros nop h t p hk k q slice size x H. unfold insert_split_key in H. unfold split_plan, handle_slice. cbn [fst snd].
    destruct (node_at t p) as [n| |]; cbn [bind] in *; try discriminate. destruct (slice_size X hk n k); cbn [bind] in H; try discriminate.
    destruct (slice_at n k) as [s0| |]; cbn [bind] in *; try discriminate. destruct (sl_split_at Y s0 q) as [l r]. destruct (negb (sl_may_join Y)); [eauto|].
    destruct (sl_try_join Y l slice) as [?|[? ?]]; match goal with |- context [sl_try_join Y ?a ?b] => destruct (sl_try_join Y a b) as [?|[? ?]] end; eauto.
  Qed.

  Hypothesis HM : 1 <= M.

  Lemma up_grew : forall h (t ch : tree) c q here st st', child t c = Ok ch -> grew q (rose_of h ch) (st_roses h st) -> up_step X M t c here st = Ok st' ->
    grew (c :: q) (rose_of (Datatypes.S h) t) (st_roses (Datatypes.S h) st').
  Proof.
    intros h t ch c q here st st' Hc G U. apply child_kids in Hc. assert (Lc : c < length (kids_of t)) by (eapply nth_error_lt; exact Hc).
    assert (N : nth_error (rkids (rose_of (Datatypes.S h) t)) c = Some (rose_of h ch)).
    { rewrite rkids_rose, below_kids by (intros Z; rewrite Z in Lc; cbn in Lc; lia). apply map_nth_error. exact Hc. }
    destruct st as [n o nw cur|b]; cbn [up_step] in U.
    - destruct (set_child t c n) as [t1| |] eqn:E; cbn [bind] in U; try discriminate. apply set_child_kids in E. destruct E as [E _].
      apply child_step_kids in U. destruct st' as [n' ? ? ?|b']; cbn [kst] in U; [|discriminate]. injection U as U. cbn [st_roses] in *.
      eapply grew_one; [exact N|exact G|]. apply rose_replace; [congruence|exact Lc].
    - destruct (set_child t c (b_lhs b)) as [t1| |] eqn:E; cbn [bind] in U; try discriminate. apply set_child_kids in E. destruct E as [E _].
      destruct (bubble_step X M t1 c here b) as [st1| |] eqn:Eb; cbn [bind] in U; try discriminate. injection U as <-.
      assert (EK : kst (remap_bubble here st1) = kst st1) by apply remap_kids. set (st2 := remap_bubble here st1) in *. clearbody st2.
      apply bubble_step_kids in Eb. rewrite <- EK in Eb.
      assert (Nc : nth_error (kids_of t1) c = Some (b_lhs b)) by (rewrite E; apply replace_nth_same; exact Lc).
      pose proof (bubble_list _ _ _ _ _ Eb HM Nc) as BL. rewrite E in BL.
      assert (RK : insert_at (c + 1) (rose_of h (b_rhs b)) (replace_at c (rose_of h (b_lhs b)) (rkids (rose_of (Datatypes.S h) t))) = map (rose_of h) (insert_at (c + 1) (b_rhs b) (replace_at c (b_lhs b) (kids_of t)))).
      { rewrite rkids_rose, below_kids by (intros Z; rewrite Z in Lc; cbn in Lc; lia). rewrite map_insert, replace_map. reflexivity. }
      destruct st2 as [n' ? ? ?|b']; cbn [kst st_roses] in *.
      + eapply grew_add; [exact N|exact G|]. rewrite RK, rkids_rose, below_kids; [rewrite BL; reflexivity|]. rewrite BL. intros Z. apply (f_equal (@length _)) in Z. rewrite insert_at_len in Z. cbn in Z. lia.
      + destruct BL as (L & E1 & E2 & NE1 & NE2). rewrite replace_len in L. eapply grew_split; [exact N|exact G| | |]; rewrite ?RK.
        * rewrite rkids_rose, below_kids by (intros Z; rewrite Z in Lc; cbn in Lc; lia). rewrite map_length. exact L.
        * rewrite rkids_rose, below_kids by exact NE1. rewrite E1 at 1. apply eq_sym, firstn_map.
        * rewrite rkids_rose, below_kids by exact NE2. rewrite E2 at 1. apply eq_sym, skipn_map.
  Qed.

  Lemma upd_grew : forall f u p h lhs (t : tree) st, upd X M f lhs t p = Ok st -> length p <= h ->
    (forall n st', node_at t p = Ok n -> f n = Ok st' -> grew u (rose_of (h - length p) n) (st_roses (h - length p) st')) ->
    grew (p ++ u) (rose_of h t) (st_roses h st).
  Proof.
    intros f u. induction p as [|c p IH]; intros h lhs t st H L F; cbn [upd app length] in *.
    - rewrite Nat.sub_0_r in F. apply F; auto.
    - destruct h as [|h]; [lia|]. destruct (child t c) as [ch| |] eqn:Ec; cbn [bind] in H; try discriminate.
      destruct (match lhs with Some (0, l) => (Some l, None) | Some (Datatypes.S d, l) => (None, Some (d, l)) | None => (None, None) end) as [here0 below0].
      destruct (upd X M f below0 ch p) as [st1| |] eqn:E; cbn [bind] in H; try discriminate.
      eapply up_grew; [exact Ec| |exact H]. eapply IH; [exact E|lia|]. intros n st' Hn Hf. cbn [Nat.sub] in F. apply F; [|exact Hf]. cbn [node_at]. rewrite Ec. exact Hn.
  Qed.

  (** What the root becomes, before a new root is made. *)
  Definition root_news (h h' : nat) (t' : tree) : list (rose D) := if h' =? h then [rose_of h t'] else rkids (rose_of h' t').
  Lemma finish_news : forall h st (t' : tree) h' cur, finish_root X h st = Ok (t', h', cur) -> st_roses h st = root_news h h' t' /\ (h' = h \/ h' = h + 1 /\ length (root_news h h' t') = 2).
  Proof.
    intros h st t' h' cur H. apply finish_kids in H. unfold root_news. destruct st as [n o nw c|b]; destruct H as [E ->].
    - subst t'. rewrite Nat.eqb_refl. auto.
    - assert (Z : rkids (rose_of (h + 1) t') = [rose_of h (b_lhs b); rose_of h (b_rhs b)]) by (rewrite Nat.add_1_r, rkids_rose, below_kids by (rewrite E; discriminate); rewrite E; reflexivity).
      destruct (Nat.eqb_spec (h + 1) h); [lia|]. rewrite Z. auto.
  Qed.

  Lemma leaf_grew : forall h (t1 : tree) q k two t' h', runs_leaf X M h t1 q k two t' h' -> length q = h ->
    grew q (rose_of h t1) (root_news h h' t') /\ (h' = h \/ h' = h + 1 /\ length (root_news h h' t') = 2) /\ exists n, node_at t1 q = Ok n.
  Proof.
    intros h t1 q k two t' h' (remap & ov & fs & sn & lhs & st & cur & -> & Hu & Hf) L. destruct (finish_news _ _ _ _ _ Hf) as [<- Hh].
    split; [|split; [exact Hh|eapply upd_node_at; exact Hu]]. rewrite <- (app_nil_r q). eapply upd_grew; [exact Hu|lia|]. intros n st' _ _. replace (h - length q) with 0 by lia.
    destruct st'; cbn [st_roses]; [apply grew_here; reflexivity|apply grew_leaf; reflexivity].
  Qed.
  Lemma join_grew : forall h (t1 : tree) p u k old new st t' h' cur n, upd X M (fun n => key_step X n k None old new []) None t1 p = Ok st ->
    finish_root X h st = Ok (t', h', cur) -> length (p ++ u) <= h -> node_at t1 (p ++ u) = Ok n ->
    grew (p ++ u) (rose_of h t1) (root_news h h' t') /\ (h' = h \/ h' = h + 1 /\ length (root_news h h' t') = 2).
  Proof.
    intros h t1 p u k old new st t' h' cur n Hu Hf L Hn. destruct (finish_news _ _ _ _ _ Hf) as [<- Hh]. split; [|exact Hh].
    rewrite app_length in L. eapply upd_grew; [exact Hu|lia|]. intros n1 st' H1 H2. apply key_step_kids in H2. destruct st' as [n' ? ? ?|]; cbn [kst st_roses] in *; [|discriminate]. injection H2 as H2.
    apply near_one, near_eq; [|rewrite !rkids_rose, (below_same _ _ H2); reflexivity].
    assert (NA : node_at n1 u = Ok n).
    { clear - H1 Hn. revert t1 H1 Hn. induction p as [|c p IH]; intros t1 H1 Hn; cbn [node_at app] in *; [injection H1 as <-; exact Hn|]. destruct (child t1 c); cbn [bind] in *; try discriminate. eauto. }
    rewrite (sub_rose _ _ _ _ NA) by lia. discriminate.
  Qed.

  Theorem insert_grew : forall nop r hints idx slice size r' cur, insert_with_cursor X Y M nop r hints idx slice size = Ok (r', cur) ->
    exists pl fp r1, insert_plan X Y r hints idx slice = Ok pl /\ find_path X Y r hints idx = Ok fp /\ r' = Some r1 /\
    match r with
    | None => r_height r1 = 0
    | Some r0 => (r_height r1 = r_height r0 \/ r_height r1 = r_height r0 + 1 /\ length (root_news (r_height r0) (r_height r1) (r_node r1)) = 2) /\
        grew (way pl fp) (rose_of (r_height r0) (r_node r0)) (root_news (r_height r0) (r_height r1) (r_node r1))
    end.
  Proof.
    intros nop r hints idx slice size r' cur Hi. unfold insert_with_cursor in Hi.
    destruct (rle_size X r) as [sz| |]; cbn [bind] in Hi; try discriminate. destruct (ix_ltb X sz idx); [discriminate|]. destruct (ix_leb X size (ix_zero X)) eqn:Ez; [discriminate|].
    destruct r as [r|]; cbn [insert_plan find_path] in *.
    - destruct (find_insertion_point X Y (r_height r) (r_node r) hints idx [] None None) as [ip| |] eqn:Ef; cbn [bind] in *; try discriminate.
      apply find_struct in Ef; [|exact Logic.I|exact Logic.I].
      destruct ip as [p k lhs rhs|p hk k q].
      + destruct Ef as (q & Eq & Hlen & (nd0 & Hn) & Hl & Hr). cbn [app] in Eq. subst q.
        destruct (insert_edge X Y M (r_height r) (r_node r) p k lhs rhs slice size) as [[[[t' h'] c'] ad]| |] eqn:Ei; cbn [bind] in Hi; try discriminate.
        injection Hi as <- _. unfold insert_edge in Ei. rewrite Hn in Ei. cbn [bind] in Ei. destruct (tlen nd0 <? k); [discriminate|].
        destruct (edge_try_join X Y M (r_height r) (r_node r) lhs rhs slice size) as [jr| |] eqn:Ej; cbn [bind] in Ei; try discriminate.
        destruct (edge_join_ok _ _ _ _ _ _ _ Ej) as [j Eh]. rewrite Eh. cbn [bind].
        pose proof (edge_cases X Y M _ _ _ _ _ _ _ p _ Ej Eh Hl Hr) as HE. eexists _, _, _. split; [reflexivity|]. split; [reflexivity|]. split; [reflexivity|]. cbn [r_height r_node].
        destruct j as [a|].
        * destruct HE as (t1 & old & new & st & tt' & hh' & cc & -> & Ha & [u Hu] & Hup & Hfin). injection Ei as <- <- _ _. cbn [way].
          assert (Hn1 : exists n, node_at t1 p = Ok n) by (eapply alike_fwd; eassumption). destruct Hn1 as [n1 Hn1].
          pose proof Hn1 as Hn2. rewrite Hu in Hn2. destruct (join_grew _ _ _ u _ _ _ _ _ _ _ n1 Hup Hfin) as [G Hh]; [rewrite <- Hu; lia|exact Hn2|].
          rewrite <- Hu in G. split; [exact Hh|]. eapply alike_grew; [exact Ha|exact Hn1|lia|exact G].
        * destruct HE as (t1 & sl & -> & Ha).
          destruct (upd X M _ None t1 p) as [st| |] eqn:Eu; cbn [bind] in Ei; try discriminate.
          destruct (finish_root X (r_height r) st) as [[[t2 h2] c2]| |] eqn:Eff; cbn [bind] in Ei; try discriminate. injection Ei as <- <- _ _. cbn [way].
          destruct (leaf_grew (r_height r) t1 p k false t2 h2) as (G & Hh & n1 & Hn1); [|exact Hlen|].
          { unfold runs_leaf. do 7 eexists. split; [|split; [exact Eu|exact Eff]]. reflexivity. }
          split; [exact Hh|]. eapply alike_grew; [exact Ha|exact Hn1|lia|exact G].
      + destruct Ef as (q0 & Eq & Hlen & (nd0 & Hn)). cbn [app] in Eq. subst q0.
        destruct (insert_split_key X Y M nop (r_height r) (r_node r) p hk k q slice size) as [[[[t' h'] c'] ad]| |] eqn:Ei; cbn [bind] in Hi; try discriminate.
        injection Hi as <- _. destruct (split_plan_ok _ _ _ _ _ _ _ _ _ _ Ei) as [pl Hp]. rewrite Hp. pose proof (split_cases X Y M _ _ _ _ _ _ _ _ _ _ _ _ _ _ Ei Hp) as HE.
        eexists pl, _, _. split; [reflexivity|]. split; [reflexivity|]. split; [reflexivity|]. cbn [r_height r_node].
        destruct pl as [|p' k'|p' k'|p' hk' k' two lj]; try contradiction; cbn [way].
        * destruct HE as (-> & -> & t1 & old & new & st & c2 & Ha & Hup & Hfin).
          assert (Hn1 : exists n, node_at t1 p = Ok n) by (eapply alike_fwd; eassumption). destruct Hn1 as [n1 Hn1].
          destruct (join_grew _ _ _ [] _ _ _ _ _ _ _ n1 Hup Hfin) as [G Hh]; [rewrite app_nil_r; lia|rewrite app_nil_r; exact Hn1|].
          rewrite app_nil_r in G. split; [exact Hh|]. eapply alike_grew; [exact Ha|exact Hn1|lia|exact G].
        * destruct HE as (-> & -> & -> & t1 & Ha & HR). destruct (rhs_path_ext p hk k) as (u & Hu & Hlu).
          destruct (rhs_path p hk k) as [q1 j] eqn:Eq1. cbn [fst] in *. specialize (HR q1 j eq_refl). subst q1.
          destruct (leaf_grew _ _ _ _ _ _ _ HR) as (G & Hh & n1 & Hn1); [rewrite app_length; lia|].
          split; [exact Hh|]. eapply alike_grew; [apply alike_more; exact Ha|exact Hn1|rewrite app_length; lia|exact G].
    - unfold rle_new in Hi. rewrite Ez in Hi. cbn [bind] in Hi. injection Hi as <- _. do 3 eexists. split; [reflexivity|]. split; [reflexivity|]. split; reflexivity.
  Qed.
End A.
