(** Proofs about copy on write: the invariant. *)
From Coq Require Import List Arith Bool Lia.
From Verif Require Import Base ListFacts Cow CowSpec.
Import ListNotations.

Lemma replace_same : forall A t (p : A) l, nth_error l t = Some p -> replace_at t p l = l.
Proof.
  induction t as [|t IH]; intros p [|x l] H; cbn [nth_error] in H; try discriminate.
  - injection H as ->. apply replace_0.
  - rewrite replace_cons. f_equal. auto.
Qed.

Lemma sum_replace : forall A (f : A -> nat) i x y l, nth_error l i = Some x ->
  sum (map f (replace_at i y l)) + f x = sum (map f l) + f y.
Proof.
  intros A f. induction i as [|i IH]; intros x y [|z l] H; cbn [nth_error] in H; try discriminate.
  - injection H as ->. rewrite replace_0. cbn. lia.
  - rewrite replace_cons. cbn. specialize (IH x y l H). unfold sum in IH. lia.
Qed.

Lemma sum_app : forall l m, sum (l ++ m) = sum l + sum m.
Proof. induction l; intros; cbn; auto. rewrite IHl. unfold sum. lia. Qed.

Lemma sum_ge : forall A (f : A -> nat) l i x, nth_error l i = Some x -> f x <= sum (map f l).
Proof.
  intros A f. induction l as [|z l IH]; intros [|i] x H; cbn in *; try discriminate.
  - injection H as ->. lia.
  - specialize (IH _ _ H). unfold sum in IH. lia.
Qed.

Lemma sum_ge2 : forall A (f : A -> nat) l i j x y, nth_error l i = Some x -> nth_error l j = Some y -> i <> j -> f x + f y <= sum (map f l).
Proof.
  intros A f. induction l as [|z l IH]; intros [|i] [|j] x y H K N; cbn in *; try discriminate; try lia.
  - injection H as ->. pose proof (sum_ge _ f _ _ _ K). unfold sum in *. lia.
  - injection K as ->. pose proof (sum_ge _ f _ _ _ H). unfold sum in *. lia.
  - assert (i <> j) by lia. specialize (IH _ _ _ _ H K H0). unfold sum in *. lia.
Qed.

Lemma sum_zero : forall A (f : A -> nat) l, (forall i x, nth_error l i = Some x -> f x = 0) -> sum (map f l) = 0.
Proof.
  intros A f. induction l as [|x l IH]; intros H; [reflexivity|]. cbn. rewrite (H 0 x eq_refl). apply IH. intros i y E. apply (H (S i)). auto.
Qed.

Lemma occ_in : forall a l, In a l <-> 1 <= occ a l.
Proof. intros. unfold occ. rewrite (count_occ_In Nat.eq_dec). lia. Qed.

Lemma occ_app : forall a l m, occ a (l ++ m) = occ a l + occ a m.
Proof. intros. unfold occ. apply count_occ_app. Qed.

Lemma occ_cons : forall a b l, occ a (b :: l) = (if b =? a then 1 else 0) + occ a l.
Proof. intros. unfold occ. cbn. destruct (Nat.eq_dec b a), (Nat.eqb_spec b a); subst; try congruence; lia. Qed.

Lemma occ_nil : forall a, occ a [] = 0.
Proof. reflexivity. Qed.

Lemma occ_one : forall a b, occ a [b] = if b =? a then 1 else 0.
Proof. intros. rewrite occ_cons, occ_nil. lia. Qed.

Lemma firstn_succ : forall A (l : list A) i x, nth_error l i = Some x -> firstn (S i) l = firstn i l ++ [x].
Proof.
  induction l as [|y l IH]; intros [|i] x H; cbn [nth_error] in H; try discriminate.
  - injection H as ->. reflexivity.
  - cbn [firstn app]. f_equal. apply IH. auto.
Qed.

Lemma skipn_cons : forall A (l : list A) i x, nth_error l i = Some x -> skipn i l = x :: skipn (i + 1) l.
Proof.
  induction l as [|y l IH]; intros [|i] x H; cbn [nth_error] in H; try discriminate.
  - injection H as ->. reflexivity.
  - cbn [skipn plus]. apply IH. auto.
Qed.

Lemma replace_eq : forall A (l : list A) i x y, nth_error l i = Some x -> replace_at i y l = firstn i l ++ y :: skipn (i + 1) l.
Proof. intros A l i x y H. unfold replace_at. rewrite (skipn_cons _ _ _ _ H). reflexivity. Qed.

Lemma occ_replace : forall l i b c a, nth_error l i = Some b ->
  occ a (replace_at i c l) + occ a [b] = occ a l + occ a [c].
Proof.
  intros l i b c a H. rewrite (replace_eq _ _ _ _ _ H). rewrite <- (firstn_skipn i l) at 3. rewrite (skipn_cons _ _ _ _ H).
  rewrite !occ_one, !occ_app, !occ_cons. lia.
Qed.

Lemma remove_split : forall A j (x : A) l, nth_error l j = Some x -> l = firstn j l ++ x :: skipn (j + 1) l.
Proof. intros. rewrite <- (firstn_skipn j l) at 1. f_equal. apply skipn_cons. auto. Qed.

Lemma occ_remove : forall l j b a, nth_error l j = Some b -> occ a (remove_nth j l) + occ a [b] = occ a l.
Proof.
  intros l j b a H. rewrite (remove_split _ _ _ _ H) at 2. unfold remove_nth. rewrite occ_one, !occ_app, occ_cons. lia.
Qed.

Lemma occ_insert : forall l k b a, occ a (insert_at k b l) = occ a l + occ a [b].
Proof.
  intros. unfold insert_at. rewrite occ_one, occ_app, occ_cons. rewrite <- (firstn_skipn k l) at 3. rewrite occ_app. lia.
Qed.

Lemma in_remove : forall A (l : list A) j x, In x (remove_nth j l) -> In x l.
Proof.
  intros A l j x H. unfold remove_nth in H. apply in_app_or in H. destruct H as [H|H]; [rewrite <- (firstn_skipn j l)|rewrite <- (firstn_skipn (j + 1) l)]; apply in_or_app; auto.
Qed.

Section P.
  Context {D : Type}.
  Notation heap := (heap D).
  Notation cnode := (cnode D).
  Notation pc := (pc D).
  Notation cstate := (cstate D).

  Lemma look_nth : forall (m : heap) a n, look m a = Some n -> nth_error m a = Some (Some n).
  Proof. intros m a n H. unfold look in H. destruct (nth_error m a) as [[k|]|]; congruence. Qed.

  Lemma look_put : forall (m : heap) a n n' b, look m a = Some n -> look (put m a n') b = if b =? a then Some n' else look m b.
  Proof.
    intros m a n n' b H. apply look_nth in H. unfold look, put. destruct (Nat.eqb_spec b a) as [->|N].
    - rewrite replace_nth_same; auto. eapply nth_error_lt; eauto.
    - rewrite replace_nth_other; auto.
  Qed.

  Lemma look_free : forall (m : heap) a n b, look m a = Some n -> look (free m a) b = if b =? a then None else look m b.
  Proof.
    intros m a n b H. apply look_nth in H. unfold look, free. destruct (Nat.eqb_spec b a) as [->|N].
    - rewrite replace_nth_same; auto. eapply nth_error_lt; eauto.
    - rewrite replace_nth_other; auto.
  Qed.

  Lemma alloc_none : forall (m : heap) a n m', alloc m a n = Some m' -> look m a = None.
  Proof.
    intros m a n m' H. unfold alloc in H. unfold look. destruct (Nat.eqb_spec a (length m)) as [->|N].
    - rewrite (proj2 (nth_error_None _ _)); auto.
    - destruct (nth_error m a) as [[k|]|]; try discriminate. reflexivity.
  Qed.

  Lemma look_alloc : forall (m : heap) a n m' b, alloc m a n = Some m' -> look m' b = if b =? a then Some n else look m b.
  Proof.
    intros m a n m' b H. unfold alloc in H. unfold look. destruct (Nat.eqb_spec a (length m)) as [->|N].
    - injection H as <-. destruct (Nat.eqb_spec b (length m)) as [->|N].
      + rewrite nth_snoc. reflexivity.
      + destruct (lt_dec b (length m)) as [L|L].
        * rewrite nth_error_app1; auto.
        * rewrite (proj2 (nth_error_None m b)) by lia. rewrite (proj2 (nth_error_None _ _)); auto. rewrite app_length. cbn. lia.
    - destruct (nth_error m a) as [[k|]|] eqn:E; try discriminate. injection H as <-. unfold put. destruct (Nat.eqb_spec b a) as [->|N2].
      + rewrite replace_nth_same; auto. eapply nth_error_lt; eauto.
      + rewrite replace_nth_other; auto.
  Qed.

  Lemma kids_put : forall (m : heap) a n n' b, look m a = Some n -> kid_owners (put m a n') b + occ b (n_kids n) = kid_owners m b + occ b (n_kids n').
  Proof.
    intros m a n n' b H. apply look_nth in H. unfold kid_owners, put.
    exact (sum_replace _ (fun o => match o with Some n0 => occ b (n_kids n0) | None => 0 end) a (Some n) (Some n') m H).
  Qed.

  Lemma kids_free : forall (m : heap) a n b, look m a = Some n -> kid_owners (free m a) b + occ b (n_kids n) = kid_owners m b.
  Proof.
    intros m a n b H. apply look_nth in H. unfold kid_owners, free.
    rewrite (sum_replace _ (fun o => match o with Some n0 => occ b (n_kids n0) | None => 0 end) a (Some n) None m H). lia.
  Qed.

  Lemma kids_alloc : forall (m : heap) a n m' b, alloc m a n = Some m' -> kid_owners m' b = kid_owners m b + occ b (n_kids n).
  Proof.
    intros m a n m' b H. unfold alloc in H. destruct (Nat.eqb_spec a (length m)) as [->|N].
    - injection H as <-. unfold kid_owners. rewrite map_app, sum_app. cbn [map]. unfold sum at 2. cbn. lia.
    - destruct (nth_error m a) as [[k|]|] eqn:E; try discriminate. injection H as <-. unfold kid_owners, put.
      pose proof (sum_replace _ (fun o => match o with Some n0 => occ b (n_kids n0) | None => 0 end) a None (Some n) m E) as Q. cbn beta iota in Q. lia.
  Qed.

  Definition cnt_at (m : heap) (a : addr) : nat := match look m a with Some n => n_cnt n | None => 0 end.

  (** ** Claims: nodes that only one thread can get at *)

  Fixpoint frees (w : list work) : list addr :=
    match w with [] => [] | WFree a :: w' => a :: frees w' | WDec _ :: w' => frees w' end.

  Definition dying (p : pc) : list addr :=
    match p with PDrop w => frees w | PEns _ _ (EWork _ w) => frees w | _ => [] end.
  Definition frames (p : pc) : list addr := match p with PEns _ fr _ | PAt _ fr _ _ _ => map fst fr | _ => [] end.
  Definition tips (p : pc) : list addr :=
    match p with PEns _ _ (EWork a _) | PEns _ _ (EPar a) => [a] | PAt _ _ a fl _ => a :: fl | _ => [] end.
  Definition claims (p : pc) : list addr := dying p ++ frames p ++ tips p.

  Definition kid (m : heap) (a : addr) (i : nat) : option addr := match look m a with Some n => nth_error (n_kids n) i | None => None end.
  Definition root (hs : list (option (option addr))) (h : nat) : option addr := match nth_error hs h with Some (Some r) => r | _ => None end.

  Fixpoint chain (m : heap) (hs : list (option (option addr))) (h : nat) (fr : list (addr * nat)) (a : addr) : Prop :=
    match fr with
    | [] => root hs h = Some a
    | (p, i) :: fr' => kid m p i = Some a /\ chain m hs h fr' p
    end.

  Fixpoint follow (m : heap) (a : addr) (is : list nat) : option addr :=
    match is with
    | [] => Some a
    | i :: is' => match kid m a i with Some c => follow m c is' | None => None end
    end.

  Definition has_cnt (m : heap) (c : nat) (a : addr) : Prop := exists n, look m a = Some n /\ n_cnt n = c.

  Definition tinv (m : heap) (hs : list (option (option addr))) (p : pc) : Prop :=
    match p with
    | PIdle => True
    | PRead h is a => exists r, root hs h = Some r /\ follow m r (rev is) = Some a
    | PDrop w => Forall (has_cnt m 0) (frees w)
    | PEns h fr e =>
      Forall (has_cnt m 1) (map fst fr) /\
      exists a, chain m hs h fr a /\
      match e with
      | ELoad => True
      | EInc d _ done => exists n, look m a = Some n /\ n_data n = d /\ done = firstn (length done) (n_kids n)
      | EWork a' w => a' = a /\ has_cnt m 1 a /\ Forall (has_cnt m 0) (frees w)
      | EPar a' => a' = a /\ has_cnt m 1 a
      end
    | PAt h fr a fl old => Forall (has_cnt m 1) (map fst fr) /\ chain m hs h fr a /\ has_cnt m 1 a /\ Forall (has_cnt m 1) fl
    end.

  Record inv (s : cstate) : Prop := {
    i_cnt : forall a, cnt_at (c_mem s) a = owners s a;
    i_zero : forall a n, look (c_mem s) a = Some n -> n_cnt n = 0 -> exists t p, nth_error (c_threads s) t = Some p /\ In a (dying p);
    i_own : forall t p, nth_error (c_threads s) t = Some p -> NoDup (claims p);
    i_dis : forall t p t' p' a, nth_error (c_threads s) t = Some p -> nth_error (c_threads s) t' = Some p' -> t <> t' -> In a (claims p) -> ~ In a (claims p');
    i_height : forall a n c, look (c_mem s) a = Some n -> In c (n_kids n) -> exists k, look (c_mem s) c = Some k /\ n_h n = n_h k + 1;
    i_thread : forall t p, nth_error (c_threads s) t = Some p -> tinv (c_mem s) (c_handles s) p;
    i_lock : forall t p t' p' h, nth_error (c_threads s) t = Some p -> nth_error (c_threads s) t' = Some p' -> t <> t' -> writes h p = true -> uses h p' = false
  }.

  (** ** Places that refer to a node *)

  Inductive place : Type := LRoot (h : nat) | LKid (a : addr) | LHand (t : nat).

  Definition refers (s : cstate) (c : addr) (l : place) : Prop :=
    match l with
    | LRoot h => root (c_handles s) h = Some c
    | LKid a => exists n, look (c_mem s) a = Some n /\ In c (n_kids n)
    | LHand t => exists p, nth_error (c_threads s) t = Some p /\ In c (in_hand p)
    end.

  Lemma root_nth : forall hs h c, root hs h = Some c -> nth_error hs h = Some (Some (Some c)).
  Proof. intros hs h c H. unfold root in H. destruct (nth_error hs h) as [[r|]|]; congruence. Qed.

  Definition amount (s : cstate) (c : addr) (l : place) : nat :=
    match l with
    | LRoot h => match root (c_handles s) h with Some r => occ c [r] | None => 0 end
    | LKid a => match look (c_mem s) a with Some n => occ c (n_kids n) | None => 0 end
    | LHand t => match nth_error (c_threads s) t with Some p => occ c (in_hand p) | None => 0 end
    end.

  Lemma refers_amount : forall s c l, refers s c l <-> 1 <= amount s c l.
  Proof.
    intros s c [h|a|t]; cbn [refers amount].
    - destruct (root (c_handles s) h) as [r|]; [rewrite <- occ_in; cbn [In]; split; [intros E; injection E; auto|intros [->|[]]; auto]|]. split; [discriminate|lia].
    - destruct (look (c_mem s) a) as [n|]; [rewrite <- occ_in; split; [intros (k & E & I); injection E as ->; auto|eauto]|]. split; [intros (k & E & _); discriminate|lia].
    - destruct (nth_error (c_threads s) t) as [p|]; [rewrite <- occ_in; split; [intros (k & E & I); injection E as ->; auto|eauto]|]. split; [intros (k & E & _); discriminate|lia].
  Qed.

  Lemma amount_owners : forall s c l, amount s c l <= owners s c.
  Proof.
    intros s c [h|a|t]; cbn [amount]; unfold owners.
    - destruct (root (c_handles s) h) as [r|] eqn:E; [|lia]. apply root_nth in E.
      pose proof (sum_ge _ (fun o => match o with Some (Some r) => occ c [r] | _ => 0 end) _ _ _ E) as Q. cbn beta iota in Q. fold (root_owners (c_handles s) c) in Q. lia.
    - destruct (look (c_mem s) a) as [n|] eqn:E; [|lia]. apply look_nth in E.
      pose proof (sum_ge _ (fun o => match o with Some n => occ c (n_kids n) | None => 0 end) _ _ _ E) as Q. cbn beta iota in Q. fold (kid_owners (c_mem s) c) in Q. lia.
    - destruct (nth_error (c_threads s) t) as [p|] eqn:E; [|lia].
      pose proof (sum_ge _ (fun p => occ c (in_hand p)) _ _ _ E) as Q. cbn beta iota in Q. fold (hand_owners (c_threads s) c) in Q. lia.
  Qed.

  Lemma amount_two : forall s c l l', l <> l' -> amount s c l + amount s c l' <= owners s c.
  Proof.
    assert (A1 : forall s c h, amount s c (LRoot h) <= root_owners (c_handles s) c).
    { intros s c h. cbn [amount]. destruct (root (c_handles s) h) as [r|] eqn:E; [|lia]. apply root_nth in E.
      exact (sum_ge _ (fun o => match o with Some (Some r) => occ c [r] | _ => 0 end) _ _ _ E). }
    assert (A2 : forall s c a, amount s c (LKid a) <= kid_owners (c_mem s) c).
    { intros s c a. cbn [amount]. destruct (look (c_mem s) a) as [n|] eqn:E; [|lia]. apply look_nth in E.
      exact (sum_ge _ (fun o => match o with Some n => occ c (n_kids n) | None => 0 end) _ _ _ E). }
    assert (A3 : forall s c t, amount s c (LHand t) <= hand_owners (c_threads s) c).
    { intros s c t. cbn [amount]. destruct (nth_error (c_threads s) t) as [p|] eqn:E; [|lia]. exact (sum_ge _ (fun p => occ c (in_hand p)) _ _ _ E). }
    intros s c l l' N. unfold owners.
    destruct l as [h|a|t], l' as [h'|a'|t'];
      try (match goal with |- amount _ _ ?x + amount _ _ ?y <= _ =>
             first [pose proof (A1 s c ltac:(match x with LRoot ?h => exact h end))|pose proof (A2 s c ltac:(match x with LKid ?h => exact h end))|pose proof (A3 s c ltac:(match x with LHand ?h => exact h end))];
             first [pose proof (A1 s c ltac:(match y with LRoot ?h => exact h end))|pose proof (A2 s c ltac:(match y with LKid ?h => exact h end))|pose proof (A3 s c ltac:(match y with LHand ?h => exact h end))] end; lia).
    - assert (M : h <> h') by congruence. pose proof (A1 s c h) as B1. pose proof (A1 s c h') as B2. cbn [amount] in *.
      destruct (root (c_handles s) h) as [r|] eqn:E; [|lia]. destruct (root (c_handles s) h') as [r'|] eqn:E'; [|lia].
      apply root_nth in E. apply root_nth in E'.
      pose proof (sum_ge2 _ (fun o => match o with Some (Some r) => occ c [r] | _ => 0 end) _ _ _ _ _ E E' M) as Q. cbn beta iota in Q. fold (root_owners (c_handles s) c) in Q. lia.
    - assert (M : a <> a') by congruence. pose proof (A2 s c a) as B1. pose proof (A2 s c a') as B2. cbn [amount] in *.
      destruct (look (c_mem s) a) as [r|] eqn:E; [|lia]. destruct (look (c_mem s) a') as [r'|] eqn:E'; [|lia].
      apply look_nth in E. apply look_nth in E'.
      pose proof (sum_ge2 _ (fun o => match o with Some n => occ c (n_kids n) | None => 0 end) _ _ _ _ _ E E' M) as Q. cbn beta iota in Q. fold (kid_owners (c_mem s) c) in Q. lia.
    - assert (M : t <> t') by congruence. pose proof (A3 s c t) as B1. pose proof (A3 s c t') as B2. cbn [amount] in *.
      destruct (nth_error (c_threads s) t) as [r|] eqn:E; [|lia]. destruct (nth_error (c_threads s) t') as [r'|] eqn:E'; [|lia].
      pose proof (sum_ge2 _ (fun p => occ c (in_hand p)) _ _ _ _ _ E E' M) as Q. cbn beta iota in Q. fold (hand_owners (c_threads s) c) in Q. lia.
  Qed.

  Lemma refers_live : forall s c l, inv s -> refers s c l -> exists n, look (c_mem s) c = Some n /\ 1 <= n_cnt n.
  Proof.
    intros s c l I R. apply refers_amount in R. pose proof (amount_owners s c l) as Q. pose proof (i_cnt s I c) as E. unfold cnt_at in E.
    destruct (look (c_mem s) c) as [n|]; [exists n; split; auto; lia|lia].
  Qed.

  Definition place_eq (l l' : place) : {l = l'} + {l <> l'}.
  Proof. decide equality; apply Nat.eq_dec. Defined.

  Lemma refers_one : forall s c l l', inv s -> has_cnt (c_mem s) 1 c -> refers s c l -> refers s c l' -> l = l'.
  Proof.
    intros s c l l' I (n & E & K) R R'. destruct (place_eq l l') as [|N]; auto. exfalso. apply refers_amount in R. apply refers_amount in R'.
    pose proof (amount_two s c l l' N) as Q. pose proof (i_cnt s I c) as C. unfold cnt_at in C. rewrite E in C. lia.
  Qed.

  Lemma refers_zero : forall s c l, inv s -> has_cnt (c_mem s) 0 c -> ~ refers s c l.
  Proof.
    intros s c l I (n & E & K) R. apply refers_amount in R. pose proof (amount_owners s c l) as Q. pose proof (i_cnt s I c) as C. unfold cnt_at in C. rewrite E in C. lia.
  Qed.

  Lemma occ_le1 : forall s c l, inv s -> has_cnt (c_mem s) 1 c -> amount s c l <= 1.
  Proof. intros s c l I (n & E & K). pose proof (amount_owners s c l) as Q. pose proof (i_cnt s I c) as C. unfold cnt_at in C. rewrite E in C. lia. Qed.

  (** Where a claimed node is referred to. *)
  Definition own_place (t : nat) (p : pc) (l : place) : Prop :=
    match l with LRoot h => writes h p = true | LKid q => In q (frames p) | LHand t' => t' = t end.

  Lemma kid_refers : forall s q i c, kid (c_mem s) q i = Some c -> refers s c (LKid q).
  Proof. intros s q i c H. unfold kid in H. cbn. destruct (look (c_mem s) q) as [n|]; [|discriminate]. exists n. split; auto. eapply nth_error_In; eauto. Qed.

  Lemma chain_in : forall s h fr a c, chain (c_mem s) (c_handles s) h fr a -> In c (map fst fr) ->
    refers s c (LRoot h) \/ exists q, In q (map fst fr) /\ refers s c (LKid q).
  Proof.
    intros s h. induction fr as [|[p i] fr IH]; intros a c C I; cbn in *; [contradiction|]. destruct C as [K C]. destruct I as [->|I].
    - destruct fr as [|[q j] fr]; cbn in C; [left; exact C|]. right. exists q. split; [cbn; auto|]. eapply kid_refers. apply C.
    - destruct (IH _ _ C I) as [A|(q & A & B)]; [left; auto|right; exists q; auto].
  Qed.

  Lemma chain_tip : forall s h fr a, chain (c_mem s) (c_handles s) h fr a ->
    refers s a (LRoot h) \/ exists q, In q (map fst fr) /\ refers s a (LKid q).
  Proof.
    intros s h fr a C. destruct fr as [|[q j] fr]; cbn in C; [left; exact C|]. right. exists q. split; [cbn; auto|]. eapply kid_refers. apply C.
  Qed.

  Lemma dying_cnt : forall m hs p c, tinv m hs p -> In c (dying p) -> has_cnt m 0 c.
  Proof.
    intros m hs p c T I. destruct p as [| |w|h fr [| |a w|]|]; cbn in *; try contradiction.
    - rewrite Forall_forall in T. auto.
    - destruct T as (_ & x & _ & _ & _ & F). rewrite Forall_forall in F. auto.
  Qed.

  Lemma frames_cnt : forall m hs p c, tinv m hs p -> In c (frames p) -> has_cnt m 1 c.
  Proof. intros m hs p c T I. destruct p as [| |w|h fr e|h fr a fl old]; cbn in *; try contradiction; destruct T as [F _]; rewrite Forall_forall in F; auto. Qed.

  Lemma tips_cnt : forall m hs p c, tinv m hs p -> In c (tips p) -> has_cnt m 1 c.
  Proof.
    intros m hs p c T I. destruct p as [| |w|h fr [| |a w|a]|h fr a fl old]; cbn in *; try contradiction.
    - destruct T as (_ & x & _ & -> & H & _). destruct I as [->|[]]. auto.
    - destruct T as (_ & x & _ & -> & H). destruct I as [->|[]]. auto.
    - destruct T as (_ & _ & H & F). destruct I as [->|I]; auto. rewrite Forall_forall in F. auto.
  Qed.

  Lemma claim_anchor : forall s t p c, inv s -> nth_error (c_threads s) t = Some p -> In c (claims p) ->
    has_cnt (c_mem s) 0 c \/ (has_cnt (c_mem s) 1 c /\ exists l, refers s c l /\ own_place t p l).
  Proof.
    intros s t p c I N C. pose proof (i_thread s I t p N) as T. unfold claims in C. apply in_app_or in C. destruct C as [C|C].
    { left. eapply dying_cnt; eauto. }
    right. apply in_app_or in C. destruct C as [C|C].
    - split; [eapply frames_cnt; eauto|]. destruct p as [| |w|h fr e|h fr a fl old]; cbn in *; try contradiction.
      + destruct T as (_ & a & CH & _). destruct (chain_in _ _ _ _ _ CH C) as [R|(q & A & B)].
        * exists (LRoot h). split; auto. cbn. apply Nat.eqb_refl.
        * exists (LKid q). split; auto.
      + destruct T as (_ & CH & _). destruct (chain_in _ _ _ _ _ CH C) as [R|(q & A & B)].
        * exists (LRoot h). split; auto. cbn. apply Nat.eqb_refl.
        * exists (LKid q). split; auto.
    - split; [eapply tips_cnt; eauto|]. destruct p as [| |w|h fr [| |a w|a]|h fr a fl old]; cbn in *; try contradiction.
      + destruct T as (_ & x & CH & -> & _). destruct C as [->|[]]. destruct (chain_tip _ _ _ _ CH) as [R|(q & A & B)].
        * exists (LRoot h). split; auto. cbn. apply Nat.eqb_refl.
        * exists (LKid q). split; auto.
      + destruct T as (_ & x & CH & -> & _). destruct C as [->|[]]. destruct (chain_tip _ _ _ _ CH) as [R|(q & A & B)].
        * exists (LRoot h). split; auto. cbn. apply Nat.eqb_refl.
        * exists (LKid q). split; auto.
      + destruct C as [->|C].
        * destruct T as (_ & CH & _). destruct (chain_tip _ _ _ _ CH) as [R|(q & A & B)].
          -- exists (LRoot h). split; auto. cbn. apply Nat.eqb_refl.
          -- exists (LKid q). split; auto.
        * exists (LHand t). split; [|reflexivity]. exists (PAt h fr a fl old). split; auto. cbn. apply in_or_app. auto.
  Qed.

  (** A node claimed by a thread is referred to only from that thread's own places. *)
  Lemma sole : forall s t p c l, inv s -> nth_error (c_threads s) t = Some p -> In c (claims p) -> refers s c l -> own_place t p l.
  Proof.
    intros s t p c l I N C R. destruct (claim_anchor _ _ _ _ I N C) as [Z|(O & l' & R' & W)].
    - exfalso. eapply refers_zero; eauto.
    - rewrite (refers_one _ _ _ _ I O R R'). auto.
  Qed.
End P.
