(** Ranges and cursors computed through stored parents.  Proof support only. *)
From Coq Require Import List ZArith Lia Bool Arith Permutation.
From Verif Require Import Base Index Slice Tree Insert Spec Zip Rep Upd Leaf Path Ops Find Ins IterP LTree LInsert LTreeP LUpP LLeafP LShape LShapeP LUpdP LPlanP LRef LMemP.
Import ListNotations.
Local Open Scope Z_scope.

Section Climb.
  Context {I V : Type} (X : index_ops I) (MAX : Z) (inj : Z -> I) (M : nat) (L : index_laws X MAX inj) (HM : (1 <= M)%nat).
  Notation tree := (tree I V).
  Notation run := (prod V Z) (only parsing).
  Notation rep := (rep inj M).
  Notation focus := (@focus I V inj M).
  Ltac ix := repeat (first [ rewrite (il_addr _ _ _ L) by lia
                           | rewrite (il_addl _ _ _ L) by lia
                           | rewrite (il_subl _ _ _ L) by lia
                           | rewrite (il_subr _ _ _ L) by lia ]; cbn [bind]).

  (** The last step of a path. *)
  Lemma focus_snoc : forall p c lo h (t : tree) l lo' h' n ln la lb, focus lo h t l (p ++ [c]) lo' h' n ln la lb ->
    exists lo1 n1 ln1 la1 lb1 lft rgt l1 l2, focus lo h t l p lo1 (S h') n1 ln1 la1 lb1 /\
      n1 = node (inj (rsum ln1)) lft n rgt /\ c = length lft /\ rep lo' h' n ln /\ la = la1 ++ l1 /\ ln1 = l1 ++ ln ++ l2 /\
      lseg inj (childR inj M (S h')) 0 lft l1 /\ seg inj (childR inj M (S h')) (rsum l1 + rsum ln) rgt l2 /\ lb = l2 ++ lb1.
  Proof.
    induction p as [|c0 p IH]; intros c lo h t l lo' h' n ln la lb F; cbn [app] in F.
    - inversion F as [|? h0 lft ch rgt l1 lc l2 ? ? ? ? ? la0 lb0 Hlen H1 H2 F' E1 E2 E3 E4 E5]; subst.
      destruct (focus_facts inj M HM _ _ _ _ _ _ _ _ _ _ _ F) as (R & _).
      inversion F' as [lo1 h1 t1 l1' R'|]; subst. 
      exists lo, (node (inj (rsum (l1 ++ ln ++ l2))) lft n rgt), (l1 ++ ln ++ l2), [], [], lft, rgt, l1, l2.
      split; [apply f_here; exact R|]. rewrite !app_nil_r. repeat split; auto.
    - inversion F as [|? h0 lft ch rgt l1 lc l2 ? ? ? ? ? la0 lb0 Hlen H1 H2 F' E1 E2 E3 E4 E5]; subst.
      destruct (IH _ _ _ _ _ _ _ _ _ _ _ F') as (lo1 & n1 & ln1 & la1 & lb1 & lft1 & rgt1 & l11 & l21 & F1 & -> & -> & R1 & -> & -> & G1 & G2 & ->).
      do 4 eexists. exists (lb1 ++ l2), lft1, rgt1, l11, l21. split; [apply f_down; [exact Hlen|exact H1|exact H2|exact F1]|].
      repeat split; auto; rewrite <- ?app_assoc; reflexivity.
  Qed.

  Lemma child_pos_ok : forall lo h (n : tree) ln c lft ch rgt l1 lc l2, rep lo (S h) n ln -> rsum ln <= MAX -> 
    n = node (inj (rsum ln)) lft ch rgt -> c = length lft -> rep M h ch lc -> ln = l1 ++ lc ++ l2 ->
    lseg inj (childR inj M (S h)) 0 lft l1 -> seg inj (childR inj M (S h)) (rsum l1 + rsum lc) rgt l2 ->
    child_pos X n c = Ok (inj (rsum l1)).
  Proof.
    intros lo h n ln c lft ch rgt l1 lc l2 R Hm En -> Rc El H1 H2. unfold child_pos, child_size. rewrite En.
    rewrite node_child. cbn [bind]. rewrite (rep_size _ _ _ _ _ _ Rc). cbn [bind]. rewrite node_key_pos_or_end. cbn [bind].
    pose proof (lseg_nonneg _ _ _ _ _ _ H1). pose proof (seg_nonneg _ _ _ _ _ _ H2). pose proof (rep_nonneg _ _ _ _ _ _ Rc).
    assert (Hs : rsum ln = rsum l1 + rsum lc + rsum l2) by (rewrite El; autorewrite with rs; lia).
    rewrite (next_pos_inj inj _ _ _ _ _ H2) by lia. ix. do 2 f_equal. lia.
  Qed.

  Section Tree.
    Context (t : ptree I V) (r : @root I V) (Er : pt_rle t = Some r) (l : list run).
    Context (R : rep 1 (r_height r) (r_node r) l) (Hm : rsum l <= MAX).
    Context (Es : shape (r_node r) = lshape (pt_nodes t)) (Hok : lok M None (pt_nodes t)) (Hnd : NoDup (laddrs (pt_nodes t))).

    Lemma climb_pos_ok : forall p fuel lo' h' n ln la lb a q rs ks pos,
      focus 1 (r_height r) (r_node r) l p lo' h' n ln la lb ->
      at_path (r_height r) (pt_nodes t) (r_node r) p = Some (h', n, LNode a q rs ks) -> (length p < fuel)%nat ->
      0 <= pos -> rsum la + pos <= MAX -> climb_pos X fuel t a (inj pos) = Ok (inj (rsum la + pos)).
    Proof.
      induction p as [|c p IH] using rev_ind; intros fuel lo' h' n ln la lb a q rs ks pos F H Hf Hp Hs.
      - destruct fuel as [|fuel]; [cbn in Hf; lia|]. cbn [climb_pos]. rewrite (deref_at _ _ _ _ _ _ _ _ _ Er Es Hnd H). cbn [bind l_par].
        rewrite (at_path_root M _ _ _ _ _ _ _ _ _ _ Hok H). inversion F; subst. do 2 f_equal.
      - destruct fuel as [|fuel]; [cbn in Hf; lia|]. cbn [climb_pos]. rewrite (deref_at _ _ _ _ _ _ _ _ _ Er Es Hnd H). cbn [bind l_par].
        destruct (at_path_par M HM _ _ _ _ _ _ _ _ _ _ _ _ Hok Es H) as (h2 & n2 & a2 & q2 & rs2 & ks2 & H2 & -> & Hc).
        rewrite (deref_at _ _ _ _ _ _ _ _ _ Er Es Hnd H2). cbn [bind].
        destruct (focus_snoc _ _ _ _ _ _ _ _ _ _ _ _ F) as (lo1 & n1 & ln1 & la1 & lb1 & lft & rgt & l1 & l2 & F1 & En1 & -> & R1 & -> & Eln1 & G1 & G2 & ->).
        destruct (focus_facts inj M HM _ _ _ _ _ _ _ _ _ _ _ F1) as (_ & Rn1 & El & Eh & En).
        destruct (at_path_lok M HM _ _ _ _ _ _ _ _ _ _ _ Hok Es H2) as (_ & _ & Eh2).
        assert (E2 : at_path (r_height r) (pt_nodes t) (r_node r) p = Some (h2, n2, LNode a2 q2 rs2 ks2)) by exact H2.
        assert (n2 = n1).
        { clear - En H2. revert H2 En. generalize (r_height r) (pt_nodes t) (r_node r). induction p as [|c p IH]; intros hh lt tt H E; cbn [at_path node_at] in *.
          - destruct lt; [discriminate|]. congruence.
          - destruct (nth_error (l_kids lt) c) as [k|]; [|discriminate]. destruct (nth_error (kids_of tt) c) as [x|] eqn:Ex; [|discriminate].
            apply kids_child in Ex. rewrite Ex in E. cbn [bind] in E. eauto. }
        subst n2. assert (Ehh : h2 = S h') by lia. 
        pose proof (rep_pos _ _ _ _ _ _ R) as Hpos. rewrite El in Hpos. apply pos_runs_app in Hpos. destruct Hpos as [Ha Hb]. apply pos_runs_app in Hb.
        pose proof (pos_runs_nonneg _ Ha). pose proof (pos_runs_nonneg _ (proj2 Hb)).
        pose proof (lseg_nonneg _ _ _ _ _ _ G1). pose proof (seg_nonneg _ _ _ _ _ _ G2). pose proof (rep_nonneg _ _ _ _ _ _ R1).
        assert (Hl1 : rsum ln1 <= MAX) by (rewrite El in Hm; autorewrite with rs in Hm; lia).
        assert (lo' = M). { clear - F. remember (p ++ [length lft]) as pp. revert p Heqpp. induction F; intros p' E; [destruct p'; discriminate|].
           destruct p' as [|c' p']; cbn [app] in E; [|injection E as _ E; eapply IHF; exact E]. injection E as _ ->. inversion F; reflexivity. }
        subst lo'.
        rewrite (child_pos_ok _ _ _ _ _ _ _ _ _ _ _ Rn1 Hl1 En1 eq_refl R1 Eln1 G1 G2). cbn [bind].
        autorewrite with rs in *. ix.
        rewrite Ehh in E2. rewrite app_length in Hf. cbn [length] in Hf.
        rewrite (IH fuel _ _ _ _ _ _ _ _ _ _ (rsum l1 + pos) F1 E2) by lia. do 2 f_equal. lia.
    Qed.

    Lemma climb_path_ok : forall p fuel h' n a q rs ks acc,
      at_path (r_height r) (pt_nodes t) (r_node r) p = Some (h', n, LNode a q rs ks) -> (length p < fuel)%nat ->
      climb_path fuel t a acc = Ok (p ++ acc).
    Proof.
      induction p as [|c p IH] using rev_ind; intros fuel h' n a q rs ks acc H Hf.
      - destruct fuel as [|fuel]; [cbn in Hf; lia|]. cbn [climb_path]. rewrite (deref_at _ _ _ _ _ _ _ _ _ Er Es Hnd H). cbn [bind l_par].
        rewrite (at_path_root M _ _ _ _ _ _ _ _ _ _ Hok H). reflexivity.
      - destruct fuel as [|fuel]; [cbn in Hf; lia|]. cbn [climb_path]. rewrite (deref_at _ _ _ _ _ _ _ _ _ Er Es Hnd H). cbn [bind l_par].
        destruct (at_path_par M HM _ _ _ _ _ _ _ _ _ _ _ _ Hok Es H) as (h2 & n2 & a2 & q2 & rs2 & ks2 & H2 & -> & Hc).
        rewrite (IH _ _ _ _ _ _ _ _ H2) by (rewrite app_length in Hf; cbn [length] in Hf; lia). rewrite <- app_assoc. reflexivity.
    Qed.

    (** A handle at the place of run [i]. *)
    Lemma handle_view_ok : forall A s z B a k o, l = A ++ (s, z) :: B ->
      nth_error (linord (pt_nodes t)) (length A) = Some (Some (a, k), o) ->
      exists p h' n q rs ks, at_path (r_height r) (pt_nodes t) (r_node r) p = Some (h', n, LNode a q rs ks) /\ nth_error rs k = Some o /\
        rank (r_node r) p k = Some (length A) /\ deref t a = Ok (h', n, LNode a q rs ks) /\
        handle_range X t (a, k) = Ok (inj (rsum A), inj (rsum A + z)) /\ handle_value t (a, k) = Ok s /\
        climb_path (levels t) t a [] = Ok p.
    Proof.
      intros A s z B a k o El Hn.
      assert (Hlen : (length A < scount (lshape (pt_nodes t)))%nat).
      { rewrite <- (linord_len M HM _ _ Hok). apply nth_error_Some. rewrite Hn. discriminate. }
      destruct (srank_surj _ _ Hlen) as (p & k' & Ep).
      destruct (rank_at M HM p (r_height r) _ (r_node r) _ _ _ Hok Es Ep) as (n & a' & q & rs & ks & o' & H & Ho & Hl & Hna).
      rewrite Hn in Hl. injection Hl as <- <- <-.
      assert (Er' : rank (r_node r) p k = Some (length A)) by (rewrite rank_shape, Es; exact Ep).
      pose proof (deref_at _ _ _ _ _ _ _ _ _ Er Es Hnd H) as Ed.
      destruct (handle_view inj M HM _ _ _ _ _ _ _ R Er') as (lo' & h' & n' & ln & la & lb & A' & s' & z' & B' & F & K & El2 & El3 & Hz).
      destruct (focus_facts inj M HM _ _ _ _ _ _ _ _ _ _ _ F) as (_ & Rn & Eln & Eh & En).
      rewrite Hna in En. injection En as <-.
      assert (Eh' : (r_height r - length p)%nat = h') by lia. rewrite Eh' in H, Ed.
      rewrite El in El3. apply app_mid_inv in El3; [|rewrite app_length; lia]. destruct El3 as (EA & E & EB). injection E as <- <-.
      pose proof (rep_pos _ _ _ _ _ _ R) as Hpos. rewrite El in Hpos. apply pos_runs_app in Hpos. destruct Hpos as [HpA HpB].
      pose proof (Forall_inv_tail HpB) as HpB2. fold (@pos_runs V B) in HpB2. subst A B. pose proof (pos_runs_nonneg _ HpB2). 
      apply pos_runs_app in HpA. pose proof (pos_runs_nonneg _ (proj1 HpA)). pose proof (pos_runs_nonneg _ (proj2 HpA)).
      assert (Hm' : rsum ln <= MAX).
      { rewrite Eln in Hm. autorewrite with rs in Hm. apply pos_runs_app in HpB2. pose proof (pos_runs_nonneg _ (proj2 HpB2)). lia. }
      destruct (keyat_size X MAX inj M L HM _ _ _ _ _ _ _ _ _ K Hm') as (E1 & E2 & E3).
      assert (Hm2 : rsum ((la ++ A') ++ (s, z) :: B' ++ lb) <= MAX) by (rewrite <- El; exact Hm).
      exists p, h', n, q, rs, ks. split; [exact H|]. split; [exact Ho|]. split; [exact Er'|]. split; [exact Ed|].
      assert (Hlv : (length p < levels t)%nat) by (unfold levels; rewrite Er; lia).
      split; [|split].
      - unfold handle_range. cbn [fst snd]. rewrite Ed. cbn [bind].
        assert (Ek : key_pos n k = Ok (inj (rsum A'))) by (destruct K as (lft & ch & ch' & rgt & l1 & lc & lc' & l2 & -> & <- & _ & _ & _ & _ & _ & _ & -> & _); rewrite node_key_pos, rsum_app; reflexivity).
        rewrite Ek, E1. cbn [bind]. autorewrite with rs in *. rewrite (climb_pos_ok _ _ _ _ _ _ _ _ _ _ _ _ (rsum A') F H Hlv) by lia. cbn [bind]. ix. reflexivity.
      - unfold handle_value. cbn [fst snd]. rewrite Ed. exact E2.
      - rewrite (climb_path_ok _ _ _ _ _ _ _ _ [] H Hlv), app_nil_r. reflexivity.
    Qed.
  End Tree.

  (** A descent through child pointers. *)
  Lemma kid_at : forall lt (t : tree) par c ch, lok M par lt -> shape t = lshape lt -> child t c = Ok ch ->
    exists a q rs ks lch, lt = LNode a q rs ks /\ nth_error ks c = Some lch /\ lok M (Some (a, c)) lch /\ shape ch = lshape lch.
  Proof.
    intros [|a q rs ks] t par c ch Hok E Hc; [destruct t; discriminate|].
    apply kids_child in Hc. pose proof (shape_kids _ _ _ _ _ E) as Ek. apply (f_equal (fun l => nth_error l c)) in Ek.
    rewrite !nth_error_map, Hc in Ek. destruct (nth_error ks c) as [lch|] eqn:Ec; [|discriminate]. injection Ek as Ek.
    exists a, q, rs, ks, lch. repeat split; auto. destruct Hok as (_ & _ & _ & Hk). exact (alli_nth _ _ _ _ _ Hk Ec).
  Qed.

  Lemma lt_node : forall lt (t : tree) lo h l, rep lo h t l -> shape t = lshape lt -> exists a q rs ks, lt = LNode a q rs ks.
  Proof.
    intros [|a q rs ks] t lo h l R E; [|eauto]. exfalso. destruct t as [|tot c0 es]; [|discriminate].
    rewrite rep_nrep in R. destruct R as (c0 & es & lc & l' & H & _). discriminate.
  Qed.

  Lemma find_handle_ok : forall h lo (t : tree) l lt par tau hints, rep lo h t l -> lok M par lt -> shape t = lshape lt ->
    0 <= tau < rsum l -> rsum l <= MAX ->
    exists A s z B p k n a q rs ks, run_at l tau A s z B /\ rank t p k = Some (length A) /\
      find_handle X h t lt hints (inj tau) = Ok (a, k) /\ at_path h lt t p = Some ((h - length p)%nat, n, LNode a q rs ks).
  Proof.
    induction h as [|h IH]; intros lo t l lt par tau hints R Hok Es Ht Hm.
    all: destruct (search_step_ok X MAX inj M L HM lo _ t l tau (hd_error hints) R) as (r & E & S0); [lia|auto|].
    all: cbn [find_handle]; rewrite E; cbn [bind].
    all: destruct (lt_node _ _ _ _ _ R Es) as (a & q & rs & ks & ->).
    all: destruct S0 as [(k & A & s & z & B & -> & K & Hr) | (lft & ch & rgt & l1 & lc & l2 & -> & -> & Hlen & H1 & Hc & H2 & -> & Hge & Hlt)].
    1, 3: exists A, s, z, B, [], k, t, a, q, rs, ks; split; [split; [exact (keyat_list inj M _ _ _ _ _ _ _ _ _ K)|exact Hr]|];
      split; [exact (keyat_rank inj M _ _ _ _ _ _ _ _ _ K)|]; split; [reflexivity|]; cbn [at_path length]; rewrite ?Nat.sub_0_r; reflexivity.
    - exfalso. destruct Hc as [-> ->]. cbn [rsum] in *. destruct Hlt as [Hlt | [-> Hlt]]; [lia|].
      inversion H2; subst. autorewrite with rs in Ht. lia.
    - cbn [Rep.childR] in Hc. pose proof (lseg_nonneg _ _ _ _ _ _ H1). pose proof (seg_nonneg _ _ _ _ _ _ H2).
      pose proof (rep_nonneg _ _ _ _ _ _ Hc). autorewrite with rs in *.
      destruct (kid_at _ _ _ _ _ Hok Es (node_child _ _ _ _)) as (a' & q' & rs' & ks' & lch & El & Ec & Hokc & Esc). injection El as <- <- <- <-.
      ix. rewrite node_child. cbn [bind]. unfold nth_ub. rewrite Ec. cbn [bind].
      assert (Hlt' : tau < rsum l1 + rsum lc).
      { destruct Hlt as [|[-> Hlt]]; auto. inversion H2; subst. cbn [rsum] in *. lia. }
      destruct (IH M ch lc lch _ (tau - rsum l1) (next_hints (CChild (length lft) (inj (rsum l1))) hints) Hc Hokc Esc) as (A & s & z & B & p & k & n & a1 & q1 & rs1 & ks1 & [-> Hr] & Erk & E1 & E2); try lia.
      exists (l1 ++ A), s, z, (B ++ l2), (length lft :: p), k, n, a1, q1, rs1, ks1. split; [|split; [|split]].
      + split; [rewrite <- !app_assoc; reflexivity|]. autorewrite with rs. lia.
      + rewrite rank_down, Erk. cbn [option_map]. rewrite (lseg_count inj _ _ _ _ (childR_count inj M (S h)) H1), app_length. reflexivity.
      + exact E1.
      + cbn [at_path l_kids length]. rewrite Ec. pose proof (node_child (inj (rsum l1 + (rsum (A ++ (s, z) :: B) + rsum l2))) lft ch rgt) as Hn. apply kids_child in Hn.
        autorewrite with rs in *. rewrite Hn. replace (S h - 1)%nat with h by lia. exact E2.
  Qed.

  Lemma find_node_ok : forall h lo (t : tree) l lt par tau, rep lo h t l -> lok M par lt -> shape t = lshape lt ->
    0 <= tau < rsum l -> rsum l <= MAX ->
    exists A s z B p k n a q rs ks, run_at l tau A s z B /\ rank t p k = Some (length A) /\
      find_node X h t lt (inj tau) = Ok a /\ at_path h lt t p = Some ((h - length p)%nat, n, LNode a q rs ks).
  Proof.
    induction h as [|h IH]; intros lo t l lt par tau R Hok Es Ht Hm.
    all: destruct (search_step_ok X MAX inj M L HM lo _ t l tau None R) as (r & E & S0); [lia|auto|].
    all: destruct (lt_node _ _ _ _ _ R Es) as (a & q & rs & ks & ->).
    all: cbn [find_node]; rewrite ?E; cbn [bind].
    all: destruct S0 as [(k & A & s & z & B & -> & K & Hr) | (lft & ch & rgt & l1 & lc & l2 & -> & -> & Hlen & H1 & Hc & H2 & -> & Hge & Hlt)].
    1, 3: exists A, s, z, B, [], k, t, a, q, rs, ks; split; [split; [exact (keyat_list inj M _ _ _ _ _ _ _ _ _ K)|exact Hr]|];
      split; [exact (keyat_rank inj M _ _ _ _ _ _ _ _ _ K)|]; split; [reflexivity|]; cbn [at_path length]; rewrite ?Nat.sub_0_r; reflexivity.
    - exfalso. destruct Hc as [-> ->]. cbn [rsum] in *. destruct Hlt as [Hlt | [-> Hlt]]; [lia|].
      inversion H2; subst. autorewrite with rs in Ht. lia.
    - cbn [Rep.childR] in Hc. pose proof (lseg_nonneg _ _ _ _ _ _ H1). pose proof (seg_nonneg _ _ _ _ _ _ H2).
      pose proof (rep_nonneg _ _ _ _ _ _ Hc). autorewrite with rs in *.
      destruct (kid_at _ _ _ _ _ Hok Es (node_child _ _ _ _)) as (a' & q' & rs' & ks' & lch & El & Ec & Hokc & Esc). injection El as <- <- <- <-.
      ix. rewrite node_child. cbn [bind]. unfold nth_ub. rewrite Ec. cbn [bind].
      assert (Hlt' : tau < rsum l1 + rsum lc).
      { destruct Hlt as [|[-> Hlt]]; auto. inversion H2; subst. cbn [rsum] in *. lia. }
      destruct (IH M ch lc lch _ (tau - rsum l1) Hc Hokc Esc) as (A & s & z & B & p & k & n & a1 & q1 & rs1 & ks1 & [-> Hr] & Erk & E1 & E2); try lia.
      exists (l1 ++ A), s, z, (B ++ l2), (length lft :: p), k, n, a1, q1, rs1, ks1. split; [|split; [|split]].
      + split; [rewrite <- !app_assoc; reflexivity|]. autorewrite with rs. lia.
      + rewrite rank_down, Erk. cbn [option_map]. rewrite (lseg_count inj _ _ _ _ (childR_count inj M (S h)) H1), app_length. reflexivity.
      + exact E1.
      + cbn [at_path l_kids length]. rewrite Ec. pose proof (node_child (inj (rsum l1 + (rsum (A ++ (s, z) :: B) + rsum l2))) lft ch rgt) as Hn. apply kids_child in Hn.
        autorewrite with rs in *. rewrite Hn. replace (S h - 1)%nat with h by lia. exact E2.
  Qed.
End Climb.
