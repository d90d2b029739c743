(* PartialCycleMap: laws between calls (C123).

   The statements compare the maps left behind by two different histories of public calls on
   the same map.  [m ~~ m']: contains_left, contains_right and are_paired give the same answers
   on all items.  (The crate's own == is coarser, see C42.)  C123_congruence says what this is
   worth: such maps stay so and give equal results under all further calls. *)
From Coq Require Import List NArith Lia Bool Permutation PeanoNat.
From Verif Require Import Closures Prelude RawTable Optionals PartialCycleMap ListFacts TableFacts
  PartialSpec PartialHistory IterFacts PartialProofs PartialProofs2 PartialProofs3 PartialProofs4
  PartialProofs5 PartialProofs6 PartialProofs7 PartialProofs8 PartialHistoryProofs Concrete PartialProps
  PartialProps2 OptionalsProps.
From Verif Require CycleMapLaws PartialHashFree.
Notation opt_like := CycleMapLaws.opt_like.
Notation op_like := CycleMapLaws.op_like.
Notation list_like := CycleMapLaws.list_like.
Import ListNotations.
Open Scope N_scope.

(* ---- lists of entries as two sets and a relation ---- *)
Section Rel.
  Context {L R : Type}.
  Variables (eL : L -> L -> bool) (eR : R -> R -> bool).
  Hypothesis EL : equivalence eL.
  Hypothesis ER : equivalence eR.
  Notation entry := (optional_pair L R).
  Notation pb := (partial_bijection eL eR).
  Notation rel := (s_are_paired eL eR).
  Notation cl := (s_contains_left eL).
  Notation cr := (s_contains_right eR).
  Implicit Types (P Q : list entry) (a l old new : L) (b r : R) (x y : entry).

  Lemma has_l_eq : forall l a x, has_l eL a x = true -> has_l eL l x = eL l a.
  Proof.
    unfold has_l. intros l a x H. destruct (op_get_left x); [|discriminate].
    symmetry. apply eqb_replace_r; auto.
  Qed.
  Lemma has_r_eq : forall r b x, has_r eR b x = true -> has_r eR r x = eR r b.
  Proof.
    unfold has_r. intros l a x H. destruct (op_get_right x); [|discriminate].
    symmetry. apply eqb_replace_r; auto.
  Qed.
  Lemma has_l_swap : forall a a' x, eL a a' = true -> has_l eL a x = has_l eL a' x.
  Proof. unfold has_l. intros a a' x H. destruct (op_get_left x); auto. apply eqb_replace_l; auto. Qed.
  Lemma has_r_swap : forall b b' x, eR b b' = true -> has_r eR b x = has_r eR b' x.
  Proof. unfold has_r. intros a a' x H. destruct (op_get_right x); auto. apply eqb_replace_l; auto. Qed.
  Lemma existsb_ext' : forall {A} (f g : A -> bool) (zs : list A), (forall z, f z = g z) -> existsb f zs = existsb g zs.
  Proof. induction zs; simpl; intros; auto. rewrite H, IHzs; auto. Qed.
  Lemma cl_swap : forall P a a', eL a a' = true -> cl P a = cl P a'.
  Proof. intros. apply existsb_ext'. intros. apply has_l_swap; auto. Qed.
  Lemma cr_swap : forall P b b', eR b b' = true -> cr P b = cr P b'.
  Proof. intros. apply existsb_ext'. intros. apply has_r_swap; auto. Qed.
  Lemma rel_swap_l : forall P a a' b, eL a a' = true -> rel P a b = rel P a' b.
  Proof. intros. apply existsb_ext'. intros. f_equal. apply has_l_swap; auto. Qed.
  Lemma rel_swap_r : forall P a b b', eR b b' = true -> rel P a b = rel P a b'.
  Proof. intros. apply existsb_ext'. intros. f_equal. apply has_r_swap; auto. Qed.
  Lemma rel_cl : forall P a b, rel P a b = true -> cl P a = true.
  Proof.
    intros P a b H. apply existsb_exists in H as (x & I & H). apply andb_true_iff in H as [H _].
    apply existsb_exists. eauto.
  Qed.
  Lemma rel_cr : forall P a b, rel P a b = true -> cr P b = true.
  Proof.
    intros P a b H. apply existsb_exists in H as (x & I & H). apply andb_true_iff in H as [_ H].
    apply existsb_exists. eauto.
  Qed.
  Lemma absent_l : forall P a b, cl P a = false -> rel P a b = false.
  Proof. intros P a b H. destruct (rel P a b) eqn:X; auto. apply rel_cl in X. congruence. Qed.
  Lemma absent_r : forall P a b, cr P b = false -> rel P a b = false.
  Proof. intros P a b H. destruct (rel P a b) eqn:X; auto. apply rel_cr in X. congruence. Qed.

  (* what the entry of l tells *)
  Lemma of_l : forall P l x, pb P -> find_l eL P l = Some x ->
    In x P /\ has_l eL l x = true /\ cl P l = true /\ forall b, rel P l b = has_r eR b x.
  Proof.
    intros P l x B F. apply find_some in F as [I H]. split; auto. split; auto. split.
    - apply existsb_exists; eauto.
    - intros b. destruct (has_r eR b x) eqn:X.
      + apply existsb_exists. exists x. rewrite H, X. auto.
      + destruct (rel P l b) eqn:Y; auto. apply existsb_exists in Y as (y & J & Y).
        apply andb_true_iff in Y as [Y Z]. rewrite (unique_l eL eR EL ER P l x y) in X; auto. congruence.
  Qed.
  Lemma of_r : forall P r x, pb P -> find_r eR P r = Some x ->
    In x P /\ has_r eR r x = true /\ cr P r = true /\ forall a, rel P a r = has_l eL a x.
  Proof.
    intros P l x B F. apply find_some in F as [I H]. split; auto. split; auto. split.
    - apply existsb_exists; eauto.
    - intros b. destruct (has_l eL b x) eqn:X.
      + apply existsb_exists. exists x. rewrite H, X. auto.
      + destruct (rel P b l) eqn:Y; auto. apply existsb_exists in Y as (y & J & Y).
        apply andb_true_iff in Y as [Y Z]. rewrite (unique_r eL eR EL ER P l x y) in X; auto. congruence.
  Qed.
  Lemma none_l : forall P l, find_l eL P l = None -> cl P l = false.
  Proof.
    intros P l F. destruct (cl P l) eqn:X; auto. apply existsb_exists in X as (x & I & X).
    assert (Z := find_none _ _ F x I). simpl in Z. congruence.
  Qed.
  Lemma none_r : forall P r, find_r eR P r = None -> cr P r = false.
  Proof.
    intros P l F. destruct (cr P l) eqn:X; auto. apply existsb_exists in X as (x & I & X).
    assert (Z := find_none _ _ F x I). simpl in Z. congruence.
  Qed.
  Lemma rel_one : forall P a a' b b', pb P -> rel P a b = true -> rel P a' b' = true -> eL a a' = eR b b'.
  Proof.
    intros P a a' b b' B H H'. apply existsb_exists in H as (x & I & H), H' as (y & J & H').
    apply andb_true_iff in H as [X Y], H' as [X' Y'].
    destruct (eL a a') eqn:A, (eR b b') eqn:C; auto.
    - rewrite (has_l_swap a a' x A) in X. assert (x = y) as <- by (eapply (unique_l eL eR); eauto).
      rewrite (has_r_eq b b' x Y') in Y. congruence.
    - rewrite (has_r_swap b b' x C) in Y. assert (x = y) as <- by (eapply (unique_r eL eR); eauto).
      rewrite (has_l_eq a a' x X') in X. congruence.
  Qed.

  (* filtering: every entry with the feature g is treated alike *)
  Lemma existsb_filter : forall (g f : entry -> bool) P c,
    (forall x, In x P -> g x = true -> f x = c) -> existsb g (filter f P) = c && existsb g P.
  Proof.
    induction P as [|x P IH]; intros c H; [symmetry; apply andb_false_r|].
    assert (IH' := IH c (fun y I => H y (or_intror I))). assert (H' := H x (or_introl eq_refl)).
    simpl. destruct (g x) eqn:G; simpl.
    - rewrite (H' eq_refl). destruct c; simpl; [rewrite G; auto|]. rewrite IH'. auto.
    - destruct (f x); simpl; rewrite ?G; simpl; auto.
  Qed.
  Lemma rel_del_l : forall P l a b, rel (del_l eL P l) a b = negb (eL l a) && rel P a b.
  Proof.
    intros. apply existsb_filter. intros x _ G. apply andb_true_iff in G as [G _]. f_equal. apply has_l_eq; auto.
  Qed.
  Lemma rel_del_r : forall P r a b, rel (del_r eR P r) a b = negb (eR r b) && rel P a b.
  Proof.
    intros. apply existsb_filter. intros x _ G. apply andb_true_iff in G as [_ G]. f_equal. apply has_r_eq; auto.
  Qed.
  Lemma cl_del_l : forall P l a, cl (del_l eL P l) a = negb (eL l a) && cl P a.
  Proof. intros. apply existsb_filter. intros x _ G. f_equal. apply has_l_eq; auto. Qed.
  Lemma cr_del_r : forall P r b, cr (del_r eR P r) b = negb (eR r b) && cr P b.
  Proof. intros. apply existsb_filter. intros x _ G. f_equal. apply has_r_eq; auto. Qed.
  Lemma cr_del_l : forall P l b, pb P -> cr (del_l eL P l) b = negb (rel P l b) && cr P b.
  Proof.
    intros P l b B. apply existsb_filter. intros x I G. f_equal.
    destruct (rel P l b) eqn:X.
    - apply existsb_exists in X as (y & J & X). apply andb_true_iff in X as [X Y].
      rewrite (unique_r eL eR EL ER P b x y); auto.
    - destruct (has_l eL l x) eqn:Y; auto. rewrite <- X. symmetry. apply existsb_exists. exists x. rewrite Y, G. auto.
  Qed.
  Lemma cl_del_r : forall P r a, pb P -> cl (del_r eR P r) a = negb (rel P a r) && cl P a.
  Proof.
    intros P r a B. apply existsb_filter. intros x I G. f_equal.
    destruct (rel P a r) eqn:X.
    - apply existsb_exists in X as (y & J & X). apply andb_true_iff in X as [X Y].
      rewrite (unique_l eL eR EL ER P a x y); auto.
    - destruct (has_r eR r x) eqn:Y; auto. rewrite <- X. symmetry. apply existsb_exists. exists x. rewrite Y, G. auto.
  Qed.
  Lemma pb_del_l : forall P l, pb P -> pb (del_l eL P l).
  Proof. intros. apply pb_filter; auto. Qed.
  Lemma pb_del_r : forall P r, pb P -> pb (del_r eR P r).
  Proof. intros. apply pb_filter; auto. Qed.

  (* each call as a formula *)
  Definition is P (f : L -> bool) (g : R -> bool) (h : L -> R -> bool) : Prop :=
    (forall a, cl P a = f a) /\ (forall b, cr P b = g b) /\ (forall a b, rel P a b = h a b).

  Ltac dels := rewrite ?rel_del_r, ?rel_del_l, ?cl_del_l, ?cr_del_r, ?cr_del_l, ?cl_del_r, ?rel_del_r, ?rel_del_l,
    ?cl_del_l, ?cr_del_r by auto using pb_del_l, pb_del_r.

  Lemma is_del_l : forall P l, pb P ->
    is (del_l eL P l) (fun a => negb (eL l a) && cl P a) (fun b => negb (rel P l b) && cr P b)
       (fun a b => negb (eL l a) && rel P a b).
  Proof. intros P l B. repeat split; intros; dels; auto. Qed.
  Lemma is_del_r : forall P r, pb P ->
    is (del_r eR P r) (fun a => negb (rel P a r) && cl P a) (fun b => negb (eR r b) && cr P b)
       (fun a b => negb (eR r b) && rel P a b).
  Proof. intros P l B. repeat split; intros; dels; auto. Qed.
  (* the entries besides those of l and r *)
  Lemma is_rest : forall P l r, pb P ->
    is (del_r eR (del_l eL P l) r) (fun a => negb (eL l a) && negb (rel P a r) && cl P a)
       (fun b => negb (eR r b) && negb (rel P l b) && cr P b)
       (fun a b => negb (eL l a) && negb (eR r b) && rel P a b).
  Proof.
    intros P l r B. repeat split; intros; dels.
    - destruct (eL l a), (rel P a r), (cl P a); auto.
    - destruct (eR r b), (rel P l b), (cr P b); auto.
    - destruct (eL l a), (eR r b), (rel P a b); auto.
  Qed.
  Lemma cl_app : forall P Q a, cl (P ++ Q) a = cl P a || cl Q a.
  Proof. intros. apply existsb_app. Qed.
  Lemma cr_app : forall P Q b, cr (P ++ Q) b = cr P b || cr Q b.
  Proof. intros. apply existsb_app. Qed.
  Lemma rel_app : forall P Q a b, rel (P ++ Q) a b = rel P a b || rel Q a b.
  Proof. intros. apply existsb_app. Qed.
  Lemma one_both : forall l r a b, cl [SomeBoth l r] a = eL l a /\ cr [SomeBoth l r] b = eR r b /\
    rel [SomeBoth l r] a b = eL l a && eR r b.
  Proof.
    intros. unfold s_contains_left, s_contains_right, s_are_paired, has_l, has_r. simpl.
    rewrite !orb_false_r, (eqb_sym eL EL a), (eqb_sym eR ER b). auto.
  Qed.
  Lemma one_left : forall l a b, cl [SomeLeft l : entry] a = eL l a /\ cr [SomeLeft l : entry] b = false /\
    rel [SomeLeft l] a b = false.
  Proof.
    intros. unfold s_contains_left, s_contains_right, s_are_paired, has_l, has_r. simpl.
    rewrite !orb_false_r, (eqb_sym eL EL a), !andb_false_r. auto.
  Qed.
  Lemma one_right : forall r a b, cl [SomeRight r : entry] a = false /\ cr [SomeRight r : entry] b = eR r b /\
    rel [SomeRight r] a b = false.
  Proof.
    intros. unfold s_contains_left, s_contains_right, s_are_paired, has_l, has_r. simpl.
    rewrite !orb_false_r, (eqb_sym eR ER b). auto.
  Qed.

  Lemma is_insert : forall P l r, pb P ->
    is (s_insert eL eR P l r) (fun a => eL l a || negb (rel P a r) && cl P a)
       (fun b => eR r b || negb (rel P l b) && cr P b)
       (fun a b => eL l a && eR r b || negb (eL l a) && negb (eR r b) && rel P a b).
  Proof.
    intros P l r B. unfold s_insert. change (SomeBoth l r :: ?Q) with ([SomeBoth l r] ++ Q).
    destruct (is_rest P l r B) as (X & Y & Z).
    repeat split; intros; rewrite ?cl_app, ?cr_app, ?rel_app, ?X, ?Y, ?Z.
    - rewrite (proj1 (one_both l r a r)). destruct (eL l a); auto.
    - rewrite (proj1 (proj2 (one_both l r l b))). destruct (eR r b); auto.
    - rewrite (proj2 (proj2 (one_both l r a b))). auto.
  Qed.
  Lemma is_insert_left : forall P l, pb P ->
    is (s_insert_left eL P l) (fun a => eL l a || cl P a) (fun b => negb (rel P l b) && cr P b)
       (fun a b => negb (eL l a) && rel P a b).
  Proof.
    intros P l B. unfold s_insert_left. change (SomeLeft l :: ?Q) with ([SomeLeft l] ++ Q).
    destruct (is_del_l P l B) as (X & Y & Z).
    repeat split; intros; rewrite ?cl_app, ?cr_app, ?rel_app, ?X, ?Y, ?Z.
    - unfold s_contains_left at 1, has_l at 1. simpl. rewrite (eqb_sym eL EL a). destruct (eL l a); auto.
    - reflexivity.
    - unfold s_are_paired at 1, has_l at 1, has_r at 1. simpl. rewrite andb_false_r. auto.
  Qed.
  Lemma is_insert_right : forall P r, pb P ->
    is (s_insert_right eR P r) (fun a => negb (rel P a r) && cl P a) (fun b => eR r b || cr P b)
       (fun a b => negb (eR r b) && rel P a b).
  Proof.
    intros P l B. unfold s_insert_right. change (SomeRight l :: ?Q) with ([SomeRight l] ++ Q).
    destruct (is_del_r P l B) as (X & Y & Z).
    repeat split; intros; rewrite ?cl_app, ?cr_app, ?rel_app, ?X, ?Y, ?Z.
    - reflexivity.
    - unfold s_contains_right at 1, has_r at 1. simpl. rewrite (eqb_sym eR ER b). destruct (eR l b); auto.
    - reflexivity.
  Qed.

  (* an item whose entry is x *)
  Lemma left_of : forall l x, has_l eL l x = true -> exists a, op_get_left x = Some a /\ eL l a = true.
  Proof. unfold has_l. intros l x H. destruct (op_get_left x); [eauto|discriminate]. Qed.
  Lemma right_of : forall r x, has_r eR r x = true -> exists b, op_get_right x = Some b /\ eR r b = true.
  Proof. unfold has_r. intros l x H. destruct (op_get_right x); [eauto|discriminate]. Qed.

  Lemma is_pair : forall P l r, pb P ->
    is (s_pair eL eR P l r) (cl P) (cr P)
       (fun a b => rel P a b || s_pair_out eL eR P l r && eL l a && eR r b) /\
    s_pair_out eL eR P l r = cl P l && cr P r && negb (s_is_left_paired eL P l) && negb (s_is_right_paired eR P r).
  Proof.
    intros P l r B. unfold s_pair, s_pair_out.
    assert (NL : forall x, find_l eL P l = Some x -> s_is_left_paired eL P l = is_both x).
    { intros x F. destruct (of_l P l x B F) as (I & H & _). unfold s_is_left_paired.
      destruct (is_both x) eqn:X.
      - apply existsb_exists. exists x. rewrite H, X. auto.
      - apply existsb_false. intros y J. destruct (has_l eL l y) eqn:Y; auto.
        rewrite <- (unique_l eL eR EL ER P l x y); auto. }
    assert (NR : forall x, find_r eR P r = Some x -> s_is_right_paired eR P r = is_both x).
    { intros x F. destruct (of_r P r x B F) as (I & H & _). unfold s_is_right_paired.
      destruct (is_both x) eqn:X.
      - apply existsb_exists. exists x. rewrite H, X. auto.
      - apply existsb_false. intros y J. destruct (has_r eR r y) eqn:Y; auto.
        rewrite <- (unique_r eL eR EL ER P r x y); auto. }
    destruct (find_l eL P l) as [x|] eqn:F.
    2:{ split; [repeat split; intros; simpl; rewrite ?orb_false_r; auto|]. rewrite (none_l P l F). auto. }
    destruct (of_l P l x B F) as (I & H & C & RL). rewrite C, (NL x eq_refl).
    destruct (find_r eR P r) as [y|] eqn:G.
    2:{ split; [destruct x; repeat split; intros; simpl; rewrite ?orb_false_r; auto|].
        rewrite (none_r P r G). destruct x; auto. }
    destruct (of_r P r y B G) as (J & H' & C' & RR). rewrite C', (NR y eq_refl).
    destruct (left_of l x H) as (a' & A1 & A2), (right_of r y H') as (b' & B1 & B2).
    destruct x as [|x1|x2|x1 x2], y as [|y1|y2|y1 y2]; simpl in A1, B1; try discriminate;
      (split; [|reflexivity]);
      try (match goal with |- is P _ _ _ => repeat split; intros; simpl; rewrite ?orb_false_r; auto end).
    repeat split; intros.
    - injection A1 as ->. injection B1 as ->.
      change (SomeBoth a' b' :: ?Q) with ([SomeBoth a' b'] ++ Q). destruct (is_rest P l r B) as (X & _).
      rewrite cl_app, X, (proj1 (one_both a' b' a b')). rewrite <- (eqb_replace_l eL EL l a' a A2), RR. simpl.
      destruct (eL l a) eqn:Z; simpl; auto. rewrite <- (cl_swap P l a Z). auto.
    - injection A1 as ->. injection B1 as ->.
      change (SomeBoth a' b' :: ?Q) with ([SomeBoth a' b'] ++ Q). destruct (is_rest P l r B) as (_ & X & _).
      rewrite cr_app, X, (proj1 (proj2 (one_both a' b' a' b))). rewrite <- (eqb_replace_l eR ER r b' b B2), RL. simpl.
      destruct (eR r b) eqn:Z; simpl; auto. rewrite <- (cr_swap P r b Z). auto.
    - injection A1 as ->. injection B1 as ->.
      change (SomeBoth a' b' :: ?Q) with ([SomeBoth a' b'] ++ Q). destruct (is_rest P l r B) as (_ & _ & X).
      rewrite rel_app, X, (proj2 (proj2 (one_both a' b' a b))).
      rewrite <- (eqb_replace_l eL EL l a' a A2), <- (eqb_replace_l eR ER r b' b B2).
      destruct (eL l a) eqn:Z; simpl.
      + rewrite <- (rel_swap_l P l a b Z), RL. unfold has_r. simpl. rewrite orb_false_r. auto.
      + destruct (eR r b) eqn:W; simpl; rewrite ?orb_false_r; auto.
        rewrite <- (rel_swap_r P a r b W), RR. auto.
  Qed.

  Lemma is_pair_forced : forall P l r, pb P ->
    is (s_pair_forced eL eR P l r) (cl P) (cr P)
       (fun a b => if cl P l && cr P r then eL l a && eR r b || negb (eL l a) && negb (eR r b) && rel P a b
                   else rel P a b).
  Proof.
    intros P l r B. unfold s_pair_forced.
    destruct (find_l eL P l) as [x|] eqn:F.
    2:{ rewrite (none_l P l F). repeat split; auto. }
    destruct (of_l P l x B F) as (I & H & C & RL). rewrite C.
    destruct (find_r eR P r) as [y|] eqn:G.
    2:{ rewrite (none_r P r G). repeat split; auto. }
    destruct (of_r P r y B G) as (J & H' & C' & RR). rewrite C'. simpl.
    destruct (has_r eR r x) eqn:X.
    - repeat split; auto. intros. destruct (rel P a b) eqn:Y.
      + rewrite <- RL in X. rewrite (rel_one P l a r b B X Y). destruct (eR r b); auto.
      + destruct (eL l a) eqn:Z, (eR r b) eqn:W; auto. rewrite <- RL in X.
        rewrite (rel_swap_l P l a r Z), (rel_swap_r P a r b W) in X. congruence.
    - destruct (left_of l x H) as (a' & A1 & A2), (right_of r y H') as (b' & B1 & B2).
      unfold join. rewrite A1, B1. destruct (is_rest P l r B) as (X1 & X2 & X3).
      assert (WL : forall a b, cl (without_left x) a = false /\ rel (without_left x) a b = false /\
                               cr (without_left x) b = rel P l b).
      { intros a b. rewrite RL. unfold without_left, has_r. destruct (op_get_right x) as [z|]; auto.
        destruct (one_right z a b) as (Y1 & -> & Y3). rewrite (eqb_sym eR ER z). auto. }
      assert (WR : forall a b, cr (without_right y) b = false /\ rel (without_right y) a b = false /\
                               cl (without_right y) a = rel P a r).
      { intros a b. rewrite RR. unfold without_right, has_l. destruct (op_get_left y) as [z|]; auto.
        destruct (one_left z a b) as (-> & Y2 & Y3). rewrite (eqb_sym eL EL z). auto. }
      repeat split; intros; rewrite ?cl_app, ?cr_app, ?rel_app, ?X1, ?X2, ?X3.
      + destruct (WL a r) as (-> & _ & _), (WR a r) as (_ & _ & ->). rewrite (proj1 (one_both a' b' a r)).
        rewrite <- (eqb_replace_l eL EL l a' a A2). destruct (eL l a) eqn:Z; simpl.
        * rewrite <- (cl_swap P l a Z). auto.
        * destruct (rel P a r) eqn:W; simpl; auto. apply rel_cl in W. auto.
      + destruct (WL l b) as (_ & _ & ->), (WR l b) as (-> & _ & _). rewrite (proj1 (proj2 (one_both a' b' l b))).
        rewrite <- (eqb_replace_l eR ER r b' b B2). destruct (eR r b) eqn:Z; simpl.
        * rewrite <- (cr_swap P r b Z). auto.
        * destruct (rel P l b) eqn:W; simpl; auto. apply rel_cr in W. auto.
      + destruct (WL a b) as (_ & -> & _), (WR a b) as (_ & -> & _). rewrite (proj2 (proj2 (one_both a' b' a b))).
        rewrite <- (eqb_replace_l eL EL l a' a A2), <- (eqb_replace_l eR ER r b' b B2). auto.
  Qed.
  Lemma is_pair_forced_remove : forall P l r, pb P -> cl P l && cr P r = true ->
    is (s_pair_forced_remove eL eR P l r) (fun a => eL l a || negb (rel P a r) && cl P a)
       (fun b => eR r b || negb (rel P l b) && cr P b)
       (fun a b => eL l a && eR r b || negb (eL l a) && negb (eR r b) && rel P a b).
  Proof.
    intros P l r B CC. unfold s_pair_forced_remove.
    destruct (find_l eL P l) as [x|] eqn:F; [|rewrite (none_l P l F) in CC; discriminate].
    destruct (of_l P l x B F) as (I & H & C & RL).
    destruct (find_r eR P r) as [y|] eqn:G; [|rewrite (none_r P r G), andb_false_r in CC; discriminate].
    destruct (of_r P r y B G) as (J & H' & C' & RR).
    destruct (has_r eR r x) eqn:X.
    - rewrite <- RL in X. repeat split; intros.
      + destruct (eL l a) eqn:Z; [rewrite <- (cl_swap P l a Z); auto|]. simpl.
        destruct (rel P a r) eqn:W; auto. rewrite (rel_one P l a r r B X W), (equiv_refl _ ER) in Z. discriminate.
      + destruct (eR r b) eqn:Z; [rewrite <- (cr_swap P r b Z); auto|]. simpl.
        destruct (rel P l b) eqn:W; auto. rewrite <- (rel_one P l l r b B X W), (equiv_refl _ EL) in Z. discriminate.
      + destruct (rel P a b) eqn:Y.
        * rewrite (rel_one P l a r b B X Y). destruct (eR r b); auto.
        * destruct (eL l a) eqn:Z, (eR r b) eqn:W; auto.
          rewrite (rel_swap_l P l a r Z), (rel_swap_r P a r b W) in X. congruence.
    - destruct (left_of l x H) as (a' & A1 & A2), (right_of r y H') as (b' & B1 & B2).
      unfold join. rewrite A1, B1. destruct (is_rest P l r B) as (X1 & X2 & X3).
      repeat split; intros; rewrite ?cl_app, ?cr_app, ?rel_app, ?X1, ?X2, ?X3.
      + rewrite (proj1 (one_both a' b' a r)), <- (eqb_replace_l eL EL l a' a A2). destruct (eL l a); auto.
      + rewrite (proj1 (proj2 (one_both a' b' l b))), <- (eqb_replace_l eR ER r b' b B2). destruct (eR r b); auto.
      + rewrite (proj2 (proj2 (one_both a' b' a b))), <- (eqb_replace_l eL EL l a' a A2),
          <- (eqb_replace_l eR ER r b' b B2). auto.
  Qed.
  Lemma forced_remove_absent : forall P l r, cl P l && cr P r = false -> s_pair_forced_remove eL eR P l r = P.
  Proof.
    intros P l r H. unfold s_pair_forced_remove, find_l, find_r.
    destruct (find (has_l eL l) P) as [x|] eqn:F; auto. destruct (find (has_r eR r) P) as [y|] eqn:G; auto.
    apply find_some in F as [F1 F2], G as [G1 G2].
    assert (cl P l = true) by (apply existsb_exists; eauto). assert (cr P r = true) by (apply existsb_exists; eauto).
    rewrite H0, H1 in H. discriminate.
  Qed.
  Lemma is_unpair : forall P l r, pb P ->
    is (s_unpair eL eR P l r) (cl P) (cr P) (fun a b => negb (eL l a && eR r b) && rel P a b).
  Proof.
    intros P l r B. unfold s_unpair. destruct (find_l eL P l) as [x|] eqn:F.
    - destruct (of_l P l x B F) as (I & H & C & RL). destruct (left_of l x H) as (a' & A1 & A2).
      destruct (has_r eR r x) eqn:X.
      + destruct (right_of r x X) as (b' & B1 & B2). unfold without_right, without_left. rewrite A1, B1.
        destruct (is_del_l P l B) as (X1 & X2 & X3).
        repeat split; intros; rewrite ?cl_app, ?cr_app, ?rel_app, ?X1, ?X2, ?X3.
        * rewrite (proj1 (one_left a' a r)), (proj1 (one_right b' a r)), <- (eqb_replace_l eL EL l a' a A2).
          destruct (eL l a) eqn:Z; simpl; auto. rewrite <- (cl_swap P l a Z). auto.
        * rewrite (proj1 (proj2 (one_left a' a' b))), (proj1 (proj2 (one_right b' a' b))), RL.
          unfold has_r. rewrite B1, (eqb_sym eR ER b b'). simpl. destruct (eR b' b) eqn:Z; simpl; auto.
          symmetry. apply (rel_cr P l). rewrite RL. unfold has_r. rewrite B1, (eqb_sym eR ER); auto.
        * rewrite (proj2 (proj2 (one_left a' a b))), (proj2 (proj2 (one_right b' a b))). simpl.
          destruct (rel P a b) eqn:Y; [|rewrite !andb_false_r; auto]. rewrite <- RL in X.
          rewrite (rel_one P l a r b B X Y), andb_diag. auto.
      + repeat split; auto. intros. destruct (eL l a) eqn:Z, (eR r b) eqn:W; simpl; auto.
        rewrite <- (rel_swap_l P l a b Z), <- (rel_swap_r P l r b W), RL. auto.
    - repeat split; auto. intros. destruct (eL l a) eqn:Z; simpl; auto.
      rewrite <- (rel_swap_l P l a b Z), (absent_l P l b (none_l P l F)), andb_false_r. auto.
  Qed.
  Lemma is_remove_left : forall P l, pb P ->
    is (s_remove_left eL P l) (fun a => negb (eL l a) && cl P a) (cr P) (fun a b => negb (eL l a) && rel P a b).
  Proof.
    intros P l B. unfold s_remove_left. destruct (find_l eL P l) as [x|] eqn:F.
    - destruct (of_l P l x B F) as (I & H & C & RL). destruct (is_del_l P l B) as (X1 & X2 & X3).
      unfold without_left. unfold has_r in RL. destruct (op_get_right x) as [b'|] eqn:G.
      + repeat split; intros; rewrite ?cl_app, ?cr_app, ?rel_app, ?X1, ?X2, ?X3.
        * rewrite (proj1 (one_right b' a b')). auto.
        * rewrite (proj1 (proj2 (one_right b' l b))), (eqb_sym eR ER). destruct (rel P l b) eqn:Z; rewrite <- RL, Z; auto.
          apply rel_cr in Z. auto.
        * rewrite (proj2 (proj2 (one_right b' a b))). auto.
      + simpl. repeat split; auto. intros. rewrite X2, RL. auto.
    - assert (Z : forall a, eL l a = true -> cl P a = false).
      { intros a Z. rewrite <- (cl_swap P l a Z). apply none_l; auto. }
      repeat split; auto; intros; destruct (eL l a) eqn:W; simpl; auto. apply absent_l; auto.
  Qed.
  Lemma is_remove_right : forall P r, pb P ->
    is (s_remove_right eR P r) (cl P) (fun b => negb (eR r b) && cr P b) (fun a b => negb (eR r b) && rel P a b).
  Proof.
    intros P l B. unfold s_remove_right. destruct (find_r eR P l) as [x|] eqn:F.
    - destruct (of_r P l x B F) as (I & H & C & RL). destruct (is_del_r P l B) as (X1 & X2 & X3).
      unfold without_right. unfold has_l in RL. destruct (op_get_left x) as [b'|] eqn:G.
      + repeat split; intros; rewrite ?cl_app, ?cr_app, ?rel_app, ?X1, ?X2, ?X3.
        * rewrite (proj1 (one_left b' a l)), (eqb_sym eL EL). destruct (rel P a l) eqn:Z; rewrite <- RL, Z; auto.
          apply rel_cl in Z. auto.
        * rewrite (proj1 (proj2 (one_left b' b' b))). auto.
        * rewrite (proj2 (proj2 (one_left b' a b))). auto.
      + simpl. repeat split; auto. intros. rewrite X1, RL. auto.
    - assert (Z : forall b, eR l b = true -> cr P b = false).
      { intros a Z. rewrite <- (cr_swap P l a Z). apply none_r; auto. }
      repeat split; auto; intros; destruct (eR l b) eqn:W; simpl; auto. apply absent_r; auto.
  Qed.
  Lemma is_remove : forall P l r, pb P ->
    is (s_remove eL eR P l r) (fun a => negb (eL l a && rel P l r) && cl P a)
       (fun b => negb (eR r b && rel P l r) && cr P b) (fun a b => negb (eL l a && eR r b) && rel P a b).
  Proof.
    intros P l r B. unfold s_remove. destruct (rel P l r) eqn:X.
    - destruct (is_del_l P l B) as (X1 & X2 & X3). repeat split; intros; rewrite ?X1, ?X2, ?X3, ?andb_true_r; auto.
      + destruct (rel P l b) eqn:Y.
        * rewrite <- (rel_one P l l r b B X Y), (equiv_refl _ EL). auto.
        * destruct (eR r b) eqn:W; auto. rewrite (rel_swap_r P l r b W) in X. congruence.
      + destruct (rel P a b) eqn:Y; [|rewrite !andb_false_r; auto].
        rewrite (rel_one P l a r b B X Y), andb_diag. auto.
    - repeat split; intros; rewrite ?andb_false_r; auto.
      destruct (eL l a) eqn:Z, (eR r b) eqn:W; simpl; auto.
      rewrite <- (rel_swap_l P l a b Z), <- (rel_swap_r P l r b W). auto.
  Qed.
  Lemma is_swap_left : forall P old new, pb P ->
    is (s_swap_left eL P old new) (fun a => eL new a && cl P old || negb (eL new a) && negb (eL old a) && cl P a)
       (fun b => (eL new old || negb (rel P new b)) && cr P b)
       (fun a b => eL new a && rel P old b || negb (eL new a) && negb (eL old a) && rel P a b).
  Proof.
    intros P old new B. unfold s_swap_left, s_swap_left_base.
    set (D := if eL new old then P else del_l eL P new).
    assert (PD : pb D) by (unfold D; destruct (eL new old); auto using pb_del_l).
    assert (ID : is D (fun a => (eL new old || negb (eL new a)) && cl P a)
                      (fun b => (eL new old || negb (rel P new b)) && cr P b)
                      (fun a b => (eL new old || negb (eL new a)) && rel P a b)).
    { unfold D. destruct (eL new old); [repeat split; auto|]. exact (is_del_l P new B). }
    destruct ID as (D1 & D2 & D3). destruct (find_l eL P old) as [x|] eqn:F.
    - destruct (of_l P old x B F) as (I & H & C & RL). destruct (left_of old x H) as (a' & A1 & A2).
      change (set_l new x :: ?Q) with ([set_l new x] ++ Q).
      destruct (is_del_l D old PD) as (X1 & X2 & X3).
      assert (S1 : forall a, cl [set_l new x] a = eL new a).
      { intros a. destruct x as [|x1|x2|x1 x2]; simpl in A1; try discriminate; unfold s_contains_left, has_l; simpl;
          rewrite orb_false_r; apply (eqb_sym eL EL). }
      assert (S2 : forall b, cr [set_l new x] b = rel P old b).
      { intros b. rewrite RL. destruct x as [|x1|x2|x1 x2]; simpl in A1; try discriminate;
          unfold s_contains_right, has_r; simpl; rewrite ?orb_false_r; auto. }
      assert (S3 : forall a b, rel [set_l new x] a b = eL new a && rel P old b).
      { intros a b. rewrite RL. destruct x as [|x1|x2|x1 x2]; simpl in A1; try discriminate;
          unfold s_are_paired, has_l, has_r; simpl; rewrite orb_false_r, (eqb_sym eL EL a); auto. }
      repeat split; intros; rewrite ?cl_app, ?cr_app, ?rel_app, ?X1, ?X2, ?X3, ?D1, ?D2, ?D3, ?S1, ?S2, ?S3.
      + rewrite C. destruct (eL new a) eqn:Z; simpl; auto. rewrite orb_true_r. simpl. auto.
      + destruct (eL new old) eqn:W; simpl.
        * destruct (rel P old b) eqn:Y; simpl; auto. apply rel_cr in Y. auto.
        * destruct (rel P old b) eqn:Y; simpl; auto. rewrite (rel_cr P old b Y), andb_true_r.
          destruct (rel P new b) eqn:Z; auto. rewrite (rel_one P new old b b B Z Y), (equiv_refl _ ER) in W. discriminate.
      + destruct (eL new a) eqn:Z; simpl; auto.
        * rewrite orb_false_r. destruct (eL new old) eqn:W; simpl; rewrite ?andb_false_r, ?orb_false_r; auto.
          rewrite <- (eqb_replace_l eL EL new old a W), Z. simpl. rewrite orb_false_r. auto.
        * rewrite orb_true_r. auto.
    - assert (Z : forall a, eL old a = true -> cl P a = false).
      { intros a Z. rewrite <- (cl_swap P old a Z). apply none_l; auto. }
      assert (ZZ := none_l P old F).
      repeat split; intros; rewrite ?D1, ?D2, ?D3, ?ZZ, ?(absent_l P old _ ZZ), ?andb_false_r; simpl; auto.
      + destruct (cl P a) eqn:Y; [|rewrite !andb_false_r; auto]. destruct (eL old a) eqn:W; [rewrite Z in Y; auto; discriminate|].
        destruct (eL new a) eqn:V; simpl; rewrite ?orb_true_r; auto. rewrite (eqb_replace_l eL EL new a old V), (eqb_sym eL EL a), W. auto.
      + destruct (rel P a b) eqn:Y; [|rewrite !andb_false_r; auto]. assert (Y' := rel_cl P a b Y).
        destruct (eL old a) eqn:W; [rewrite Z in Y'; auto; discriminate|].
        destruct (eL new a) eqn:V; simpl; rewrite ?orb_true_r; auto. rewrite (eqb_replace_l eL EL new a old V), (eqb_sym eL EL a), W. auto.
  Qed.
  Lemma is_swap_right : forall P (old new : R), pb P ->
    is (s_swap_right eR P old new) (fun a => (eR new old || negb (rel P a new)) && cl P a)
       (fun b => eR new b && cr P old || negb (eR new b) && negb (eR old b) && cr P b)
       (fun a b => eR new b && rel P a old || negb (eR new b) && negb (eR old b) && rel P a b).
  Proof.
    intros P old new B. unfold s_swap_right, s_swap_right_base.
    set (D := if eR new old then P else del_r eR P new).
    assert (PD : pb D) by (unfold D; destruct (eR new old); auto using pb_del_r).
    assert (ID : is D (fun a => (eR new old || negb (rel P a new)) && cl P a)
                      (fun b => (eR new old || negb (eR new b)) && cr P b)
                      (fun a b => (eR new old || negb (eR new b)) && rel P a b)).
    { unfold D. destruct (eR new old); [repeat split; auto|]. exact (is_del_r P new B). }
    destruct ID as (D1 & D2 & D3). destruct (find_r eR P old) as [x|] eqn:F.
    - destruct (of_r P old x B F) as (I & H & C & RL). destruct (right_of old x H) as (a' & A1 & A2).
      change (set_r new x :: ?Q) with ([set_r new x] ++ Q).
      destruct (is_del_r D old PD) as (X1 & X2 & X3).
      assert (S1 : forall b, cr [set_r new x] b = eR new b).
      { intros b. destruct x as [|x1|x2|x1 x2]; simpl in A1; try discriminate; unfold s_contains_right, has_r; simpl;
          rewrite orb_false_r; apply (eqb_sym eR ER). }
      assert (S2 : forall a, cl [set_r new x] a = rel P a old).
      { intros b. rewrite RL. destruct x as [|x1|x2|x1 x2]; simpl in A1; try discriminate;
          unfold s_contains_left, has_l; simpl; rewrite ?orb_false_r; auto. }
      assert (S3 : forall a b, rel [set_r new x] a b = eR new b && rel P a old).
      { intros a b. rewrite RL. destruct x as [|x1|x2|x1 x2]; simpl in A1; try discriminate;
          unfold s_are_paired, has_l, has_r; simpl; rewrite ?(eqb_sym eR ER b new); destruct (eR new b); simpl; rewrite ?andb_true_r, ?andb_false_r, ?orb_false_r; auto. }
      repeat split; intros; rewrite ?cl_app, ?cr_app, ?rel_app, ?X1, ?X2, ?X3, ?D1, ?D2, ?D3, ?S1, ?S2, ?S3.
      + destruct (eR new old) eqn:W; simpl.
        * destruct (rel P a old) eqn:Y; simpl; auto. apply rel_cl in Y. auto.
        * destruct (rel P a old) eqn:Y; simpl; auto. rewrite (rel_cl P a old Y), andb_true_r.
          destruct (rel P a new) eqn:Z; auto. rewrite <- (rel_one P a a new old B Z Y), (equiv_refl _ EL) in W. discriminate.
      + rewrite C. destruct (eR new b) eqn:Z; simpl; auto. rewrite orb_true_r. simpl. auto.
      + destruct (eR new b) eqn:Z; simpl; auto.
        * rewrite orb_false_r. destruct (eR new old) eqn:W; simpl; rewrite ?andb_false_r, ?orb_false_r; auto.
          rewrite <- (eqb_replace_l eR ER new old b W), Z. simpl. rewrite orb_false_r. auto.
        * rewrite orb_true_r. auto.
    - assert (Z : forall b, eR old b = true -> cr P b = false).
      { intros a Z. rewrite <- (cr_swap P old a Z). apply none_r; auto. }
      assert (ZZ := none_r P old F).
      repeat split; intros; rewrite ?D1, ?D2, ?D3, ?ZZ, ?(absent_r P _ old ZZ), ?andb_false_r; simpl; auto.
      + destruct (cr P b) eqn:Y; [|rewrite !andb_false_r; auto]. destruct (eR old b) eqn:W; [rewrite Z in Y; auto; discriminate|].
        destruct (eR new b) eqn:V; simpl; rewrite ?orb_true_r; auto. rewrite (eqb_replace_l eR ER new b old V), (eqb_sym eR ER b), W. auto.
      + destruct (rel P a b) eqn:Y; [|rewrite !andb_false_r; auto]. assert (Y' := rel_cr P a b Y).
        destruct (eR old b) eqn:W; [rewrite Z in Y'; auto; discriminate|].
        destruct (eR new b) eqn:V; simpl; rewrite ?orb_true_r; auto. rewrite (eqb_replace_l eR ER new b old V), (eqb_sym eR ER b), W. auto.
  Qed.
End Rel.

(* ---- the three lookups, and what each call does to them ---- *)
Section Looks.
  Context {L R : Type}.
  Variables (eL : L -> L -> bool) (eR : R -> R -> bool).
  Hypothesis EL : equivalence eL.
  Hypothesis ER : equivalence eR.
  Notation entry := (optional_pair L R).
  Notation pb := (partial_bijection eL eR).

  Record looks := Looks { onl : L -> bool; onr : R -> bool; tie : L -> R -> bool }.
  Definition alike (T U : looks) : Prop :=
    (forall a, onl T a = onl U a) /\ (forall b, onr T b = onr U b) /\ (forall a b, tie T a b = tie U a b).
  Definition look (P : list entry) : looks :=
    Looks (s_contains_left eL P) (s_contains_right eR P) (s_are_paired eL eR P).

  Definition t_insert l r (T : looks) : looks :=
    Looks (fun a => eL l a || negb (tie T a r) && onl T a) (fun b => eR r b || negb (tie T l b) && onr T b)
          (fun a b => eL l a && eR r b || negb (eL l a) && negb (eR r b) && tie T a b).
  Definition t_insert_left l (T : looks) : looks :=
    Looks (fun a => eL l a || onl T a) (fun b => negb (tie T l b) && onr T b) (fun a b => negb (eL l a) && tie T a b).
  Definition t_insert_right r (T : looks) : looks :=
    Looks (fun a => negb (tie T a r) && onl T a) (fun b => eR r b || onr T b) (fun a b => negb (eR r b) && tie T a b).
  Definition t_del_l l (T : looks) : looks :=
    Looks (fun a => negb (eL l a) && onl T a) (fun b => negb (tie T l b) && onr T b)
          (fun a b => negb (eL l a) && tie T a b).
  Definition t_del_r r (T : looks) : looks :=
    Looks (fun a => negb (tie T a r) && onl T a) (fun b => negb (eR r b) && onr T b)
          (fun a b => negb (eR r b) && tie T a b).
  Definition t_swap_left old new (T : looks) : looks :=
    Looks (fun a => eL new a && onl T old || negb (eL new a) && negb (eL old a) && onl T a)
          (fun b => (eL new old || negb (tie T new b)) && onr T b)
          (fun a b => eL new a && tie T old b || negb (eL new a) && negb (eL old a) && tie T a b).
  Definition t_swap_right old new (T : looks) : looks :=
    Looks (fun a => (eR new old || negb (tie T a new)) && onl T a)
          (fun b => eR new b && onr T old || negb (eR new b) && negb (eR old b) && onr T b)
          (fun a b => eR new b && tie T a old || negb (eR new b) && negb (eR old b) && tie T a b).
  Definition t_insert_entry (T : looks) (x : entry) : looks :=
    match x with
    | Neither => T
    | SomeLeft l => t_insert_left l T
    | SomeRight r => t_insert_right r T
    | SomeBoth l r => t_insert l r T
    end.

  Definition act (o : op L R) (T : looks) : looks :=
    match o with
    | Insert l r => t_insert l r T
    | InsertLeft l => t_insert_left l T
    | InsertRight r => t_insert_right r T
    | Pair l r =>
        Looks (onl T) (onr T) (fun a b => tie T a b || onl T l && onr T r && eL l a && eR r b)
    | PairForced l r =>
        Looks (onl T) (onr T)
          (fun a b => if onl T l && onr T r then eL l a && eR r b || negb (eL l a) && negb (eR r b) && tie T a b
                      else tie T a b)
    | PairForcedRemove l r => if onl T l && onr T r then t_insert l r T else T
    | Unpair l r => Looks (onl T) (onr T) (fun a b => negb (eL l a && eR r b) && tie T a b)
    | Remove l r =>
        Looks (fun a => negb (eL l a && tie T l r) && onl T a) (fun b => negb (eR r b && tie T l r) && onr T b)
              (fun a b => negb (eL l a && eR r b) && tie T a b)
    | RemoveLeft l => Looks (fun a => negb (eL l a) && onl T a) (onr T) (fun a b => negb (eL l a) && tie T a b)
    | RemoveRight r => Looks (onl T) (fun b => negb (eR r b) && onr T b) (fun a b => negb (eR r b) && tie T a b)
    | RemoveViaLeft l => t_del_l l T
    | RemoveViaRight r => t_del_r r T
    | SwapLeft old new => t_swap_left old new T
    | SwapLeftChecked old ex new => if tie T old ex then t_swap_left old new T else T
    | SwapLeftOrInsert old new ti => if onl T old then t_swap_left old new T else t_insert new ti T
    | SwapRight old new => t_swap_right old new T
    | SwapRightChecked old ex new => if tie T ex old then t_swap_right old new T else T
    | SwapRightOrInsert old new ti => if onr T old then t_swap_right old new T else t_insert ti new T
    | ExtendPairs xs => fold_left (fun T x => t_insert (fst x) (snd x) T) xs T
    | Extend xs => fold_left t_insert_entry xs T
    | DrainN _ | Clear => Looks (fun _ => false) (fun _ => false) (fun _ _ => false)
    | _ => T
    end.
  (* calls without a closure *)
  Definition plain (o : op L R) : Prop :=
    match o with
    | Retain _ _ _ | RetainPaired _ _ _ | RetainUnpaired _ _ _ | DrainFilter _ _ _ _ _ => False
    | _ => True
    end.
  (* for pair(l,r): the two are partners, or one is absent, or neither has a partner *)
  Definition fit (o : op L R) (T : looks) : Prop :=
    match o with
    | Pair l r => tie T l r = true \/ onl T l = false \/ onr T r = false \/
                  ((forall b, tie T l b = false) /\ (forall a, tie T a r = false))
    | Unpair l r => tie T l r = true \/ (forall b, tie T l b = false) \/ (forall a, tie T a r = false)
    | _ => True
    end.
  Fixpoint acts (ops : list (op L R)) (T : looks) : looks :=
    match ops with [] => T | o :: t => acts t (act o T) end.
  Fixpoint fits (ops : list (op L R)) (T : looks) : Prop :=
    match ops with [] => True | o :: t => fit o T /\ fits t (act o T) end.

  Lemma alike_refl : forall T, alike T T.
  Proof. repeat split; auto. Qed.
  Lemma alike_sym : forall T U, alike T U -> alike U T.
  Proof. intros T U (X & Y & Z). repeat split; auto. Qed.
  Lemma alike_trans : forall T U V, alike T U -> alike U V -> alike T V.
  Proof. intros T U V (X & Y & Z) (X' & Y' & Z'). repeat split; intros; congruence. Qed.
  Lemma t_insert_ext : forall l r T U, alike T U -> alike (t_insert l r T) (t_insert l r U).
  Proof. intros l r T U (X & Y & Z). repeat split; intros; simpl; rewrite ?X, ?Y, ?Z; auto. Qed.
  Lemma t_entry_ext : forall x T U, alike T U -> alike (t_insert_entry T x) (t_insert_entry U x).
  Proof.
    intros x T U A. destruct x; simpl; auto using t_insert_ext; destruct A as (X & Y & Z);
      repeat split; intros; simpl; rewrite ?X, ?Y, ?Z; auto.
  Qed.
  Lemma act_ext : forall o T U, alike T U -> alike (act o T) (act o U).
  Proof.
    intros o T U A. assert (A' := A). destruct A' as (X & Y & Z).
    destruct o; simpl; auto using t_insert_ext, alike_refl;
      try (repeat split; intros; simpl; rewrite ?X, ?Y, ?Z; auto; fail).
    - rewrite X, Y. destruct (_ && _); auto using t_insert_ext.
    - rewrite Z. destruct (tie _ _ _); auto. repeat split; intros; simpl; rewrite ?X, ?Y, ?Z; auto.
    - rewrite X. destruct (onl _ _); auto using t_insert_ext. repeat split; intros; simpl; rewrite ?X, ?Y, ?Z; auto.
    - rewrite Z. destruct (tie _ _ _); auto. repeat split; intros; simpl; rewrite ?X, ?Y, ?Z; auto.
    - rewrite Y. destruct (onr _ _); auto using t_insert_ext. repeat split; intros; simpl; rewrite ?X, ?Y, ?Z; auto.
    - clear X Y Z. revert T U A. induction xs; simpl; intros; auto using t_insert_ext.
    - clear X Y Z. revert T U A. induction xs; simpl; intros; auto using t_entry_ext.
  Qed.
  Lemma fit_ext : forall o T U, alike T U -> fit o T -> fit o U.
  Proof.
    intros o T U (X & Y & Z). destruct o; simpl; auto; rewrite ?X, ?Y, ?Z; intuition.
    - right; right; right. split; intros; rewrite <- Z; auto.
    - right; left; intros; rewrite <- Z; auto.
    - right; right; intros; rewrite <- Z; auto.
  Qed.
  Lemma acts_ext : forall ops T U, alike T U -> alike (acts ops T) (acts ops U).
  Proof. induction ops; simpl; auto using act_ext. Qed.
  Lemma fits_ext : forall ops T U, alike T U -> fits ops T -> fits ops U.
  Proof. induction ops; simpl; auto. intros T U A [F G]. split; eauto using fit_ext, act_ext. Qed.

  Lemma is_look : forall P f g h, is eL eR P f g h -> alike (look P) (Looks f g h).
  Proof. intros P f g h (X & Y & Z). repeat split; auto. Qed.
  Lemma pb_cons : forall x P, pb P -> x <> Neither ->
    (forall a, op_get_left x = Some a -> s_contains_left eL P a = false) ->
    (forall b, op_get_right x = Some b -> s_contains_right eR P b = false) -> pb (x :: P).
  Proof.
    intros x P (D1 & D2 & D3) NN X Y. split; [|split].
    - unfold lefts. simpl. destruct (op_get_left x) as [a|]; simpl; auto. apply distinct_cons. split; auto.
      intros z I. apply in_flat_map in I as (e & I & J). destruct (op_get_left e) as [c|] eqn:G; [|destruct J].
      destruct J as [<-|[]]. destruct (eL a c) eqn:W; auto. rewrite <- (X a eq_refl). symmetry.
      apply existsb_exists. exists e. split; auto. unfold has_l. rewrite G. auto.
    - unfold rights. simpl. destruct (op_get_right x) as [a|]; simpl; auto. apply distinct_cons. split; auto.
      intros z I. apply in_flat_map in I as (e & I & J). destruct (op_get_right e) as [c|] eqn:G; [|destruct J].
      destruct J as [<-|[]]. destruct (eR a c) eqn:W; auto. rewrite <- (Y a eq_refl). symmetry.
      apply existsb_exists. exists e. split; auto. unfold has_r. rewrite G. auto.
    - intros [E|I]; auto.
  Qed.
  Lemma pb_insert : forall P l r, pb P -> pb (s_insert eL eR P l r).
  Proof.
    intros P l r B. apply pb_cons; [apply pb_del_r; auto; apply pb_del_l; auto|discriminate| |]; simpl; intros z Z; injection Z as <-.
    - rewrite (cl_del_r eL eR EL ER), (cl_del_l eL EL), (equiv_refl _ EL), andb_false_r; auto. apply pb_del_l; auto.
    - rewrite (cr_del_r eR ER), (equiv_refl _ ER); auto.
  Qed.
  Lemma pb_insert_entry : forall P x, pb P -> pb (s_insert_entry eL eR P x).
  Proof.
    intros P x B. destruct x; simpl; auto using pb_insert; apply pb_cons; try discriminate; auto using pb_del_l, pb_del_r;
      simpl; intros z Z; try discriminate; injection Z as <-.
    - rewrite (cl_del_l eL EL), (equiv_refl _ EL); auto.
    - rewrite (cr_del_r eR ER), (equiv_refl _ ER); auto.
  Qed.
  Lemma look_entry : forall P x, pb P -> alike (look (s_insert_entry eL eR P x)) (t_insert_entry (look P) x).
  Proof.
    intros P x B. destruct x; simpl; auto using alike_refl.
    - apply (is_look _ _ _ _ (is_insert_left eL eR EL ER P l B)).
    - apply (is_look _ _ _ _ (is_insert_right eL eR EL ER P r B)).
    - apply (is_look _ _ _ _ (is_insert eL eR EL ER P l r B)).
  Qed.
  Lemma not_paired_l : forall P l, pb P -> (forall b, s_are_paired eL eR P l b = false) -> s_is_left_paired eL P l = false.
  Proof.
    intros P l B H. apply existsb_false. intros x I. destruct (has_l eL l x) eqn:X; auto. destruct x as [|a|b|a b]; auto.
    exfalso. assert (Y : s_are_paired eL eR P l b = true).
    { apply existsb_exists. exists (SomeBoth a b). split; auto. unfold has_l, has_r in *. simpl in *. rewrite X.
      apply (equiv_refl _ ER). }
    rewrite H in Y. discriminate.
  Qed.
  Lemma not_paired_r : forall P r, pb P -> (forall a, s_are_paired eL eR P a r = false) -> s_is_right_paired eR P r = false.
  Proof.
    intros P l B H. apply existsb_false. intros x I. destruct (has_r eR l x) eqn:X; auto. destruct x as [|a|b|a b]; auto.
    exfalso. assert (Y : s_are_paired eL eR P a l = true).
    { apply existsb_exists. exists (SomeBoth a b). split; auto. unfold has_l, has_r in *. simpl in *. rewrite X, andb_true_r.
      apply (equiv_refl _ EL). }
    rewrite H in Y. discriminate.
  Qed.
  Lemma step_act : forall o P P' w, plain o -> (match o with Pair _ _ => fit o (look P) | _ => True end) ->
    pb P -> s_step eL eR P o P' w -> alike (look P') (act o (look P)).
  Proof.
    intros o P P' w PL F B St. destruct o; simpl in PL; try contradiction; simpl in St |- *;
      try (destruct St as [-> _]; auto using alike_refl).
    - apply (is_look _ _ _ _ (is_insert eL eR EL ER P l r B)).
    - apply (is_look _ _ _ _ (is_insert_left eL eR EL ER P l B)).
    - apply (is_look _ _ _ _ (is_insert_right eL eR EL ER P r B)).
    - destruct (is_pair eL eR EL ER P l r B) as [I O]. eapply alike_trans; [apply (is_look _ _ _ _ I)|].
      simpl in F. repeat split; auto. intros a b. simpl.
      destruct F as [F|[F|[F|[F G]]]]; rewrite O.
      + destruct (s_are_paired eL eR P a b) eqn:X; auto. rewrite (rel_cl eL eR P l r F), (rel_cr eL eR P l r F). simpl.
        destruct (eL l a) eqn:Y, (eR r b) eqn:Z; simpl; rewrite ?andb_false_r; auto.
        rewrite <- (rel_swap_l eL eR EL P l a b Y), <- (rel_swap_r eL eR ER P l r b Z), F in X. discriminate.
      + rewrite F. auto.
      + rewrite F, !andb_false_r. auto.
      + rewrite (not_paired_l P l B F), (not_paired_r P r B G), !andb_true_r. auto.
    - apply (is_look _ _ _ _ (is_pair_forced eL eR EL ER P l r B)).
    - destruct (_ && _) eqn:X.
      + apply (is_look _ _ _ _ (is_pair_forced_remove eL eR EL ER P l r B X)).
      + rewrite (forced_remove_absent eL eR P l r X). apply alike_refl.
    - apply (is_look _ _ _ _ (is_unpair eL eR EL ER P l r B)).
    - apply (is_look _ _ _ _ (is_remove eL eR EL ER P l r B)).
    - apply (is_look _ _ _ _ (is_remove_left eL eR EL ER P l B)).
    - apply (is_look _ _ _ _ (is_remove_right eL eR EL ER P r B)).
    - apply (is_look _ _ _ _ (is_del_l eL eR EL ER P l B)).
    - apply (is_look _ _ _ _ (is_del_r eL eR EL ER P r B)).
    - apply (is_look _ _ _ _ (is_swap_left eL eR EL ER P old new B)).
    - destruct (s_are_paired eL eR P old expected); destruct St as [-> _]; auto using alike_refl.
      apply (is_look _ _ _ _ (is_swap_left eL eR EL ER P old new B)).
    - destruct (s_contains_left eL P old); destruct St as [-> _].
      + apply (is_look _ _ _ _ (is_swap_left eL eR EL ER P old new B)).
      + apply (is_look _ _ _ _ (is_insert eL eR EL ER P new to_insert B)).
    - apply (is_look _ _ _ _ (is_swap_right eL eR EL ER P old new B)).
    - destruct (s_are_paired eL eR P expected old); destruct St as [-> _]; auto using alike_refl.
      apply (is_look _ _ _ _ (is_swap_right eL eR EL ER P old new B)).
    - destruct (s_contains_right eR P old); destruct St as [-> _].
      + apply (is_look _ _ _ _ (is_swap_right eL eR EL ER P old new B)).
      + apply (is_look _ _ _ _ (is_insert eL eR EL ER P to_insert new B)).
    - clear PL F. revert P B. induction xs as [|x xs IH]; simpl; intros P B; [apply alike_refl|].
      eapply alike_trans; [apply IH; apply pb_insert; auto|].
      assert (X := look_entry P (SomeBoth (fst x) (snd x)) B). simpl in X.
      clear IH B. revert X. generalize (look (s_insert eL eR P (fst x) (snd x))). generalize (t_insert (fst x) (snd x) (look P)).
      intros U T A. exact (act_ext (ExtendPairs xs) T U A).
    - clear PL F. revert P B. induction xs as [|x xs IH]; simpl; intros P B; [apply alike_refl|].
      eapply alike_trans; [apply IH; apply pb_insert_entry; auto|].
      exact (act_ext (Extend xs) _ _ (look_entry P x B)).
  Qed.
End Looks.

(* ---- results up to Eq ---- *)
Section Congruence.
  Context {L R : Type}.
  Variables (eL : L -> L -> bool) (eR : R -> R -> bool).
  Hypothesis EL : equivalence eL.
  Hypothesis ER : equivalence eR.
  Notation entry := (optional_pair L R).
  Notation pb := (partial_bijection eL eR).
  Notation same := (same_entries eL eR).
  Implicit Types (P Q : list entry) (a l : L) (b r : R) (x y : entry).

  Definition l_like a a' : Prop := eL a a' = true.
  Definition r_like b b' : Prop := eR b b' = true.
  Definition p_like (p q : L * R) : Prop := l_like (fst p) (fst q) /\ r_like (snd p) (snd q).
  Definition e_like (x y : entry) : Prop := op_like l_like r_like x y.
  (* the same result, items compared with Eq, the order of iteration left open; of the items
     handed out by drain only the number is compared *)
  Definition out_like (w w' : out L R) : Prop :=
    match w, w' with
    | OPair p, OPair q => opt_like p_like p q
    | OEntry x, OEntry y => e_like x y
    | OIns d, OIns d' => e_like (fst d) (fst d') /\ e_like (snd d) (snd d')
    | OSwapL d, OSwapL d' => op_like l_like e_like d d'
    | OSwapR d, OSwapR d' => op_like r_like e_like d d'
    | OL x, OL y => opt_like l_like x y
    | OR x, OR y => opt_like r_like x y
    | OPairs xs, OPairs ys => list_like p_like xs ys
    | OEntries xs, OEntries ys => list_like e_like xs ys
    | OLs xs, OLs ys => list_like l_like xs ys
    | ORs xs, ORs ys => list_like r_like xs ys
    | OItems xs p, OItems ys q => p = q /\ length xs = length ys
    | _, _ => w = w'
    end.
  Definition answers_like (o : op L R) (w w' : out L R) : Prop :=
    match o with
    | TryReserveLeft _ | TryReserveRight _ => exists c c', w = OBool c /\ w' = OBool c'   (* up to the allocator *)
    | _ => out_like w w'
    end.
  (* closures that answer from the entry alone and respect Eq; no drain_filter *)
  Definition tame (o : op L R) : Prop :=
    match o with
    | Retain X f _ | RetainUnpaired X f _ =>
        exists p, (forall x y, e_like x y -> p x = p y) /\ forall s x, snd (f s x) = Some (p x)
    | RetainPaired X f _ =>
        exists p, (forall q q', p_like q q' -> p q = p q') /\ forall s q, snd (f s q) = Some (p q)
    | DrainFilter _ _ _ _ _ => False
    | _ => True
    end.

  Lemma e_like_iff : forall x y, e_like x y <-> entry_eq eL eR x y = true.
  Proof.
    intros x y. unfold e_like, entry_eq, l_like, r_like. destruct x, y; simpl; rewrite ?andb_true_iff; split; auto; easy.
  Qed.
  Lemma e_like_sym : forall x y, e_like x y -> e_like y x.
  Proof.
    intros x y. unfold e_like, l_like, r_like. destruct x, y; simpl; auto;
      intuition (try (apply (equiv_sym _ EL); auto); try (apply (equiv_sym _ ER); auto)).
  Qed.
  Lemma e_like_has_l : forall x y l, e_like x y -> has_l eL l x = has_l eL l y.
  Proof.
    intros x y l. unfold e_like, l_like, r_like, has_l. destruct x, y; simpl; try easy; intros H; try (apply eqb_replace_r; tauto).
  Qed.
  Lemma e_like_has_r : forall x y r, e_like x y -> has_r eR r x = has_r eR r y.
  Proof.
    intros x y l. unfold e_like, l_like, r_like, has_r. destruct x, y; simpl; try easy; intros H; try (apply eqb_replace_r; tauto).
  Qed.
  Lemma same_sym : forall P Q, same P Q -> same Q P.
  Proof.
    intros P Q [X Y]. split; intros z I; [destruct (Y z I) as (w & J & W)|destruct (X z I) as (w & J & W)];
      exists w; split; auto; apply e_like_iff, e_like_sym, e_like_iff; auto.
  Qed.
  Lemma alike_of_same : forall P Q, same P Q -> alike (look eL eR P) (look eL eR Q).
  Proof.
    assert (K : forall g P Q, (forall x y, e_like x y -> g x = g y) -> same P Q -> existsb g P = existsb g Q).
    { intros g P Q H [X Y]. apply eq_true_iff_eq. rewrite !existsb_exists. split; intros (z & I & G).
      - destruct (X z I) as (w & J & W). exists w. split; auto. rewrite <- (H z w); auto. apply e_like_iff; auto.
      - destruct (Y z I) as (w & J & W). exists w. split; auto. rewrite (H w z); auto. apply e_like_iff; auto. }
    intros P Q H. repeat split; intros; simpl; apply K; auto; intros x y Z.
    - apply e_like_has_l; auto.
    - apply e_like_has_r; auto.
    - rewrite (e_like_has_l x y), (e_like_has_r x y); auto.
  Qed.
  Lemma half_same : forall P Q, pb P -> pb Q -> alike (look eL eR P) (look eL eR Q) ->
    forall x, In x P -> exists y, In y Q /\ e_like x y.
  Proof.
    intros P Q B B' (A1 & A2 & A3) x I. simpl in A1, A2, A3. destruct x as [|a|b|a b].
    - destruct B as (_ & _ & B). contradiction.
    - assert (X : s_contains_left eL P a = true).
      { apply existsb_exists. exists (SomeLeft a). split; auto. apply (equiv_refl _ EL). }
      rewrite A1 in X. apply existsb_exists in X as (y & J & Y). unfold has_l in Y.
      destruct y as [|c|c|c d]; simpl in Y; try discriminate; [exists (SomeLeft c); auto|].
      exfalso. assert (Z : s_are_paired eL eR Q a d = true).
      { apply existsb_exists. exists (SomeBoth c d). split; auto. unfold has_l, has_r; simpl. rewrite Y. apply (equiv_refl _ ER). }
      rewrite <- A3 in Z. apply existsb_exists in Z as (z & K & Z). apply andb_true_iff in Z as [Z1 Z2].
      rewrite <- (unique_l eL eR EL ER P a (SomeLeft a) z) in Z2; auto; [discriminate|apply (equiv_refl _ EL)].
    - assert (X : s_contains_right eR P b = true).
      { apply existsb_exists. exists (SomeRight b). split; auto. apply (equiv_refl _ ER). }
      rewrite A2 in X. apply existsb_exists in X as (y & J & Y). unfold has_r in Y.
      destruct y as [|c|c|c d]; simpl in Y; try discriminate; [exists (SomeRight c); auto|].
      exfalso. assert (Z : s_are_paired eL eR Q c b = true).
      { apply existsb_exists. exists (SomeBoth c d). split; auto. unfold has_l, has_r; simpl. rewrite Y, andb_true_r. apply (equiv_refl _ EL). }
      rewrite <- A3 in Z. apply existsb_exists in Z as (z & K & Z). apply andb_true_iff in Z as [Z1 Z2].
      rewrite <- (unique_r eL eR EL ER P b (SomeRight b) z) in Z1; auto; [discriminate|apply (equiv_refl _ ER)].
    - assert (X : s_are_paired eL eR P a b = true).
      { apply existsb_exists. exists (SomeBoth a b). split; auto. unfold has_l, has_r; simpl.
        rewrite (equiv_refl _ EL), (equiv_refl _ ER). auto. }
      rewrite A3 in X. apply existsb_exists in X as (y & J & Y). apply andb_true_iff in Y as [Y1 Y2].
      unfold has_l in Y1. unfold has_r in Y2. destruct y as [|c|c|c d]; simpl in *; try discriminate.
      exists (SomeBoth c d). split; auto.
  Qed.
  Lemma same_of_alike : forall P Q, pb P -> pb Q -> alike (look eL eR P) (look eL eR Q) -> same P Q.
  Proof.
    intros P Q B B' A. split; intros z I.
    - destruct (half_same P Q B B' A z I) as (y & J & Y). exists y. split; auto. apply e_like_iff; auto.
    - destruct (half_same Q P B' B (alike_sym _ _ A) z I) as (y & J & Y). exists y. split; auto. apply e_like_iff, e_like_sym; auto.
  Qed.
  Lemma pb_distinct : forall P, pb P -> distinct (entry_eq eL eR) P.
  Proof.
    induction P as [|x P IH]; intros B; [apply distinct_nil|]. apply distinct_cons.
    destruct B as (D1 & D2 & D3). unfold lefts, rights in D1, D2. simpl in D1, D2.
    apply distinct_app in D1 as (_ & D1 & C1), D2 as (_ & D2 & C2). split.
    - intros y I. destruct (entry_eq eL eR x y) eqn:X; auto. apply e_like_iff in X.
      destruct x as [|a|b|a b], y as [|a'|b'|a' b']; simpl in X; try easy.
      + exfalso; apply D3; left; auto.
      + unfold e_like in X. simpl in X. unfold l_like in X. rewrite C1 in X; [auto|left; auto|].
        apply in_flat_map. exists (SomeLeft a'). split; simpl; auto.
      + unfold e_like in X. simpl in X. unfold r_like in X. rewrite C2 in X; [auto|left; auto|].
        apply in_flat_map. exists (SomeRight b'). split; simpl; auto.
      + unfold e_like in X. simpl in X. unfold l_like in X. destruct X as [X _]. rewrite C1 in X; [auto|left; auto|].
        apply in_flat_map. exists (SomeBoth a' b'). split; simpl; auto.
    - apply IH. split; [exact D1|]. split; [exact D2|]. intros Z; apply D3; right; auto.
  Qed.
  Lemma same_list : forall P Q, pb P -> pb Q -> same P Q -> list_like e_like P Q.
  Proof.
    intros P Q B B' H. assert (EE := proj1 (C62_equality eL eR EL ER)). assert (H' := H). destruct H' as [X Y]. split; [|split].
    - apply Nat.le_antisymm; eapply (distinct_embed_length _ EE); auto using pb_distinct. apply same_sym in H. apply H.
    - intros z I. destruct (X z I) as (w & J & W). exists w. split; auto. apply e_like_iff; auto.
    - intros z I. destruct (Y z I) as (w & J & W). exists w. split; auto. apply e_like_iff; auto.
  Qed.
  Lemma same_filter : forall g P Q, (forall x y, e_like x y -> g x = g y) -> same P Q -> same (filter g P) (filter g Q).
  Proof.
    intros g P Q H [X Y]. split; intros z I; apply filter_In in I as [I G].
    - destruct (X z I) as (w & J & W). exists w. split; auto. apply filter_In. split; auto.
      rewrite <- (H z w); auto. apply e_like_iff; auto.
    - destruct (Y z I) as (w & J & W). exists w. split; auto. apply filter_In. split; auto.
      rewrite (H w z); auto. apply e_like_iff; auto.
  Qed.
  Lemma same_app : forall P Q P' Q', same P Q -> same P' Q' -> same (P ++ P') (Q ++ Q').
  Proof.
    intros P Q P' Q' [X Y] [X' Y']. split; intros z I; apply in_app_iff in I as [I|I].
    - destruct (X z I) as (w & J & W). exists w. rewrite in_app_iff. auto.
    - destruct (X' z I) as (w & J & W). exists w. rewrite in_app_iff. auto.
    - destruct (Y z I) as (w & J & W). exists w. rewrite in_app_iff. auto.
    - destruct (Y' z I) as (w & J & W). exists w. rewrite in_app_iff. auto.
  Qed.
  Lemma same_perm : forall P Q P' Q', Permutation P' P -> Permutation Q' Q -> same P Q -> same P' Q'.
  Proof.
    intros P Q P' Q' HP HQ [X Y]. split; intros z I.
    - destruct (X z) as (w & J & W); [eapply Permutation_in; eauto|]. exists w. split; auto. eapply Permutation_in; [symmetry|]; eauto.
    - destruct (Y z) as (w & J & W); [eapply Permutation_in; eauto|]. exists w. split; auto. eapply Permutation_in; [symmetry|]; eauto.
  Qed.
  Lemma like_both : forall x y, e_like x y -> is_both x = is_both y.
  Proof. intros x y. unfold e_like. destruct x, y; simpl; easy. Qed.
  Lemma like_left_item : forall x y, e_like x y -> has_left_item x = has_left_item y.
  Proof. intros x y. unfold e_like. destruct x, y; simpl; easy. Qed.

  Lemma find_l_like : forall P Q l, pb P -> pb Q -> same P Q -> opt_like e_like (find_l eL P l) (find_l eL Q l).
  Proof.
    intros P Q l B B' H. destruct (find_l eL P l) as [x|] eqn:F.
    - apply find_some in F as [I F]. destruct (proj1 H x I) as (y & J & Y). apply e_like_iff in Y.
      unfold find_l. rewrite (find_l_in eL eR EL ER Q l y); auto. rewrite <- (e_like_has_l x y); auto.
    - destruct (find_l eL Q l) as [y|] eqn:G; simpl; auto. apply find_some in G as [J G].
      destruct (proj2 H y J) as (x & I & X). apply e_like_iff in X.
      assert (Z := find_none _ _ F x I). simpl in Z. rewrite (e_like_has_l x y) in Z; auto. congruence.
  Qed.
  Lemma find_r_like : forall P Q r, pb P -> pb Q -> same P Q -> opt_like e_like (find_r eR P r) (find_r eR Q r).
  Proof.
    intros P Q l B B' H. destruct (find_r eR P l) as [x|] eqn:F.
    - apply find_some in F as [I F]. destruct (proj1 H x I) as (y & J & Y). apply e_like_iff in Y.
      unfold find_r. rewrite (find_r_in eL eR EL ER Q l y); auto. rewrite <- (e_like_has_r x y); auto.
    - destruct (find_r eR Q l) as [y|] eqn:G; simpl; auto. apply find_some in G as [J G].
      destruct (proj2 H y J) as (x & I & X). apply e_like_iff in X.
      assert (Z := find_none _ _ F x I). simpl in Z. rewrite (e_like_has_r x y) in Z; auto. congruence.
  Qed.
  Lemma or_neither_like : forall o o' : option entry, opt_like e_like o o' -> e_like (or_neither o) (or_neither o').
  Proof. intros [x|] [y|]; simpl; try easy. Qed.
  Lemma like_get_l : forall x y, e_like x y -> opt_like l_like (op_get_left x) (op_get_left y).
  Proof. intros x y. unfold e_like. destruct x, y; simpl; try easy. Qed.
  Lemma like_get_r : forall x y, e_like x y -> opt_like r_like (op_get_right x) (op_get_right y).
  Proof. intros x y. unfold e_like. destruct x, y; simpl; try easy. Qed.
  Lemma bind_like : forall {A B} (e : A -> A -> Prop) (f : B -> B -> Prop) (k : A -> option B) o o',
    (forall z z', e z z' -> opt_like f (k z) (k z')) -> opt_like e o o' -> opt_like f (bind_opt o k) (bind_opt o' k).
  Proof. intros A B e f k [x|] [y|]; simpl; try easy. auto. Qed.
  Lemma lefts_len : forall P, length (lefts P) = length (filter has_left_item P).
  Proof. induction P as [|[| | |] P IH]; simpl; auto. Qed.
  Lemma rights_len : forall P, length (rights P) = length (filter (fun x => is_some (op_get_right x)) P).
  Proof. induction P as [|[| | |] P IH]; simpl; auto. Qed.
  Lemma pairs_len : forall P, length (s_pairs P) = length (filter is_both P).
  Proof. induction P as [|[| | |] P IH]; simpl; auto. Qed.
  Lemma filter_len : forall g P Q, (forall x y, e_like x y -> g x = g y) -> pb P -> pb Q -> same P Q ->
    length (filter g P) = length (filter g Q).
  Proof.
    intros g P Q H B B' A. apply (same_list (filter g P) (filter g Q)); try (apply pb_filter; auto). apply same_filter; auto.
  Qed.

  Notation alk P Q := (alike (look eL eR P) (look eL eR Q)).
  Lemma alk_swap_l : forall P Q o n, pb P -> pb Q -> alk P Q ->
    alk (s_swap_left eL P o n) (s_swap_left eL Q o n).
  Proof.
    intros P Q o n B B' A.
    eapply alike_trans; [apply (is_look _ _ _ _ _ _ (is_swap_left eL eR EL ER P o n B))|].
    eapply alike_trans; [apply (act_ext eL eR (SwapLeft o n) _ _ A)|].
    apply alike_sym. apply (is_look _ _ _ _ _ _ (is_swap_left eL eR EL ER Q o n B')).
  Qed.
  Lemma swap_l_out_like : forall P Q o n, pb P -> pb Q -> same P Q ->
    op_like l_like e_like (s_swap_left_out eL P o n) (s_swap_left_out eL Q o n).
  Proof.
    intros P Q o n B B' A. unfold s_swap_left_out.
    assert (F := find_l_like P Q o B B' A). assert (G := find_l_like P Q n B B' A).
    destruct (find_l eL P o) as [x|], (find_l eL Q o) as [y|]; simpl in F; try easy.
    apply like_get_l in F. destruct (op_get_left x), (op_get_left y); simpl in F; try easy; destruct (eL n o); simpl; auto;
      destruct (find_l eL P n), (find_l eL Q n); simpl in *; try easy.
  Qed.
  Lemma swap_r_out_like : forall P Q (o n : R), pb P -> pb Q -> same P Q ->
    op_like r_like e_like (s_swap_right_out eR P o n) (s_swap_right_out eR Q o n).
  Proof.
    intros P Q o n B B' A. unfold s_swap_right_out.
    assert (F := find_r_like P Q o B B' A). assert (G := find_r_like P Q n B B' A).
    destruct (find_r eR P o) as [x|], (find_r eR Q o) as [y|]; simpl in F; try easy.
    apply like_get_r in F. destruct (op_get_right x), (op_get_right y); simpl in F; try easy; destruct (eR n o); simpl; auto;
      destruct (find_r eR P n), (find_r eR Q n); simpl in *; try easy.
  Qed.
  Lemma is_left_paired_like : forall P Q l, same P Q -> s_is_left_paired eL P l = s_is_left_paired eL Q l.
  Proof.
    intros P Q l [X Y]. unfold s_is_left_paired. apply eq_true_iff_eq. rewrite !existsb_exists. split; intros (z & I & G).
    - destruct (X z I) as (w & J & W). apply e_like_iff in W. exists w. split; auto.
      rewrite <- (e_like_has_l z w), <- (like_both z w); auto.
    - destruct (Y z I) as (w & J & W). apply e_like_iff in W. exists w. split; auto.
      rewrite (e_like_has_l w z), (like_both w z); auto.
  Qed.
  Lemma is_right_paired_like : forall P Q r, same P Q -> s_is_right_paired eR P r = s_is_right_paired eR Q r.
  Proof.
    intros P Q l [X Y]. unfold s_is_right_paired. apply eq_true_iff_eq. rewrite !existsb_exists. split; intros (z & I & G).
    - destruct (X z I) as (w & J & W). apply e_like_iff in W. exists w. split; auto.
      rewrite <- (e_like_has_r z w), <- (like_both z w); auto.
    - destruct (Y z I) as (w & J & W). apply e_like_iff in W. exists w. split; auto.
      rewrite (e_like_has_r w z), (like_both w z); auto.
  Qed.
  Lemma list_like_of : forall P Q P' Q', pb P -> pb Q -> same P Q -> Permutation P' P -> Permutation Q' Q ->
    list_like e_like P' Q'.
  Proof. intros. eapply CycleMapLaws.list_like_perm; eauto. apply same_list; auto. Qed.
  Lemma list_like_flat : forall {B} (f : B -> B -> Prop) (k : entry -> option B) P Q,
    (forall x y, e_like x y -> opt_like f (k x) (k y)) -> list_like e_like P Q ->
    length (flat_map (fun x => opt_list (k x)) P) = length (flat_map (fun x => opt_list (k x)) Q) ->
    list_like f (flat_map (fun x => opt_list (k x)) P) (flat_map (fun x => opt_list (k x)) Q).
  Proof.
    intros B f k P Q H (_ & X & Y) LN. split; auto. split; intros z I; apply in_flat_map in I as (e & I & J).
    - destruct (X e I) as (e' & I' & W). apply H in W. destruct (k e) as [c|] eqn:Kc; [|destruct J]. destruct J as [<-|[]].
      destruct (k e') as [d|] eqn:Kd; simpl in W; [|easy]. exists d. split; auto. apply in_flat_map. exists e'. rewrite Kd. simpl; auto.
    - destruct (Y e I) as (e' & I' & W). apply H in W. destruct (k e) as [c|] eqn:Kc; [|destruct J]. destruct J as [<-|[]].
      destruct (k e') as [d|] eqn:Kd; simpl in W; [|easy]. exists d. split; auto. apply in_flat_map. exists e'. rewrite Kd. simpl; auto.
  Qed.
  Lemma like_items : forall x y, e_like x y -> opt_like p_like (both_items x) (both_items y).
  Proof. intros x y. unfold e_like. destruct x, y; simpl; try easy. Qed.
  Lemma same_pairs_like : forall P Q, pb P -> pb Q -> same P Q -> list_like p_like (s_pairs P) (s_pairs Q).
  Proof.
    intros P Q B B' A. apply list_like_flat; [apply like_items|apply same_list; auto|].
    change (length (s_pairs P) = length (s_pairs Q)). rewrite !pairs_len. apply filter_len; auto. apply like_both.
  Qed.
  Lemma same_of_pairs : forall (ps qs : list (L * R)),
    (forall p, In p ps -> exists q, In q qs /\ p_like p q) -> (forall q, In q qs -> exists p, In p ps /\ p_like p q) ->
    same (List.map (fun p => SomeBoth (fst p) (snd p)) ps) (List.map (fun p => SomeBoth (fst p) (snd p)) qs).
  Proof.
    intros ps qs X Y. split; intros z I; apply in_map_iff in I as (p & <- & I).
    - destruct (X p I) as (q & J & W). exists (SomeBoth (fst q) (snd q)). split; [apply in_map_iff; eauto|]. apply e_like_iff; auto.
    - destruct (Y p I) as (q & J & W). exists (SomeBoth (fst q) (snd q)). split; [apply in_map_iff; eauto|]. apply e_like_iff; auto.
  Qed.

  Lemma like_right_item : forall x y, e_like x y -> is_some (op_get_right x) = is_some (op_get_right y).
  Proof. intros x y. unfold e_like. destruct x, y; simpl; easy. Qed.
  Lemma forced_out_like : forall P Q l r, pb P -> pb Q -> same P Q ->
    e_like (s_pair_forced_out eL eR P l r) (s_pair_forced_out eL eR Q l r).
  Proof.
    intros P Q l r B B' H. unfold s_pair_forced_out.
    assert (FL := find_l_like P Q l B B' H). assert (FR := find_r_like P Q r B B' H).
    destruct (find_l eL P l) as [x|], (find_l eL Q l) as [y|]; simpl in FL; try easy.
    destruct (find_r eR P r) as [x'|], (find_r eR Q r) as [y'|]; simpl in FR; try easy.
    rewrite (e_like_has_r x y) by auto. destruct (has_r eR r y); [easy|].
    apply like_get_r in FL. apply like_get_l in FR.
    destruct (op_get_left x'), (op_get_left y'), (op_get_right x), (op_get_right y); simpl in *; try easy.
  Qed.

  Lemma step_like : forall o P Q P' Q' w w', tame o -> pb P -> pb Q -> alk P Q ->
    s_step eL eR P o P' w -> s_step eL eR Q o Q' w' -> alk P' Q' /\ answers_like o w w'.
  Proof.
    intros o P Q P' Q' w w' T B B' A S1 S2. assert (H := same_of_alike P Q B B' A).
    assert (CL := fun l => proj1 A l). assert (CR := fun r => proj1 (proj2 A) r). assert (RE := fun l r => proj2 (proj2 A) l r).
    simpl in CL, CR, RE.
    assert (FL := fun l => find_l_like P Q l B B' H). assert (FR := fun r => find_r_like P Q r B B' H).
    assert (LE := same_list P Q B B' H).
    split.
    - destruct (match o with Retain _ _ _ | RetainPaired _ _ _ | RetainUnpaired _ _ _ | DrainFilter _ _ _ _ _ | Pair _ _ => true
                | _ => false end) eqn:C.
      + destruct o; try discriminate; simpl in S1, S2, T.
        * destruct S1 as [-> _], S2 as [-> _]. destruct (is_pair eL eR EL ER P l r B) as [I1 O1].
          destruct (is_pair eL eR EL ER Q l r B') as [I2 O2].
          eapply alike_trans; [apply (is_look _ _ _ _ _ _ I1)|]. eapply alike_trans; [|apply alike_sym; apply (is_look _ _ _ _ _ _ I2)].
          rewrite O1, O2. repeat split; simpl; auto. intros. rewrite RE, CL, CR, (is_left_paired_like P Q), (is_right_paired_like P Q); auto.
        * destruct T as (p & Rp & Hp). destruct S1 as (Q1 & P1 & S1), S2 as (Q2 & P2 & S2).
          destruct (PartialHashFree.s_filter_pure f p Hp Q1 x) as (x1 & F1), (PartialHashFree.s_filter_pure f p Hp Q2 x) as (x2 & F2).
          rewrite F1 in S1. rewrite F2 in S2. destruct S1 as [-> _], S2 as [-> _]. apply alike_of_same.
          apply same_app; apply same_filter.
          -- intros u v W. rewrite (Rp u v); auto.
          -- eapply same_perm; [exact P1|exact P2|]. apply same_filter; auto. apply like_left_item.
          -- intros u v W. rewrite (like_left_item u v); auto.
          -- auto.
        * destruct T as (p & Rp & Hp). destruct S1 as (Q1 & P1 & S1), S2 as (Q2 & P2 & S2).
          destruct (PartialHashFree.s_filter_pure f p Hp Q1 x) as (x1 & F1), (PartialHashFree.s_filter_pure f p Hp Q2 x) as (x2 & F2).
          rewrite F1 in S1. rewrite F2 in S2. destruct S1 as [-> _], S2 as [-> _]. apply alike_of_same.
          apply same_app; [|apply same_filter; auto; intros u v W; rewrite (like_both u v); auto].
          assert (PL : list_like p_like Q1 Q2) by (eapply CycleMapLaws.list_like_perm; eauto; apply same_pairs_like; auto).
          destruct PL as (_ & XX & YY). apply same_of_pairs; intros z I; apply filter_In in I as [I NN].
          -- destruct (XX z I) as (y & J & W). exists y. split; auto. apply filter_In. split; auto. rewrite <- (Rp z y); auto.
          -- destruct (YY z I) as (y & J & W). exists y. split; auto. apply filter_In. split; auto. rewrite (Rp y z); auto.
        * destruct T as (p & Rp & Hp). destruct S1 as (Q1 & P1 & S1), S2 as (Q2 & P2 & S2).
          destruct (PartialHashFree.s_filter_pure f p Hp Q1 x) as (x1 & F1), (PartialHashFree.s_filter_pure f p Hp Q2 x) as (x2 & F2).
          rewrite F1 in S1. rewrite F2 in S2. destruct S1 as [-> _], S2 as [-> _]. apply alike_of_same.
          apply same_app; apply same_filter; auto; [| |apply like_both].
          -- intros u v W. rewrite (Rp u v); auto.
          -- eapply same_perm; [exact P1|exact P2|]. apply same_filter; auto. intros u v W; rewrite (like_both u v); auto.
        * destruct T.
      + assert (PL : plain o) by (destruct o; try exact I; discriminate).
        assert (X1 : alike (look eL eR P') (act eL eR o (look eL eR P))) by (eapply step_act; eauto; destruct o; auto; discriminate).
        assert (X2 : alike (look eL eR Q') (act eL eR o (look eL eR Q))) by (eapply step_act; eauto; destruct o; auto; discriminate).
        eapply alike_trans; [exact X1|]. eapply alike_trans; [apply act_ext; exact A|]. apply alike_sym; auto.
    - assert (DL : forall l, same (del_l eL P l) (del_l eL Q l)).
      { intros l. apply same_filter; auto. intros x y X. rewrite (e_like_has_l x y); auto. }
      destruct o; simpl in S1, S2, T |- *.
      + destruct S1 as [_ ->], S2 as [_ ->]. split; simpl; apply or_neither_like; auto.
        apply find_r_like; auto using (pb_del_l eL eR).
      + destruct S1 as [_ ->], S2 as [_ ->]. simpl; auto using or_neither_like.
      + destruct S1 as [_ ->], S2 as [_ ->]. simpl; auto using or_neither_like.
      + destruct S1 as [_ ->], S2 as [_ ->]. simpl. rewrite (proj2 (is_pair eL eR EL ER P l r B)), (proj2 (is_pair eL eR EL ER Q l r B')).
        rewrite CL, CR, (is_left_paired_like P Q), (is_right_paired_like P Q); auto.
      + destruct S1 as [_ ->], S2 as [_ ->]. apply forced_out_like; auto.
      + destruct S1 as [_ ->], S2 as [_ ->]. apply forced_out_like; auto.
      + destruct S1 as [_ ->], S2 as [_ ->]. simpl. rewrite RE. auto.
      + destruct S1 as [_ ->], S2 as [_ ->]. simpl. unfold s_remove_out. rewrite RE. destruct (s_are_paired eL eR Q l r); simpl; auto.
        eapply bind_like; [apply like_items|auto].
      + destruct S1 as [_ ->], S2 as [_ ->]. eapply bind_like; [apply like_get_l|auto].
      + destruct S1 as [_ ->], S2 as [_ ->]. eapply bind_like; [apply like_get_r|auto].
      + destruct S1 as [_ ->], S2 as [_ ->]. simpl; auto using or_neither_like.
      + destruct S1 as [_ ->], S2 as [_ ->]. simpl; auto using or_neither_like.
      + destruct S1 as [_ ->], S2 as [_ ->]. apply swap_l_out_like; auto.
      + rewrite RE in S1. destruct (s_are_paired eL eR Q old expected); destruct S1 as [_ ->], S2 as [_ ->]; simpl; auto.
        apply swap_l_out_like; auto.
      + rewrite CL in S1. destruct (s_contains_left eL Q old); destruct S1 as [_ ->], S2 as [_ ->]; [apply swap_l_out_like; auto|].
        rewrite CL. destruct (s_contains_left eL Q new); simpl; auto.
        specialize (FR to_insert). destruct (find_r eR P to_insert), (find_r eR Q to_insert); simpl in *; try easy.
      + destruct S1 as [_ ->], S2 as [_ ->]. apply swap_r_out_like; auto.
      + rewrite RE in S1. destruct (s_are_paired eL eR Q expected old); destruct S1 as [_ ->], S2 as [_ ->]; simpl; auto.
        apply swap_r_out_like; auto.
      + rewrite CR in S1. destruct (s_contains_right eR Q old); destruct S1 as [_ ->], S2 as [_ ->]; [apply swap_r_out_like; auto|].
        assert (W := alike_of_same _ _ (DL to_insert)). destruct W as (_ & W & _). simpl in W. rewrite W.
        destruct (s_contains_right eR _ new); simpl; auto.
        specialize (FL to_insert). destruct (find_l eL P to_insert), (find_l eL Q to_insert); simpl in *; try easy.
      + destruct S1 as [_ ->], S2 as [_ ->]. simpl. rewrite RE. auto.
      + destruct S1 as [_ ->], S2 as [_ ->]. simpl. rewrite (is_left_paired_like P Q); auto.
      + destruct S1 as [_ ->], S2 as [_ ->]. simpl. rewrite (is_right_paired_like P Q); auto.
      + destruct S1 as [_ ->], S2 as [_ ->]. simpl. rewrite CL. auto.
      + destruct S1 as [_ ->], S2 as [_ ->]. simpl. rewrite CR. auto.
      + destruct S1 as [_ ->], S2 as [_ ->]. eapply bind_like; [apply like_get_l|auto].
      + destruct S1 as [_ ->], S2 as [_ ->]. eapply bind_like; [apply like_get_r|auto].
      + destruct S1 as [_ ->], S2 as [_ ->]. simpl. rewrite !lefts_len. f_equal. apply filter_len; auto. apply like_left_item.
      + destruct S1 as [_ ->], S2 as [_ ->]. simpl. rewrite !rights_len. f_equal. apply filter_len; auto. apply like_right_item.
      + destruct S1 as [_ ->], S2 as [_ ->]. simpl. destruct LE as [LE _]. destruct P, Q; auto; discriminate.
      + destruct S1 as (_ & Q1 & P1 & ->), S2 as (_ & Q2 & P2 & ->). simpl.
        eapply list_like_of; [| | |exact P1|exact P2]; try (apply pb_filter; auto). apply same_filter; auto. apply like_left_item.
      + destruct S1 as (_ & Q1 & P1 & ->), S2 as (_ & Q2 & P2 & ->). simpl.
        eapply CycleMapLaws.list_like_perm; [|exact P1|exact P2]. apply same_pairs_like; auto.
      + destruct S1 as (_ & Q1 & P1 & ->), S2 as (_ & Q2 & P2 & ->). simpl.
        eapply list_like_of; [| | |exact P1|exact P2]; try (apply pb_filter; auto). apply same_filter; auto.
        intros u v W; rewrite (like_both u v); auto.
      + destruct S1 as (_ & Q1 & P1 & ->), S2 as (_ & Q2 & P2 & ->). simpl.
        eapply CycleMapLaws.list_like_perm; [|exact P1|exact P2]. apply list_like_flat; auto; [apply like_get_l|].
        change (length (lefts P) = length (lefts Q)). rewrite !lefts_len. apply filter_len; auto. apply like_left_item.
      + destruct S1 as (_ & Q1 & P1 & ->), S2 as (_ & Q2 & P2 & ->). simpl.
        eapply CycleMapLaws.list_like_perm; [|exact P1|exact P2]. apply list_like_flat; auto; [apply like_get_r|].
        change (length (rights P) = length (rights Q)). rewrite !rights_len. apply filter_len; auto. apply like_right_item.
      + destruct S1 as [_ ->], S2 as [_ ->]. simpl; auto.
      + destruct S1 as [_ ->], S2 as [_ ->]. simpl; auto.
      + destruct T as (p & Rp & Hp). destruct S1 as (Q1 & P1 & S1), S2 as (Q2 & P2 & S2).
        destruct (PartialHashFree.s_filter_pure f p Hp Q1 x) as (x1 & F1), (PartialHashFree.s_filter_pure f p Hp Q2 x) as (x2 & F2).
        rewrite F1 in S1. rewrite F2 in S2. destruct S1 as [_ ->], S2 as [_ ->]. simpl; auto.
      + destruct T as (p & Rp & Hp). destruct S1 as (Q1 & P1 & S1), S2 as (Q2 & P2 & S2).
        destruct (PartialHashFree.s_filter_pure f p Hp Q1 x) as (x1 & F1), (PartialHashFree.s_filter_pure f p Hp Q2 x) as (x2 & F2).
        rewrite F1 in S1. rewrite F2 in S2. destruct S1 as [_ ->], S2 as [_ ->]. simpl; auto.
      + destruct T as (p & Rp & Hp). destruct S1 as (Q1 & P1 & S1), S2 as (Q2 & P2 & S2).
        destruct (PartialHashFree.s_filter_pure f p Hp Q1 x) as (x1 & F1), (PartialHashFree.s_filter_pure f p Hp Q2 x) as (x2 & F2).
        rewrite F1 in S1. rewrite F2 in S2. destruct S1 as [_ ->], S2 as [_ ->]. simpl; auto.
      + destruct S1 as (_ & Q1 & y1 & P1 & _ & L1 & ->), S2 as (_ & Q2 & y2 & P2 & _ & L2 & ->). simpl. split; auto.
        assert (LN : length (Q1 ++ y1) = length (Q2 ++ y2)).
        { rewrite !app_length, L1, L2, (Permutation_length P1), (Permutation_length P2).
          rewrite (filter_len has_left_item P Q like_left_item B B' H).
          rewrite (filter_len (fun e => negb (has_left_item e)) P Q); auto. intros u v W; rewrite (like_left_item u v); auto. }
        rewrite !app_length in *. rewrite !firstn_length, !repeat_length, !map_length, ?app_length. lia.
      + destruct T.
      + destruct S1 as [_ ->], S2 as [_ ->]. simpl; auto.
      + destruct S1 as [_ ->], S2 as [_ ->]. simpl; auto.
      + destruct S1 as [_ ->], S2 as [_ ->]. simpl; auto.
      + destruct S1 as [_ ->], S2 as [_ ->]. simpl; auto.
      + destruct S1 as [_ ->], S2 as [_ ->]. simpl; auto.
      + destruct S1 as [_ ->], S2 as [_ ->]. simpl; auto.
      + destruct S1 as [_ ->], S2 as [_ ->]. simpl; auto.
      + destruct S1 as (_ & b1 & ->), S2 as (_ & b2 & ->). eauto.
      + destruct S1 as (_ & b1 & ->), S2 as (_ & b2 & ->). eauto.
  Qed.
End Congruence.

(* ---- C123 ---- *)
Section Laws.
  Context {L R S : Type}.
  Variable E : env L R S.
  Hypothesis OK : lawful E.
  Implicit Types (m : pmap L R S) (l : L) (r : R).
  Let EL := eqL_equiv _ OK.
  Let ER := eqR_equiv _ OK.
  Notation pb := (partial_bijection (eqL E) (eqR E)).

  (* the map after the calls ops *)
  Definition after m (ops : list (op L R)) : pmap L R S := fst (run E m ops).
  (* the lookups give the same answers *)
  Definition same_map m m' : Prop :=
    (forall l, contains_left E m l = contains_left E m' l) /\
    (forall r, contains_right E m r = contains_right E m' r) /\
    (forall l r, are_paired E m l r = are_paired E m' l r).
  Notation "m ~~ m'" := (same_map m m') (at level 70).

  Definition lookm m : looks := Looks (contains_left E m) (contains_right E m) (are_paired E m).
  Lemma lookm_repr : forall s c m P, Repr E s c m P -> alike (look (eqL E) (eqR E) P) (lookm m).
  Proof.
    intros s c m P H. repeat split; intros; simpl; symmetry;
      [eapply contains_left_spec|eapply contains_right_spec|eapply are_paired_spec]; eauto.
  Qed.

  (* what makes three lookups those of a map *)
  Record sound m : Prop := {
    so_l : forall a a', eqL E a a' = true -> contains_left E m a' = contains_left E m a;
    so_r : forall b b', eqR E b b' = true -> contains_right E m b' = contains_right E m b;
    so_pl : forall a a' b, eqL E a a' = true -> are_paired E m a' b = are_paired E m a b;
    so_pr : forall a b b', eqR E b b' = true -> are_paired E m a b' = are_paired E m a b;
    so_in : forall a b, are_paired E m a b = true -> contains_left E m a = true /\ contains_right E m b = true;
    so_one : forall a a' b b', are_paired E m a b = true -> are_paired E m a' b' = true -> eqL E a a' = eqR E b b'
  }.
  Lemma reachable_sound : forall room m, reachable E room m -> sound m.
  Proof.
    intros room m H. apply (reachable_repr E OK) in H as (s & c & P & H & _).
    assert (B := repr_bij _ _ _ _ _ H). destruct (lookm_repr _ _ _ _ H) as (X & Y & Z). simpl in X, Y, Z.
    constructor; intros *; rewrite <- ?X, <- ?Y, <- ?Z.
    - intros Q. symmetry. apply (cl_swap _ EL); auto.
    - intros Q. symmetry. apply (cr_swap _ ER); auto.
    - intros Q. symmetry. apply (rel_swap_l _ _ EL); auto.
    - intros Q. symmetry. apply (rel_swap_r _ _ ER); auto.
    - intros Q. split; [eapply rel_cl|eapply rel_cr]; eauto.
    - intros Q Q'. eapply (rel_one _ _ EL ER); eauto.
  Qed.
  Lemma fit_guard : forall s c m P o, Repr E s c m P -> plain o -> fit o (lookm m) -> guard E m o.
  Proof.
    intros s c m P o H PL F. destruct o; simpl in *; auto; try contradiction.
    intros a' b' G1 G2 _ _. assert (B := repr_bij _ _ _ _ _ H). destruct (lookm_repr _ _ _ _ H) as (X & Y & Z). simpl in X, Y, Z.
    destruct F as [F|[F|F]]; auto; exfalso.
    - rewrite (get_right_spec E OK _ _ _ _ _ H) in G1. unfold s_get_right in G1.
      destruct (find_l (eqL E) P l) as [x|] eqn:Q; simpl in G1; [|discriminate].
      destruct (of_l _ _ EL ER P l x B Q) as (_ & _ & _ & W). specialize (F b'). rewrite <- Z, W in F.
      unfold has_r in F. rewrite G1, (equiv_refl _ ER) in F. discriminate.
    - rewrite (get_left_spec E OK _ _ _ _ _ H) in G2. unfold s_get_left in G2.
      destruct (find_r (eqR E) P r) as [x|] eqn:Q; simpl in G2; [|discriminate].
      destruct (of_r _ _ EL ER P r x B Q) as (_ & _ & _ & W). specialize (F a'). rewrite <- Z, W in F.
      unfold has_l in F. rewrite G2, (equiv_refl _ EL) in F. discriminate.
  Qed.
  Lemma run_acts : forall ops s c m P, Repr E s c m P -> c + budget ops < two64 -> Forall plain ops ->
    fits (eqL E) (eqR E) ops (lookm m) ->
    alike (lookm (after m ops)) (acts (eqL E) (eqR E) ops (lookm m)).
  Proof.
    unfold after. induction ops as [|o ops IH]; intros s c m P H C PL F; [apply alike_refl|].
    cbn [run acts budget fits] in *. inversion PL as [|o' ops' P1 P2]; subst. destruct F as [F1 F2].
    destruct (step_ok E OK s c m P o H) as (P' & c' & St & H' & C'); [lia|eapply fit_guard; eauto|].
    assert (A : alike (lookm (fst (step E m o))) (act (eqL E) (eqR E) o (lookm m))).
    { eapply alike_trans; [apply alike_sym; eapply lookm_repr; eauto|].
      eapply alike_trans; [|apply act_ext; eapply lookm_repr; eauto].
      eapply (step_act _ _ EL ER); eauto; [|eapply repr_bij; eauto].
      assert (F3 : fit o (look (eqL E) (eqR E) P)); [|destruct o; auto]. eapply fit_ext; [|exact F1]. apply alike_sym. eapply lookm_repr; eauto. }
    destruct (step E m o) as [m1 w]. cbn [fst] in *.
    assert (X : alike (lookm (fst (run E m1 ops))) (acts (eqL E) (eqR E) ops (lookm m1))).
    { eapply IH; eauto; [lia|]. eapply fits_ext; [|exact F2]. apply alike_sym; auto. }
    destruct (run E m1 ops) as [m2 ws]. cbn [fst] in *.
    eapply alike_trans; [exact X|]. apply acts_ext; auto.
  Qed.
  Lemma law : forall room m ops1 ops2, reachable E room m -> budget ops1 <= room -> budget ops2 <= room ->
    Forall plain ops1 -> Forall plain ops2 ->
    fits (eqL E) (eqR E) ops1 (lookm m) -> fits (eqL E) (eqR E) ops2 (lookm m) ->
    alike (acts (eqL E) (eqR E) ops1 (lookm m)) (acts (eqL E) (eqR E) ops2 (lookm m)) ->
    after m ops1 ~~ after m ops2.
  Proof.
    intros room m ops1 ops2 H B1 B2 P1 P2 F1 F2 A. apply (reachable_repr E OK) in H as (s & c & P & H & B).
    assert (X : alike (lookm (after m ops1)) (lookm (after m ops2))).
    { eapply alike_trans; [eapply run_acts; eauto; lia|]. eapply alike_trans; [exact A|].
      apply alike_sym. eapply run_acts; eauto; lia. }
    exact X.
  Qed.
  (* no partner *)
  Lemma alone_l : forall room m l, reachable E room m -> get_right E m l = None -> forall b, are_paired E m l b = false.
  Proof.
    intros room m l H G b. apply (reachable_repr E OK) in H as (s & c & P & H & _).
    assert (B := repr_bij _ _ _ _ _ H). rewrite (are_paired_spec E OK _ _ _ _ _ _ H).
    rewrite (get_right_spec E OK _ _ _ _ _ H) in G. unfold s_get_right in G.
    destruct (find_l (eqL E) P l) as [x|] eqn:Q; simpl in G.
    - destruct (of_l _ _ EL ER P l x B Q) as (_ & _ & _ & ->). unfold has_r. rewrite G. auto.
    - apply absent_l. apply none_l; auto.
  Qed.
  Lemma alone_r : forall room m r, reachable E room m -> get_left E m r = None -> forall a, are_paired E m a r = false.
  Proof.
    intros room m r H G a. apply (reachable_repr E OK) in H as (s & c & P & H & _).
    assert (B := repr_bij _ _ _ _ _ H). rewrite (are_paired_spec E OK _ _ _ _ _ _ H).
    rewrite (get_left_spec E OK _ _ _ _ _ H) in G. unfold s_get_left in G.
    destruct (find_r (eqR E) P r) as [x|] eqn:Q; simpl in G.
    - destruct (of_r _ _ EL ER P r x B Q) as (_ & _ & _ & ->). unfold has_l. rewrite G. auto.
    - apply absent_r. apply none_r; auto.
  Qed.

  (* y := x *)
  Ltac sub_l SO m x y X :=
    repeat match goal with
    | |- context [eqL E y ?z] => rewrite <- (eqb_replace_l (eqL E) EL x y z X)
    | |- context [eqL E ?z y] => rewrite <- (eqb_replace_r (eqL E) EL x y z X)
    | |- context [contains_left E m y] => rewrite (so_l m SO x y X)
    | |- context [are_paired E m y ?z] => rewrite (so_pl m SO x y z X)
    | H : eqL E y ?z = _ |- _ => tryif constr_eq H X then fail else rewrite <- (eqb_replace_l (eqL E) EL x y z X) in H
    | H : eqL E ?z y = _ |- _ => tryif constr_eq H X then fail else rewrite <- (eqb_replace_r (eqL E) EL x y z X) in H
    | H : contains_left E m y = _ |- _ => rewrite (so_l m SO x y X) in H
    | H : are_paired E m y ?z = _ |- _ => rewrite (so_pl m SO x y z X) in H
    | H : forall b, are_paired E m y b = false |- _ =>
        assert (forall b, are_paired E m x b = false)
          by (let b := fresh in intros b; rewrite <- (so_pl m SO x y b X); apply H); clear H
    end; clear X.
  Ltac sub_r SO m x y X :=
    repeat match goal with
    | |- context [eqR E y ?z] => rewrite <- (eqb_replace_l (eqR E) ER x y z X)
    | |- context [eqR E ?z y] => rewrite <- (eqb_replace_r (eqR E) ER x y z X)
    | |- context [contains_right E m y] => rewrite (so_r m SO x y X)
    | |- context [are_paired E m ?z y] => rewrite (so_pr m SO z x y X)
    | H : eqR E y ?z = _ |- _ => tryif constr_eq H X then fail else rewrite <- (eqb_replace_l (eqR E) ER x y z X) in H
    | H : eqR E ?z y = _ |- _ => tryif constr_eq H X then fail else rewrite <- (eqb_replace_r (eqR E) ER x y z X) in H
    | H : contains_right E m y = _ |- _ => rewrite (so_r m SO x y X) in H
    | H : are_paired E m ?z y = _ |- _ => rewrite (so_pr m SO z x y X) in H
    | H : forall a, are_paired E m a y = false |- _ =>
        assert (forall a, are_paired E m a x = false)
          by (let a := fresh in intros a; rewrite <- (so_pr m SO a x y X); apply H); clear H
    end; clear X.
  Ltac sim := cbn [fits fit acts act lookm onl onr tie t_insert t_insert_left t_insert_right t_del_l t_del_r
    t_swap_left t_swap_right andb orb negb].
  Ltac crush1 SO :=
    match goal with
    | |- ?x = ?x => reflexivity
    | H : true = false |- _ => discriminate H
    | H : false = true |- _ => discriminate H
    | H : eqL E ?x ?x = _ |- _ => rewrite (equiv_refl _ EL x) in H
    | H : eqR E ?x ?x = _ |- _ => rewrite (equiv_refl _ ER x) in H
    | |- context [eqL E ?x ?x] => rewrite (equiv_refl _ EL x)
    | |- context [eqR E ?x ?x] => rewrite (equiv_refl _ ER x)
    | H : are_paired E ?m ?x ?z = true, H' : are_paired E ?m ?x ?z = false |- _ => congruence
    | H : contains_left E ?m ?x = true, H' : contains_left E ?m ?x = false |- _ => congruence
    | H : contains_right E ?m ?x = true, H' : contains_right E ?m ?x = false |- _ => congruence
    | H : are_paired E ?m ?x ?z = true, H' : contains_left E ?m ?x = false |- _ => destruct (so_in m SO x z H); congruence
    | H : are_paired E ?m ?x ?z = true, H' : contains_right E ?m ?z = false |- _ => destruct (so_in m SO x z H); congruence
    | H : forall b, are_paired E ?m ?x b = false, H' : are_paired E ?m ?x ?z = true |- _ => rewrite H in H'; discriminate
    | H : forall a, are_paired E ?m a ?x = false, H' : are_paired E ?m ?z ?x = true |- _ => rewrite H in H'; discriminate
    | X : eqL E ?x ?y = true |- _ => match type of SO with sound ?m => sub_l SO m x y X end
    | X : eqR E ?x ?y = true |- _ => match type of SO with sound ?m => sub_r SO m x y X end
    | H : ?t = ?v |- context [?t] => match v with true => idtac | false => idtac end; rewrite H
    | H : eqL E ?x ?y = false |- context [eqL E ?y ?x] => rewrite (eqb_sym (eqL E) EL y x), H
    | H : eqR E ?x ?y = false |- context [eqR E ?y ?x] => rewrite (eqb_sym (eqR E) ER y x), H
    | H : are_paired E ?m ?x ?z = true, H' : are_paired E ?m ?x ?w = true |- _ =>
        tryif constr_eq z w then fail else
          (let X := fresh "X" in assert (X := so_one m SO x x z w H H'); rewrite (equiv_refl _ EL x) in X; symmetry in X)
    | H : are_paired E ?m ?x ?z = true, H' : are_paired E ?m ?y ?z = true |- _ =>
        tryif constr_eq x y then fail else
          (let X := fresh "X" in assert (X := so_one m SO x y z z H H'); rewrite (equiv_refl _ ER z) in X)
    | |- context [eqL E ?x ?y] => destruct (eqL E x y) eqn:?
    | |- context [eqR E ?x ?y] => destruct (eqR E x y) eqn:?
    | |- context [are_paired E ?m ?x ?y] => destruct (are_paired E m x y) eqn:?
    | |- context [contains_left E ?m ?x] => destruct (contains_left E m x) eqn:?
    | |- context [contains_right E ?m ?x] => destruct (contains_right E m x) eqn:?
    end; sim.
  Ltac plains := repeat constructor; exact I.
  Ltac crush SO := repeat (crush1 SO).
  Ltac fitting SO :=
    repeat apply conj; try exact I;
    solve [ left; crush SO | right; left; intros; crush SO | right; right; intros; crush SO
          | right; right; left; crush SO | right; right; right; split; intros; crush SO ].
  Ltac setup SO :=
    eapply law; [eassumption|cbn [budget ids]; lia|cbn [budget ids]; lia|plains|plains| | |]; sim;
    [try fitting SO|try fitting SO|repeat split; intros; sim; crush SO].

  Theorem C123_insert_laws : forall m, reachable E 3 m ->
    (* twice is once *)
    (forall l r, after m [Insert l r; Insert l r] ~~ after m [Insert l r]) /\
    (forall l, after m [InsertLeft l; InsertLeft l] ~~ after m [InsertLeft l]) /\
    (forall r, after m [InsertRight r; InsertRight r] ~~ after m [InsertRight r]) /\
    (* the order matters only if pairs share an item *)
    (forall l r l' r', eqL E l l' = false -> eqR E r r' = false ->
       after m [Insert l r; Insert l' r'] ~~ after m [Insert l' r'; Insert l r]) /\
    (forall l l', after m [InsertLeft l; InsertLeft l'] ~~ after m [InsertLeft l'; InsertLeft l]) /\
    (forall r r', after m [InsertRight r; InsertRight r'] ~~ after m [InsertRight r'; InsertRight r]) /\
    (forall l r, after m [InsertLeft l; InsertRight r] ~~ after m [InsertRight r; InsertLeft l]) /\
    (* a pair is its two items, paired *)
    (forall l r, after m [InsertLeft l; InsertRight r; Pair l r] ~~ after m [Insert l r]) /\
    (forall l r, after m [RemoveViaLeft l; RemoveViaRight r; Insert l r] ~~ after m [Insert l r]) /\
    (* insert(l,_) and insert_left(l) override each other *)
    (forall l r, after m [InsertLeft l; Insert l r] ~~ after m [Insert l r]) /\
    (forall l r, after m [InsertRight r; Insert l r] ~~ after m [Insert l r]) /\
    (* undone by the removals *)
    (forall l r, contains_left E m l = false -> contains_right E m r = false ->
       after m [Insert l r; Remove l r] ~~ m /\ after m [Insert l r; RemoveViaLeft l] ~~ m /\
       after m [Insert l r; RemoveViaRight r] ~~ m) /\
    (forall l, contains_left E m l = false ->
       after m [InsertLeft l; RemoveLeft l] ~~ m /\ after m [InsertLeft l; RemoveViaLeft l] ~~ m) /\
    (forall r, contains_right E m r = false ->
       after m [InsertRight r; RemoveRight r] ~~ m /\ after m [InsertRight r; RemoveViaRight r] ~~ m).
  Proof.
    intros m H. assert (SO := reachable_sound 3 m H). repeat apply conj.
    - intros. setup SO.
    - intros. setup SO.
    - intros. setup SO.
    - intros. setup SO.
    - intros. setup SO.
    - intros. setup SO.
    - intros. setup SO.
    - intros. setup SO.
    - intros. setup SO.
    - intros. setup SO.
    - intros. setup SO.
    - intros. change m with (after m []) at 2 4 6. repeat apply conj; setup SO.
    - intros. change m with (after m []) at 2 4. repeat apply conj; setup SO.
    - intros. change m with (after m []) at 2 4. repeat apply conj; setup SO.
  Qed.

  Theorem C123_pair_laws : forall m, reachable E 3 m ->
    (* pair and unpair undo each other *)
    (forall l r, contains_left E m l = true -> contains_right E m r = true ->
       get_right E m l = None -> get_left E m r = None ->
       after m [Pair l r; Unpair l r] ~~ m /\ after m [Pair l r; Pair l r] ~~ after m [Pair l r] /\
       after m [PairForced l r] ~~ after m [Pair l r] /\ after m [PairForcedRemove l r] ~~ after m [Pair l r] /\
       after m [Insert l r] ~~ after m [Pair l r]) /\
    (forall l r, are_paired E m l r = true ->
       after m [Unpair l r; Pair l r] ~~ m /\ after m [Unpair l r; PairForced l r] ~~ m /\
       after m [Unpair l r; Unpair l r] ~~ after m [Unpair l r] /\
       after m [Pair l r] ~~ m /\ after m [PairForced l r] ~~ m /\ after m [PairForcedRemove l r] ~~ m /\
       after m [Insert l r] ~~ m) /\
    (* pair_forced, in steps *)
    (forall l r l' r', are_paired E m l r' = true -> are_paired E m l' r = true ->
       after m [PairForced l r] ~~ after m [Unpair l r'; Unpair l' r; Pair l r]) /\
    (forall l r r', are_paired E m l r' = true -> contains_right E m r = true -> get_left E m r = None ->
       after m [PairForced l r] ~~ after m [Unpair l r'; Pair l r]) /\
    (forall l r l', are_paired E m l' r = true -> contains_left E m l = true -> get_right E m l = None ->
       after m [PairForced l r] ~~ after m [Unpair l' r; Pair l r]) /\
    (forall l r, after m [PairForced l r; PairForced l r] ~~ after m [PairForced l r]) /\
    (forall l r, after m [PairForcedRemove l r; PairForcedRemove l r] ~~ after m [PairForcedRemove l r]) /\
    (* pair_forced_remove also drops the former partners *)
    (forall l r, contains_left E m l = true -> contains_right E m r = true ->
       after m [PairForcedRemove l r] ~~ after m [Insert l r]) /\
    (forall l r l' r', are_paired E m l r' = true -> are_paired E m l' r = true -> eqL E l l' = false ->
       after m [PairForcedRemove l r] ~~ after m [PairForced l r; RemoveLeft l'; RemoveRight r']) /\
    (* unpairing pairs: in any order *)
    (forall l r l' r', are_paired E m l r = true -> are_paired E m l' r' = true -> eqL E l l' = false ->
       after m [Unpair l r; Unpair l' r'] ~~ after m [Unpair l' r'; Unpair l r]) /\
    (* refused *)
    (forall l r, contains_left E m l = false \/ contains_right E m r = false ->
       after m [Pair l r] ~~ m /\ after m [PairForced l r] ~~ m /\ after m [PairForcedRemove l r] ~~ m) /\
    (forall l r, get_right E m l = None \/ get_left E m r = None -> after m [Unpair l r] ~~ m).
  Proof.
    intros m H. assert (SO := reachable_sound 3 m H).
    assert (AL := fun l => alone_l 3 m l H). assert (AR := fun r => alone_r 3 m r H). repeat apply conj.
    - intros l r X Y Z W. assert (Z' := AL l Z). assert (W' := AR r W). clear AL AR.
      change m with (after m []) at 2. repeat apply conj; setup SO.
    - intros l r X. clear AL AR. change m with (after m []) at 2 4 8 10 12 14. repeat apply conj; setup SO.
    - intros l r l' r' X Y. clear AL AR. destruct (so_in m SO _ _ X), (so_in m SO _ _ Y).
      destruct (eqL E l l') eqn:Q.
      + setup SO.
      + assert (Q' := so_one m SO _ _ _ _ X Y). setup SO.
    - intros l r r' X Y Z. assert (Z' := AR r Z). clear AL AR. destruct (so_in m SO _ _ X). setup SO.
    - intros l r l' X Y Z. assert (Z' := AL l Z). clear AL AR. destruct (so_in m SO _ _ X). setup SO.
    - intros. clear AL AR. setup SO.
    - intros. clear AL AR. setup SO.
    - intros. clear AL AR. setup SO.
    - intros l r l' r' X Y Z. clear AL AR. destruct (so_in m SO _ _ X), (so_in m SO _ _ Y).
      assert (Q' := so_one m SO _ _ _ _ X Y). rewrite Z in Q'. symmetry in Q'. setup SO.
    - intros l r l' r' X Y Z. clear AL AR. 
      assert (Q' := so_one m SO _ _ _ _ X Y). rewrite Z in Q'. symmetry in Q'. setup SO.
    - intros l r X. clear AL AR. change m with (after m []) at 2 4 6. destruct X as [X|X]; repeat apply conj; setup SO.
    - intros l r X. change m with (after m []) at 2. destruct X as [X|X]; [assert (X' := AL l X)|assert (X' := AR r X)]; setup SO.
  Qed.


  Theorem C123_remove_laws : forall m, reachable E 1 m ->
    (* twice is once *)
    (forall l, after m [RemoveViaLeft l; RemoveViaLeft l] ~~ after m [RemoveViaLeft l]) /\
    (forall r, after m [RemoveViaRight r; RemoveViaRight r] ~~ after m [RemoveViaRight r]) /\
    (forall l, after m [RemoveLeft l; RemoveLeft l] ~~ after m [RemoveLeft l]) /\
    (forall r, after m [RemoveRight r; RemoveRight r] ~~ after m [RemoveRight r]) /\
    (forall l r, after m [Remove l r; Remove l r] ~~ after m [Remove l r]) /\
    (* in any order *)
    (forall l l', after m [RemoveViaLeft l; RemoveViaLeft l'] ~~ after m [RemoveViaLeft l'; RemoveViaLeft l]) /\
    (forall r r', after m [RemoveViaRight r; RemoveViaRight r'] ~~ after m [RemoveViaRight r'; RemoveViaRight r]) /\
    (forall l r, after m [RemoveViaLeft l; RemoveViaRight r] ~~ after m [RemoveViaRight r; RemoveViaLeft l]) /\
    (forall l l', after m [RemoveLeft l; RemoveLeft l'] ~~ after m [RemoveLeft l'; RemoveLeft l]) /\
    (forall r r', after m [RemoveRight r; RemoveRight r'] ~~ after m [RemoveRight r'; RemoveRight r]) /\
    (forall l r, after m [RemoveLeft l; RemoveRight r] ~~ after m [RemoveRight r; RemoveLeft l]) /\
    (* a pair, through either item, at once or in steps *)
    (forall l r, are_paired E m l r = true ->
       after m [RemoveViaLeft l] ~~ after m [Remove l r] /\ after m [RemoveViaRight r] ~~ after m [Remove l r] /\
       after m [RemoveLeft l; RemoveRight r] ~~ after m [Remove l r] /\
       after m [RemoveLeft l; RemoveViaRight r] ~~ after m [Remove l r] /\
       after m [Unpair l r; RemoveViaLeft l] ~~ after m [RemoveLeft l] /\
       after m [RemoveViaLeft l; InsertRight r] ~~ after m [RemoveLeft l] /\
       after m [Remove l r; Insert l r] ~~ m /\
       after m [RemoveLeft l; Insert l r] ~~ m) /\
    (* an item without a partner: remove_left and remove_via_left are the same *)
    (forall l, get_right E m l = None -> after m [RemoveLeft l] ~~ after m [RemoveViaLeft l]) /\
    (forall r, get_left E m r = None -> after m [RemoveRight r] ~~ after m [RemoveViaRight r]) /\
    (* nothing to remove *)
    (forall l r, are_paired E m l r = false -> after m [Remove l r] ~~ m) /\
    (forall l, contains_left E m l = false -> after m [RemoveViaLeft l] ~~ m /\ after m [RemoveLeft l] ~~ m) /\
    (forall r, contains_right E m r = false -> after m [RemoveViaRight r] ~~ m /\ after m [RemoveRight r] ~~ m).
  Proof.
    intros m H. assert (SO := reachable_sound 1 m H).
    assert (AL := fun l => alone_l 1 m l H). assert (AR := fun r => alone_r 1 m r H). repeat apply conj.
    - intros. setup SO.
    - intros. setup SO.
    - intros. setup SO.
    - intros. setup SO.
    - intros. setup SO.
    - intros. setup SO.
    - intros. setup SO.
    - intros. setup SO.
    - intros. setup SO.
    - intros. setup SO.
    - intros. setup SO.
    - intros l r X. change m with (after m []) at 14 16. repeat apply conj; setup SO.
    - intros l X. assert (X' := AL l X). setup SO.
    - intros r X. assert (X' := AR r X). setup SO.
    - intros. change m with (after m []) at 2. setup SO.
    - intros. change m with (after m []) at 2 4. repeat apply conj; setup SO.
    - intros. change m with (after m []) at 2 4. repeat apply conj; setup SO.
  Qed.

  Theorem C123_swap_laws : forall m, reachable E 1 m ->
    (* there and back *)
    (forall x y, contains_left E m x = true -> contains_left E m y = false ->
       after m [SwapLeft x y; SwapLeft y x] ~~ m) /\
    (forall x y, contains_right E m x = true -> contains_right E m y = false ->
       after m [SwapRight x y; SwapRight y x] ~~ m) /\
    (* with a stop on the way *)
    (forall x y z, contains_left E m x = true -> contains_left E m y = false ->
       after m [SwapLeft x y; SwapLeft y z] ~~ after m [SwapLeft x z]) /\
    (forall x y z, contains_right E m x = true -> contains_right E m y = false ->
       after m [SwapRight x y; SwapRight y z] ~~ after m [SwapRight x z]) /\
    (forall x, after m [SwapLeft x x] ~~ m) /\
    (forall x, after m [SwapRight x x] ~~ m) /\
    (* a swap is a removal and an insertion *)
    (forall x y r, are_paired E m x r = true ->
       after m [SwapLeft x y] ~~ after m [RemoveViaLeft x; Insert y r]) /\
    (forall l x y, are_paired E m l x = true ->
       after m [SwapRight x y] ~~ after m [RemoveViaRight x; Insert l y]) /\
    (forall x y, contains_left E m x = true -> get_right E m x = None ->
       after m [SwapLeft x y] ~~ after m [RemoveViaLeft x; InsertLeft y]) /\
    (forall x y, contains_right E m x = true -> get_left E m x = None ->
       after m [SwapRight x y] ~~ after m [RemoveViaRight x; InsertRight y]) /\
    (* swaps to new items on the two sides do not interfere *)
    (forall x y u v, contains_left E m y = false -> contains_right E m v = false ->
       after m [SwapLeft x y; SwapRight u v] ~~ after m [SwapRight u v; SwapLeft x y]) /\
    (* the checked forms *)
    (forall x r y, are_paired E m x r = true -> after m [SwapLeftChecked x r y] ~~ after m [SwapLeft x y]) /\
    (forall x r y, are_paired E m x r = false -> after m [SwapLeftChecked x r y] ~~ m) /\
    (forall x l y, are_paired E m l x = true -> after m [SwapRightChecked x l y] ~~ after m [SwapRight x y]) /\
    (forall x l y, are_paired E m l x = false -> after m [SwapRightChecked x l y] ~~ m) /\
    (forall x y r, contains_left E m x = true -> after m [SwapLeftOrInsert x y r] ~~ after m [SwapLeft x y]) /\
    (forall x y r, contains_left E m x = false -> after m [SwapLeftOrInsert x y r] ~~ after m [Insert y r]) /\
    (forall x y l, contains_right E m x = true -> after m [SwapRightOrInsert x y l] ~~ after m [SwapRight x y]) /\
    (forall x y l, contains_right E m x = false -> after m [SwapRightOrInsert x y l] ~~ after m [Insert l y]).
  Proof.
    intros m H. assert (SO := reachable_sound 1 m H).
    assert (AL := fun l => alone_l 1 m l H). assert (AR := fun r => alone_r 1 m r H). repeat apply conj.
    - intros. change m with (after m []) at 2. setup SO.
    - intros. change m with (after m []) at 2. setup SO.
    - intros. setup SO.
    - intros. setup SO.
    - intros. change m with (after m []) at 2. setup SO.
    - intros. change m with (after m []) at 2. setup SO.
    - intros. setup SO.
    - intros. setup SO.
    - intros x y X Y. assert (Y' := AL x Y). setup SO.
    - intros x y X Y. assert (Y' := AR x Y). setup SO.
    - intros. setup SO.
    - intros x r y X. setup SO.
    - intros x r y X. change m with (after m []) at 2. setup SO.
    - intros x r y X. setup SO.
    - intros x r y X. change m with (after m []) at 2. setup SO.
    - intros x r y X. setup SO.
    - intros x r y X. setup SO.
    - intros x r y X. setup SO.
    - intros x r y X. setup SO.
  Qed.

  Theorem C123_extend_laws : forall m room, reachable E room m ->
    (forall xs ys, N.of_nat (length xs) + N.of_nat (length ys) <= room ->
       after m [ExtendPairs (xs ++ ys)] ~~ after m [ExtendPairs xs; ExtendPairs ys]) /\
    (forall xs ys, N.of_nat (length xs) + N.of_nat (length ys) <= room ->
       after m [Extend (xs ++ ys)] ~~ after m [Extend xs; Extend ys]) /\
    (* extend is a loop of inserts *)
    (forall xs, N.of_nat (length xs) <= room ->
       after m [ExtendPairs xs] ~~ after m (map (fun x => Insert (fst x) (snd x)) xs) /\
       after m [ExtendPairs xs] ~~ after m [Extend (map (fun x => SomeBoth (fst x) (snd x)) xs)]) /\
    (forall xs, N.of_nat (length xs) <= room ->
       after m [Extend xs] ~~
       after m (flat_map (fun x => match x with
                                   | Neither => []
                                   | SomeLeft l => [InsertLeft l]
                                   | SomeRight r => [InsertRight r]
                                   | SomeBoth l r => [Insert l r]
                                   end) xs)).
  Proof.
    intros m room H. repeat apply conj.
    - intros xs ys B. eapply law; eauto; cbn [budget ids fits fit acts act]; rewrite ?app_length; try lia; try plains; auto.
      rewrite fold_left_app. apply alike_refl.
    - intros xs ys B. eapply law; eauto; cbn [budget ids fits fit acts act]; rewrite ?app_length; try lia; try plains; auto.
      rewrite fold_left_app. apply alike_refl.
    - intros xs B. split.
      + eapply law; eauto; cbn [budget ids fits fit acts act]; try lia; try plains; auto.
        * assert (X : forall xs : list (L * R), budget (map (fun x => Insert (fst x) (snd x)) xs) = N.of_nat (length xs)).
          { induction xs0 as [|x xs0 IH]; cbn [map budget ids length]; [reflexivity|]. rewrite IH. lia. }
          rewrite X. lia.
        * apply Forall_forall. intros o I. apply in_map_iff in I as (x & <- & _). exact I.
        * generalize (lookm m). clear B. induction xs as [|x xs IH]; simpl; auto.
        * generalize (lookm m). clear B. induction xs as [|x xs IH]; simpl; auto using alike_refl.
      + eapply law; eauto; cbn [budget ids fits fit acts act]; rewrite ?map_length; try lia; try plains; auto.
        generalize (lookm m). clear B. induction xs as [|x xs IH]; simpl; auto using alike_refl.
    - intros xs B. eapply law; eauto; cbn [budget ids fits fit acts act]; try lia; try plains; auto.
      + match goal with |- budget ?f <= _ => assert (X : budget f <= N.of_nat (length xs)); [|lia] end.
        clear B. induction xs as [|[|l|r|l r] xs IH]; cbn [flat_map app budget ids length]; lia.
      + clear B. induction xs as [|[|l|r|l r] xs IH]; cbn [flat_map app]; repeat constructor; auto.
      + generalize (lookm m). clear B. induction xs as [|[|l|r|l r] xs IH]; simpl; auto.
      + generalize (lookm m). clear B. induction xs as [|[|l|r|l r] xs IH]; simpl; auto using alike_refl.
  Qed.

  (* maps that answer alike cannot be told apart: the same calls leave such maps and give equal
     results *)
  Theorem C123_congruence : forall ops room room' m m', reachable E room m -> reachable E room' m' -> m ~~ m' ->
    Forall (tame (eqL E) (eqR E)) ops -> guarded E m ops -> guarded E m' ops ->
    budget ops <= room -> budget ops <= room' ->
    after m ops ~~ after m' ops /\
    Forall2 (fun o ww => answers_like (eqL E) (eqR E) o (fst ww) (snd ww)) ops
            (combine (snd (run E m ops)) (snd (run E m' ops))).
  Proof.
    intros ops room room' m m' H H' A T G G' B B'.
    apply (reachable_repr E OK) in H as (s & c & P & H & C).
    apply (reachable_repr E OK) in H' as (s' & c' & P' & H' & C').
    assert (AP : alike (look (eqL E) (eqR E) P) (look (eqL E) (eqR E) P')).
    { assert (A' : alike (lookm m) (lookm m')) by exact A.
      eapply alike_trans; [eapply lookm_repr; eauto|]. eapply alike_trans; [exact A'|]. apply alike_sym. eapply lookm_repr; eauto. }
    clear A. assert (D : c + budget ops < two64) by lia. assert (D' : c' + budget ops < two64) by lia.
    clear B B' C C'. unfold after. revert c c' m m' P P' H H' AP D D' G G'.
    induction T as [|o ops To T IH]; intros c c' m m' P P' H H' A D D' G G'.
    - cbn. split; [|constructor].
      assert (X : alike (lookm m) (lookm m')); [|exact X].
      eapply alike_trans; [apply alike_sym; eapply lookm_repr; eauto|]. eapply alike_trans; [exact A|]. eapply lookm_repr; eauto.
    - cbn [run budget guarded] in *. destruct G as [G1 G2], G' as [G1' G2'].
      destruct (step_ok E OK s c m P o H) as (P1 & c1 & S1 & H1 & C1); [lia|auto|].
      destruct (step_ok E OK s' c' m' P' o H') as (P2 & c2 & S2 & H2 & C2); [lia|auto|].
      destruct (step_like _ _ EL ER o P P' P1 P2 _ _ To (repr_bij _ _ _ _ _ H) (repr_bij _ _ _ _ _ H') A S1 S2)
        as [A1 W].
      destruct (step E m o) as [m1 w], (step E m' o) as [m2 w']. cbn [fst snd] in *.
      destruct (IH c1 c2 m1 m2 P1 P2 H1 H2 A1) as [X Y]; [lia|lia|auto|auto|].
      destruct (run E m1 ops) as [n1 ws], (run E m2 ops) as [n2 ws']. cbn [fst snd combine] in *.
      split; auto.
  Qed.
End Laws.

(* A map with a history (pm1, all hashes collide: 1-20, 3-30, 5-50, alone 2, 4, 10, 40, 60) meeting the
   hypotheses, and the answers on the two sides of the laws computed on the items around. *)
Definition answers (m : pmap item item N) : list N * list N * list (N * N) :=
  let ls := [1; 2; 3; 4; 5; 6; 7; 8; 9] in
  let rs := [10; 20; 30; 40; 50; 60; 70; 80; 90] in
  (filter (fun l => contains_left env_collide m (it l)) ls,
   filter (fun r => contains_right env_collide m (it r)) rs,
   filter (fun lr => are_paired env_collide m (it (fst lr)) (it (snd lr))) (list_prod ls rs)).
Example C123_case :
  reachable env_collide 3 pm1 /\
  let aft := after env_collide pm1 in
  answers pm1 = ([1; 2; 3; 4; 5], [10; 20; 30; 40; 50; 60], [(1, 20); (3, 30); (5, 50)]) /\
  (* pair and unpair *)
  get_right env_collide pm1 (it 2) = None /\ get_left env_collide pm1 (it 60) = None /\
  answers (aft [Pair (it 2) (it 60)]) = ([1; 2; 3; 4; 5], [10; 20; 30; 40; 50; 60], [(1, 20); (2, 60); (3, 30); (5, 50)]) /\
  answers (aft [Pair (it 2) (it 60); Unpair (2, 9) (60, 9)]) = answers pm1 /\
  (* pair_forced in steps *)
  answers (aft [PairForced (it 1) (it 30)]) = ([1; 2; 3; 4; 5], [10; 20; 30; 40; 50; 60], [(1, 30); (5, 50)]) /\
  answers (aft [Unpair (it 1) (it 20); Unpair (it 3) (it 30); Pair (it 1) (it 30)]) = answers (aft [PairForced (it 1) (it 30)]) /\
  answers (aft [PairForcedRemove (it 1) (it 30)]) = ([1; 2; 4; 5], [10; 30; 40; 50; 60], [(1, 30); (5, 50)]) /\
  answers (aft [Insert (it 1) (it 30)]) = answers (aft [PairForcedRemove (it 1) (it 30)]) /\
  answers (aft [InsertLeft (it 1); InsertRight (it 30); Pair (it 1) (it 30)]) = answers (aft [Insert (it 1) (it 30)]) /\
  (* swaps *)
  answers (aft [SwapLeft (it 1) (it 9); SwapLeft (it 9) (it 1)]) = answers pm1 /\
  answers (aft [SwapLeft (it 1) (it 3)]) = ([2; 3; 4; 5], [10; 20; 40; 50; 60], [(3, 20); (5, 50)]) /\
  answers (aft [RemoveViaLeft (it 1); Insert (it 3) (it 20)]) = answers (aft [SwapLeft (it 1) (it 3)]) /\
  (* a target that is present: not undone by swapping back *)
  answers (aft [SwapLeft (it 1) (it 3); SwapLeft (it 3) (it 1)]) = ([1; 2; 4; 5], [10; 20; 40; 50; 60], [(1, 20); (5, 50)]) /\
  (* removals *)
  answers (aft [RemoveLeft (it 1)]) = ([2; 3; 4; 5], [10; 20; 30; 40; 50; 60], [(3, 30); (5, 50)]) /\
  answers (aft [Unpair (it 1) (it 20); RemoveViaLeft (it 1)]) = answers (aft [RemoveLeft (it 1)]) /\
  answers (aft [Extend [SomeLeft (it 1); SomeRight (it 30); SomeBoth (it 7) (it 70)]])
    = answers (aft [InsertLeft (it 1); InsertRight (it 30); Insert (it 7) (it 70)]).
Proof. split; [apply pm1_reachable; reflexivity|]. vm_compute. repeat split. Qed.

(* Maps that answer alike: the same entries from another history, with other representatives,
   another hasher state and other layouts; the same calls give equal results. *)
Definition pm1' : pmap item item N :=
  fst (run env_collide (with_hasher 3 1 2)
    [Extend [SomeLeft (2, 8); SomeRight (it 60); SomeBoth (5, 8) (50, 8); SomeRight (10, 3);
             SomeLeft (it 4); SomeRight (it 40);
             SomeBoth (it 3) (it 30); SomeBoth (1, 4) (it 20)]]).
Example C123_congruence_case :
  reachable env_collide 3 pm1' /\ answers pm1' = answers pm1 /\
  snd (run env_collide pm1 [Insert (it 2) (it 50); GetLeft (it 20); LenRight])
    = [OIns (SomeLeft (it 2), SomeBoth (it 5) (it 50)); OL (Some (it 1)); ONat 6] /\
  snd (run env_collide pm1' [Insert (it 2) (it 50); GetLeft (it 20); LenRight])
    = [OIns (SomeLeft (2, 8), SomeBoth (5, 8) (50, 8)); OL (Some (1, 4)); ONat 6].
Proof.
  split; [|vm_compute; auto]. eexists 3, 1, 2, _. split; [|split; [|reflexivity]]; [vm_compute; reflexivity|].
  simpl. auto.
Qed.

Print Assumptions C123_insert_laws.
Print Assumptions C123_pair_laws.
Print Assumptions C123_remove_laws.
Print Assumptions C123_swap_laws.
Print Assumptions C123_extend_laws.
Print Assumptions C123_congruence.
