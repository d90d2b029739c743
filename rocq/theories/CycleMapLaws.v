(* CycleMap: laws between calls (C122).

   The statements compare the maps left behind by two different histories of public calls on
   the same map.  [m ~~ m'] is the crate's own ==, and C122_equality_is_observation says what
   it is worth: two maps are == exactly when are_paired gives the same answer on all items. *)
From Coq Require Import List NArith Lia Bool Permutation PeanoNat.
From Verif Require Import Closures Prelude RawTable Optionals CycleMap ListFacts TableFacts CycleMapSpec
  CycleMapHistory CycleMapProofs CycleMapProofs2 CycleMapProofs3 CycleMapHistoryProofs Concrete
  CycleMapProps CycleMapProps2 CycleMapHashFree CycleMapProps3.
Import ListNotations.
Open Scope N_scope.

(* ---- lists of pairs as relations ---- *)
Section Rel.
  Context {L R : Type}.
  Variables (eL : L -> L -> bool) (eR : R -> R -> bool).
  Hypothesis EL : equivalence eL.
  Hypothesis ER : equivalence eR.
  Notation bij := (bijective eL eR).
  Notation rel := (s_are_paired eL eR).
  Implicit Types (P Q : list (L * R)) (a l : L) (b r : R).

  Definition agree P Q : Prop := forall a b, rel P a b = rel Q a b.

  Lemma rel_In : forall P a b, rel P a b = true <-> exists p, In p P /\ eL a (fst p) = true /\ eR b (snd p) = true.
  Proof.
    intros. unfold s_are_paired. rewrite existsb_exists. split.
    - intros (p & I & X). apply andb_true_iff in X as [X Y]. eauto.
    - intros (p & I & X & Y). exists p. rewrite X, Y. auto.
  Qed.
  Lemma rel_swap_l : forall P a a' b, eL a a' = true -> rel P a b = rel P a' b.
  Proof.
    intros P a a' b H. unfold s_are_paired. induction P; simpl; auto.
    rewrite IHP, (eqb_replace_l eL EL a a'); auto.
  Qed.
  Lemma rel_swap_r : forall P a b b', eR b b' = true -> rel P a b = rel P a b'.
  Proof.
    intros P a b b' H. unfold s_are_paired. induction P; simpl; auto.
    rewrite IHP, (eqb_replace_l eR ER b b'); auto.
  Qed.
  Lemma rel_stored : forall P p, In p P -> rel P (fst p) (snd p) = true.
  Proof.
    intros P p I. apply rel_In. exists p. split; auto. split; [apply (equiv_refl _ EL)|apply (equiv_refl _ ER)].
  Qed.
  Lemma bij_eq_l : forall P p q, bij P -> In p P -> In q P -> eL (fst p) (fst q) = true -> p = q.
  Proof.
    intros P p q [D _] Hp Hq Heq. induction P as [|x P IH]; simpl in *; [easy|].
    apply distinct_cons in D as [A D].
    destruct Hp as [<-|Hp], Hq as [<-|Hq]; auto.
    - rewrite A in Heq; [discriminate|]. apply in_map; auto.
    - apply (equiv_sym _ EL) in Heq. rewrite A in Heq; [discriminate|]. apply in_map; auto.
  Qed.
  Lemma bij_eq_r : forall P p q, bij P -> In p P -> In q P -> eR (snd p) (snd q) = true -> p = q.
  Proof.
    intros P p q [_ D] Hp Hq Heq. induction P as [|x P IH]; simpl in *; [easy|].
    apply distinct_cons in D as [A D].
    destruct Hp as [<-|Hp], Hq as [<-|Hq]; auto.
    - rewrite A in Heq; [discriminate|]. apply in_map; auto.
    - apply (equiv_sym _ ER) in Heq. rewrite A in Heq; [discriminate|]. apply in_map; auto.
  Qed.
  Lemma rel_one : forall P a a' b b', bij P -> rel P a b = true -> rel P a' b' = true -> eL a a' = eR b b'.
  Proof.
    intros P a a' b b' B H H'. apply rel_In in H as (p & I & X & Y), H' as (q & J & Z & W).
    destruct (eL a a') eqn:A, (eR b b') eqn:BB; auto.
    - assert (p = q) as <-.
      { apply (bij_eq_l P); auto. eapply (equiv_trans _ EL); [apply (equiv_sym _ EL); exact X|].
        eapply (equiv_trans _ EL); eauto. }
      rewrite (equiv_trans _ ER b (snd p) b') in BB; auto. apply (equiv_sym _ ER); auto.
    - assert (p = q) as <-.
      { apply (bij_eq_r P); auto. eapply (equiv_trans _ ER); [apply (equiv_sym _ ER); exact Y|].
        eapply (equiv_trans _ ER); eauto. }
      rewrite (equiv_trans _ EL a (fst p) a') in A; auto. apply (equiv_sym _ EL); auto.
  Qed.

  Lemma rel_filter : forall P f, (forall a a' b b', eL a a' = true -> eR b b' = true -> f (a, b) = f (a', b')) ->
    forall a b, rel (filter f P) a b = f (a, b) && rel P a b.
  Proof.
    intros P f H a b. unfold s_are_paired. induction P as [|[x y] P IH]; simpl.
    - symmetry. apply andb_false_r.
    - destruct (f (x, y)) eqn:F; simpl; rewrite IH; destruct (eL a x) eqn:A, (eR b y) eqn:B; simpl; auto.
      + rewrite (H a x b y A B), F. auto.
      + rewrite (H a x b y A B), F. auto.
  Qed.
  Lemma rel_del_l : forall P l a b, rel (del_l eL P l) a b = negb (eL l a) && rel P a b.
  Proof.
    intros. unfold del_l. rewrite rel_filter; auto.
    intros. simpl. rewrite (eqb_replace_r eL EL a0 a'); auto.
  Qed.
  Lemma rel_del_r : forall P r a b, rel (del_r eR P r) a b = negb (eR r b) && rel P a b.
  Proof.
    intros. unfold del_r. rewrite rel_filter; auto.
    intros. simpl. rewrite (eqb_replace_r eR ER b0 b'); auto.
  Qed.
  Lemma rel_cons : forall P l r a b, rel ((l, r) :: P) a b = eL a l && eR b r || rel P a b.
  Proof. reflexivity. Qed.
  Lemma rel_insert : forall P l r a b,
    rel (s_insert eL eR P l r) a b = eL l a && eR r b || negb (eL l a) && negb (eR r b) && rel P a b.
  Proof.
    intros. unfold s_insert. rewrite rel_cons, rel_del_r, rel_del_l, (eqb_sym eL EL a), (eqb_sym eR ER b).
    f_equal. rewrite andb_assoc. f_equal. apply andb_comm.
  Qed.
  Lemma find_l_rel : forall P l, bij P ->
    match find_l eL P l with
    | Some (a, b) => eL l a = true /\ rel P l b = true /\ In (a, b) P
    | None => forall b, rel P l b = false
    end.
  Proof.
    intros P l B. unfold find_l. destruct (find _ P) as [[a b]|] eqn:F.
    - apply find_some in F as [F1 F2]. simpl in F2. repeat split; auto. apply rel_In. exists (a, b). repeat split; auto.
      apply (equiv_refl _ ER).
    - intros b. destruct (rel P l b) eqn:X; auto. apply rel_In in X as (p & I & X & _).
      assert (Z := find_none _ _ F _ I). simpl in Z. congruence.
  Qed.
  Lemma find_r_rel : forall P r, bij P ->
    match find_r eR P r with
    | Some (a, b) => eR r b = true /\ rel P a r = true /\ In (a, b) P
    | None => forall a, rel P a r = false
    end.
  Proof.
    intros P r B. unfold find_r. destruct (find _ P) as [[a b]|] eqn:F.
    - apply find_some in F as [F1 F2]. simpl in F2. repeat split; auto. apply rel_In. exists (a, b). repeat split; auto.
      apply (equiv_refl _ EL).
    - intros a. destruct (rel P a r) eqn:X; auto. apply rel_In in X as (p & I & _ & X).
      assert (Z := find_none _ _ F _ I). simpl in Z. congruence.
  Qed.
  Lemma rel_swap_left : forall P old new a b, bij P ->
    rel (s_swap_left eL P old new) a b =
      eL new a && rel P old b || negb (eL new a) && negb (eL old a) && rel P a b.
  Proof.
    intros P old new a b B. unfold s_swap_left, s_swap_left_base.
    assert (F := find_l_rel P old B). destruct (find_l eL P old) as [[x y]|].
    - destruct F as (F & G & _). rewrite rel_cons, rel_del_l, (eqb_sym eL EL a new).
      assert (Y : rel P old b = eR b y).
      { destruct (rel P old b) eqn:Z.
        - assert (O := rel_one P old old b y B Z G). rewrite (equiv_refl _ EL) in O. auto.
        - destruct (eR b y) eqn:W; auto. rewrite (rel_swap_r P old b y W) in Z. congruence. }
      rewrite Y. f_equal. destruct (eL new old) eqn:N.
      + rewrite (eqb_replace_l eL EL new old a N). destruct (eL old a); auto.
      + rewrite rel_del_l. rewrite !andb_assoc. f_equal. apply andb_comm.
    - rewrite F, andb_false_r. simpl.
      assert (O : eL old a = true -> rel P a b = false).
      { intros O. rewrite <- (rel_swap_l P old a b O). auto. }
      destruct (eL new old) eqn:N; rewrite ?rel_del_l.
      + rewrite (eqb_replace_l eL EL new old a N). destruct (eL old a); simpl; auto.
      + destruct (eL old a); simpl; [rewrite O by auto; rewrite !andb_false_r; auto|].
        rewrite andb_true_r. auto.
  Qed.
  Lemma rel_swap_right : forall P old new a b, bij P ->
    rel (s_swap_right eR P old new) a b =
      eR new b && rel P a old || negb (eR new b) && negb (eR old b) && rel P a b.
  Proof.
    intros P old new a b B. unfold s_swap_right, s_swap_right_base.
    assert (F := find_r_rel P old B). destruct (find_r eR P old) as [[x y]|].
    - destruct F as (F & G & _). rewrite rel_cons, rel_del_r, (eqb_sym eR ER b new).
      assert (Y : rel P a old = eL a x).
      { destruct (rel P a old) eqn:Z.
        - assert (O := rel_one P a x old old B Z G). rewrite (equiv_refl _ ER) in O. auto.
        - destruct (eL a x) eqn:W; auto. rewrite (rel_swap_l P a x old W) in Z. congruence. }
      rewrite Y, andb_comm. f_equal. destruct (eR new old) eqn:N.
      + rewrite (eqb_replace_l eR ER new old b N). destruct (eR old b); auto.
      + rewrite rel_del_r. rewrite !andb_assoc. f_equal. apply andb_comm.
    - rewrite F, andb_false_r. simpl.
      assert (O : eR old b = true -> rel P a b = false).
      { intros O. rewrite <- (rel_swap_r P a old b O). auto. }
      destruct (eR new old) eqn:N; rewrite ?rel_del_r.
      + rewrite (eqb_replace_l eR ER new old b N). destruct (eR old b); simpl; auto.
      + destruct (eR old b); simpl; [rewrite O by auto; rewrite !andb_false_r; auto|].
        rewrite andb_true_r. auto.
  Qed.
  Lemma rel_remove : forall P l r a b, bij P ->
    rel (s_remove eL eR P l r) a b = negb (eL l a && eR r b) && rel P a b.
  Proof.
    intros P l r a b B. unfold s_remove. destruct (rel P l r) eqn:X; rewrite ?rel_del_l.
    - destruct (rel P a b) eqn:Y; [|rewrite !andb_false_r; auto].
      rewrite (rel_one P l a r b B X Y), andb_diag. auto.
    - destruct (eL l a) eqn:A, (eR r b) eqn:BB; auto. simpl.
      rewrite <- (rel_swap_l P l a b A), <- (rel_swap_r P l r b BB). auto.
  Qed.
  Lemma contains_l_rel : forall P a, s_contains_left eL P a = true <-> exists b, rel P a b = true.
  Proof.
    intros P a. unfold s_contains_left. rewrite existsb_exists. split.
    - intros (p & I & X). exists (snd p). apply rel_In. exists p. repeat split; auto. apply (equiv_refl _ ER).
    - intros (b & X). apply rel_In in X as (p & I & X & _). eauto.
  Qed.
  Lemma contains_r_rel : forall P b, s_contains_right eR P b = true <-> exists a, rel P a b = true.
  Proof.
    intros P b. unfold s_contains_right. rewrite existsb_exists. split.
    - intros (p & I & X). exists (fst p). apply rel_In. exists p. repeat split; auto. apply (equiv_refl _ EL).
    - intros (a & X). apply rel_In in X as (p & I & _ & X). eauto.
  Qed.
  Lemma absent_l : forall P a b, s_contains_left eL P a = false -> rel P a b = false.
  Proof.
    intros P a b H. destruct (rel P a b) eqn:X; auto.
    assert (s_contains_left eL P a = true) by (apply contains_l_rel; eauto). congruence.
  Qed.
  Lemma absent_r : forall P a b, s_contains_right eR P b = false -> rel P a b = false.
  Proof.
    intros P a b H. destruct (rel P a b) eqn:X; auto.
    assert (s_contains_right eR P b = true) by (apply contains_r_rel; eauto). congruence.
  Qed.
  (* extending with pairs that do not clash with each other *)
  Lemma rel_insert_all : forall xs P a b, bij xs ->
    rel (s_insert_all eL eR P xs) a b =
      rel xs a b || negb (s_contains_left eL xs a) && negb (s_contains_right eR xs b) && rel P a b.
  Proof.
    unfold s_insert_all. induction xs as [|[l r] xs IH]; intros P a b D; [reflexivity|].
    assert (D' : bij xs).
    { destruct D as [D1 D2]. simpl in D1, D2. apply distinct_cons in D1 as [_ D1], D2 as [_ D2]. split; auto. }
    cbn [fold_left fst snd]. rewrite IH by auto. rewrite rel_insert, rel_cons.
    unfold s_contains_left, s_contains_right. cbn [existsb fst snd].
    fold (s_contains_left eL xs a). fold (s_contains_right eR xs b).
    rewrite (eqb_sym eL EL a l), (eqb_sym eR ER b r).
    destruct D as [D1 D2]. simpl in D1, D2. apply distinct_cons in D1 as [N1 _], D2 as [N2 _].
    assert (Z1 : eL l a = true -> s_contains_left eL xs a = false).
    { intros X. destruct (s_contains_left eL xs a) eqn:Y; auto. apply existsb_exists in Y as (p & I & Y).
      rewrite <- (N1 (fst p)) by (apply in_map; auto). symmetry. eapply (equiv_trans _ EL); eauto. }
    assert (Z2 : eR r b = true -> s_contains_right eR xs b = false).
    { intros X. destruct (s_contains_right eR xs b) eqn:Y; auto. apply existsb_exists in Y as (p & I & Y).
      rewrite <- (N2 (snd p)) by (apply in_map; auto). symmetry. eapply (equiv_trans _ ER); eauto. }
    destruct (eL l a) eqn:A, (eR r b) eqn:BB; rewrite ?Z1, ?Z2 by auto; simpl;
      rewrite ?andb_false_r, ?orb_false_r, ?orb_true_r, ?andb_true_r; simpl; auto.
  Qed.

  Lemma swap_left_bij : forall P old new, bij P -> bij (s_swap_left eL P old new).
  Proof.
    intros P old new B. unfold s_swap_left, s_swap_left_base.
    assert (F := find_l_rel P old B). destruct (find_l eL P old) as [[x y]|].
    - destruct F as (F & _ & I). set (Q := del_l eL _ old).
      assert (BQ : bij Q) by (apply bij_filter; destruct (eL new old); auto; apply bij_filter; auto).
      assert (K : forall p, In p Q -> In p P /\ eL old (fst p) = false /\ eL new (fst p) = false).
      { intros p J. apply filter_In in J as [J X]. apply negb_true_iff in X. destruct (eL new old) eqn:N.
        - rewrite (eqb_replace_l eL EL new old _ N). auto.
        - apply filter_In in J as [J Y]. apply negb_true_iff in Y. auto. }
      destruct BQ as [D1 D2]. split; cbn [map fst snd]; apply distinct_cons; split; auto; intros z J;
        apply in_map_iff in J as (p & <- & J); destruct (K p J) as (X & Y & Z); auto.
      destruct (eR y (snd p)) eqn:W; auto.
      assert ((x, y) = p) by (apply (bij_eq_r P); auto). subst p. simpl in Y. congruence.
    - destruct (eL new old); auto. apply bij_filter; auto.
  Qed.
  Lemma swap_right_bij : forall P old new, bij P -> bij (s_swap_right eR P old new).
  Proof.
    intros P old new B. unfold s_swap_right, s_swap_right_base.
    assert (F := find_r_rel P old B). destruct (find_r eR P old) as [[x y]|].
    - destruct F as (F & _ & I). set (Q := del_r eR _ old).
      assert (BQ : bij Q) by (apply bij_filter; destruct (eR new old); auto; apply bij_filter; auto).
      assert (K : forall p, In p Q -> In p P /\ eR old (snd p) = false /\ eR new (snd p) = false).
      { intros p J. apply filter_In in J as [J X]. apply negb_true_iff in X. destruct (eR new old) eqn:N.
        - rewrite (eqb_replace_l eR ER new old _ N). auto.
        - apply filter_In in J as [J Y]. apply negb_true_iff in Y. auto. }
      destruct BQ as [D1 D2]. split; cbn [map fst snd]; apply distinct_cons; split; auto; intros z J;
        apply in_map_iff in J as (p & <- & J); destruct (K p J) as (X & Y & Z); auto.
      destruct (eL x (fst p)) eqn:W; auto.
      assert ((x, y) = p) by (apply (bij_eq_l P); auto). subst p. simpl in Y. congruence.
    - destruct (eR new old); auto. apply bij_filter; auto.
  Qed.

  Lemma agree_perm : forall P Q, Permutation P Q -> agree P Q.
  Proof. intros P Q H a b. apply existsb_perm; auto. Qed.
  Lemma agree_same : forall P Q, agree P Q <-> same_pairs eL eR P Q.
  Proof.
    intros P Q. split.
    - intros A. split; intros p I.
      + assert (X := rel_stored P p I). rewrite A in X. apply rel_In in X as (q & J & X & Y). eauto.
      + assert (X := rel_stored Q p I). rewrite <- A in X. apply rel_In in X as (q & J & X & Y).
        exists q. repeat split; auto; [apply (equiv_sym _ EL)|apply (equiv_sym _ ER)]; auto.
    - intros [A B] a b. destruct (rel P a b) eqn:X, (rel Q a b) eqn:Y; auto.
      + apply rel_In in X as (p & I & X & X'). destruct (A p I) as (q & J & Z & W).
        rewrite <- Y. symmetry. apply rel_In. exists q. split; auto.
        split; [eapply (equiv_trans _ EL)|eapply (equiv_trans _ ER)]; eauto.
      + apply rel_In in Y as (q & J & Y & Y'). destruct (B q J) as (p & I & Z & W).
        rewrite <- X. apply rel_In. exists p. split; auto.
        split; [eapply (equiv_trans _ EL); [eauto|apply (equiv_sym _ EL); auto]
               |eapply (equiv_trans _ ER); [eauto|apply (equiv_sym _ ER); auto]].
  Qed.
End Rel.

(* ---- results up to Eq ---- *)
Section Like.
  Context {L R : Type} (eL : L -> L -> bool) (eR : R -> R -> bool).
  Definition opt_like {A} (e : A -> A -> Prop) (x y : option A) : Prop :=
    match x, y with Some a, Some b => e a b | None, None => True | _, _ => False end.
  Definition op_like {A B} (e : A -> A -> Prop) (f : B -> B -> Prop) (x y : optional_pair A B) : Prop :=
    match x, y with
    | Neither, Neither => True
    | SomeLeft a, SomeLeft a' => e a a'
    | SomeRight b, SomeRight b' => f b b'
    | SomeBoth a b, SomeBoth a' b' => e a a' /\ f b b'
    | _, _ => False
    end.
  Definition l_like a a' : Prop := eL a a' = true.
  Definition r_like b b' : Prop := eR b b' = true.
  Definition p_like (p q : L * R) : Prop := l_like (fst p) (fst q) /\ r_like (snd p) (snd q).
  Definition list_like {A} (e : A -> A -> Prop) (xs ys : list A) : Prop :=
    length xs = length ys /\
    (forall x, In x xs -> exists y, In y ys /\ e x y) /\ (forall y, In y ys -> exists x, In x xs /\ e x y).
  (* the same result, items compared with Eq, the order of iteration left open; of an
     unfinished drain_filter only the number of items is compared *)
  Definition out_like (w w' : out L R) : Prop :=
    match w, w' with
    | OPair p, OPair q => opt_like p_like p q
    | OIns d, OIns d' => op_like p_like p_like d d'
    | OSwapL d, OSwapL d' => op_like l_like p_like d d'
    | OSwapR d, OSwapR d' => op_like r_like p_like d d'
    | OL x, OL y => opt_like l_like x y
    | OR x, OR y => opt_like r_like x y
    | OPairs xs, OPairs ys => list_like p_like xs ys
    | OLs xs, OLs ys => list_like l_like xs ys
    | ORs xs, ORs ys => list_like r_like xs ys
    | OItems xs p, OItems ys q =>
        p = q /\ length xs = length ys /\
        (In None xs -> list_like (opt_like p_like) xs ys)
    | _, _ => w = w'
    end.
  Definition answers_like (o : op L R) (w w' : out L R) : Prop :=
    match o with
    | TryReserve _ => exists b b', w = OBool b /\ w' = OBool b'   (* up to the allocator *)
    | _ => out_like w w'
    end.
  (* closures that answer from the pair alone and respect Eq; no drain_filter leaked half way *)
  Definition tame (o : op L R) : Prop :=
    let respects (p : L -> R -> bool) :=
      forall a a' b b', eL a a' = true -> eR b b' = true -> p a b = p a' b' in
    match o with
    | Retain X f _ => exists p, respects p /\ forall x l r, snd (f x l r) = Some (p l r)
    | DrainFilter X f _ _ leak =>
        leak = false /\ exists p, respects p /\ forall x l r, snd (f x l r) = Some (p l r)
    | _ => True
    end.
End Like.

Section Congruence.
  Context {L R : Type}.
  Variables (eL : L -> L -> bool) (eR : R -> R -> bool).
  Hypothesis EL : equivalence eL.
  Hypothesis ER : equivalence eR.
  Notation bij := (bijective eL eR).
  Notation rel := (s_are_paired eL eR).
  Notation agree := (agree eL eR).
  Notation pl := (p_like eL eR).
  Implicit Types (P Q : list (L * R)) (a l : L) (b r : R).

  Lemma p_like_sym : forall p q, pl p q -> pl q p.
  Proof. intros p q [X Y]. split; [apply (equiv_sym _ EL)|apply (equiv_sym _ ER)]; auto. Qed.
  Lemma agree_find_l : forall P Q l, bij P -> bij Q -> agree P Q ->
    opt_like pl (find_l eL P l) (find_l eL Q l).
  Proof.
    intros P Q l B B' A. assert (F := find_l_rel eL eR ER P l B). assert (G := find_l_rel eL eR ER Q l B').
    destruct (find_l eL P l) as [[x y]|], (find_l eL Q l) as [[x' y']|]; simpl; auto.
    - destruct F as (X & Y & _), G as (X' & Y' & _). split; simpl.
      + eapply (equiv_trans _ EL); [apply (equiv_sym _ EL); exact X|exact X'].
      + rewrite A in Y. assert (O := rel_one eL eR EL ER Q l l y y' B' Y Y').
        rewrite (equiv_refl _ EL) in O. symmetry; exact O.
    - destruct F as (_ & Y & _). rewrite A, G in Y. discriminate.
    - destruct G as (_ & Y & _). rewrite <- A, F in Y. discriminate.
  Qed.
  Lemma agree_find_r : forall P Q r, bij P -> bij Q -> agree P Q ->
    opt_like pl (find_r eR P r) (find_r eR Q r).
  Proof.
    intros P Q r B B' A. assert (F := find_r_rel eL eR EL P r B). assert (G := find_r_rel eL eR EL Q r B').
    destruct (find_r eR P r) as [[x y]|], (find_r eR Q r) as [[x' y']|]; simpl; auto.
    - destruct F as (X & Y & _), G as (X' & Y' & _). split; simpl.
      + rewrite A in Y. assert (O := rel_one eL eR EL ER Q x x' r r B' Y Y').
        rewrite (equiv_refl _ ER) in O. exact O.
      + eapply (equiv_trans _ ER); [apply (equiv_sym _ ER); exact X|exact X'].
    - destruct F as (_ & Y & _). rewrite A, G in Y. discriminate.
    - destruct G as (_ & Y & _). rewrite <- A, F in Y. discriminate.
  Qed.
  Lemma agree_contains_l : forall P Q l, agree P Q -> s_contains_left eL P l = s_contains_left eL Q l.
  Proof.
    intros P Q l A. apply eq_true_iff_eq. rewrite !(contains_l_rel eL eR ER).
    split; intros (b & X); exists b; [rewrite <- A|rewrite A]; auto.
  Qed.
  Lemma agree_contains_r : forall P Q r, agree P Q -> s_contains_right eR P r = s_contains_right eR Q r.
  Proof.
    intros P Q r A. apply eq_true_iff_eq. rewrite !(contains_r_rel eL eR EL).
    split; intros (b & X); exists b; [rewrite <- A|rewrite A]; auto.
  Qed.
  Lemma agree_list : forall P Q, bij P -> bij Q -> agree P Q -> list_like pl P Q.
  Proof.
    intros P Q B B' A. assert (A' := A). apply (agree_same eL eR EL ER) in A' as [X Y]. split.
    - apply Nat.le_antisymm.
      + destruct B as [D _]. rewrite <- (map_length fst P), <- (map_length fst Q).
        eapply (distinct_embed_length eL EL); [exact D|]. intros x Hx. apply in_map_iff in Hx as (p & <- & I).
        destruct (X p I) as (q & J & Z & _). exists (fst q). split; auto. apply in_map; auto.
      + destruct B' as [D _]. rewrite <- (map_length fst P), <- (map_length fst Q).
        eapply (distinct_embed_length eL EL); [exact D|]. intros x Hx. apply in_map_iff in Hx as (q & <- & J).
        destruct (Y q J) as (p & I & Z & _). exists (fst p). split; [apply in_map; auto|]. apply (equiv_sym _ EL); auto.
    - split; intros p I.
      + destruct (X p I) as (q & J & Z). exists q. split; auto.
      + destruct (Y p I) as (q & J & Z). exists q. split; auto.
  Qed.
  Lemma list_like_perm : forall {A} (e : A -> A -> Prop) xs ys xs' ys', list_like e xs ys ->
    Permutation xs' xs -> Permutation ys' ys -> list_like e xs' ys'.
  Proof.
    intros A e xs ys xs' ys' (LN & X & Y) PX PY. split; [|split].
    - rewrite (Permutation_length PX), (Permutation_length PY). auto.
    - intros x I. eapply Permutation_in in I; [|exact PX]. destruct (X x I) as (y & J & Z). exists y. split; auto.
      eapply Permutation_in; [symmetry; exact PY|auto].
    - intros y J. eapply Permutation_in in J; [|exact PY]. destruct (Y y J) as (x & I & Z). exists x. split; auto.
      eapply Permutation_in; [symmetry; exact PX|auto].
  Qed.
  Lemma list_like_map : forall {A B} (e : A -> A -> Prop) (f : B -> B -> Prop) (k : A -> B) xs ys,
    (forall x y, e x y -> f (k x) (k y)) -> list_like e xs ys -> list_like f (map k xs) (map k ys).
  Proof.
    intros A B e f k xs ys H (LN & X & Y). split; [|split].
    - rewrite !map_length; auto.
    - intros z I. apply in_map_iff in I as (x & <- & I). destruct (X x I) as (y & J & Z).
      exists (k y). split; auto. apply in_map; auto.
    - intros z I. apply in_map_iff in I as (y & <- & J). destruct (Y y J) as (x & I & Z).
      exists (k x). split; auto. apply in_map; auto.
  Qed.
  Lemma list_like_app : forall {A} (e : A -> A -> Prop) xs ys zs, (forall z, In z zs -> e z z) ->
    list_like e xs ys -> list_like e (xs ++ zs) (ys ++ zs).
  Proof.
    intros A e xs ys zs H (LN & X & Y). split; [|split].
    - rewrite !app_length; auto.
    - intros x I. apply in_app_iff in I as [I|I].
      + destruct (X x I) as (y & J & Z). exists y. split; auto. apply in_app_iff; auto.
      + exists x. split; auto. apply in_app_iff; auto.
    - intros x I. apply in_app_iff in I as [I|I].
      + destruct (Y x I) as (y & J & Z). exists y. split; auto. apply in_app_iff; auto.
      + exists x. split; auto. apply in_app_iff; auto.
  Qed.
  Lemma agree_insert : forall P Q l r, agree P Q -> agree (s_insert eL eR P l r) (s_insert eL eR Q l r).
  Proof. intros P Q l r A a b. rewrite !(rel_insert eL eR EL ER), A. auto. Qed.
  Lemma agree_del_l : forall P Q l, agree P Q -> agree (del_l eL P l) (del_l eL Q l).
  Proof. intros P Q l A a b. rewrite !(rel_del_l eL eR EL), A. auto. Qed.
  Lemma agree_del_r : forall P Q r, agree P Q -> agree (del_r eR P r) (del_r eR Q r).
  Proof. intros P Q r A a b. rewrite !(rel_del_r eL eR ER), A. auto. Qed.
  Lemma agree_filter : forall P Q p, agree P Q ->
    (forall a a' b b', eL a a' = true -> eR b b' = true -> p (a, b) = p (a', b')) ->
    agree (filter p P) (filter p Q).
  Proof. intros P Q p A H a b. rewrite !(rel_filter eL eR) by auto. rewrite A. auto. Qed.
  Lemma agree_swap_l : forall P Q o n, bij P -> bij Q -> agree P Q ->
    agree (s_swap_left eL P o n) (s_swap_left eL Q o n) /\
    op_like (l_like eL) pl (s_swap_left_out eL P o n) (s_swap_left_out eL Q o n).
  Proof.
    intros P Q o n B B' A. split.
    - intros a b. rewrite !(rel_swap_left eL eR EL ER) by auto. rewrite !A. auto.
    - unfold s_swap_left_out, s_swap_left_evict.
      assert (F := agree_find_l P Q o B B' A). assert (G := agree_find_l P Q n B B' A).
      destruct (find_l eL P o) as [[x y]|], (find_l eL Q o) as [[x' y']|]; simpl in F; try easy.
      destruct F as [F _]. destruct (eL n o); simpl; auto.
      destruct (find_l eL P n), (find_l eL Q n); simpl in *; try easy.
  Qed.
  Lemma agree_swap_r : forall P Q o n, bij P -> bij Q -> agree P Q ->
    agree (s_swap_right eR P o n) (s_swap_right eR Q o n) /\
    op_like (r_like eR) pl (s_swap_right_out eR P o n) (s_swap_right_out eR Q o n).
  Proof.
    intros P Q o n B B' A. split.
    - intros a b. rewrite !(rel_swap_right eL eR EL ER) by auto. rewrite !A. auto.
    - unfold s_swap_right_out, s_swap_right_evict.
      assert (F := agree_find_r P Q o B B' A). assert (G := agree_find_r P Q n B B' A).
      destruct (find_r eR P o) as [[x y]|], (find_r eR Q o) as [[x' y']|]; simpl in F; try easy.
      destruct F as [_ F]. destruct (eR n o); simpl; auto.
      destruct (find_r eR P n), (find_r eR Q n); simpl in *; try easy.
  Qed.
  Lemma agree_insert_out : forall P Q l r, bij P -> bij Q -> agree P Q ->
    op_like pl pl (s_insert_out eL eR P l r) (s_insert_out eL eR Q l r).
  Proof.
    intros P Q l r B B' A. unfold s_insert_out.
    assert (F := agree_find_l P Q l B B' A).
    assert (G := agree_find_r _ _ r (bij_filter eL eR P _ B) (bij_filter eL eR Q _ B') (agree_del_l P Q l A)).
    unfold del_l in *.
    destruct (find_l eL P l), (find_l eL Q l); simpl in F; try easy;
      destruct (find_r eR _ r), (find_r eR _ r); simpl in *; try easy.
  Qed.
  Lemma agree_insert_all : forall xs P Q, agree P Q -> agree (s_insert_all eL eR P xs) (s_insert_all eL eR Q xs).
  Proof.
    unfold s_insert_all. induction xs as [|[a b] xs IH]; simpl; intros P Q A; auto using agree_insert.
  Qed.

  Lemma step_like : forall o P Q P' Q' w w', tame eL eR o -> bij P -> bij Q -> agree P Q ->
    s_step eL eR P o P' w -> s_step eL eR Q o Q' w' ->
    agree P' Q' /\ answers_like eL eR o w w'.
  Proof.
    intros o P Q P' Q' w w' T B B' A S1 S2. destruct o; simpl in S1, S2, T |- *.
    - destruct S1 as [-> ->], S2 as [-> ->]. split; [apply agree_insert|apply agree_insert_out]; auto.
    - destruct S1 as [-> ->], S2 as [-> ->]. unfold s_remove, s_remove_out. rewrite A.
      destruct (rel Q l r); simpl; auto using agree_del_l, agree_find_l.
    - destruct S1 as [-> ->], S2 as [-> ->]. simpl; auto using agree_del_l, agree_find_l.
    - destruct S1 as [-> ->], S2 as [-> ->]. simpl; auto using agree_del_r, agree_find_r.
    - destruct S1 as [-> ->], S2 as [-> ->]. simpl. apply agree_swap_l; auto.
    - rewrite A in S1. destruct (rel Q old expected); destruct S1 as [-> ->], S2 as [-> ->].
      + apply agree_swap_l; auto.
      + simpl; auto.
    - rewrite (agree_contains_l P Q) in S1; auto.
      destruct (s_contains_left eL Q old); destruct S1 as [-> ->], S2 as [-> ->].
      + apply agree_swap_l; auto.
      + split; [apply agree_insert; auto|]. assert (F := agree_insert_out P Q new to_insert B B' A).
        simpl. destruct (s_insert_out eL eR P new to_insert), (s_insert_out eL eR Q new to_insert);
          simpl in *; try easy; unfold p_like in *; tauto.
    - destruct S1 as [-> ->], S2 as [-> ->]. simpl. apply agree_swap_r; auto.
    - rewrite A in S1. destruct (rel Q expected old); destruct S1 as [-> ->], S2 as [-> ->].
      + apply agree_swap_r; auto.
      + simpl; auto.
    - rewrite (agree_contains_r P Q) in S1; auto.
      destruct (s_contains_right eR Q old); destruct S1 as [-> ->], S2 as [-> ->].
      + apply agree_swap_r; auto.
      + split; [apply agree_insert; auto|]. rewrite (agree_contains_l P Q) by auto.
        destruct (s_contains_left eL Q to_insert); simpl; auto.
        assert (F := agree_find_r P Q new B B' A).
        destruct (find_r eR P new), (find_r eR Q new); simpl in *; try easy.
    - destruct S1 as [-> ->], S2 as [-> ->]. simpl. rewrite A. auto.
    - destruct S1 as [-> ->], S2 as [-> ->]. simpl. rewrite (agree_contains_l P Q); auto.
    - destruct S1 as [-> ->], S2 as [-> ->]. simpl. rewrite (agree_contains_r P Q); auto.
    - destruct S1 as [-> ->], S2 as [-> ->]. split; auto. unfold s_get_left. simpl.
      assert (F := agree_find_r P Q r B B' A).
      destruct (find_r eR P r), (find_r eR Q r); simpl in *; try easy. apply F.
    - destruct S1 as [-> ->], S2 as [-> ->]. split; auto. unfold s_get_right. simpl.
      assert (F := agree_find_l P Q l B B' A).
      destruct (find_l eL P l), (find_l eL Q l); simpl in *; try easy. apply F.
    - destruct S1 as [-> ->], S2 as [-> ->]. split; auto. simpl.
      destruct (agree_list P Q B B' A) as [-> _]. auto.
    - destruct S1 as [-> ->], S2 as [-> ->]. split; auto. simpl.
      destruct (agree_list P Q B B' A) as [X _]. destruct P, Q; auto; discriminate.
    - destruct S1 as (-> & Q1 & P1 & ->), S2 as (-> & Q2 & P2 & ->). split; auto.
      eapply list_like_perm; eauto. apply agree_list; auto.
    - destruct S1 as (-> & Q1 & P1 & ->), S2 as (-> & Q2 & P2 & ->). split; auto.
      eapply (list_like_map pl); [intros x y Z; apply Z|].
      eapply list_like_perm; eauto. apply agree_list; auto.
    - destruct S1 as (-> & Q1 & P1 & ->), S2 as (-> & Q2 & P2 & ->). split; auto.
      eapply (list_like_map pl); [intros x y Z; apply Z|].
      eapply list_like_perm; eauto. apply agree_list; auto.
    - destruct S1 as [-> ->], S2 as [-> ->]. split; simpl; auto using agree_insert_all.
    - destruct T as (p & Rp & Hp). destruct S1 as (Q1 & P1 & S1), S2 as (Q2 & P2 & S2).
      destruct (s_filter_pure f p Hp Q1 x) as (x1 & F1), (s_filter_pure f p Hp Q2 x) as (x2 & F2).
      rewrite F1 in S1. rewrite F2 in S2. destruct S1 as [-> ->], S2 as [-> ->]. split; simpl; auto.
      apply agree_filter; [|simpl; auto]. intros a b.
      rewrite (agree_perm eL eR Q1 P P1), (agree_perm eL eR Q2 Q P2). auto.
    - destruct S1 as (-> & Q1 & P1 & ->), S2 as (-> & Q2 & P2 & ->). split; [intros a b; auto|].
      assert (LL : list_like pl Q1 Q2) by (eapply list_like_perm; eauto; apply agree_list; auto).
      split; auto. split.
      + rewrite !app_length, !map_length. destruct LL as [-> _]. auto.
      + intros _. apply list_like_app.
        * intros z [<-|[]]. simpl; auto.
        * eapply list_like_map; [|exact LL]. intros; simpl; auto.
    - destruct T as (-> & p & Rp & Hp). destruct S1 as (Q1 & P1 & S1), S2 as (Q2 & P2 & S2).
      destruct (s_filter_pure f p Hp Q1 x) as (x1 & F1), (s_filter_pure f p Hp Q2 x) as (x2 & F2).
      rewrite F1 in S1. rewrite F2 in S2. simpl in S1, S2. destruct S1 as [-> ->], S2 as [-> ->].
      assert (A' : agree Q1 Q2).
      { intros a b. rewrite (agree_perm eL eR Q1 P P1), (agree_perm eL eR Q2 Q P2). auto. }
      assert (BP : bij Q1) by (eapply bij_perm; [exact EL|exact ER|symmetry; exact P1|auto]).
      assert (BQ : bij Q2) by (eapply bij_perm; [exact EL|exact ER|symmetry; exact P2|auto]).
      split.
      + apply agree_filter; auto. simpl. intros. f_equal. auto.
      + set (g := fun q : L * R => p (fst q) (snd q)).
        assert (LL : list_like pl (filter g Q1) (filter g Q2)).
        { apply agree_list; try (apply bij_filter; auto). apply agree_filter; auto. }
        set (t1 := filter g Q1) in *. set (t2 := filter g Q2) in *. assert (LN := proj1 LL).
        simpl. split; auto. split.
        * rewrite !app_length, !firstn_length, !repeat_length, !map_length. lia.
        * intros I. rewrite LN. apply list_like_app.
          { intros z Hz. apply repeat_spec in Hz as ->. simpl; auto. }
          assert (n - length t1 <> 0)%nat.
          { intros Z. rewrite Z in I. simpl in I. rewrite app_nil_r in I.
            assert (I' : In None (map (@Some (L * R)) t1)).
            { rewrite <- (firstn_skipn n (map Some t1)). apply in_or_app; auto. }
            apply in_map_iff in I' as (y & XX & _). discriminate. }
          rewrite !firstn_all2 by (rewrite map_length; lia).
          eapply list_like_map; [|exact LL]. intros; simpl; auto.
    - destruct S1 as [-> ->], S2 as [-> ->]. split; [intros a b; auto|simpl; auto].
    - destruct S1 as [-> ->], S2 as [-> ->]. simpl; auto.
    - destruct S1 as [-> ->], S2 as [-> ->]. simpl; auto.
    - destruct S1 as [-> ->], S2 as [-> ->]. simpl; auto.
    - destruct S1 as [-> ->], S2 as [-> ->]. simpl; auto.
    - destruct S1 as (-> & b1 & ->), S2 as (-> & b2 & ->). split; auto. eauto.
  Qed.
End Congruence.

(* ---- C122 ---- *)
Section Laws.
  Context {L R S : Type}.
  Variable E : env L R S.
  Hypothesis OK : lawful E.
  Implicit Types (m : cmap L R S) (l : L) (r : R) (P : list (L * R)).
  Let EL := eqL_equiv _ OK.
  Let ER := eqR_equiv _ OK.
  Notation bij := (bijective (eqL E) (eqR E)).
  Notation rel := (s_are_paired (eqL E) (eqR E)).
  Notation agree := (agree (eqL E) (eqR E)).

  (* the map after the calls ops *)
  Definition after m (ops : list (op L R)) : cmap L R S := fst (run E m ops).
  (* m == m' *)
  Definition same_map m m' : Prop := map_eq E m m' = Done true.
  Notation "m ~~ m'" := (same_map m m') (at level 70).
  (* a closure that is a plain predicate *)
  Definition asking (p : L -> R -> bool) (_ : unit) l r : unit * verdict := (tt, Some (p l r)).
  Definition keep p : op L R := Retain unit (asking p) tt.
  (* drain_filter, n items taken by next() before the iterator is dropped *)
  Definition drain_off p n : op L R := DrainFilter unit (asking p) tt n false.

  Lemma same_iff : forall s c m P s' c' m' P', Repr E s c m P -> Repr E s' c' m' P' ->
    (m ~~ m' <-> agree P P').
  Proof.
    intros s c m P s' c' m' P' H H'. unfold same_map. rewrite (map_eq_ok E OK _ _ _ _ _ _ _ _ H H').
    rewrite (agree_same _ _ EL ER). rewrite <- (eq_spec E OK) by (eapply repr_bij; eauto).
    split; [intros X; injection X; auto|intros ->; auto].
  Qed.
  Lemma law : forall room m ops1 ops2, reachable E room m -> budget ops1 <= room -> budget ops2 <= room ->
    (forall s c P P1 P2 w1 w2, Repr E s c m P -> bij P -> s_run (eqL E) (eqR E) P ops1 P1 w1 ->
       s_run (eqL E) (eqR E) P ops2 P2 w2 -> agree P1 P2) ->
    after m ops1 ~~ after m ops2.
  Proof.
    intros room m ops1 ops2 H B1 B2 X. apply (reachable_repr E OK) in H as (s & c & P & H & B).
    destruct (run_ok E OK ops1 s c m P H) as (P1 & c1 & R1 & H1 & _); [lia|].
    destruct (run_ok E OK ops2 s c m P H) as (P2 & c2 & R2 & H2 & _); [lia|].
    eapply same_iff; eauto. eapply X; eauto. eapply repr_bij; eauto.
  Qed.

  Ltac inv_run :=
    repeat match goal with
    | H : s_run _ _ _ [] _ _ |- _ => inversion H; subst; clear H
    | H : s_run _ _ _ (_ :: _) _ _ |- _ => inversion H; subst; clear H
    | H : s_step _ _ _ _ _ _ |- _ => cbn [s_step] in H
    | H : _ /\ _ |- _ => destruct H; subst
    end.
  Ltac rels :=
    repeat match goal with
    | |- context [rel (s_insert _ _ _ _ _) _ _] => rewrite (rel_insert _ _ EL ER)
    | |- context [rel (del_l _ _ _) _ _] => rewrite (rel_del_l _ _ EL)
    | |- context [rel (del_r _ _ _) _ _] => rewrite (rel_del_r _ _ ER)
    | |- context [rel (s_remove _ _ _ _ _) _ _] => rewrite (rel_remove _ _ EL ER) by auto
    | |- context [rel (s_swap_left _ _ _ _) _ _] => rewrite (rel_swap_left _ _ EL ER) by auto using (swap_left_bij _ _ EL ER), (swap_right_bij _ _ EL ER)
    | |- context [rel (s_swap_right _ _ _ _) _ _] => rewrite (rel_swap_right _ _ EL ER) by auto using (swap_left_bij _ _ EL ER), (swap_right_bij _ _ EL ER)
    end.
  Ltac setup :=
    eapply law; [eassumption|cbn [budget ids]; lia|cbn [budget ids]; lia|];
    let s := fresh "s" in let c := fresh "c" in
    intros s c P P1 P2 w1 w2 HR B R1 R2;
    repeat match goal with
    | H : are_paired E _ _ _ = _ |- _ => rewrite (are_paired_spec E OK _ _ _ _ _ _ HR) in H
    | H : contains_left E _ _ = _ |- _ => rewrite (contains_left_spec E OK _ _ _ _ _ HR) in H
    | H : contains_right E _ _ = _ |- _ => rewrite (contains_right_spec E OK _ _ _ _ _ HR) in H
    end;
    inv_run.

  Theorem C122_equality_is_observation : forall room room' m m', reachable E room m -> reachable E room' m' ->
    (m ~~ m' <-> forall l r, are_paired E m l r = are_paired E m' l r).
  Proof.
    intros room room' m m' H H'. apply (reachable_repr E OK) in H as (s & c & P & H & _).
    apply (reachable_repr E OK) in H' as (s' & c' & P' & H' & _).
    rewrite (same_iff _ _ _ _ _ _ _ _ H H').
    split; intros A l r; [rewrite (are_paired_spec E OK _ _ _ _ _ _ H), (are_paired_spec E OK _ _ _ _ _ _ H'); apply A|].
    specialize (A l r). rewrite (are_paired_spec E OK _ _ _ _ _ _ H), (are_paired_spec E OK _ _ _ _ _ _ H') in A. auto.
  Qed.

  (* equal maps cannot be told apart: the same calls leave equal maps and give equal results *)
  Theorem C122_congruence : forall ops room room' m m', reachable E room m -> reachable E room' m' -> m ~~ m' ->
    Forall (tame (eqL E) (eqR E)) ops -> budget ops <= room -> budget ops <= room' ->
    after m ops ~~ after m' ops /\
    Forall2 (fun o ww => answers_like (eqL E) (eqR E) o (fst ww) (snd ww)) ops
            (combine (snd (run E m ops)) (snd (run E m' ops))).
  Proof.
    intros ops room room' m m' H H' A T B B'.
    apply (reachable_repr E OK) in H as (s & c & P & H & C).
    apply (reachable_repr E OK) in H' as (s' & c' & P' & H' & C').
    apply (same_iff _ _ _ _ _ _ _ _ H H') in A.
    assert (D : c + budget ops < two64) by lia. assert (D' : c' + budget ops < two64) by lia.
    clear B B' C C'. unfold after. revert c c' m m' P P' H H' A D D'.
    induction T as [|o ops To T IH]; intros c c' m m' P P' H H' A D D'.
    - cbn. split; [|constructor]. eapply same_iff; eauto.
    - cbn [run budget] in *.
      destruct (step_ok E OK s c m P o H) as (P1 & c1 & S1 & H1 & C1); [lia|].
      destruct (step_ok E OK s' c' m' P' o H') as (P2 & c2 & S2 & H2 & C2); [lia|].
      destruct (step_like _ _ EL ER o P P' P1 P2 _ _ To (repr_bij _ _ _ _ _ H) (repr_bij _ _ _ _ _ H') A S1 S2)
        as [A1 W].
      destruct (step E m o) as [m1 w], (step E m' o) as [m2 w']. cbn [fst snd] in *.
      destruct (IH c1 c2 m1 m2 P1 P2 H1 H2 A1) as [X Y]; [lia|lia|].
      destruct (run E m1 ops) as [n1 ws], (run E m2 ops) as [n2 ws']. cbn [fst snd combine] in *.
      split; auto.
  Qed.

  Theorem C122_insert_laws : forall m l r, reachable E 2 m ->
    (* twice is once *)
    after m [Insert l r; Insert l r] ~~ after m [Insert l r] /\
    (* the order of inserts matters only if they share an item *)
    (forall l' r', eqL E l l' = false -> eqR E r r' = false ->
       after m [Insert l r; Insert l' r'] ~~ after m [Insert l' r'; Insert l r]) /\
    (* the last one wins *)
    (forall l' r', eqL E l l' = true \/ eqR E r r' = true ->
       contains_left E m l = false -> contains_right E m r = false ->
       after m [Insert l r; Insert l' r'] ~~ after m [Insert l' r']) /\
    (* undone by any of the removals if neither item was there *)
    (contains_left E m l = false -> contains_right E m r = false ->
       after m [Insert l r; Remove l r] ~~ m /\
       after m [Insert l r; RemoveViaLeft l] ~~ m /\
       after m [Insert l r; RemoveViaRight r] ~~ m) /\
    (* no effect if the pair is there *)
    (are_paired E m l r = true -> after m [Insert l r] ~~ m) /\
    (* insert = make room on both sides, then insert *)
    after m [RemoveViaLeft l; RemoveViaRight r; Insert l r] ~~ after m [Insert l r] /\
    after m [RemoveViaRight r; RemoveViaLeft l; Insert l r] ~~ after m [Insert l r].
  Proof.
    intros m l r H. repeat apply conj.
    - setup. intros a b. rels. destruct (eqL E l a), (eqR E r b); auto.
    - intros l' r' X Y. setup. intros a b. rels.
      destruct (eqL E l a) eqn:A, (eqL E l' a) eqn:A', (eqR E r b) eqn:Z, (eqR E r' b) eqn:Z'; auto.
      all: try (rewrite (equiv_trans _ EL l a l') in X; [discriminate|auto|apply (equiv_sym _ EL); auto]).
      all: try (rewrite (equiv_trans _ ER r b r') in Y; [discriminate|auto|apply (equiv_sym _ ER); auto]).
    - intros l' r' X Y Z. setup. intros a b. rels.
      destruct (eqL E l' a) eqn:A', (eqR E r' b) eqn:Z'; auto; cbn [andb negb orb].
      destruct (eqL E l a) eqn:A, (eqR E r b) eqn:W; auto; cbn [andb negb orb].
      + destruct X as [X|X].
        * rewrite (equiv_trans _ EL l' l a) in A'; [discriminate|apply (equiv_sym _ EL); auto|auto].
        * rewrite (equiv_trans _ ER r' r b) in Z'; [discriminate|apply (equiv_sym _ ER); auto|auto].
      + rewrite <- (rel_swap_l _ _ EL P l a b A), (absent_l _ _ ER); auto.
      + rewrite <- (rel_swap_r _ _ ER P a r b W), (absent_r _ _ EL); auto.
    - intros X Y. change m with (after m []) at 2 4 6.
      assert (K : forall P a b, s_contains_left (eqL E) P l = false -> s_contains_right (eqR E) P r = false ->
         (eqL E l a = true -> rel P a b = false) /\ (eqR E r b = true -> rel P a b = false)).
      { intros P a b X' Y'. split; intros Z.
        - rewrite <- (rel_swap_l _ _ EL P l a b Z). apply (absent_l _ _ ER); auto.
        - rewrite <- (rel_swap_r _ _ ER P a r b Z). apply (absent_r _ _ EL); auto. }
      repeat apply conj; setup; intros a b; destruct (K P2 a b X Y) as [K1 K2].
      + rewrite (rel_remove _ _ EL ER) by (apply insert_bij; auto). rels.
        destruct (eqL E l a) eqn:A, (eqR E r b) eqn:Z; cbn [andb negb orb]; auto; symmetry; auto.
      + rels. destruct (eqL E l a) eqn:A, (eqR E r b) eqn:Z; cbn [andb negb orb]; auto; symmetry; auto.
      + rels. destruct (eqL E l a) eqn:A, (eqR E r b) eqn:Z; cbn [andb negb orb]; auto; symmetry; auto.
    - intros X. change m with (after m []) at 2. setup. intros a b. rels.
      destruct (rel P2 a b) eqn:Y.
      + rewrite (rel_one _ _ EL ER P2 l a r b B X Y). destruct (eqR E r b); auto.
      + destruct (eqL E l a) eqn:A, (eqR E r b) eqn:Z; auto.
        rewrite (rel_swap_l _ _ EL P2 l a r A), (rel_swap_r _ _ ER P2 a r b Z) in X. congruence.
    - setup. intros a b. rels. destruct (eqL E l a), (eqR E r b); auto.
    - setup. intros a b. rels. destruct (eqL E l a), (eqR E r b); auto.
  Qed.

  Theorem C122_remove_laws : forall m, reachable E 1 m ->
    (forall l, after m [RemoveViaLeft l; RemoveViaLeft l] ~~ after m [RemoveViaLeft l]) /\
    (forall r, after m [RemoveViaRight r; RemoveViaRight r] ~~ after m [RemoveViaRight r]) /\
    (forall l l', after m [RemoveViaLeft l; RemoveViaLeft l'] ~~ after m [RemoveViaLeft l'; RemoveViaLeft l]) /\
    (forall r r', after m [RemoveViaRight r; RemoveViaRight r'] ~~ after m [RemoveViaRight r'; RemoveViaRight r]) /\
    (forall l r, after m [RemoveViaLeft l; RemoveViaRight r] ~~ after m [RemoveViaRight r; RemoveViaLeft l]) /\
    (* of a pair, it does not matter through which item it is removed *)
    (forall l r, are_paired E m l r = true ->
       after m [RemoveViaLeft l] ~~ after m [Remove l r] /\
       after m [RemoveViaRight r] ~~ after m [Remove l r] /\
       (* and it can be put back *)
       after m [Remove l r; Insert l r] ~~ m) /\
    (forall l r, are_paired E m l r = false -> after m [Remove l r] ~~ m) /\
    (forall l, contains_left E m l = false -> after m [RemoveViaLeft l] ~~ m) /\
    (forall r, contains_right E m r = false -> after m [RemoveViaRight r] ~~ m).
  Proof.
    intros m H. repeat apply conj.
    - intros l. setup. intros a b. rels. destruct (eqL E l a); auto.
    - intros r. setup. intros a b. rels. destruct (eqR E r b); auto.
    - intros l l'. setup. intros a b. rels. destruct (eqL E l a), (eqL E l' a); auto.
    - intros r r'. setup. intros a b. rels. destruct (eqR E r b), (eqR E r' b); auto.
    - intros l r. setup. intros a b. rels. destruct (eqL E l a), (eqR E r b); auto.
    - intros l r X. repeat apply conj.
      + setup. intros a b. rels. destruct (rel P a b) eqn:Y; [|rewrite !andb_false_r; auto].
        rewrite (rel_one _ _ EL ER P l a r b B X Y), andb_diag. auto.
      + setup. intros a b. rels. destruct (rel P a b) eqn:Y; [|rewrite !andb_false_r; auto].
        rewrite (rel_one _ _ EL ER P l a r b B X Y), andb_diag. auto.
      + change m with (after m []) at 2. setup. intros a b. rels. destruct (rel P2 a b) eqn:Y.
        * rewrite (rel_one _ _ EL ER P2 l a r b B X Y). destruct (eqR E r b); auto.
        * destruct (eqL E l a) eqn:A, (eqR E r b) eqn:Z; auto.
          rewrite (rel_swap_l _ _ EL P2 l a r A), (rel_swap_r _ _ ER P2 a r b Z) in X. congruence.
    - intros l r X. change m with (after m []) at 2. setup. intros a b. rels.
      destruct (eqL E l a) eqn:A, (eqR E r b) eqn:Z; auto; cbn [andb negb].
      rewrite <- (rel_swap_l _ _ EL P2 l a b A), <- (rel_swap_r _ _ ER P2 l r b Z). auto.
    - intros l X. change m with (after m []) at 2. setup. intros a b. rels.
      destruct (eqL E l a) eqn:A; auto; cbn [andb negb].
      rewrite <- (rel_swap_l _ _ EL P2 l a b A), (absent_l _ _ ER); auto.
    - intros r X. change m with (after m []) at 2. setup. intros a b. rels.
      destruct (eqR E r b) eqn:A; auto; cbn [andb negb].
      rewrite <- (rel_swap_r _ _ ER P2 a r b A), (absent_r _ _ EL); auto.
  Qed.

  Theorem C122_swap_laws : forall m, reachable E 1 m ->
    (* swapping an item for itself (or an equal one) changes nothing *)
    (forall x y, eqL E x y = true -> after m [SwapLeft x y] ~~ m) /\
    (forall x y, eqR E x y = true -> after m [SwapRight x y] ~~ m) /\
    (* swapping there and back is undone *)
    (forall x y, contains_left E m y = false -> after m [SwapLeft x y; SwapLeft y x] ~~ m) /\
    (forall x y, contains_right E m y = false -> after m [SwapRight x y; SwapRight y x] ~~ m) /\
    (* an intermediate stop makes no difference *)
    (forall x y z, contains_left E m y = false -> after m [SwapLeft x y; SwapLeft y z] ~~ after m [SwapLeft x z]) /\
    (forall x y z, contains_right E m y = false ->
       after m [SwapRight x y; SwapRight y z] ~~ after m [SwapRight x z]) /\
    (* swap = remove the old pair, insert the new one *)
    (forall x y r, are_paired E m x r = true ->
       after m [SwapLeft x y] ~~ after m [RemoveViaLeft x; Insert y r]) /\
    (forall x y l, are_paired E m l x = true ->
       after m [SwapRight x y] ~~ after m [RemoveViaRight x; Insert l y]) /\
    (* swaps on the two sides of the map do not interfere *)
    (forall x y u v, after m [SwapLeft x y; SwapRight u v] ~~ after m [SwapRight u v; SwapLeft x y]).
  Proof.
    intros m H. repeat apply conj.
    - intros x y X. change m with (after m []) at 2. setup. intros a b. rels.
      rewrite <- (eqb_replace_l _ EL x y a X). destruct (eqL E x a) eqn:A; cbn [andb negb orb]; auto.
      rewrite orb_false_r. apply (rel_swap_l _ _ EL); auto.
    - intros x y X. change m with (after m []) at 2. setup. intros a b. rels.
      rewrite <- (eqb_replace_l _ ER x y b X). destruct (eqR E x b) eqn:A; cbn [andb negb orb]; auto.
      rewrite orb_false_r. apply (rel_swap_r _ _ ER); auto.
    - intros x y X. change m with (after m []) at 2. setup. intros a b. rels. rewrite (equiv_refl _ EL).
      destruct (eqL E x a) eqn:A, (eqL E y a) eqn:A'; cbn [andb negb orb]; rewrite ?orb_false_r; auto;
        try (apply (rel_swap_l _ _ EL); auto).
      rewrite <- (rel_swap_l _ _ EL P2 y a b A'), (absent_l _ _ ER); auto.
    - intros x y X. change m with (after m []) at 2. setup. intros a b. rels. rewrite (equiv_refl _ ER).
      destruct (eqR E x b) eqn:A, (eqR E y b) eqn:A'; cbn [andb negb orb]; rewrite ?orb_false_r; auto;
        try (apply (rel_swap_r _ _ ER); auto).
      rewrite <- (rel_swap_r _ _ ER P2 a y b A'), (absent_r _ _ EL); auto.
    - intros x y z X. setup. intros a b. rels. rewrite (equiv_refl _ EL).
      destruct (eqL E z a), (eqL E x a), (eqL E y a) eqn:A'; cbn [andb negb orb]; rewrite ?orb_false_r; auto.
      rewrite <- (rel_swap_l _ _ EL P y a b A'), (absent_l _ _ ER); auto.
    - intros x y z X. setup. intros a b. rels. rewrite (equiv_refl _ ER).
      destruct (eqR E z b), (eqR E x b), (eqR E y b) eqn:A'; cbn [andb negb orb]; rewrite ?orb_false_r; auto.
      rewrite <- (rel_swap_r _ _ ER P a y b A'), (absent_r _ _ EL); auto.
    - intros x y r X. setup. intros a b. rels.
      assert (K : rel P x b = eqR E r b).
      { destruct (rel P x b) eqn:Z.
        - rewrite <- (rel_one _ _ EL ER P x x r b B X Z). symmetry. apply (equiv_refl _ EL).
        - destruct (eqR E r b) eqn:W; auto. rewrite (rel_swap_r _ _ ER P x r b W) in X. congruence. }
      rewrite K. destruct (eqL E y a) eqn:Y; cbn [andb negb orb]; rewrite ?orb_false_r; auto.
      destruct (rel P a b) eqn:Z; [|rewrite !andb_false_r; auto].
      rewrite (rel_one _ _ EL ER P x a r b B X Z). destruct (eqR E r b); auto.
    - intros x y l X. setup. intros a b. rels.
      assert (K : rel P a x = eqL E l a).
      { destruct (rel P a x) eqn:Z.
        - rewrite (rel_one _ _ EL ER P l a x x B X Z). symmetry. apply (equiv_refl _ ER).
        - destruct (eqL E l a) eqn:W; auto. rewrite (rel_swap_l _ _ EL P l a x W) in X. congruence. }
      rewrite K. destruct (eqR E y b) eqn:Y; cbn [andb negb orb]; rewrite ?andb_false_r, ?andb_true_r, ?orb_false_r; auto.
      destruct (rel P a b) eqn:Z; [|rewrite !andb_false_r; auto].
      rewrite (rel_one _ _ EL ER P l a x b B X Z). destruct (eqR E x b); auto.
    - intros x y u v. setup. intros a b. rels.
      destruct (eqL E y a), (eqL E x a), (eqR E v b), (eqR E u b); cbn [andb negb orb]; rewrite ?orb_false_r; auto.
  Qed.

  Lemma insert_all_app : forall xs ys P, s_insert_all (eqL E) (eqR E) P (xs ++ ys) =
    s_insert_all (eqL E) (eqR E) (s_insert_all (eqL E) (eqR E) P xs) ys.
  Proof. intros. unfold s_insert_all. apply fold_left_app. Qed.
  Lemma run_inserts : forall xs P P' w,
    s_run (eqL E) (eqR E) P (map (fun x => Insert (fst x) (snd x)) xs) P' w ->
    P' = s_insert_all (eqL E) (eqR E) P xs.
  Proof.
    unfold s_insert_all. induction xs as [|[a b] xs IH]; intros P P' w X; inversion X as [|? ? ? ? ? ? ? Z Y]; subst; auto.
    apply IH in Y. cbn in Z. destruct Z as [-> _]. auto.
  Qed.
  Lemma budget_inserts : forall xs : list (L * R),
    budget (map (fun x => Insert (fst x) (snd x)) xs) = N.of_nat (length xs).
  Proof. induction xs; cbn [map budget ids length]; rewrite ?IHxs; lia. Qed.

  Theorem C122_extend_laws : forall m xs ys, reachable E (N.of_nat (length xs + length ys)) m ->
    after m [Extend xs; Extend ys] ~~ after m [Extend (xs ++ ys)] /\
    after m [Extend xs] ~~ after m (map (fun x => Insert (fst x) (snd x)) xs) /\
    (* the order does not matter if no item occurs twice (with a different partner) in xs;
       items of xs may well be in the map already *)
    (bij xs -> Permutation xs ys -> after m [Extend xs] ~~ after m [Extend ys]) /\
    (* extending by what is there already changes nothing *)
    ((forall p, In p xs -> are_paired E m (fst p) (snd p) = true) -> after m [Extend xs] ~~ m).
  Proof.
    intros m xs ys H. repeat apply conj.
    - eapply law; [eassumption|cbn [budget ids]; lia|cbn [budget ids]; rewrite ?app_length; lia|].
      intros s c P P1 P2 w1 w2 HR B R1 R2. inv_run. rewrite insert_all_app. intros a b; auto.
    - eapply law; [eassumption|cbn [budget ids]; lia|rewrite budget_inserts; lia|].
      intros s c P P1 P2 w1 w2 HR B R1 R2. apply run_inserts in R2 as ->. inv_run. intros a b; auto.
    - intros D PM. setup. intros a b. rewrite !(rel_insert_all _ _ EL ER); auto.
      + rewrite (paired_perm _ _ xs ys), (contains_l_perm _ xs ys), (contains_r_perm _ xs ys); auto.
      + eapply bij_perm; eauto.
    - intros X. change m with (after m []) at 2.
      eapply law; [eassumption|cbn [budget ids]; lia|cbn [budget ids]; lia|].
      intros s c P P1 P2 w1 w2 HR B R1 R2. inv_run.
      assert (X' : forall p, In p xs -> rel P2 (fst p) (snd p) = true).
      { intros p I. rewrite <- (are_paired_spec E OK _ _ _ _ _ _ HR). auto. }
      assert (K : forall Q, bij Q -> (forall p, In p xs -> rel Q (fst p) (snd p) = true) ->
                  agree (s_insert_all (eqL E) (eqR E) Q xs) Q).
      { clear - EL ER. unfold s_insert_all. induction xs as [|[l r] xs IH]; intros Q B X; [intros a b; auto|].
        cbn [fold_left fst snd].
        assert (AG : agree (s_insert (eqL E) (eqR E) Q l r) Q).
        { intros a b. rels. assert (Y := X (l, r) (or_introl eq_refl)). cbn [fst snd] in Y.
          destruct (rel Q a b) eqn:Z.
          - rewrite (rel_one _ _ EL ER Q l a r b B Y Z). destruct (eqR E r b); auto.
          - destruct (eqL E l a) eqn:A, (eqR E r b) eqn:W; auto.
            rewrite (rel_swap_l _ _ EL Q l a r A), (rel_swap_r _ _ ER Q a r b W) in Y. congruence. }
        intros a b. rewrite IH.
        - apply AG.
        - apply insert_bij; auto.
        - intros p I. rewrite AG. apply X. right; auto. }
      auto.
  Qed.

  Lemma run1 : forall P o P' w, s_run (eqL E) (eqR E) P [o] P' w -> exists w', s_step (eqL E) (eqR E) P o P' w'.
  Proof.
    intros P o P' w X. inversion X as [|? ? ? ? ? ? ? Z Y]; subst. inversion Y; subst. eauto.
  Qed.
  Lemma run2 : forall P o o' P' w, s_run (eqL E) (eqR E) P [o; o'] P' w ->
    exists Q w1 w2, s_step (eqL E) (eqR E) P o Q w1 /\ s_step (eqL E) (eqR E) Q o' P' w2.
  Proof.
    intros P o o' P' w X. inversion X as [|? ? ? ? ? ? ? Z Y]; subst. apply run1 in Y as (w' & Y). eauto 6.
  Qed.

  (* collecting the pairs of m, in any order, into a new map gives an equal map *)
  Theorem C122_collect : forall room m P xs s ll lr, reachable E room m -> contents E m P -> Permutation xs P ->
    N.of_nat (length xs) < two64 ->
    exists m', from_iter E s ll lr xs = Ret m' tt /\ m' ~~ m.
  Proof.
    intros room m P xs s ll lr H V PM LN. apply (reachable_view E OK) in H as (s0 & c & P' & V' & H & _).
    unfold contents in V. rewrite V' in V. injection V as ->.
    destruct (extend_ok E OK xs s 0 (with_hasher s ll lr) []) as (m' & X & H'); [apply new_ok|lia|].
    exists m'. split; [exact X|]. eapply same_iff; eauto.
    assert (B := repr_bij _ _ _ _ _ H).
    intros a b. change (s_extend _ [] xs) with (s_insert_all (eqL E) (eqR E) [] xs).
    rewrite (rel_insert_all _ _ EL ER).
    - rewrite andb_false_r, orb_false_r. apply (paired_perm _ _); auto.
    - apply (bij_perm _ _ EL ER P xs); auto. symmetry; auto.
  Qed.

  Theorem C122_closure_laws : forall m p q n, reachable E 0 m ->
    after m [keep p; keep q] ~~ after m [keep (fun l r => p l r && q l r)] /\
    after m [keep p; keep q] ~~ after m [keep q; keep p] /\
    after m [keep p; keep p] ~~ after m [keep p] /\
    after m [keep (fun _ _ => true)] ~~ m /\
    after m [keep (fun _ _ => false)] ~~ after m [Clear] /\
    after m [DrainAll] ~~ after m [Clear] /\
    (* retain and drain_filter are complementary, however much of the drain_filter is consumed *)
    after m [drain_off p n] ~~ after m [keep (fun l r => negb (p l r))].
  Proof.
    intros m p q n H.
    assert (F : forall p Q, exists x', s_filter (uncurried (asking p)) tt Q =
      (x', filter (fun q => p (fst q) (snd q)) Q, filter (fun q => negb (p (fst q) (snd q))) Q, false)).
    { intros p' Q. exact (s_filter_pure (asking p') p' (fun _ _ _ => eq_refl) Q tt). }
    assert (FF : forall A (f g : A -> bool) (t : list A), filter f (filter g t) = filter (fun x => f x && g x) t).
    { intros A f g t. induction t as [|x t IH]; simpl; auto.
      destruct (g x) eqn:G; simpl; rewrite IH, ?andb_true_r, ?andb_false_r; auto. }
    assert (K : forall P p P' w, s_step (eqL E) (eqR E) P (keep p) P' w ->
      Permutation P' (filter (fun q => p (fst q) (snd q)) P)).
    { intros P p' P' w (Q & PQ & X). destruct (F p' Q) as (x' & FQ). rewrite FQ in X.
      destruct X as [-> _]. apply filter_perm; auto. }
    assert (K2 : forall P p q P1 P2 w w', s_step (eqL E) (eqR E) P (keep p) P1 w ->
      s_step (eqL E) (eqR E) P1 (keep q) P2 w' ->
      Permutation P2 (filter (fun x => q (fst x) (snd x) && p (fst x) (snd x)) P)).
    { intros P p' q' P1 P2 w w' X Y. apply K in X, Y. rewrite Y, <- FF. apply filter_perm; auto. }
    assert (C : forall P P' w, s_step (eqL E) (eqR E) P Clear P' w -> P' = []).
    { intros P P' w X. apply X. }
    assert (LW : forall ops1 ops2, budget ops1 <= 0 -> budget ops2 <= 0 ->
      (forall P P1 P2 w1 w2, s_run (eqL E) (eqR E) P ops1 P1 w1 -> s_run (eqL E) (eqR E) P ops2 P2 w2 ->
         Permutation P1 P2) -> after m ops1 ~~ after m ops2).
    { intros ops1 ops2 B1 B2 X. eapply law; eauto. intros. apply agree_perm. eauto. }
    repeat apply conj.
    - apply LW; try (cbn; lia). intros P P1 P2 w1 w2 R1 R2.
      apply run2 in R1 as (Q & v & v' & X & Y). apply run1 in R2 as (v2 & Z).
      rewrite (K2 _ _ _ _ _ _ _ X Y), (K _ _ _ _ Z). erewrite filter_ext; [reflexivity|]. intros x. apply andb_comm.
    - apply LW; try (cbn; lia). intros P P1 P2 w1 w2 R1 R2.
      apply run2 in R1 as (Q & v & v' & X & Y), R2 as (Q' & u & u' & X' & Y').
      rewrite (K2 _ _ _ _ _ _ _ X Y), (K2 _ _ _ _ _ _ _ X' Y').
      erewrite filter_ext; [reflexivity|]. intros x. apply andb_comm.
    - apply LW; try (cbn; lia). intros P P1 P2 w1 w2 R1 R2.
      apply run2 in R1 as (Q & v & v' & X & Y). apply run1 in R2 as (v2 & Z).
      rewrite (K2 _ _ _ _ _ _ _ X Y), (K _ _ _ _ Z). erewrite filter_ext; [reflexivity|]. intros x. apply andb_diag.
    - change m with (after m []) at 2. apply LW; try (cbn; lia). intros P P1 P2 w1 w2 R1 R2.
      apply run1 in R1 as (v & X). inversion R2; subst. rewrite (K _ _ _ _ X), filter_all_true; auto.
    - apply LW; try (cbn; lia). intros P P1 P2 w1 w2 R1 R2.
      apply run1 in R1 as (v & X), R2 as (u & Y). rewrite (C _ _ _ Y), (K _ _ _ _ X), filter_all_false; auto.
    - apply LW; try (cbn; lia). intros P P1 P2 w1 w2 R1 R2.
      apply run1 in R1 as (v & X), R2 as (u & Y). rewrite (C _ _ _ Y). destruct X as [-> _]. auto.
    - apply LW; try (cbn; lia). intros P P1 P2 w1 w2 R1 R2.
      apply run1 in R1 as (v & X), R2 as (u & Y). rewrite (K _ _ _ _ Y).
      destruct X as (Q & PQ & X). destruct (F p Q) as (x' & FQ). rewrite FQ in X. cbn in X.
      destruct X as [-> _]. apply filter_perm; auto.
  Qed.
End Laws.

(* A map with a history (m1, all hashes collide: 4-30, 1-20, 5-50) meeting the hypotheses, and
   the two sides of the laws computed; the items compared are equal but not identical. *)
Example C122_case :
  reachable env_collide 2 m1 /\
  let eqv x y := map_eq env_collide x y in
  let aft := after env_collide m1 in
  (* it k and (k, 9) are equal items *)
  eqL env_collide (it 4) (4, 9) = true /\ it 4 <> (4, 9) /\
  are_paired env_collide m1 (it 1) (it 20) = true /\ contains_left env_collide m1 (it 9) = false /\
  eqv (aft [Insert (it 9) (it 90); Remove (9, 1) (90, 1)]) m1 = Done true /\
  eqv (aft [Insert (it 9) (it 20); Insert (it 1) (it 70)]) (aft [Insert (it 1) (it 70); Insert (it 9) (it 20)]) = Done true /\
  eqv (aft [Insert (it 9) (it 20)]) m1 = Done false /\
  (* sharing an item: the order matters *)
  eqv (aft [Insert (it 9) (it 20); Insert (it 9) (it 70)]) (aft [Insert (it 9) (it 70); Insert (it 9) (it 20)]) = Done false /\
  eqv (aft [SwapLeft (it 4) (it 9); SwapLeft (it 9) (4, 9)]) m1 = Done true /\
  eqv (aft [SwapLeft (it 4) (it 5); SwapLeft (it 5) (it 4)]) m1 = Done false /\
  eqv (aft [SwapLeft (it 4) (it 5); SwapRight (it 50) (it 20)]) (aft [SwapRight (it 50) (it 20); SwapLeft (it 4) (it 5)])
    = Done true /\
  eqv (aft [SwapLeft (it 4) (it 5)]) (aft [RemoveViaLeft (it 4); Insert (it 5) (it 30)]) = Done true /\
  eqv (aft [Extend [(it 1, it 30); (it 6, it 60)]]) (aft [Extend [(it 6, it 60); (it 1, it 30)]]) = Done true /\
  eqv (aft [keep (fun l _ => N.ltb (fst l) 5)]) (aft [drain_off (fun l _ => N.leb 5 (fst l)) 1]) = Done true /\
  eqv (aft [keep (fun l _ => N.ltb (fst l) 5)]) m1 = Done false.
Proof.
  split; [exists 7, 0, 0, hist1; split; [vm_compute; reflexivity|reflexivity]|].
  vm_compute. repeat split; discriminate.
Qed.

(* Equal maps: the same pairs inserted in another order, with other representatives, another
   hasher state and other layouts; the same calls give equal results. *)
Example C122_congruence_case :
  let m' := fst (run env_collide (with_hasher 3 1 2) [Insert (5, 8) (50, 8); Insert (it 1) (it 20); Insert (4, 1) (30, 7)]) in
  same_map env_collide m1 m' /\
  snd (run env_collide m1 [Insert (it 9) (it 50); GetLeft (it 30); Len])
    = [OIns (SomeRight (it 5, it 50)); OL (Some (it 4)); ONat 3] /\
  snd (run env_collide m' [Insert (it 9) (it 50); GetLeft (it 30); Len])
    = [OIns (SomeRight ((5, 8), (50, 8))); OL (Some (4, 1)); ONat 3].
Proof. vm_compute. auto. Qed.

Print Assumptions C122_equality_is_observation.
Print Assumptions C122_congruence.
Print Assumptions C122_insert_laws.
Print Assumptions C122_remove_laws.
Print Assumptions C122_swap_laws.
Print Assumptions C122_extend_laws.
Print Assumptions C122_collect.
Print Assumptions C122_closure_laws.
