(* List and permutation lemmas used by all refinement proofs. *)
From Coq Require Import List NArith Lia Bool Permutation.
From Verif Require Import RawTable.
Import ListNotations.

(* pairwise non-equal with respect to a boolean equality *)
Definition distinct {T} (e : T -> T -> bool) (l : list T) : Prop :=
  ForallOrdPairs (fun a b => e a b = false) l.

Section Facts.
  Context {T : Type} (e : T -> T -> bool).
  Hypothesis EQ : equivalence e.

  Lemma eqb_false_sym : forall x y, e x y = false -> e y x = false.
  Proof.
    intros x y H. destruct (e y x) eqn:X; auto.
    apply (equiv_sym _ EQ) in X. congruence.
  Qed.

  Lemma eqb_sym : forall x y, e x y = e y x.
  Proof.
    intros x y. destruct (e x y) eqn:A, (e y x) eqn:B; auto.
    - apply (equiv_sym _ EQ) in A; congruence.
    - apply (equiv_sym _ EQ) in B; congruence.
  Qed.

  Lemma eqb_replace_l : forall x y z, e x y = true -> e x z = e y z.
  Proof.
    intros x y z H. destruct (e y z) eqn:A.
    - eapply (equiv_trans _ EQ); eauto.
    - destruct (e x z) eqn:B; auto.
      rewrite (equiv_trans _ EQ y x z) in A; auto. apply (equiv_sym _ EQ); auto.
  Qed.

  Lemma eqb_replace_r : forall x y z, e x y = true -> e z x = e z y.
  Proof. intros. rewrite (eqb_sym z x), (eqb_sym z y). apply eqb_replace_l; auto. Qed.

  Lemma distinct_nil : distinct e [].
  Proof. constructor. Qed.

  Lemma distinct_cons : forall x l,
    distinct e (x :: l) <-> (forall y, In y l -> e x y = false) /\ distinct e l.
  Proof.
    intros; split.
    - intro H; inversion H; subst; split; auto. rewrite Forall_forall in *; auto.
    - intros [A B]; constructor; auto. apply Forall_forall; auto.
  Qed.

  Lemma distinct_perm : forall l l', Permutation l l' -> distinct e l -> distinct e l'.
  Proof.
    induction 1; intros D; auto.
    - rewrite distinct_cons in *. destruct D as [A B]; split; auto.
      intros y Hy. apply A. eapply Permutation_in; [symmetry|]; eauto.
    - rewrite !distinct_cons in *. destruct D as (A & B & C). repeat split; auto.
      + intros z [<-|Hz]; auto. apply eqb_false_sym. apply A; left; auto.
      + intros z Hz. apply A; right; auto.
  Qed.

  Lemma distinct_app : forall l l', distinct e (l ++ l') ->
    distinct e l /\ distinct e l' /\ (forall x y, In x l -> In y l' -> e x y = false).
  Proof.
    induction l; simpl; intros l' D.
    - repeat split; auto using distinct_nil. intros ? ? [].
    - rewrite distinct_cons in *. destruct D as [A B]. apply IHl in B as (B & C & F).
      repeat split; auto.
      + intros; apply A. apply in_app_iff; auto.
      + intros x y [<-|Hx] Hy; auto. apply A, in_app_iff; auto.
  Qed.

  Lemma distinct_app_intro : forall l l', distinct e l -> distinct e l' ->
    (forall x y, In x l -> In y l' -> e x y = false) -> distinct e (l ++ l').
  Proof.
    induction l; simpl; intros l' D D' F; auto.
    rewrite distinct_cons in *. destruct D as [A B]. split; auto.
    - intros y Hy. apply in_app_iff in Hy as [Hy|Hy]; auto.
  Qed.

  Lemma distinct_filter : forall p l, distinct e l -> distinct e (filter p l).
  Proof.
    induction l; simpl; intros D; auto.
    rewrite distinct_cons in D. destruct D as [A B].
    destruct (p a); auto. apply distinct_cons; split; auto.
    intros y Hy. apply filter_In in Hy as [Hy _]; auto.
  Qed.

  Lemma distinct_In_eq : forall l x y, distinct e l -> In x l -> In y l -> e x y = true -> x = y.
  Proof.
    induction l; simpl; intros x y D Hx Hy Hxy; [easy|].
    apply distinct_cons in D as [A B].
    destruct Hx as [<-|Hx], Hy as [<-|Hy]; auto.
    - rewrite (A _ Hy) in Hxy; discriminate.
    - apply (equiv_sym _ EQ) in Hxy. rewrite (A _ Hx) in Hxy; discriminate.
  Qed.

  Lemma distinct_NoDup : forall l, distinct e l -> NoDup l.
  Proof.
    induction l; intros D; constructor; apply distinct_cons in D as [A B]; auto.
    intro Ha. specialize (A _ Ha). rewrite (equiv_refl _ EQ) in A; discriminate.
  Qed.
End Facts.

Lemma perm_in_cons : forall {A} (x : A) l, In x l -> exists l', Permutation l (x :: l').
Proof.
  intros A x l H. apply in_split in H as (a & b & ->).
  exists (a ++ b). symmetry. apply Permutation_middle.
Qed.

(* [z] is the only element of Z whose key matches q, or nothing matches *)
Section Keyed.
  Context {A T : Type} (e : T -> T -> bool) (EQ : equivalence e) (k : A -> T).

  Lemma split_key : forall Z q, distinct e (map k Z) ->
    (exists z Z', Permutation Z (z :: Z') /\ e q (k z) = true /\
                  forall x, In x Z' -> e q (k x) = false)
    \/ (forall x, In x Z -> e q (k x) = false).
  Proof.
    intros Z q D.
    destruct (existsb (fun x => e q (k x)) Z) eqn:X.
    - left. apply existsb_exists in X as (z & Hz & Hq).
      apply perm_in_cons in Hz as [Z' P]. exists z, Z'. repeat split; auto.
      intros x Hx. apply (Permutation_map k) in P.
      apply (distinct_perm _ EQ _ _ P) in D. simpl in D. apply distinct_cons in D as [D _].
      specialize (D (k x) (in_map k _ _ Hx)).
      rewrite (eqb_replace_l _ EQ _ _ _ Hq). auto.
    - right. intros x Hx. destruct (e q (k x)) eqn:Y; auto.
      assert (existsb (fun x => e q (k x)) Z = true) by (apply existsb_exists; eauto). congruence.
  Qed.

  Lemma find_perm_unique : forall Z z Z' (p : A -> bool), Permutation Z (z :: Z') ->
    p z = true -> (forall x, In x Z' -> p x = false) -> find p Z = Some z.
  Proof.
    intros Z z Z' p P Hz Hn.
    destruct (find p Z) eqn:F.
    - apply find_some in F as [F1 F2]. eapply Permutation_in in F1; [|eauto].
      destruct F1 as [->|F1]; auto. rewrite Hn in F2; auto; discriminate.
    - eapply find_none in F; [rewrite F in Hz; discriminate|].
      eapply Permutation_in; [symmetry; eauto|left; auto].
  Qed.
End Keyed.

Lemma filter_all_true : forall {A} (p : A -> bool) l, (forall x, In x l -> p x = true) -> filter p l = l.
Proof.
  induction l; simpl; intros H; auto. rewrite H by auto. f_equal; auto.
Qed.
Lemma filter_all_false : forall {A} (p : A -> bool) l, (forall x, In x l -> p x = false) -> filter p l = [].
Proof.
  induction l; simpl; intros H; auto. rewrite H by auto. auto.
Qed.

Lemma filter_perm : forall {A} (p : A -> bool) l l', Permutation l l' ->
  Permutation (filter p l) (filter p l').
Proof.
  induction 1; simpl; auto.
  - destruct (p x); auto.
  - destruct (p x), (p y); auto. constructor.
  - etransitivity; eauto.
Qed.

Lemma find_all_false : forall {A} (p : A -> bool) l, (forall x, In x l -> p x = false) -> find p l = None.
Proof.
  induction l; simpl; intros H; auto. rewrite H by auto. auto.
Qed.

Lemma existsb_false : forall {A} (p : A -> bool) l,
  existsb p l = false <-> forall x, In x l -> p x = false.
Proof.
  induction l; simpl; split; intros H; auto; try easy.
  - apply orb_false_iff in H as [A1 B]. intros x [<-|Hx]; auto. apply IHl; auto.
  - apply orb_false_iff; split; auto. apply IHl; auto.
Qed.

Lemma existsb_perm : forall {A} (p : A -> bool) l l', Permutation l l' -> existsb p l = existsb p l'.
Proof.
  induction 1; simpl; auto.
  - rewrite IHPermutation; auto.
  - destruct (p x), (p y); auto.
  - congruence.
Qed.

Lemma forallb_perm : forall {A} (p : A -> bool) l l', Permutation l l' -> forallb p l = forallb p l'.
Proof.
  induction 1; simpl; auto.
  - rewrite IHPermutation; auto.
  - destruct (p x), (p y); auto.
  - congruence.
Qed.

Lemma NoDup_map_cons_notin : forall {A B} (f : A -> B) x l, NoDup (map f (x :: l)) ->
  forall y, In y l -> f y <> f x.
Proof.
  intros A B f x l H y Hy E. inversion H; subst. apply H2. rewrite <- E. apply in_map; auto.
Qed.

Lemma NoDup_perm : forall {A} (l l' : list A), Permutation l l' -> NoDup l -> NoDup l'.
Proof. intros. eapply Permutation_NoDup; eauto. Qed.

Lemma filter_filter : forall {A} (p q : A -> bool) l,
  filter p (filter q l) = filter (fun x => q x && p x) l.
Proof.
  induction l; simpl; auto. destruct (q a); simpl; [destruct (p a)|]; rewrite ?IHl; auto.
Qed.
Lemma find_of_filter : forall {A} (p q : A -> bool) l,
  find p (filter q l) = find (fun x => q x && p x) l.
Proof.
  induction l; simpl; auto. destruct (q a); simpl; [destruct (p a)|]; rewrite ?IHl; auto.
Qed.

(* a list without duplicates whose elements all have an equal in l' is no longer than l' *)
Lemma distinct_embed_length : forall {A} (e : A -> A -> bool), equivalence e ->
  forall l l', distinct e l -> (forall x, In x l -> exists y, In y l' /\ e x y = true) ->
  (length l <= length l')%nat.
Proof.
  intros A e EQ. induction l as [|x t IH]; intros l' D M; [simpl; lia|].
  apply distinct_cons in D as [D1 D2].
  destruct (M x (or_introl eq_refl)) as (y & Hy & XY).
  apply in_split in Hy as (l1 & l2 & ->). rewrite app_length. simpl.
  assert (X : (length t <= length (l1 ++ l2))%nat); [|rewrite app_length in X; lia].
  apply IH; auto. intros z Hz. destruct (M z (or_intror Hz)) as (w & Hw & ZW).
  exists w. split; auto. apply in_app_iff. apply in_app_iff in Hw as [Hw|[<-|Hw]]; auto.
  exfalso. assert (F := D1 z Hz).
  rewrite (equiv_trans _ EQ x y z) in F; [discriminate|auto|]. apply (equiv_sym _ EQ); auto.
Qed.
