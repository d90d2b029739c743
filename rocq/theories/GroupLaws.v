(* GroupMap: laws between calls (C124).

   The statements compare the maps left behind by two different histories of public calls on
   the same map.  [m ~~ m']: contains_left, contains_right and are_paired give the same answers
   on all items.  C124_congruence says what this is worth: such maps stay so and give equal
   results under all further calls admitted by GroupHistory.loose (and so by calm). *)
From Coq Require Import List NArith Lia Bool Permutation PeanoNat.
From Verif Require Import Closures Prelude RawTable GroupMap ListFacts TableFacts GroupSpec GroupHistory
  IterFacts GroupProofs GroupProofs2 GroupProofs3 GroupProofs4 GroupProofs5 GroupProofs6
  GroupHistoryProofs Concrete GroupProps GroupHashFree.
From Verif Require CycleMapLaws PartialHashFree.
Notation opt_like := CycleMapLaws.opt_like.
Notation list_like := CycleMapLaws.list_like.
Import ListNotations.
Open Scope N_scope.

(* ---- contents as two sets and a relation ---- *)
Section Rel.
  Context {L R : Type}.
  Variables (eL : L -> L -> bool) (eR : R -> R -> bool).
  Hypothesis EL : equivalence eL.
  Hypothesis ER : equivalence eR.
  Notation contents := (contents L R).
  Notation grouping := (grouping eL eR).
  Notation rel := (s_are_paired eL eR).
  Notation cl := (s_contains_left eL).
  Notation cr := (s_contains_right eR).
  Implicit Types (G : contents) (a l : L) (b r old new : R).

  Lemma rel_iff : forall G a b, rel G a b = true <-> exists p, In p (g_pairs G) /\ eL a (fst p) = true /\ eR b (snd p) = true.
  Proof.
    intros. unfold s_are_paired, is_l, is_r. rewrite existsb_exists. split; intros (p & I & H); exists p.
    - apply andb_true_iff in H. tauto.
    - destruct H as [-> ->]. auto.
  Qed.
  Lemma cl_iff : forall G a, cl G a = true <-> exists p, In p (g_pairs G) /\ eL a (fst p) = true.
  Proof. intros. unfold s_contains_left, is_l. apply existsb_exists. Qed.
  Lemma cr_iff : forall G b, cr G b = true <-> exists b', In b' (g_rights G) /\ eR b b' = true.
  Proof. intros. unfold s_contains_right. apply existsb_exists. Qed.
  Lemma cl_swap : forall G a a', eL a a' = true -> cl G a = cl G a'.
  Proof.
    intros G a a' H. apply eq_true_iff_eq. rewrite !cl_iff. split; intros (p & I & X); exists p; split; auto.
    - rewrite <- (eqb_replace_l eL EL a a'); auto.
    - rewrite (eqb_replace_l eL EL a a'); auto.
  Qed.
  Lemma cr_swap : forall G b b', eR b b' = true -> cr G b = cr G b'.
  Proof.
    intros G a a' H. apply eq_true_iff_eq. rewrite !cr_iff. split; intros (p & I & X); exists p; split; auto.
    - rewrite <- (eqb_replace_l eR ER a a'); auto.
    - rewrite (eqb_replace_l eR ER a a'); auto.
  Qed.
  Lemma rel_swap_l : forall G a a' b, eL a a' = true -> rel G a b = rel G a' b.
  Proof.
    intros G a a' b H. apply eq_true_iff_eq. rewrite !rel_iff. split; intros (p & I & X); exists p; split; auto.
    - rewrite <- (eqb_replace_l eL EL a a'); auto.
    - rewrite (eqb_replace_l eL EL a a'); auto.
  Qed.
  Lemma rel_swap_r : forall G a b b', eR b b' = true -> rel G a b = rel G a b'.
  Proof.
    intros G a b b' H. apply eq_true_iff_eq. rewrite !rel_iff. split; intros (p & I & X); exists p; split; auto.
    - rewrite <- (eqb_replace_l eR ER b b'); auto.
    - rewrite (eqb_replace_l eR ER b b'); auto.
  Qed.
  Lemma rel_cl : forall G a b, rel G a b = true -> cl G a = true.
  Proof. intros G a b H. apply rel_iff in H as (p & I & X & _). apply cl_iff; eauto. Qed.
  Lemma rel_cr : forall G a b, grouping G -> rel G a b = true -> cr G b = true.
  Proof. intros G a b (_ & _ & K) H. apply rel_iff in H as (p & I & _ & X). apply cr_iff; eauto. Qed.
  Lemma rel_one : forall G a b b', grouping G -> rel G a b = true -> rel G a b' = true -> eR b b' = true.
  Proof.
    intros G a b b' (D & _) H H'. apply rel_iff in H as (p & I & X & Y), H' as (q & J & X' & Y').
    assert (p = q).
    { apply (distinct_map_inj eL EL fst (g_pairs G) p q); auto.
      rewrite (eqb_sym eL EL) in X. eapply (equiv_trans _ EL); eauto. }
    subst q. rewrite (eqb_sym eR ER) in Y'. eapply (equiv_trans _ ER); eauto.
  Qed.
  Lemma cl_rel : forall G a, cl G a = true -> exists b, rel G a b = true.
  Proof.
    intros G a H. apply cl_iff in H as (p & I & X). exists (snd p). apply rel_iff. exists p. auto using (equiv_refl _ ER).
  Qed.

  (* every pair with the feature g is treated alike *)
  Lemma existsb_filter : forall {A} (g f : A -> bool) P c,
    (forall x, In x P -> g x = true -> f x = c) -> existsb g (filter f P) = c && existsb g P.
  Proof.
    induction P as [|x P IH]; intros c H; [symmetry; apply andb_false_r|].
    assert (IH' := IH c (fun y I => H y (or_intror I))). assert (H' := H x (or_introl eq_refl)).
    simpl. destruct (g x) eqn:Z; simpl.
    - rewrite (H' eq_refl). destruct c; simpl; [rewrite Z; auto|]. rewrite IH'. auto.
    - destruct (f x); simpl; rewrite ?Z; simpl; auto.
  Qed.
  Lemma cl_del : forall G l a, existsb (is_l eL a) (del_l eL G l) = negb (eL l a) && cl G a.
  Proof.
    intros. apply existsb_filter. unfold is_l. intros p _ X. f_equal. symmetry. apply (eqb_replace_r eL EL); auto.
  Qed.
  Lemma rel_del : forall G l a b,
    existsb (fun p => is_l eL a p && is_r eR b p) (del_l eL G l) = negb (eL l a) && rel G a b.
  Proof.
    intros. apply existsb_filter. unfold is_l. intros p _ X. apply andb_true_iff in X as [X _]. f_equal.
    symmetry. apply (eqb_replace_r eL EL); auto.
  Qed.
  Lemma rel_del_r : forall G r a b,
    existsb (fun p => is_l eL a p && is_r eR b p) (filter (fun p => negb (is_r eR r p)) (g_pairs G))
      = negb (eR r b) && rel G a b.
  Proof.
    intros. apply existsb_filter. unfold is_l, is_r. intros p _ X. apply andb_true_iff in X as [_ X]. f_equal.
    symmetry. apply (eqb_replace_r eR ER); auto.
  Qed.
  Lemma cl_del_r : forall G r a, grouping G ->
    existsb (is_l eL a) (filter (fun p => negb (is_r eR r p)) (g_pairs G)) = negb (rel G a r) && cl G a.
  Proof.
    intros G r a K. apply existsb_filter. unfold is_l, is_r. intros p I X. f_equal. apply eq_true_iff_eq. rewrite rel_iff. split.
    - intros Y. exists p. auto.
    - intros (q & J & Y & Z). destruct K as (D & _).
      assert (p = q) as <-; auto.
      apply (distinct_map_inj eL EL fst (g_pairs G) p q); auto.
      rewrite (eqb_sym eL EL) in X. eapply (equiv_trans _ EL); eauto.
  Qed.
  Lemma cr_del_r : forall G r b,
    existsb (eR b) (filter (fun b => negb (eR r b)) (g_rights G)) = negb (eR r b) && cr G b.
  Proof.
    intros. apply existsb_filter. intros p _ X. f_equal. symmetry. apply (eqb_replace_r eR ER); auto.
  Qed.

  (* each call as a formula *)
  Definition is G (f : L -> bool) (g : R -> bool) (h : L -> R -> bool) : Prop :=
    (forall a, cl G a = f a) /\ (forall b, cr G b = g b) /\ (forall a b, rel G a b = h a b).

  Lemma eq_stored_l : forall G l a, eL a (stored_l eL G l) = eL l a.
  Proof.
    intros. unfold stored_l, find_l. rewrite (eqb_sym eL EL l). destruct (find _ _) as [p|] eqn:F; auto.
    apply find_some in F as [_ F]. unfold is_l in F. symmetry. apply (eqb_replace_r eL EL); auto.
  Qed.
  Lemma eq_stored_r : forall G r b, eR b (stored_r eR G r) = eR r b.
  Proof.
    intros. unfold stored_r, find_r. rewrite (eqb_sym eR ER r). destruct (find _ _) as [p|] eqn:F; auto.
    apply find_some in F as [_ F]. symmetry. apply (eqb_replace_r eR ER); auto.
  Qed.
  Lemma find_r_cr : forall G r, match find_r eR G r with Some b => cr G r = true /\ eR r b = true /\ In b (g_rights G) | None => cr G r = false end.
  Proof.
    intros. unfold find_r. destruct (find _ _) as [b|] eqn:F.
    - apply find_some in F as [I X]. repeat split; auto. apply cr_iff; eauto.
    - destruct (cr G r) eqn:X; auto. apply cr_iff in X as (b & I & X). assert (Z := find_none _ _ F b I). simpl in Z. congruence.
  Qed.
  Lemma find_l_cl : forall G l, match find_l eL G l with Some p => cl G l = true /\ eL l (fst p) = true /\ In p (g_pairs G) | None => cl G l = false end.
  Proof.
    intros. unfold find_l. destruct (find _ _) as [b|] eqn:F.
    - apply find_some in F as [I X]. unfold is_l in X. repeat split; auto. apply cl_iff; eauto.
    - destruct (cl G l) eqn:X; auto. apply cl_iff in X as (b & I & X). assert (Z := find_none _ _ F b I). unfold is_l in Z. congruence.
  Qed.
  Lemma cons_r : forall G r (P : list (L * R)), (forall b, s_contains_right eR (GC (if cr G r then g_rights G else r :: g_rights G) P) b = eR r b || cr G b).
  Proof.
    intros. destruct (cr G r) eqn:X.
    - change (cr G b = eR r b || cr G b). destruct (eR r b) eqn:Y; auto. rewrite <- (cr_swap G r b Y). auto.
    - unfold s_contains_right. simpl. rewrite (eqb_sym eR ER b r). auto.
  Qed.
  Lemma is_insert : forall G l r,
    is (s_insert eL eR G l r) (fun a => eL l a || cl G a) (fun b => eR r b || cr G b)
       (fun a b => if eL l a then eR r b else rel G a b).
  Proof.
    intros G l r. unfold s_insert. split; [|split].
    - intros a. unfold s_contains_left. cbn [g_pairs existsb]. rewrite cl_del. unfold is_l at 1. cbn [fst].
      rewrite eq_stored_l. destruct (eL l a); auto.
    - apply cons_r.
    - intros a b. unfold s_are_paired. cbn [g_pairs existsb]. rewrite rel_del. unfold is_l at 1, is_r at 1. cbn [fst snd].
      rewrite eq_stored_l, eq_stored_r. destruct (eL l a), (eR r b); auto.
  Qed.
  Lemma is_remove_left : forall G l,
    is (s_remove_left eL G l) (fun a => negb (eL l a) && cl G a) (cr G) (fun a b => negb (eL l a) && rel G a b).
  Proof. intros G l. split; [|split]; intros; [apply cl_del|reflexivity|apply rel_del]. Qed.
  Lemma is_remove_right : forall G r, grouping G ->
    is (s_remove_right eR G r) (fun a => negb (rel G a r) && cl G a) (fun b => negb (eR r b) && cr G b)
       (fun a b => negb (eR r b) && rel G a b).
  Proof. intros G r K. split; [|split]; intros; [apply cl_del_r; auto|apply cr_del_r|apply rel_del_r]. Qed.
  Lemma is_insert_right : forall G r, grouping G ->
    is (s_insert_right eR G r) (fun a => negb (rel G a r) && cl G a) (fun b => eR r b || cr G b)
       (fun a b => negb (eR r b) && rel G a b).
  Proof.
    intros G r K. destruct (is_remove_right G r K) as (X & Y & Z). split; [|split]; intros; [apply X| |apply Z].
    unfold s_insert_right. cbn [g_rights g_pairs s_remove_right]. unfold s_contains_right at 1. cbn [g_rights existsb].
    change (existsb (eR b) ?x) with (existsb (eR b) x). rewrite cr_del_r, (eqb_sym eR ER b r). destruct (eR r b); auto.
  Qed.
  Lemma is_insert_remove : forall G l r, grouping G ->
    is (s_insert_remove eL eR G l r) (fun a => eL l a || negb (rel G a r) && cl G a) (fun b => eR r b || cr G b)
       (fun a b => if eL l a then eR r b else negb (eR r b) && rel G a b).
  Proof.
    intros G l r K.
    assert (K' : grouping (s_remove_left eL G l)) by (apply grouping_remove_left; auto).
    destruct (is_remove_left G l) as (X & Y & Z), (is_remove_right _ r K') as (X' & Y' & Z').
    unfold s_insert_remove. split; [|split].
    - intros a. unfold s_contains_left at 1. cbn [g_pairs existsb]. unfold is_l at 1. cbn [fst].
      rewrite (eqb_sym eL EL a l). change (eL l a || cl (s_remove_right eR (s_remove_left eL G l) r) a = eL l a || negb (rel G a r) && cl G a).
      rewrite X', X, Z. destruct (eL l a); auto.
    - intros b. unfold s_contains_right at 1. cbn [g_rights existsb]. rewrite (eqb_sym eR ER b r).
      change (eR r b || cr (s_remove_right eR (s_remove_left eL G l) r) b = eR r b || cr G b).
      rewrite Y', Y. destruct (eR r b); auto.
    - intros a b. unfold s_are_paired at 1. cbn [g_pairs existsb]. unfold is_l at 1, is_r at 1. cbn [fst snd].
      rewrite (eqb_sym eL EL a l), (eqb_sym eR ER b r).
      change (eL l a && eR r b || rel (s_remove_right eR (s_remove_left eL G l) r) a b
              = if eL l a then eR r b else negb (eR r b) && rel G a b).
      rewrite Z', Z. destruct (eL l a), (eR r b); auto.
  Qed.
  Lemma is_moved : forall G l r a' b', eL l a' = true -> eR r b' = true ->
    is (GC (g_rights G) ((a', b') :: del_l eL G l)) (fun a => eL l a || cl G a) (cr G)
       (fun a b => if eL l a then eR r b else rel G a b).
  Proof.
    intros G l r a' b' A B. split; [|split]; intros.
    - unfold s_contains_left at 1. cbn [g_pairs existsb]. rewrite cl_del. unfold is_l at 1. cbn [fst].
      rewrite (eqb_sym eL EL a a'), <- (eqb_replace_l eL EL l a' a A). destruct (eL l a); auto.
    - reflexivity.
    - unfold s_are_paired at 1. cbn [g_pairs existsb]. rewrite rel_del. unfold is_l at 1, is_r at 1. cbn [fst snd].
      rewrite (eqb_sym eL EL a a'), <- (eqb_replace_l eL EL l a' a A), (eqb_sym eR ER b b'), <- (eqb_replace_l eR ER r b' b B).
      destruct (eL l a), (eR r b); auto.
  Qed.
  Lemma is_insert_left : forall G l r,
    is (s_insert_left eL eR G l r) (fun a => eL l a && cr G r || cl G a) (cr G)
       (fun a b => if eL l a && cr G r then eR r b else rel G a b).
  Proof.
    intros G l r. unfold s_insert_left. assert (F := find_r_cr G r). destruct (find_r eR G r) as [b'|].
    - destruct F as (C & B & _). destruct (is_moved G l r l b' (equiv_refl _ EL l) B) as (X & Y & Z).
      rewrite C. split; [|split]; intros; rewrite ?X, ?Y, ?Z, ?andb_true_r; auto.
    - rewrite F. split; [|split]; intros; rewrite ?andb_false_r; auto.
  Qed.
  Lemma is_pair : forall G l r,
    is (s_pair eL eR G l r) (cl G) (cr G) (fun a b => if eL l a && cl G l && cr G r then eR r b else rel G a b).
  Proof.
    intros G l r. unfold s_pair. assert (F := find_l_cl G l). assert (F' := find_r_cr G r).
    destruct (find_l eL G l) as [p|]; [destruct (find_r eR G r) as [b'|]|].
    - destruct F as (C & A & _), F' as (C' & B & _). destruct (is_moved G l r (fst p) b' A B) as (X & Y & Z).
      rewrite C, C'. split; [|split]; intros; rewrite ?X, ?Y, ?Z, ?andb_true_r; auto.
      destruct (eL l a) eqn:W; auto. rewrite <- (cl_swap G l a W). auto.
    - rewrite F'. split; [|split]; intros; rewrite ?andb_false_r; auto.
    - rewrite F. split; [|split]; intros; rewrite ?andb_false_r; auto.
  Qed.
  Lemma is_repaired : forall G old new B, (eR old new = true \/ cr G new = false) -> grouping G ->
    (forall a, cl (GC B (repaired eR G old new)) a = cl G a) /\
    (forall a b, rel (GC B (repaired eR G old new)) a b = if eR new b then rel G a old else negb (eR old b) && rel G a b).
  Proof.
    intros G old new B H K. split.
    - intros. apply eq_true_iff_eq. rewrite !cl_iff. cbn [g_pairs]. unfold repaired. split.
      + intros (p & I & X). apply in_map_iff in I as (q & <- & I). exists q. split; auto. destruct (is_r eR old q); auto.
      + intros (q & I & X). exists (if is_r eR old q then (fst q, new) else q). split; [apply in_map_iff; eauto|].
        destruct (is_r eR old q); auto.
    - intros a b. apply eq_true_iff_eq. rewrite rel_iff. cbn [g_pairs]. unfold repaired.
      assert (NB : eR new b = true -> eR b new = true) by (rewrite (eqb_sym eR ER); auto).
      split.
      + intros (p & I & X & Y). apply in_map_iff in I as (q & <- & I). unfold is_r in *. destruct (eR old (snd q)) eqn:W; cbn [fst snd] in *.
        * rewrite (eqb_sym eR ER new b), Y. apply rel_iff. eauto.
        * assert (RQ : rel G a b = true) by (apply rel_iff; eauto).
          destruct (eR new b) eqn:V.
          -- exfalso. destruct H as [H|H].
             ++ rewrite (eqb_sym eR ER) in Y. assert (eR old (snd q) = true); [|congruence].
                eapply (equiv_trans _ ER); [exact H|]. eapply (equiv_trans _ ER); [exact V|]. rewrite (eqb_sym eR ER). auto.
             ++ rewrite (cr_swap G new b V) in H. rewrite (rel_cr G a b K RQ) in H. discriminate.
          -- rewrite RQ, andb_true_r. apply negb_true_iff. rewrite <- W. apply (eqb_replace_r eR ER); auto.
      + intros X. destruct (eR new b) eqn:V.
        * apply rel_iff in X as (q & I & X & Y). exists (fst q, new). split; [apply in_map_iff; exists q; unfold is_r; rewrite Y; auto|]. auto.
        * apply andb_true_iff in X as [W X]. apply rel_iff in X as (q & I & X & Y). exists q. split; auto.
          apply in_map_iff. exists q. split; auto. unfold is_r. destruct (eR old (snd q)) eqn:Q; auto.
          rewrite (eqb_replace_r eR ER b (snd q) old Y) in W. rewrite Q in W. discriminate.
  Qed.
  Lemma is_swap_right : forall G old new, grouping G -> cr G old = true -> cr G new = false ->
    is (s_swap_right eR G old new) (cl G) (fun b => eR new b || cr G b)
       (fun a b => if eR new b then rel G a old else negb (eR old b) && rel G a b).
  Proof.
    intros G old new K C D. unfold s_swap_right. assert (F := find_r_cr G old). destruct (find_r eR G old) as [b'|]; [|congruence].
    destruct (is_repaired G old new (new :: g_rights G) (or_intror D) K) as [X Y].
    split; [|split]; auto. intros. unfold s_contains_right at 1. cbn [g_rights existsb]. rewrite (eqb_sym eR ER). auto.
  Qed.
  Lemma is_swap_right_remove : forall G old new, grouping G -> cr G old = true -> (eR old new = true \/ cr G new = false) ->
    is (s_swap_right_remove eR G old new) (cl G) (fun b => eR new b || negb (eR old b) && cr G b)
       (fun a b => if eR new b then rel G a old else negb (eR old b) && rel G a b).
  Proof.
    intros G old new K C D. unfold s_swap_right_remove. assert (F := find_r_cr G old). destruct (find_r eR G old) as [b'|]; [|congruence].
    match goal with |- is (GC ?B _) _ _ _ => destruct (is_repaired G old new B D K) as [X Y] end.
    split; [|split]; auto. intros. unfold s_contains_right at 1. cbn [g_rights existsb].
    rewrite cr_del_r, (eqb_sym eR ER). auto.
  Qed.
  Lemma swap_absent : forall G old new, cr G old = false ->
    s_swap_right eR G old new = s_insert_right eR G new /\ s_swap_right_remove eR G old new = s_insert_right eR G new.
  Proof.
    intros G old new C. unfold s_swap_right, s_swap_right_remove. assert (F := find_r_cr G old).
    destruct (find_r eR G old) as [b'|]; auto. destruct F; congruence.
  Qed.
End Rel.

(* ---- the three lookups, and what each call does to them ---- *)
Section Looks.
  Context {L R : Type}.
  Variables (eL : L -> L -> bool) (eR : R -> R -> bool).
  Hypothesis EL : equivalence eL.
  Hypothesis ER : equivalence eR.
  Notation contents := (contents L R).
  Notation grouping := (grouping eL eR).

  Record looks := Looks { onl : L -> bool; onr : R -> bool; tie : L -> R -> bool }.
  Definition alike (T U : looks) : Prop :=
    (forall a, onl T a = onl U a) /\ (forall b, onr T b = onr U b) /\ (forall a b, tie T a b = tie U a b).
  Definition look (G : contents) : looks :=
    Looks (s_contains_left eL G) (s_contains_right eR G) (s_are_paired eL eR G).

  Definition t_insert l r (T : looks) : looks :=
    Looks (fun a => eL l a || onl T a) (fun b => eR r b || onr T b)
          (fun a b => if eL l a then eR r b else tie T a b).
  Definition t_insert_right r (T : looks) : looks :=
    Looks (fun a => negb (tie T a r) && onl T a) (fun b => eR r b || onr T b)
          (fun a b => negb (eR r b) && tie T a b).
  Definition t_remove_right r (T : looks) : looks :=
    Looks (fun a => negb (tie T a r) && onl T a) (fun b => negb (eR r b) && onr T b)
          (fun a b => negb (eR r b) && tie T a b).
  Definition t_insert_item (T : looks) (x : option L * R) : looks :=
    match fst x with Some l => t_insert l (snd x) T | None => t_insert_right (snd x) T end.

  Definition act (o : op L R) (T : looks) : looks :=
    match o with
    | Insert l r => t_insert l r T
    | InsertRemove l r =>
        Looks (fun a => eL l a || negb (tie T a r) && onl T a) (fun b => eR r b || onr T b)
              (fun a b => if eL l a then eR r b else negb (eR r b) && tie T a b)
    | InsertLeft l r =>
        Looks (fun a => eL l a && onr T r || onl T a) (onr T)
              (fun a b => if eL l a && onr T r then eR r b else tie T a b)
    | InsertRight r => t_insert_right r T
    | SwapRight old new =>
        if onr T old
        then Looks (onl T) (fun b => eR new b || onr T b)
                   (fun a b => if eR new b then tie T a old else negb (eR old b) && tie T a b)
        else t_insert_right new T
    | SwapRightRemove old new =>
        if onr T old
        then Looks (onl T) (fun b => eR new b || negb (eR old b) && onr T b)
                   (fun a b => if eR new b then tie T a old else negb (eR old b) && tie T a b)
        else t_insert_right new T
    | Pair l r =>
        Looks (onl T) (onr T) (fun a b => if eL l a && onl T l && onr T r then eR r b else tie T a b)
    | Remove l r => if tie T l r then t_remove_right r T else T
    | RemoveLeft l => Looks (fun a => negb (eL l a) && onl T a) (onr T) (fun a b => negb (eL l a) && tie T a b)
    | RemoveRight r => t_remove_right r T
    | ExtendPairs xs => fold_left (fun T x => t_insert (fst x) (snd x) T) xs T
    | Extend xs => fold_left t_insert_item xs T
    | Clear => Looks (fun _ => false) (fun _ => false) (fun _ _ => false)
    | _ => T
    end.
  (* calls without a closure *)
  Definition plain (o : op L R) : Prop :=
    match o with RetainPaired _ _ _ | RetainUnpaired _ _ _ => False | _ => True end.
  (* [st]: every left item still knows its right item (no group has been moved as a whole) *)
  Definition fit (st : bool) (o : op L R) (T : looks) : Prop :=
    match o with
    | Insert l r => st = true /\ tie T l r = false
    | Pair _ _ | GetRight _ | IterAll | IterPairedAll => st = true
    | SwapRight old new => onr T old = true -> onr T new = false
    | SwapRightRemove old new => onr T old = true -> onr T new = false \/ eR old new = true
    | ExtendPairs _ | Extend _ => False
    | _ => True
    end.
  (* a swap of a group with left items ends [st] *)
  Definition moves (o : op L R) (T : looks) : Prop :=
    match o with
    | SwapRight old _ | SwapRightRemove old _ => onr T old = true /\ exists a, tie T a old = true
    | _ => False
    end.
  Fixpoint acts (ops : list (op L R)) (T : looks) : looks :=
    match ops with [] => T | o :: t => acts t (act o T) end.
  Fixpoint fits (st : bool) (ops : list (op L R)) (T : looks) : Prop :=
    match ops with
    | [] => True
    | o :: t => fit st o T /\ exists st', (st' = true -> st = true /\ ~ moves o T) /\ fits st' t (act o T)
    end.

  Lemma alike_refl : forall T, alike T T.
  Proof. repeat split; auto. Qed.
  Lemma alike_sym : forall T U, alike T U -> alike U T.
  Proof. intros T U (X & Y & Z). repeat split; auto. Qed.
  Lemma alike_trans : forall T U V, alike T U -> alike U V -> alike T V.
  Proof. intros T U V (X & Y & Z) (X' & Y' & Z'). repeat split; intros; congruence. Qed.
  Lemma t_insert_ext : forall l r T U, alike T U -> alike (t_insert l r T) (t_insert l r U).
  Proof. intros l r T U (X & Y & Z). repeat split; intros; simpl; rewrite ?X, ?Y, ?Z; auto. Qed.
  Lemma t_insert_right_ext : forall r T U, alike T U -> alike (t_insert_right r T) (t_insert_right r U).
  Proof. intros r T U (X & Y & Z). repeat split; intros; simpl; rewrite ?X, ?Y, ?Z; auto. Qed.
  Lemma t_item_ext : forall x T U, alike T U -> alike (t_insert_item T x) (t_insert_item U x).
  Proof. intros [[l|] r] T U A; unfold t_insert_item; simpl; auto using t_insert_ext, t_insert_right_ext. Qed.
  Lemma act_ext : forall o T U, alike T U -> alike (act o T) (act o U).
  Proof.
    intros o T U A. assert (A' := A). destruct A' as (X & Y & Z).
    destruct o; simpl; auto using t_insert_ext, t_insert_right_ext, alike_refl;
      try (repeat split; intros; simpl; rewrite ?X, ?Y, ?Z; auto; fail).
    - rewrite Y. destruct (onr _ _); auto using t_insert_right_ext. repeat split; intros; simpl; rewrite ?X, ?Y, ?Z; auto.
    - rewrite Y. destruct (onr _ _); auto using t_insert_right_ext. repeat split; intros; simpl; rewrite ?X, ?Y, ?Z; auto.
    - rewrite Z. destruct (tie _ _ _); auto. repeat split; intros; simpl; rewrite ?X, ?Y, ?Z; auto.
    - clear X Y Z. revert T U A. induction xs; simpl; intros; auto using t_insert_ext.
    - clear X Y Z. revert T U A. induction xs; simpl; intros; auto using t_item_ext.
  Qed.
  Lemma fit_ext : forall st o T U, alike T U -> fit st o T -> fit st o U.
  Proof. intros st o T U (X & Y & Z). destruct o; simpl; auto; rewrite ?X, ?Y, ?Z; auto. Qed.
  Lemma moves_ext : forall o T U, alike T U -> moves o T -> moves o U.
  Proof.
    intros o T U (X & Y & Z). destruct o; simpl; auto; rewrite <- Y; intros (H & a & W); split; auto; exists a; rewrite <- Z; auto.
  Qed.
  Lemma acts_ext : forall ops T U, alike T U -> alike (acts ops T) (acts ops U).
  Proof. induction ops; simpl; auto using act_ext. Qed.
  Lemma fits_ext : forall ops st T U, alike T U -> fits st ops T -> fits st ops U.
  Proof.
    induction ops; simpl; auto. intros st T U A [F (st' & H & K)]. split; [eauto using fit_ext|].
    exists st'. split; [|eauto using act_ext]. intros Q. destruct (H Q). split; auto.
    intros M. apply H1. eapply moves_ext; [apply alike_sym|]; eauto.
  Qed.

  Lemma is_look : forall G f g h, is eL eR G f g h -> alike (look G) (Looks f g h).
  Proof. intros P f g h (X & Y & Z). repeat split; auto. Qed.
  Lemma look_item : forall G x, grouping G -> alike (look (s_insert_item eL eR G x)) (t_insert_item (look G) x).
  Proof.
    intros G [[l|] r] K.
    - apply (is_look _ _ _ _ (is_insert eL eR EL ER G l r)).
    - apply (is_look _ _ _ _ (is_insert_right eL eR EL ER G r K)).
  Qed.
  Lemma grouping_item : forall G x, grouping G -> grouping (s_insert_item eL eR G x).
  Proof. intros G [[l|] r] K; [apply grouping_insert|apply grouping_insert_right]; auto. Qed.
  Lemma fold_items : forall xs G, grouping G ->
    alike (look (fold_left (s_insert_item eL eR) xs G)) (fold_left t_insert_item xs (look G)).
  Proof.
    induction xs as [|x xs IH]; simpl; intros G K; [apply alike_refl|].
    eapply alike_trans; [apply IH; apply grouping_item; auto|].
    exact (act_ext (Extend xs) _ _ (look_item G x K)).
  Qed.
  Lemma step_act : forall o G G' w, plain o ->
    (match o with SwapRight _ _ | SwapRightRemove _ _ => fit true o (look G) | _ => True end) ->
    grouping G -> s_step eL eR G o G' w -> alike (look G') (act o (look G)).
  Proof.
    intros o G G' w PL F K St. destruct o; simpl in PL; try contradiction; simpl in St |- *;
      try (destruct St as [-> _]; auto using alike_refl).
    - apply (is_look _ _ _ _ (is_insert eL eR EL ER G l r)).
    - apply (is_look _ _ _ _ (is_insert_remove eL eR EL ER G l r K)).
    - apply (is_look _ _ _ _ (is_insert_left eL eR EL ER G l r)).
    - apply (is_look _ _ _ _ (is_insert_right eL eR EL ER G r K)).
    - simpl in F. destruct (s_contains_right eR G old) eqn:C.
      + apply (is_look _ _ _ _ (is_swap_right eL eR ER G old new K C (F eq_refl))).
      + rewrite (proj1 (swap_absent eR G old new C)). apply (is_look _ _ _ _ (is_insert_right eL eR EL ER G new K)).
    - simpl in F. destruct (s_contains_right eR G old) eqn:C.
      + assert (F' : eR old new = true \/ s_contains_right eR G new = false) by (destruct (F eq_refl); auto).
        apply (is_look _ _ _ _ (is_swap_right_remove eL eR ER G old new K C F')).
      + rewrite (proj2 (swap_absent eR G old new C)). apply (is_look _ _ _ _ (is_insert_right eL eR EL ER G new K)).
    - apply (is_look _ _ _ _ (is_pair eL eR EL ER G l r)).
    - unfold s_remove. destruct (s_are_paired eL eR G l r); auto using alike_refl.
      apply (is_look _ _ _ _ (is_remove_right eL eR EL ER G r K)).
    - apply (is_look _ _ _ _ (is_remove_left eL eR EL G l)).
    - apply (is_look _ _ _ _ (is_remove_right eL eR EL ER G r K)).
    - clear PL F. revert G K. induction xs as [|x xs IH]; simpl; intros G K; [apply alike_refl|].
      eapply alike_trans; [apply IH; apply grouping_insert; auto|].
      assert (X := look_item G (Some (fst x), snd x) K).
      exact (act_ext (ExtendPairs xs) _ _ X).
    - apply fold_items; auto.
  Qed.
End Looks.

(* ---- results up to Eq ---- *)
Section Congruence.
  Context {L R : Type}.
  Variables (eL : L -> L -> bool) (eR : R -> R -> bool).
  Hypothesis EL : equivalence eL.
  Hypothesis ER : equivalence eR.
  Notation contents := (contents L R).
  Notation grouping := (grouping eL eR).
  Notation alk G H := (alike (look eL eR G) (look eL eR H)).
  Implicit Types (G H : contents) (l : L) (r : R).

  Definition l_like (a a' : L) : Prop := eL a a' = true.
  Definition r_like (b b' : R) : Prop := eR b b' = true.
  Definition p_like (p q : L * R) : Prop := l_like (fst p) (fst q) /\ r_like (snd p) (snd q).
  Definition i_like (p q : option L * R) : Prop := opt_like l_like (fst p) (fst q) /\ r_like (snd p) (snd q).
  Definition g_like (p q : list L * R) : Prop := list_like l_like (fst p) (fst q) /\ r_like (snd p) (snd q).
  (* the same result, items compared with Eq, the order of iteration left open *)
  Definition out_like (w w' : out L R) : Prop :=
    match w, w' with
    | OL x, OL y => opt_like l_like x y
    | OR x, OR y => opt_like r_like x y
    | OGroup x, OGroup y => opt_like g_like x y
    | OInsRem x, OInsRem y => opt_like l_like (fst x) (fst y) /\ opt_like g_like (snd x) (snd y)
    | OLsO x, OLsO y => opt_like (list_like l_like) x y
    | OItems xs, OItems ys => list_like i_like xs ys
    | OPairs xs, OPairs ys => list_like p_like xs ys
    | OLs xs, OLs ys => list_like l_like xs ys
    | ORs xs, ORs ys => list_like r_like xs ys
    | _, _ => w = w'
    end.
  (* closures that answer from the items alone and respect Eq *)
  Definition tame (o : op L R) : Prop :=
    match o with
    | RetainPaired X f _ =>
        exists p, (forall q q', p_like q q' -> p q = p q') /\ forall s q, snd (f s q) = Some (p q)
    | RetainUnpaired X f _ =>
        exists p, (forall q q', r_like q q' -> p q = p q') /\ forall s q, snd (f s q) = Some (p q)
    | _ => True
    end.

  Lemma sub_like : forall {A} (e : A -> A -> Prop) (k : A -> bool) xs ys,
    (forall x y, e x y -> k x = k y) ->
    (forall x, In x xs -> exists y, In y ys /\ e x y) /\ (forall y, In y ys -> exists x, In x xs /\ e x y) ->
    (forall x, In x (filter k xs) -> exists y, In y (filter k ys) /\ e x y) /\
    (forall y, In y (filter k ys) -> exists x, In x (filter k xs) /\ e x y).
  Proof.
    intros A e k xs ys H [X Y]. split; intros z I; apply filter_In in I as [I Q].
    - destruct (X z I) as (y & J & W). exists y. split; auto. apply filter_In. split; auto. rewrite <- (H z y); auto.
    - destruct (Y z I) as (y & J & W). exists y. split; auto. apply filter_In. split; auto. rewrite (H y z); auto.
  Qed.
  Lemma map_sub_like : forall {A B} (e : A -> A -> Prop) (f : B -> B -> Prop) (k : A -> B) xs ys,
    (forall x y, e x y -> f (k x) (k y)) ->
    (forall x, In x xs -> exists y, In y ys /\ e x y) /\ (forall y, In y ys -> exists x, In x xs /\ e x y) ->
    (forall x, In x (map k xs) -> exists y, In y (map k ys) /\ f x y) /\
    (forall y, In y (map k ys) -> exists x, In x (map k xs) /\ f x y).
  Proof.
    intros A B e f k xs ys H [X Y]. split; intros z I; apply in_map_iff in I as (a & <- & I).
    - destruct (X a I) as (y & J & W). exists (k y). split; auto. apply in_map; auto.
    - destruct (Y a I) as (y & J & W). exists (k y). split; auto. apply in_map; auto.
  Qed.
  Lemma len_like : forall {A} (e : A -> A -> bool) xs ys, equivalence e -> distinct e xs -> distinct e ys ->
    (forall x, In x xs -> exists y, In y ys /\ e x y = true) /\ (forall y, In y ys -> exists x, In x xs /\ e x y = true) ->
    list_like (fun x y => e x y = true) xs ys.
  Proof.
    intros A e xs ys EQ D D' [X Y]. split; [|split; auto].
    apply Nat.le_antisymm; apply (distinct_embed_length e EQ); auto.
    intros y I. destruct (Y y I) as (x & J & W). exists x. rewrite (eqb_sym e EQ). auto.
  Qed.
  Lemma distinct_fst_filter : forall k (P : list (L * R)), distinct eL (map fst P) -> distinct eL (map fst (filter k P)).
  Proof.
    induction P as [|p P IH]; simpl; auto. intros D. apply distinct_cons in D as [X D]. destruct (k p); auto. simpl.
    apply distinct_cons. split; auto. intros y I. apply X. apply in_map_iff in I as (q & <- & I). apply filter_In in I as [I _].
    apply in_map; auto.
  Qed.
  Lemma pairs_like_sub : forall P Q, distinct eL (map fst P) -> distinct eL (map fst Q) ->
    (forall x, In x P -> exists y, In y Q /\ p_like x y) /\ (forall y, In y Q -> exists x, In x P /\ p_like x y) ->
    list_like p_like P Q /\ list_like l_like (map fst P) (map fst Q).
  Proof.
    intros P Q D D' X.
    assert (Y : list_like l_like (map fst P) (map fst Q)).
    { apply (len_like eL); auto. apply (map_sub_like p_like l_like fst); auto. intros x y [W _]; auto. }
    split; auto. destruct Y as [LN _]. rewrite !map_length in LN. split; auto.
  Qed.

  Lemma pairs_of : forall G H, grouping G -> grouping H -> alk G H ->
    (forall x, In x (g_pairs G) -> exists y, In y (g_pairs H) /\ p_like x y) /\
    (forall y, In y (g_pairs H) -> exists x, In x (g_pairs G) /\ p_like x y).
  Proof.
    intros G H K K' (_ & _ & A). simpl in A. split; intros p I.
    - assert (X : s_are_paired eL eR G (fst p) (snd p) = true).
      { apply rel_iff. exists p. auto using (equiv_refl _ EL), (equiv_refl _ ER). }
      rewrite A in X. apply rel_iff in X as (q & J & X & Y). exists q. split; auto. split; auto.
    - assert (X : s_are_paired eL eR H (fst p) (snd p) = true).
      { apply rel_iff. exists p. auto using (equiv_refl _ EL), (equiv_refl _ ER). }
      rewrite <- A in X. apply rel_iff in X as (q & J & X & Y). exists q. split; auto. 
      split; [apply (equiv_sym _ EL)|apply (equiv_sym _ ER)]; auto.
  Qed.
  Lemma rights_of : forall G H, alk G H ->
    (forall x, In x (g_rights G) -> exists y, In y (g_rights H) /\ r_like x y) /\
    (forall y, In y (g_rights H) -> exists x, In x (g_rights G) /\ r_like x y).
  Proof.
    intros G H (_ & A & _). simpl in A. split; intros p I.
    - assert (X : s_contains_right eR G p = true) by (apply cr_iff; exists p; auto using (equiv_refl _ ER)).
      rewrite A in X. apply cr_iff in X. auto.
    - assert (X : s_contains_right eR H p = true) by (apply cr_iff; exists p; auto using (equiv_refl _ ER)).
      rewrite <- A in X. apply cr_iff in X as (q & J & X). exists q. split; auto. apply (equiv_sym _ ER); auto.
  Qed.
  Lemma is_r_like : forall r p q, p_like p q -> is_r eR r p = is_r eR r q.
  Proof. intros r p q [_ X]. apply (eqb_replace_r eR ER); auto. Qed.
  Lemma is_l_like : forall l p q, p_like p q -> is_l eL l p = is_l eL l q.
  Proof. intros l p q [X _]. apply (eqb_replace_r eL EL); auto. Qed.
  Lemma group_like : forall G H r, grouping G -> grouping H -> alk G H -> list_like l_like (group eR G r) (group eR H r).
  Proof.
    intros G H r K K' A. apply pairs_like_sub.
    - apply distinct_fst_filter, K.
    - apply distinct_fst_filter, K'.
    - apply sub_like; [apply is_r_like|apply pairs_of; auto].
  Qed.
  Lemma find_r_like : forall G H r, alk G H -> grouping H -> opt_like r_like (find_r eR G r) (find_r eR H r).
  Proof.
    intros G H r A K. assert (X := find_r_cr eR G r). assert (Y := find_r_cr eR H r).
    assert (C := proj1 (proj2 A) r). simpl in C.
    destruct (find_r eR G r) as [b|], (find_r eR H r) as [b'|]; simpl; auto.
    - destruct X as (_ & X & _), Y as (_ & Y & _). apply (equiv_trans _ ER b r b'); auto. apply (equiv_sym _ ER); auto.
    - destruct X. congruence.
    - destruct Y. congruence.
  Qed.
  Lemma find_l_like : forall G H l, grouping G -> grouping H -> alk G H -> opt_like p_like (find_l eL G l) (find_l eL H l).
  Proof.
    intros G H l K K' A. assert (X := find_l_cl eL G l). assert (Y := find_l_cl eL H l).
    assert (C := proj1 A l). simpl in C.
    destruct (find_l eL G l) as [p|], (find_l eL H l) as [q|]; simpl; auto.
    - destruct X as (_ & X & I), Y as (_ & Y & J). destruct (proj1 (pairs_of G H K K' A) p I) as (q' & J' & W).
      assert (q = q') as <-; auto. destruct K' as (D & _). apply (distinct_map_inj eL EL fst (g_pairs H)); auto.
      apply (equiv_trans _ EL _ l); [apply (equiv_sym _ EL); auto|]. apply (equiv_trans _ EL _ (fst p)); auto. apply W.
    - destruct X. congruence.
    - destruct Y. congruence.
  Qed.
  Lemma remove_right_out_like : forall G H r, grouping G -> grouping H -> alk G H ->
    opt_like g_like (s_remove_right_out eR G r) (s_remove_right_out eR H r).
  Proof.
    intros G H r K K' A. unfold s_remove_right_out. assert (X := find_r_like G H r A K'). assert (Y := group_like G H r K K' A).
    destruct (find_r eR G r), (find_r eR H r); simpl in *; auto. split; auto.
  Qed.
  Lemma remove_left_out_like : forall G H l, grouping G -> grouping H -> alk G H ->
    opt_like l_like (s_remove_left_out eL G l) (s_remove_left_out eL H l).
  Proof.
    intros G H l K K' A. unfold s_remove_left_out. assert (X := find_l_like G H l K K' A).
    destruct (find_l eL G l), (find_l eL H l); simpl in *; auto. apply X.
  Qed.
  Lemma same_group_like : forall (g g' w w' : option (list L * R)),
    same_group g w -> same_group g' w' -> opt_like g_like w w' -> opt_like g_like g g'.
  Proof.
    intros [[x1 y1]|] [[x2 y2]|] [[x3 y3]|] [[x4 y4]|]; simpl; try easy.
    intros [P ->] [P' ->] [X Y]. split; auto. simpl in *. eapply CycleMapLaws.list_like_perm; eauto.
  Qed.
  Lemma paired_like : forall G H r, grouping G -> grouping H -> alk G H -> s_is_right_paired eR G r = s_is_right_paired eR H r.
  Proof.
    intros G H r K K' A. unfold s_is_right_paired. destruct (pairs_of G H K K' A) as [X Y].
    apply eq_true_iff_eq. rewrite !existsb_exists. split; intros (p & I & Q).
    - destruct (X p I) as (q & J & W). exists q. split; auto. rewrite <- (is_r_like r p q); auto.
    - destruct (Y p I) as (q & J & W). exists q. split; auto. rewrite (is_r_like r q p); auto.
  Qed.
  Lemma paired_swap : forall G r r', eR r r' = true -> s_is_right_paired eR G r = s_is_right_paired eR G r'.
  Proof.
    intros G r r' H. unfold s_is_right_paired, is_r. induction (g_pairs G) as [|p P IH]; simpl; auto.
    rewrite IH, (eqb_replace_l eR ER r r'); auto.
  Qed.
  Lemma unpaired_sub : forall G H, grouping G -> grouping H -> alk G H ->
    (forall x, In x (s_unpaired eR G) -> exists y, In y (s_unpaired eR H) /\ r_like x y) /\
    (forall y, In y (s_unpaired eR H) -> exists x, In x (s_unpaired eR G) /\ r_like x y).
  Proof.
    intros G H K K' A. unfold s_unpaired.
    rewrite (filter_ext _ (fun r => negb (s_is_right_paired eR H r))) by (intros; f_equal; apply paired_like; auto).
    apply sub_like; [|apply rights_of; auto]. intros x y W. f_equal. apply paired_swap; auto.
  Qed.
  Lemma unpaired_like : forall G H, grouping G -> grouping H -> alk G H -> list_like r_like (s_unpaired eR G) (s_unpaired eR H).
  Proof.
    intros G H K K' A. apply (len_like eR); auto.
    - apply distinct_filter, K.
    - apply distinct_filter, K'.
    - apply unpaired_sub; auto.
  Qed.
  Lemma pairs_like : forall G H, grouping G -> grouping H -> alk G H ->
    list_like p_like (g_pairs G) (g_pairs H) /\ list_like l_like (map fst (g_pairs G)) (map fst (g_pairs H)).
  Proof. intros G H K K' A. apply pairs_like_sub; [apply K|apply K'|apply pairs_of; auto]. Qed.
  Lemma rights_like : forall G H, grouping G -> grouping H -> alk G H -> list_like r_like (g_rights G) (g_rights H).
  Proof. intros G H K K' A. apply (len_like eR); auto; [apply K|apply K'|apply rights_of; auto]. Qed.
  Lemma items_like : forall G H, grouping G -> grouping H -> alk G H -> list_like i_like (s_items eR G) (s_items eR H).
  Proof.
    intros G H K K' A. destruct (pairs_like G H K K' A) as [[LN X] _]. destruct (unpaired_like G H K K' A) as [LN' Y].
    unfold s_items. split; [rewrite !app_length, !map_length; auto|].
    assert (X' := map_sub_like p_like i_like (fun p => (Some (fst p), snd p)) _ _ (fun x y (W : p_like x y) => W) X).
    assert (Y' := map_sub_like r_like i_like (fun r => (None, r)) _ _ (fun x y (W : r_like x y) => conj I W) Y).
    destruct X' as [X1 X2], Y' as [Y1 Y2]. split; intros z J; apply in_app_iff in J as [J|J].
    - destruct (X1 z J) as (y & J' & W). exists y. rewrite in_app_iff. auto.
    - destruct (Y1 z J) as (y & J' & W). exists y. rewrite in_app_iff. auto.
    - destruct (X2 z J) as (y & J' & W). exists y. rewrite in_app_iff. auto.
    - destruct (Y2 z J) as (y & J' & W). exists y. rewrite in_app_iff. auto.
  Qed.
  Lemma alk_of : forall G H,
    (forall x, In x (g_pairs G) -> exists y, In y (g_pairs H) /\ p_like x y) /\
    (forall y, In y (g_pairs H) -> exists x, In x (g_pairs G) /\ p_like x y) ->
    (forall x, In x (g_rights G) -> exists y, In y (g_rights H) /\ r_like x y) /\
    (forall y, In y (g_rights H) -> exists x, In x (g_rights G) /\ r_like x y) -> alk G H.
  Proof.
    intros G H [X Y] [X' Y']. repeat split; intros; simpl; apply eq_true_iff_eq; rewrite ?cl_iff, ?cr_iff, ?rel_iff;
      split; intros (p & I & Q).
    - destruct (X p I) as (q & J & W & _). exists q. split; auto. eapply (equiv_trans _ EL); eauto.
    - destruct (Y p I) as (q & J & W & _). exists q. split; auto. eapply (equiv_trans _ EL); eauto. apply (equiv_sym _ EL); auto.
    - destruct (X' p I) as (q & J & W). exists q. split; auto. eapply (equiv_trans _ ER); eauto.
    - destruct (Y' p I) as (q & J & W). exists q. split; auto. eapply (equiv_trans _ ER); eauto. apply (equiv_sym _ ER); auto.
    - destruct (X p I) as (q & J & W & V). exists q. split; auto. destruct Q. split; [eapply (equiv_trans _ EL)|eapply (equiv_trans _ ER)]; eauto.
    - destruct (Y p I) as (q & J & W & V). exists q. split; auto. destruct Q. split; [eapply (equiv_trans _ EL)|eapply (equiv_trans _ ER)]; eauto;
        [apply (equiv_sym _ EL); auto|apply (equiv_sym _ ER); auto].
  Qed.
  (* what is left of the right items when yes is taken out *)
  Lemma rest_like : forall xs ys yes yes' xs' ys', distinct eR xs -> distinct eR ys ->
    Permutation xs (yes ++ xs') -> Permutation ys (yes' ++ ys') ->
    (forall x, In x xs -> exists y, In y ys /\ r_like x y) ->
    (forall y, In y yes' -> exists x, In x yes /\ r_like x y) ->
    forall x, In x xs' -> exists y, In y ys' /\ r_like x y.
  Proof.
    intros xs ys yes yes' xs' ys' D D' P P' X Y x I.
    destruct (X x) as (y & J & W). { eapply Permutation_in; [symmetry; exact P|]. apply in_app_iff; auto. }
    exists y. split; auto. eapply Permutation_in in J; [|exact P']. apply in_app_iff in J as [J|J]; auto. exfalso.
    destruct (Y y J) as (x0 & I0 & V). apply (distinct_perm eR ER _ _ P) in D. apply distinct_app in D as (_ & _ & D).
    specialize (D x0 x I0 I). rewrite (equiv_trans _ ER x0 y x) in D; auto; [discriminate|]. apply (equiv_sym _ ER); auto.
  Qed.

  Lemma step_like : forall o G H G' H' w w', tame o ->
    (match o with SwapRight _ _ | SwapRightRemove _ _ => fit eR true o (look eL eR G) | _ => True end) ->
    grouping G -> grouping H -> alk G H ->
    s_step eL eR G o G' w -> s_step eL eR H o H' w' -> alk G' H' /\ out_like w w'.
  Proof.
    intros o G H G' H' w w' T F K K' A S1 S2.
    assert (CL := fun l => proj1 A l). assert (CR := fun r => proj1 (proj2 A) r). assert (RE := fun l r => proj2 (proj2 A) l r).
    simpl in CL, CR, RE.
    split.
    - destruct (match o with RetainPaired _ _ _ | RetainUnpaired _ _ _ => true | _ => false end) eqn:C.
      + destruct o; try discriminate; simpl in S1, S2, T.
        * destruct T as (p & Rp & Hp). destruct S1 as (Q1 & P1 & S1), S2 as (Q2 & P2 & S2).
          destruct (s_filter_pure f p Hp Q1 x) as (x1 & F1), (s_filter_pure f p Hp Q2 x) as (x2 & F2).
          rewrite F1 in S1. rewrite F2 in S2. destruct S1 as [-> _], S2 as [-> _]. apply alk_of; cbn [g_pairs g_rights].
          -- apply sub_like; [intros u v W; rewrite (Rp u v); auto|].
             destruct (CycleMapLaws.list_like_perm p_like _ _ _ _ (proj1 (pairs_like G H K K' A)) P1 P2) as (_ & XX); exact XX.
          -- apply rights_of; auto.
        * destruct T as (p & Rp & Hp). destruct S1 as (Q1 & P1 & S1), S2 as (Q2 & P2 & S2).
          destruct (s_filter_pure f p Hp Q1 x) as (x1 & F1), (s_filter_pure f p Hp Q2 x) as (x2 & F2).
          rewrite F1 in S1. rewrite F2 in S2. destruct S1 as (E1 & R1 & _), S2 as (E2 & R2 & _).
          assert (YY : (forall z, In z (filter p Q1) -> exists y, In y (filter p Q2) /\ r_like z y) /\
                       (forall y, In y (filter p Q2) -> exists z, In z (filter p Q1) /\ r_like z y)).
          { apply sub_like; auto.
            destruct (CycleMapLaws.list_like_perm r_like _ _ _ _ (unpaired_like G H K K' A) P1 P2) as (_ & XX); exact XX. }
          apply alk_of; cbn [g_pairs g_rights].
          -- rewrite E1, E2. apply pairs_of; auto.
          -- destruct (rights_of G H A) as [XX Y]. destruct K as (_ & D & _), K' as (_ & D' & _). split.
             ++ apply (rest_like _ _ _ _ _ _ D D' R1 R2 XX). apply YY.
             ++ intros y J. destruct (rest_like _ _ _ _ _ _ D' D R2 R1) with (x := y) as (z & I & W); auto.
                ** intros z I. destruct (Y z I) as (v & I' & W). exists v. split; auto. apply (equiv_sym _ ER); auto.
                ** intros z I. destruct (proj1 YY z I) as (v & I' & W). exists v. split; auto. apply (equiv_sym _ ER); auto.
                ** exists z. split; auto. apply (equiv_sym _ ER); auto.
      + assert (PL : plain o) by (destruct o; try exact I; discriminate).
        assert (X1 : alike (look eL eR G') (act eL eR o (look eL eR G))).
        { eapply step_act; eauto. }
        assert (X2 : alike (look eL eR H') (act eL eR o (look eL eR H))).
        { eapply step_act; eauto. destruct o; auto; eapply fit_ext; eauto. }
        eapply alike_trans; [exact X1|]. eapply alike_trans; [apply act_ext; exact A|]. apply alike_sym; auto.
    - clear F. destruct o; simpl in S1, S2, T |- *.
      + destruct S1 as [_ ->], S2 as [_ ->]. reflexivity.
      + destruct S1 as (_ & g & E1 & ->), S2 as (_ & g' & E2 & ->). simpl. split; [apply remove_left_out_like; auto|].
        eapply same_group_like; eauto. apply remove_right_out_like; try (apply grouping_remove_left; auto).
        eapply alike_trans; [apply (is_look _ _ _ _ _ _ (is_remove_left eL eR EL G l))|].
        eapply alike_trans; [apply (act_ext eL eR (RemoveLeft l) _ _ A)|].
        apply alike_sym. apply (is_look _ _ _ _ _ _ (is_remove_left eL eR EL H l)).
      + destruct S1 as [_ ->], S2 as [_ ->]. simpl. unfold s_insert_left_out. assert (X := find_r_like G H r A K').
        destruct (find_r eR G r), (find_r eR H r); simpl in X |- *; try easy. apply remove_left_out_like; auto.
      + destruct S1 as (_ & g & E1 & ->), S2 as (_ & g' & E2 & ->). simpl.
        eapply same_group_like; eauto. apply remove_right_out_like; auto.
      + destruct S1 as [_ ->], S2 as [_ ->]. reflexivity.
      + destruct S1 as [_ ->], S2 as [_ ->]. simpl. apply find_r_like; auto.
      + destruct S1 as [_ ->], S2 as [_ ->]. simpl. unfold s_pair_out. rewrite CL, CR. auto.
      + destruct S1 as (_ & g & E1 & ->), S2 as (_ & g' & E2 & ->). simpl.
        eapply same_group_like; eauto. unfold s_remove_out. rewrite RE. destruct (s_are_paired eL eR H l r); simpl; auto.
        apply remove_right_out_like; auto.
      + destruct S1 as [_ ->], S2 as [_ ->]. simpl. apply remove_left_out_like; auto.
      + destruct S1 as (_ & g & E1 & ->), S2 as (_ & g' & E2 & ->). simpl.
        eapply same_group_like; eauto. apply remove_right_out_like; auto.
      + destruct S1 as [_ ->], S2 as [_ ->]. simpl. f_equal. apply paired_like; auto.
      + destruct S1 as [_ ->], S2 as [_ ->]. simpl. rewrite RE. auto.
      + destruct S1 as [_ ->], S2 as [_ ->]. simpl. rewrite CL. auto.
      + destruct S1 as [_ ->], S2 as [_ ->]. simpl. rewrite CR. auto.
      + destruct S1 as [_ ->], S2 as [_ ->]. simpl. unfold s_get_right. assert (X := find_l_like G H l K K' A).
        destruct (find_l eL G l), (find_l eL H l); simpl in *; auto. apply X.
      + destruct S1 as [_ S1], S2 as [_ S2]. unfold s_get_left_iter in *. assert (X := find_r_like G H r A K').
        destruct (find_r eR G r), (find_r eR H r); simpl in X, S1, S2; try easy; subst; simpl; auto.
        destruct S1 as (Q1 & P1 & ->), S2 as (Q2 & P2 & ->). simpl. eapply CycleMapLaws.list_like_perm; eauto. apply group_like; auto.
      + destruct S1 as (_ & Q1 & P1 & ->), S2 as (_ & Q2 & P2 & ->). simpl.
        eapply CycleMapLaws.list_like_perm; eauto. apply items_like; auto.
      + destruct S1 as (_ & Q1 & P1 & ->), S2 as (_ & Q2 & P2 & ->). simpl.
        eapply CycleMapLaws.list_like_perm; eauto. apply pairs_like; auto.
      + destruct S1 as (_ & Q1 & P1 & ->), S2 as (_ & Q2 & P2 & ->). simpl.
        eapply CycleMapLaws.list_like_perm; eauto. apply unpaired_like; auto.
      + destruct S1 as (_ & Q1 & P1 & ->), S2 as (_ & Q2 & P2 & ->). simpl.
        eapply CycleMapLaws.list_like_perm; eauto. apply pairs_like; auto.
      + destruct S1 as (_ & Q1 & P1 & ->), S2 as (_ & Q2 & P2 & ->). simpl.
        eapply CycleMapLaws.list_like_perm; eauto. apply rights_like; auto.
      + destruct T as (p & Rp & Hp). destruct S1 as (Q1 & P1 & S1), S2 as (Q2 & P2 & S2).
        destruct (s_filter_pure f p Hp Q1 x) as (x1 & F1), (s_filter_pure f p Hp Q2 x) as (x2 & F2).
        rewrite F1 in S1. rewrite F2 in S2. destruct S1 as [_ ->], S2 as [_ ->]. reflexivity.
      + destruct T as (p & Rp & Hp). destruct S1 as (Q1 & P1 & S1), S2 as (Q2 & P2 & S2).
        destruct (s_filter_pure f p Hp Q1 x) as (x1 & F1), (s_filter_pure f p Hp Q2 x) as (x2 & F2).
        rewrite F1 in S1. rewrite F2 in S2. destruct S1 as (_ & _ & ->), S2 as (_ & _ & ->). reflexivity.
      + destruct S1 as [_ ->], S2 as [_ ->]. reflexivity.
      + destruct S1 as [_ ->], S2 as [_ ->]. reflexivity.
      + destruct S1 as [_ ->], S2 as [_ ->]. reflexivity.
      + destruct S1 as [_ ->], S2 as [_ ->]. reflexivity.
      + destruct S1 as [_ ->], S2 as [_ ->]. simpl. f_equal. apply (pairs_like G H K K' A).
      + destruct S1 as [_ ->], S2 as [_ ->]. simpl. f_equal. apply (rights_like G H K K' A).
      + destruct S1 as [_ ->], S2 as [_ ->]. simpl. assert (X := proj1 (rights_like G H K K' A)).
        destruct (g_rights G), (g_rights H); simpl in X; auto; discriminate.
  Qed.
End Congruence.

(* ---- C124 ---- *)
Section Laws.
  Context {L R S : Type}.
  Variable E : env L R S.
  Hypothesis OK : lawful E.
  Implicit Types (m : gmap L R S) (l : L) (r : R).
  Let EL := eqL_equiv _ OK.
  Let ER := eqR_equiv _ OK.
  Notation grouping := (grouping (eqL E) (eqR E)).

  (* the map after the calls ops *)
  Definition after m (ops : list (op L R)) : gmap L R S := fst (run E m ops).
  (* the lookups give the same answers *)
  Definition same_map m m' : Prop :=
    (forall l, contains_left E m l = contains_left E m' l) /\
    (forall r, contains_right E m r = contains_right E m' r) /\
    (forall l r, are_paired E m l r = are_paired E m' l r).
  Notation "m ~~ m'" := (same_map m m') (at level 70).

  Definition lookm m : looks := Looks (contains_left E m) (contains_right E m) (are_paired E m).
  Lemma lookm_repr : forall b s lc rc m G, Repr E b s lc rc m G -> alike (look (eqL E) (eqR E) G) (lookm m).
  Proof.
    intros b s lc rc m G H. repeat split; intros; simpl; symmetry;
      [eapply (contains_left_ok E OK)|eapply (contains_right_ok E OK)|eapply (are_paired_ok E OK)]; eauto.
  Qed.

  (* what makes three lookups those of a map *)
  Record sound m : Prop := {
    so_l : forall a a', eqL E a a' = true -> contains_left E m a' = contains_left E m a;
    so_r : forall b b', eqR E b b' = true -> contains_right E m b' = contains_right E m b;
    so_pl : forall a a' b, eqL E a a' = true -> are_paired E m a' b = are_paired E m a b;
    so_pr : forall a b b', eqR E b b' = true -> are_paired E m a b' = are_paired E m a b;
    so_in : forall a b, are_paired E m a b = true -> contains_left E m a = true /\ contains_right E m b = true;
    so_one : forall a b b', are_paired E m a b = true -> are_paired E m a b' = true -> eqR E b b' = true;
    so_some : forall a, contains_left E m a = true -> exists b, are_paired E m a b = true
  }.
  Lemma reachable_sound : forall room m, reachable E room m -> sound m.
  Proof.
    intros room m H. apply (reachable_repr E OK) in H as (s & lc & rc & G & H & _).
    assert (K := repr_grouping E _ _ _ _ _ _ H). destruct (lookm_repr _ _ _ _ _ _ H) as (X & Y & Z). simpl in X, Y, Z.
    constructor; intros *; rewrite <- ?X, <- ?Y, <- ?Z.
    - intros Q. symmetry. apply (cl_swap _ EL); auto.
    - intros Q. symmetry. apply (cr_swap _ ER); auto.
    - intros Q. symmetry. apply (rel_swap_l _ _ EL); auto.
    - intros Q. symmetry. apply (rel_swap_r _ _ ER); auto.
    - intros Q. split; [eapply rel_cl|eapply rel_cr]; eauto.
    - intros Q Q'. eapply (rel_one _ _ EL ER); eauto.
    - intros Q. destruct (cl_rel (eqL E) (eqR E) ER G a Q) as (b & W). exists b. rewrite <- Z. auto.
  Qed.
  Lemma not_moved : forall s d lc rc m G q, Repr E (true, d) s lc rc m G -> is_right_paired E m q = true ->
    exists a, are_paired E m a q = true.
  Proof.
    intros s d lc rc m G q H Q. rewrite (is_right_paired_ok E OK _ _ _ _ _ _ q H) in Q; [|apply (tame_all_clean E OK _ _ _ _ _ _ H)].
    unfold s_is_right_paired, is_r in Q. apply existsb_exists in Q as (p & I & Q). exists (fst p).
    rewrite (are_paired_ok E OK _ _ _ _ _ _ _ _ H). apply rel_iff. exists p. auto using (equiv_refl _ EL).
  Qed.
  Lemma fit_loose : forall st d s lc rc m G o, Repr E (true, d) s lc rc m G -> (st = true -> d = true) ->
    plain o -> fit (eqR E) st o (lookm m) -> loose E m o.
  Proof.
    intros st d s lc rc m G o H SD PL F. assert (CL := tame_all_clean E OK _ _ _ _ _ _ H).
    assert (LK : st = true -> all_linked E m).
    { intros Q. rewrite (SD Q) in H. apply (tame_all_linked E OK _ _ _ _ _ _ H). }
    destruct o; simpl in F, PL; unfold loose; cbn [with_extend loose1]; auto; try contradiction;
      try exact (CL _); try (exact (LK F _)); try (intros _; exact (CL _)); try (intros _; exact (LK F _));
      try (split; [exact (LK F)|exact CL]).
    - destruct F as [F1 F2]. split; auto. exact (LK F1 _).
    - destruct (contains_right E m old); [split; auto; exact (CL _)|exact (CL _)].
    - destruct (contains_right E m old); [split; auto; exact (CL _)|exact (CL _)].
    - exact (LK F).
  Qed.
  Lemma run_acts : forall ops st d s lc rc m G, Repr E (true, d) s lc rc m G -> (st = true -> d = true) ->
    lc + budget ops < two64 -> rc + budget ops < two64 -> Forall plain ops ->
    fits (eqL E) (eqR E) st ops (lookm m) ->
    alike (lookm (after m ops)) (acts (eqL E) (eqR E) ops (lookm m)).
  Proof.
    unfold after. induction ops as [|o ops IH]; intros st d s lc rc m G H SD C D PL F; [apply alike_refl|].
    cbn [run acts budget fits] in *. inversion PL as [|o' ops' P1 P2]; subst. destruct F as [F1 (st' & F3 & F2)].
    assert (LO := fit_loose st d s lc rc m G o H SD P1 F1).
    destruct (step_ok E OK (true, d) s lc rc m G o H) as (b' & G' & lc' & rc' & St & H' & T1 & T2 & C1 & C2); auto; try lia.
    assert (B1 : fst b' = true) by (apply T1; auto; destruct o; simpl in P1 |- *; auto; contradiction).
    assert (B2 : st' = true -> snd b' = true).
    { intros Q. destruct (F3 Q) as [Q1 Q2]. apply T2; [apply SD; auto|]. destruct o; cbn [steady]; auto; intros CR.
      - destruct (is_right_paired E m old) eqn:W; auto. exfalso. apply Q2. split; auto. eapply not_moved; eauto.
      - destruct (is_right_paired E m old) eqn:W; auto. exfalso. apply Q2. split; auto. eapply not_moved; eauto. }
    assert (A : alike (lookm (fst (step E m o))) (act (eqL E) (eqR E) o (lookm m))).
    { eapply alike_trans; [apply alike_sym; eapply lookm_repr; eauto|].
      eapply alike_trans; [|apply act_ext; eapply lookm_repr; eauto].
      eapply (step_act _ _ EL ER); eauto; [|eapply repr_grouping; eauto].
      assert (F4 : fit (eqR E) st o (look (eqL E) (eqR E) G)); [|destruct o; auto].
      eapply fit_ext; [|exact F1]. apply alike_sym. eapply lookm_repr; eauto. }
    destruct b' as [b1 b2]. simpl in B1, B2. subst b1.
    destruct (step E m o) as [m1 w]. cbn [fst] in *.
    assert (X : alike (lookm (fst (run E m1 ops))) (acts (eqL E) (eqR E) ops (lookm m1))).
    { eapply IH with (st := st'); eauto; try lia. eapply fits_ext; [|exact F2]. apply alike_sym; auto. }
    destruct (run E m1 ops) as [m2 ws]. cbn [fst] in *.
    eapply alike_trans; [exact X|]. apply acts_ext; auto.
  Qed.
  Lemma law : forall room m ops1 ops2, reachable E room m -> budget ops1 <= room -> budget ops2 <= room ->
    Forall plain ops1 -> Forall plain ops2 ->
    fits (eqL E) (eqR E) true ops1 (lookm m) -> fits (eqL E) (eqR E) true ops2 (lookm m) ->
    alike (acts (eqL E) (eqR E) ops1 (lookm m)) (acts (eqL E) (eqR E) ops2 (lookm m)) ->
    after m ops1 ~~ after m ops2.
  Proof.
    intros room m ops1 ops2 H B1 B2 P1 P2 F1 F2 A. apply (reachable_repr E OK) in H as (s & lc & rc & G & H & B & B').
    assert (X : alike (lookm (after m ops1)) (lookm (after m ops2))).
    { eapply alike_trans; [eapply run_acts with (st := true); eauto; lia|]. eapply alike_trans; [exact A|].
      apply alike_sym. eapply run_acts with (st := true); eauto; lia. }
    exact X.
  Qed.

  (* y := x *)
  Ltac sub_l SO m x y X :=
    repeat match goal with
    | |- context [eqL E y ?z] => rewrite <- (eqb_replace_l (eqL E) EL x y z X)
    | |- context [eqL E ?z y] => rewrite <- (eqb_replace_r (eqL E) EL x y z X)
    | |- context [contains_left E m y] => rewrite (so_l m SO x y X)
    | |- context [are_paired E m y ?z] => rewrite (so_pl m SO x y z X)
    | H : eqL E y ?z = _ |- _ => tryif constr_eq H X then fail else rewrite <- (eqb_replace_l (eqL E) EL x y z X) in H
    | H : eqL E ?z y = _ |- _ => tryif constr_eq H X then fail else rewrite <- (eqb_replace_r (eqL E) EL x y z X) in H
    | H : contains_left E m y = _ |- _ => rewrite (so_l m SO x y X) in H
    | H : are_paired E m y ?z = _ |- _ => rewrite (so_pl m SO x y z X) in H
    end; match goal with |- context [y] => fail 1 | _ => clear X end.
  Ltac sub_r SO m x y X :=
    repeat match goal with
    | |- context [eqR E y ?z] => rewrite <- (eqb_replace_l (eqR E) ER x y z X)
    | |- context [eqR E ?z y] => rewrite <- (eqb_replace_r (eqR E) ER x y z X)
    | |- context [contains_right E m y] => rewrite (so_r m SO x y X)
    | |- context [are_paired E m ?z y] => rewrite (so_pr m SO z x y X)
    | H : eqR E y ?z = _ |- _ => tryif constr_eq H X then fail else rewrite <- (eqb_replace_l (eqR E) ER x y z X) in H
    | H : eqR E ?z y = _ |- _ => tryif constr_eq H X then fail else rewrite <- (eqb_replace_r (eqR E) ER x y z X) in H
    | H : contains_right E m y = _ |- _ => rewrite (so_r m SO x y X) in H
    | H : are_paired E m ?z y = _ |- _ => rewrite (so_pr m SO z x y X) in H
    | H : forall a, are_paired E m a y = false |- _ =>
        assert (forall a, are_paired E m a x = false)
          by (let a := fresh in intros a; rewrite <- (so_pr m SO a x y X); apply H); clear H
    end; match goal with |- context [y] => fail 1 | _ => clear X end.
  Ltac sim := cbn [fits fit acts act lookm onl onr tie t_insert t_insert_right t_remove_right andb orb negb].
  Ltac crush1 SO :=
    match goal with
    | |- ?x = ?x => reflexivity
    | H : true = false |- _ => discriminate H
    | H : false = true |- _ => discriminate H
    | H : eqL E ?x ?x = _ |- _ => rewrite (equiv_refl _ EL x) in H
    | H : eqR E ?x ?x = _ |- _ => rewrite (equiv_refl _ ER x) in H
    | |- context [eqL E ?x ?x] => rewrite (equiv_refl _ EL x)
    | |- context [eqR E ?x ?x] => rewrite (equiv_refl _ ER x)
    | H : are_paired E ?m ?x ?z = true, H' : are_paired E ?m ?x ?z = false |- _ => congruence
    | H : contains_left E ?m ?x = true, H' : contains_left E ?m ?x = false |- _ => congruence
    | H : contains_right E ?m ?x = true, H' : contains_right E ?m ?x = false |- _ => congruence
    | H : are_paired E ?m ?x ?z = true, H' : contains_left E ?m ?x = false |- _ => destruct (so_in m SO x z H); congruence
    | H : are_paired E ?m ?x ?z = true, H' : contains_right E ?m ?z = false |- _ => destruct (so_in m SO x z H); congruence
    | H : forall a, are_paired E ?m a ?x = false, H' : are_paired E ?m ?z ?x = true |- _ => rewrite H in H'; discriminate
    | X : eqL E ?x ?y = true |- _ => match type of SO with sound ?m => sub_l SO m x y X end
    | X : eqR E ?x ?y = true |- _ => match type of SO with sound ?m => sub_r SO m x y X end
    | H : ?t = ?v |- context [?t] => match v with true => idtac | false => idtac end; rewrite H
    | H : eqL E ?x ?y = false |- context [eqL E ?y ?x] => rewrite (eqb_sym (eqL E) EL y x), H
    | H : eqR E ?x ?y = false |- context [eqR E ?y ?x] => rewrite (eqb_sym (eqR E) ER y x), H
    | H : are_paired E ?m ?x ?z = true, H' : are_paired E ?m ?x ?w = true |- _ =>
        tryif constr_eq z w then fail else
          (let X := fresh "X" in assert (X := so_one m SO x z w H H'))
    | |- context [eqL E ?x ?y] => destruct (eqL E x y) eqn:?
    | |- context [eqR E ?x ?y] => destruct (eqR E x y) eqn:?
    | |- context [are_paired E ?m ?x ?y] => destruct (are_paired E m x y) eqn:?
    | |- context [contains_left E ?m ?x] => destruct (contains_left E m x) eqn:?
    | |- context [contains_right E ?m ?x] => destruct (contains_right E m x) eqn:?
    end; sim.
  Ltac plains := repeat constructor; exact I.
  Ltac crush SO := repeat (crush1 SO).
  Ltac fitting SO :=
    repeat first
      [ exact I | reflexivity | discriminate
      | match goal with
        | |- exists _, _ =>
            first [ exists true; split; [intros _; split; [reflexivity|solve [intros [] | intros [? [? ?]]; sim; crush SO]]|]
                  | exists false; split; [discriminate|] ]
        | |- _ /\ _ => split
        | |- _ -> _ => intros ?
        end ];
    try solve [crush SO | match goal with |- _ \/ eqR E ?a ?b = true => destruct (eqR E a b) eqn:?; [right; reflexivity|left; crush SO] end].
  Ltac setup SO :=
    eapply law; [eassumption|cbn [budget ids]; lia|cbn [budget ids]; lia|plains|plains| | |]; sim;
    [fitting SO|fitting SO|repeat split; intros; sim; crush SO].

  Ltac conjs := repeat match goal with |- _ /\ _ => split end.

  Theorem C124_insert_laws : forall m, reachable E 3 m ->
    (* the order does not matter for different left items, whichever group they go to *)
    (forall l r l' r', eqL E l l' = false -> are_paired E m l r = false -> are_paired E m l' r' = false ->
       after m [Insert l r; Insert l' r'] ~~ after m [Insert l' r'; Insert l r]) /\
    (forall l r l' r', eqL E l l' = false ->
       after m [InsertLeft l r; InsertLeft l' r'] ~~ after m [InsertLeft l' r'; InsertLeft l r]) /\
    (forall r r', after m [InsertRight r; InsertRight r'] ~~ after m [InsertRight r'; InsertRight r]) /\
    (* twice is once *)
    (forall l r, after m [InsertLeft l r; InsertLeft l r] ~~ after m [InsertLeft l r]) /\
    (forall r, after m [InsertRight r; InsertRight r] ~~ after m [InsertRight r]) /\
    (forall l r, after m [InsertRemove l r; InsertRemove l r] ~~ after m [InsertRemove l r]) /\
    (* the last group wins *)
    (forall l r r', contains_right E m r' = true ->
       after m [InsertLeft l r; InsertLeft l r'] ~~ after m [InsertLeft l r']) /\
    (forall l r r', eqR E r r' = false -> are_paired E m l r = false ->
       contains_right E m r = true -> are_paired E m l r' = false ->
       after m [Insert l r; Insert l r'] ~~ after m [Insert l r']) /\
    (* insert in smaller steps *)
    (forall l r, are_paired E m l r = false -> contains_right E m r = true ->
       after m [Insert l r] ~~ after m [InsertLeft l r]) /\
    (forall l r, contains_right E m r = false ->
       after m [Insert l r] ~~ after m [InsertRight r; InsertLeft l r]) /\
    (forall l r, are_paired E m l r = false ->
       after m [Insert l r] ~~ after m [RemoveLeft l; Insert l r]) /\
    (forall l r, after m [InsertRemove l r] ~~ after m [RemoveLeft l; RemoveRight r; Insert l r]) /\
    (forall l r, after m [InsertRemove l r] ~~ after m [RemoveLeft l; InsertRight r; InsertLeft l r]) /\
    (forall r, after m [InsertRight r] ~~ after m [RemoveRight r; InsertRight r]) /\
    (forall l r, contains_left E m l = false -> contains_right E m r = false ->
       after m [InsertRemove l r] ~~ after m [Insert l r]) /\
    (* undone by the removals *)
    (forall l r, contains_left E m l = false -> contains_right E m r = true ->
       after m [Insert l r; RemoveLeft l] ~~ m /\ after m [InsertLeft l r; RemoveLeft l] ~~ m) /\
    (forall l r, contains_left E m l = false -> contains_right E m r = false ->
       after m [Insert l r; RemoveRight r] ~~ m /\ after m [Insert l r; Remove l r] ~~ m /\
       after m [Insert l r; RemoveLeft l; RemoveRight r] ~~ m) /\
    (forall r, contains_right E m r = false -> after m [InsertRight r; RemoveRight r] ~~ m) /\
    (* no such group *)
    (forall l r, contains_right E m r = false -> after m [InsertLeft l r] ~~ m).
  Proof.
    intros m H. assert (SO := reachable_sound 3 m H). conjs.
    - intros. setup SO.
    - intros. setup SO.
    - intros. setup SO.
    - intros. setup SO.
    - intros. setup SO.
    - intros. setup SO.
    - intros. setup SO.
    - intros. setup SO.
    - intros. setup SO.
    - intros. setup SO.
    - intros. setup SO.
    - intros. setup SO.
    - intros. setup SO.
    - intros. setup SO.
    - intros. setup SO.
    - intros. change m with (after m []) at 2 4. conjs; setup SO.
    - intros. change m with (after m []) at 2 4 6. conjs; setup SO.
    - intros. change m with (after m []) at 2. setup SO.
    - intros. change m with (after m []) at 2. setup SO.
  Qed.

  Theorem C124_pair_laws : forall m, reachable E 1 m ->
    (* pair moves a left item to another group *)
    (forall l r, after m [Pair l r; Pair l r] ~~ after m [Pair l r]) /\
    (forall l r r', contains_right E m r' = true -> after m [Pair l r; Pair l r'] ~~ after m [Pair l r']) /\
    (forall l r l' r', eqL E l l' = false ->
       after m [Pair l r; Pair l' r'] ~~ after m [Pair l' r'; Pair l r]) /\
    (forall l r r', are_paired E m l r = true -> after m [Pair l r'; Pair l r] ~~ m) /\
    (forall l r, contains_left E m l = true -> contains_right E m r = true ->
       after m [Pair l r] ~~ after m [InsertLeft l r] /\
       after m [Pair l r] ~~ after m [RemoveLeft l; Insert l r]) /\
    (forall l r, contains_left E m l = true -> contains_right E m r = true -> are_paired E m l r = false ->
       after m [Pair l r] ~~ after m [Insert l r]) /\
    (forall l r, are_paired E m l r = true -> after m [Pair l r] ~~ m /\ after m [InsertLeft l r] ~~ m) /\
    (* a left item moved away in time survives the removal of its group *)
    (forall l r r', are_paired E m l r = true -> contains_right E m r' = true -> eqR E r r' = false ->
       after m [Pair l r'; RemoveRight r] ~~ after m [RemoveRight r; Insert l r']) /\
    (* refused *)
    (forall l r, contains_left E m l = false \/ contains_right E m r = false -> after m [Pair l r] ~~ m).
  Proof.
    intros m H. assert (SO := reachable_sound 1 m H). conjs.
    - intros. setup SO.
    - intros. setup SO.
    - intros. setup SO.
    - intros. change m with (after m []) at 2. setup SO.
    - intros. conjs; setup SO.
    - intros. setup SO.
    - intros. change m with (after m []) at 2 4. conjs; setup SO.
    - intros. setup SO.
    - intros l r [X|X]; change m with (after m []) at 2; setup SO.
  Qed.

  Theorem C124_remove_laws : forall m, reachable E 1 m ->
    (* twice is once *)
    (forall l, after m [RemoveLeft l; RemoveLeft l] ~~ after m [RemoveLeft l]) /\
    (forall r, after m [RemoveRight r; RemoveRight r] ~~ after m [RemoveRight r]) /\
    (forall l r, after m [Remove l r; Remove l r] ~~ after m [Remove l r]) /\
    (* in any order *)
    (forall l l', after m [RemoveLeft l; RemoveLeft l'] ~~ after m [RemoveLeft l'; RemoveLeft l]) /\
    (forall r r', after m [RemoveRight r; RemoveRight r'] ~~ after m [RemoveRight r'; RemoveRight r]) /\
    (forall l r, after m [RemoveLeft l; RemoveRight r] ~~ after m [RemoveRight r; RemoveLeft l]) /\
    (forall l r l' r', eqR E r r' = false ->
       after m [Remove l r; Remove l' r'] ~~ after m [Remove l' r'; Remove l r]) /\
    (* remove(l,r) takes the whole group *)
    (forall l r, are_paired E m l r = true ->
       after m [Remove l r] ~~ after m [RemoveRight r] /\
       after m [RemoveRight r; RemoveLeft l] ~~ after m [Remove l r] /\
       after m [RemoveLeft l; Insert l r] ~~ m /\ after m [RemoveLeft l; InsertLeft l r] ~~ m) /\
    (forall l r, are_paired E m l r = false -> after m [Remove l r] ~~ m) /\
    (* an empty group: only the right item goes *)
    (forall r, (forall l, are_paired E m l r = false) -> contains_right E m r = true ->
       after m [RemoveRight r; InsertRight r] ~~ m /\ after m [InsertRight r] ~~ m) /\
    (* nothing to remove *)
    (forall l, contains_left E m l = false -> after m [RemoveLeft l] ~~ m) /\
    (forall r, contains_right E m r = false -> after m [RemoveRight r] ~~ m).
  Proof.
    intros m H. assert (SO := reachable_sound 1 m H). conjs.
    - intros. setup SO.
    - intros. setup SO.
    - intros. setup SO.
    - intros. setup SO.
    - intros. setup SO.
    - intros. setup SO.
    - intros. setup SO.
    - intros. change m with (after m []) at 6 8. conjs; setup SO.
    - intros. change m with (after m []) at 2. setup SO.
    - intros. change m with (after m []) at 2 4. conjs; setup SO.
    - intros. change m with (after m []) at 2. setup SO.
    - intros. change m with (after m []) at 2. setup SO.
  Qed.

  Theorem C124_swap_laws : forall m, reachable E 3 m ->
    (* a whole group there and back *)
    (forall x y, contains_right E m x = true -> contains_right E m y = false ->
       after m [SwapRightRemove x y; SwapRightRemove y x] ~~ m /\
       (* on the way *)
       (forall z, contains_right E m z = false ->
          after m [SwapRightRemove x y; SwapRightRemove y z] ~~ after m [SwapRightRemove x z]) /\
       (* swap_right leaves the old right item behind without left items *)
       after m [SwapRight x y; RemoveRight x] ~~ after m [SwapRightRemove x y] /\
       after m [SwapRightRemove x y; InsertRight x] ~~ after m [SwapRight x y] /\
       (* the whole group can be removed under either name *)
       after m [SwapRightRemove x y; RemoveRight y] ~~ after m [RemoveRight x]) /\
    (* another group is not concerned *)
    (forall x y r, contains_right E m x = true -> contains_right E m y = false ->
       eqR E x r = false -> eqR E y r = false ->
       after m [SwapRightRemove x y; RemoveRight r] ~~ after m [RemoveRight r; SwapRightRemove x y] /\
       after m [SwapRight x y; RemoveRight r] ~~ after m [RemoveRight r; SwapRight x y]) /\
    (forall x y x' y', contains_right E m x = true -> contains_right E m y = false ->
       contains_right E m x' = true -> contains_right E m y' = false ->
       eqR E x x' = false -> eqR E y y' = false ->
       after m [SwapRightRemove x y; SwapRightRemove x' y'] ~~ after m [SwapRightRemove x' y'; SwapRightRemove x y]) /\
    (forall x, contains_right E m x = true -> after m [SwapRightRemove x x] ~~ m) /\
    (* the old right item is not present *)
    (forall x y, contains_right E m x = false ->
       after m [SwapRightRemove x y] ~~ after m [InsertRight y] /\
       after m [SwapRight x y] ~~ after m [InsertRight y]).
  Proof.
    intros m H. assert (SO := reachable_sound 3 m H). conjs.
    - intros x y X Y. change m with (after m []) at 2. conjs; [|intros z Z| | |]; setup SO.
    - intros. conjs; setup SO.
    - intros. setup SO.
    - intros. change m with (after m []) at 2. setup SO.
    - intros. conjs; setup SO.
  Qed.

  Lemma acts_app : forall xs ys (T : looks), acts (eqL E) (eqR E) (xs ++ ys) T = acts (eqL E) (eqR E) ys (acts (eqL E) (eqR E) xs T).
  Proof. induction xs; simpl; auto. Qed.
  Lemma pairs_fits : forall y rest ls T, fits (eqL E) (eqR E) true rest (acts (eqL E) (eqR E) (map (fun l => Pair l y) ls) T) ->
    fits (eqL E) (eqR E) true (map (fun l => Pair l y) ls ++ rest) T.
  Proof.
    intros y rest. induction ls as [|l ls IH]; intros T F; auto. cbn [map app fits fit acts] in *.
    split; auto. exists true. split; [intros _; split; auto|]. apply IH; auto.
  Qed.
  Lemma pairs_acts : forall y ls (T : @looks L R), onr T y = true -> (forall l, In l ls -> onl T l = true) ->
    alike (acts (eqL E) (eqR E) (map (fun l => Pair l y) ls) T)
          (Looks (onl T) (onr T) (fun a b => if existsb (fun l => eqL E l a) ls then eqR E y b else tie T a b)).
  Proof.
    intros y. induction ls as [|l ls IH]; intros T Y I; [repeat split; auto|].
    cbn [map acts act existsb]. eapply alike_trans; [apply IH; simpl; auto; intros; apply I; simpl; auto|].
    repeat split; intros; simpl. rewrite Y, (I l) by (simpl; auto). rewrite !andb_true_r.
    destruct (existsb _ ls), (eqL E l a); auto.
  Qed.
  Lemma pairs_budget : forall (y : R) (ls : list L) (rest : list (op L R)), budget (map (fun l => Pair l y) ls ++ rest) = budget rest.
  Proof. induction ls as [|l ls IH]; intros rest; auto. cbn [map app budget ids]. rewrite IH. lia. Qed.

  (* moving a group with swap_right_remove is moving its left items one by one *)
  Theorem C124_move_law : forall m x y it ls, reachable E 2 m ->
    contains_right E m y = false -> get_left_iter E m x = Some it -> pair_rest E m it = Done ls ->
    after m (InsertRight y :: map (fun l => Pair l y) ls ++ [RemoveRight x]) ~~ after m [SwapRightRemove x y].
  Proof.
    intros m x y it ls H Y I P. assert (SO := reachable_sound 2 m H).
    assert (Z : contains_right E m x = true /\ forall a, existsb (fun l => eqL E l a) ls = are_paired E m a x).
    { destruct (reachable_repr E OK _ _ H) as (s & lc & rc & G & Rp & _).
      assert (Q := get_left_iter_ok E OK _ _ _ _ _ _ x Rp (tame_all_clean E OK _ _ _ _ _ _ Rp _)).
      rewrite I in Q. destruct Q as (ls' & g & P' & _ & Q & PM). rewrite P in P'. injection P' as <-.
      unfold s_get_left_iter in Q.
      destruct (find_r (eqR E) G x) as [b|] eqn:FR; [|discriminate]. injection Q as <-. split.
      - rewrite (contains_right_ok E OK _ _ _ _ _ _ x Rp). unfold s_contains_right. unfold find_r in FR.
        apply find_some in FR as [FR1 FR2]. apply existsb_exists. exists b. auto.
      - intros a. rewrite (are_paired_ok E OK _ _ _ _ _ _ a x Rp). apply Bool.eq_iff_eq_true. rewrite existsb_exists.
        unfold s_are_paired. rewrite existsb_exists. split.
        + intros (l & J & W). apply (Permutation_in _ PM) in J. unfold group in J.
          apply in_map_iff in J as (p & <- & J). apply filter_In in J as [J1 J2]. exists p. split; auto.
          rewrite J2. unfold is_l. rewrite (eqb_sym (eqL E) EL), W. auto.
        + intros (p & J & W). apply andb_true_iff in W as [W1 W2]. exists (fst p). split.
          * apply (Permutation_in _ (Permutation_sym PM)). unfold group. apply in_map. apply filter_In. auto.
          * unfold is_l in W1. rewrite (eqb_sym (eqL E) EL). auto. }
    destruct Z as [X Z].
    assert (XY : eqR E y x = false).
    { destruct (eqR E y x) eqn:W; auto. rewrite (so_r m SO _ _ W) in X. congruence. }
    assert (YN : forall a, are_paired E m a y = false).
    { intros a. destruct (are_paired E m a y) eqn:W; auto. destruct (so_in m SO _ _ W). congruence. }
    assert (A : alike (acts (eqL E) (eqR E) (map (fun l => Pair l y) ls) (act (eqL E) (eqR E) (InsertRight y) (lookm m)))
                  (Looks (contains_left E m) (fun b => eqR E y b || contains_right E m b)
                     (fun a b => if are_paired E m a x then eqR E y b else are_paired E m a b))).
    { eapply alike_trans; [apply pairs_acts|].
      - simpl. rewrite (equiv_refl _ ER). auto.
      - intros l J. simpl. rewrite YN. simpl. destruct (so_in m SO l x) as [W _]; auto.
        rewrite <- Z. apply existsb_exists. exists l. split; auto. apply (equiv_refl _ EL).
      - repeat split; intros; simpl; rewrite ?YN; auto. rewrite Z. destruct (are_paired E m a x); auto.
        destruct (eqR E y b) eqn:W; auto. simpl. rewrite (so_pr m SO a y b W), YN. auto. }
    eapply law; eauto.
    - cbn [budget ids]. rewrite pairs_budget. cbn [budget ids]. lia.
    - cbn [budget ids]. lia.
    - constructor; [exact Logic.I|]. apply Forall_app. split; [|plains].
      apply Forall_forall. intros o J. apply in_map_iff in J as (l & <- & _). exact Logic.I.
    - plains.
    - cbn [fits fit]. split; auto. exists true. split; [intros _; split; auto|]. apply pairs_fits.
      cbn [fits fit]. split; auto. exists true. split; [intros _; split; auto|]. exact Logic.I.
    - cbn [fits fit lookm onr]. split; auto. exists false. split; [discriminate|]. exact Logic.I.
    - cbn [acts]. rewrite acts_app. eapply alike_trans; [apply acts_ext; exact A|].
      cbn [acts act lookm onr onl tie t_remove_right]. rewrite X. unfold t_remove_right. repeat split; intros; cbn [onl onr tie].
      + destruct (are_paired E m a x) eqn:W.
        * rewrite XY. simpl. auto.
        * reflexivity.
      + destruct (eqR E y b) eqn:W; auto. simpl. rewrite <- (eqb_replace_r (eqR E) ER y b x W).
        rewrite (eqb_sym (eqR E) ER), XY. auto.
      + destruct (eqR E x b) eqn:W.
        * rewrite <- (eqb_replace_r (eqR E) ER x b y W), XY. auto.
        * simpl. destruct (are_paired E m a x) eqn:W2.
          -- destruct (eqR E y b) eqn:W3; auto. destruct (are_paired E m a b) eqn:W4; auto.
             rewrite (so_one m SO a x b W2 W4) in W. discriminate.
          -- destruct (eqR E y b) eqn:W3; auto. rewrite (so_pr m SO a y b W3), YN. auto.
  Qed.

  (* extend is a loop of inserts: the same map to the last bit *)
  Theorem C124_extend_laws : forall m room, loosely_reachable E room m ->
    (forall xs, N.of_nat (length xs) <= room -> loose E m (ExtendPairs xs) ->
       after m [ExtendPairs xs] = after m (map (fun x => Insert (fst x) (snd x)) xs) /\
       after m [ExtendPairs xs] = after m [Extend (map (fun x => (Some (fst x), snd x)) xs)]) /\
    (forall xs, N.of_nat (length xs) <= room -> loose E m (Extend xs) ->
       after m [Extend xs] = after m (map item_op xs)) /\
    (forall xs ys, N.of_nat (length xs) + N.of_nat (length ys) <= room -> loose E m (Extend (xs ++ ys)) ->
       after m [Extend (xs ++ ys)] = after m [Extend xs; Extend ys]).
  Proof.
    intros m room H. apply (loosely_reachable_repr E OK) in H as (b & s & lc & rc & G & H & C1 & C2).
    assert (X : forall xs b s lc rc m G, Repr E b s lc rc m G -> lc + N.of_nat (length xs) < two64 ->
      rc + N.of_nat (length xs) < two64 -> loose E m (Extend xs) -> after m [Extend xs] = after m (map item_op xs)).
    { intros xs b1 s1 lc1 rc1 m1 G1 H1 D1 D2 LO. destruct (extend_ok E OK xs b1 s1 lc1 rc1 m1 G1 H1 D1 D2 LO)
        as (m' & lc' & rc' & Q & _ & -> & _).
      unfold after at 1. cbn [run step fst]. rewrite Q. auto. }
    assert (AP : forall xs ys m, after m (xs ++ ys) = after (after m xs) ys).
    { clear. unfold after. induction xs as [|x xs IH]; intros ys m; auto. cbn [app run].
      destruct (step E m x) as [m1 w]. specialize (IH ys m1).
      destruct (run E m1 (xs ++ ys)), (run E m1 xs); cbn [fst] in *. auto. }
    assert (GA : forall xs ys m, guarded E (loose1 E) m (xs ++ ys) <-> guarded E (loose1 E) m xs /\ guarded E (loose1 E) (after m xs) ys).
    { clear. unfold after. induction xs as [|x xs IH]; intros ys m; cbn [app guarded run fst]; [tauto|].
      rewrite IH. destruct (step E m x) as [m1 w]. cbn [fst]. destruct (run E m1 xs); cbn [fst]. tauto. }
    repeat apply conj.
    - intros xs B LO. destruct (extend_pairs_ok E OK xs b s lc rc m G H) as (m' & lc' & rc' & Q & _ & Q2 & _); auto; try lia.
      split; [unfold after at 1; cbn [run step fst]; rewrite Q; exact Q2|].
      unfold after. cbn [run step fst]. rewrite extend_pairs_extend. auto.
    - intros xs B LO. eapply X; eauto; lia.
    - intros xs ys B LO. assert (LO' := LO). unfold loose in LO'. cbn [with_extend] in LO'. rewrite map_app in LO'. apply GA in LO' as [L1 L2].
      assert (Q := X xs b s lc rc m G H). rewrite (X (xs ++ ys) b s lc rc m G); auto; rewrite ?app_length, ?Nat2N.inj_add; try lia.
      rewrite map_app, AP. change [Extend xs; Extend ys] with ([Extend xs] ++ [Extend ys]). rewrite AP.
      rewrite Q; auto; try lia.
      destruct (extend_ok E OK xs b s lc rc m G H) as (m' & lc' & rc' & _ & H' & Q2 & D1 & D2); auto; try lia.
      change (fst (run E m (map item_op xs))) with (after m (map item_op xs)) in Q2. rewrite <- Q2 in *.
      symmetry. eapply X; eauto; lia.
  Qed.

  (* maps that answer alike cannot be told apart: the same calls leave such maps and give equal
     results *)
  Theorem C124_congruence : forall ops room room' m m', loosely_reachable E room m -> loosely_reachable E room' m' ->
    m ~~ m' -> Forall (tame (eqL E) (eqR E)) ops -> guarded E (loose E) m ops -> guarded E (loose E) m' ops ->
    budget ops <= room -> budget ops <= room' ->
    after m ops ~~ after m' ops /\
    Forall2 (out_like (eqL E) (eqR E)) (snd (run E m ops)) (snd (run E m' ops)).
  Proof.
    intros ops room room' m m' H H' A T G G' B B'.
    apply (loosely_reachable_repr E OK) in H as (b & s & lc & rc & P & H & C1 & C2).
    apply (loosely_reachable_repr E OK) in H' as (b' & s' & lc' & rc' & P' & H' & C1' & C2').
    assert (AP : alike (look (eqL E) (eqR E) P) (look (eqL E) (eqR E) P')).
    { assert (A' : alike (lookm m) (lookm m')) by exact A.
      eapply alike_trans; [eapply lookm_repr; eauto|]. eapply alike_trans; [exact A'|]. apply alike_sym. eapply lookm_repr; eauto. }
    clear A. assert (D1 : lc + budget ops < two64) by lia. assert (D1' : lc' + budget ops < two64) by lia.
    assert (D2 : rc + budget ops < two64) by lia. assert (D2' : rc' + budget ops < two64) by lia.
    clear B B' C1 C1' C2 C2'. unfold after. revert b b' lc lc' rc rc' m m' P P' H H' AP D1 D1' D2 D2' G G'.
    induction T as [|o ops To T IH]; intros b b' lc lc' rc rc' m m' P P' H H' A D1 D1' D2 D2' G G'.
    - cbn. split; [|constructor].
      assert (X : alike (lookm m) (lookm m')); [|exact X].
      eapply alike_trans; [apply alike_sym; eapply lookm_repr; eauto|]. eapply alike_trans; [exact A|]. eapply lookm_repr; eauto.
    - cbn [run budget guarded] in *. destruct G as [G1 G2], G' as [G1' G2'].
      destruct (step_ok E OK b s lc rc m P o H) as (b1 & P1 & lc1 & rc1 & S1 & H1 & _ & _ & C1 & C2); [lia|lia|auto|].
      destruct (step_ok E OK b' s' lc' rc' m' P' o H') as (b2 & P2 & lc2 & rc2 & S2 & H2 & _ & _ & C3 & C4); [lia|lia|auto|].
      assert (F : match o with SwapRight _ _ | SwapRightRemove _ _ => fit (eqR E) true o (look (eqL E) (eqR E) P) | _ => True end).
      { destruct (lookm_repr _ _ _ _ _ _ H) as (_ & CR & _). simpl in CR. unfold loose in G1.
        destruct o; auto; cbn [with_extend loose1] in G1; cbn [fit look onr]; rewrite !CR; intros Q; rewrite Q in G1; tauto. }
      destruct (step_like _ _ EL ER o P P' P1 P2 _ _ To F (repr_grouping E _ _ _ _ _ _ H) (repr_grouping E _ _ _ _ _ _ H') A S1 S2)
        as [A1 W].
      destruct (step E m o) as [m1 w], (step E m' o) as [m2 w']. cbn [fst snd] in *.
      destruct (IH b1 b2 lc1 lc2 rc1 rc2 m1 m2 P1 P2 H1 H2 A1) as [X Y]; try lia; auto.
      destruct (run E m1 ops) as [n1 ws], (run E m2 ops) as [n2 ws']. cbn [fst snd] in *.
      split; auto.
  Qed.
End Laws.

(* A map with a history (gmc, all hashes collide: 10 with 1, 7, 8; 30 with 2, 5, 6; alone 40, 70, 90)
   meeting the hypotheses, and the answers on the two sides of the laws computed on the items around. *)
Definition answers (m : gmap item item N) : list N * list N * list (N * N) :=
  let ls := [1; 2; 3; 5; 6; 7; 8; 9] in
  let rs := [10; 20; 30; 40; 70; 90; 99] in
  (filter (fun l => contains_left env_collide m (it l)) ls,
   filter (fun r => contains_right env_collide m (it r)) rs,
   filter (fun lr => are_paired env_collide m (it (fst lr)) (it (snd lr))) (list_prod ls rs)).
Example C124_case :
  reachable env_collide 3 gmc /\
  let aft := after env_collide gmc in
  answers gmc = ([1; 2; 5; 6; 7; 8], [10; 30; 40; 70; 90], [(1, 10); (2, 30); (5, 30); (6, 30); (7, 10); (8, 10)]) /\
  (* insertions *)
  answers (aft [Insert (it 1) (it 30); Insert (it 9) (it 99)])
    = ([1; 2; 5; 6; 7; 8; 9], [10; 30; 40; 70; 90; 99], [(1, 30); (2, 30); (5, 30); (6, 30); (7, 10); (8, 10); (9, 99)]) /\
  answers (aft [Insert (it 9) (it 99); Insert (it 1) (it 30)]) = answers (aft [Insert (it 1) (it 30); Insert (it 9) (it 99)]) /\
  answers (aft [InsertRemove (it 1) (it 30)]) = ([1; 7; 8], [10; 30; 40; 70; 90], [(1, 30); (7, 10); (8, 10)]) /\
  answers (aft [RemoveLeft (it 1); InsertRight (it 30); InsertLeft (it 1) (it 30)]) = answers (aft [InsertRemove (it 1) (it 30)]) /\
  answers (aft [Insert (it 9) (it 99); Remove (9, 5) (99, 5)]) = answers gmc /\
  (* pairing *)
  answers (aft [Pair (it 1) (it 40); Pair (it 1) (it 10)]) = answers gmc /\
  answers (aft [Pair (it 1) (it 40); RemoveRight (it 10)])
    = ([1; 2; 5; 6], [30; 40; 70; 90], [(1, 40); (2, 30); (5, 30); (6, 30)]) /\
  answers (aft [RemoveRight (it 10); Insert (it 1) (it 40)]) = answers (aft [Pair (it 1) (it 40); RemoveRight (it 10)]) /\
  (* removals *)
  answers (aft [Remove (it 1) (it 10)]) = ([2; 5; 6], [30; 40; 70; 90], [(2, 30); (5, 30); (6, 30)]) /\
  answers (aft [RemoveRight (it 10)]) = answers (aft [Remove (it 1) (it 10)]) /\
  answers (aft [RemoveLeft (it 1); Insert (it 1) (it 10)]) = answers gmc /\
  (* swaps *)
  answers (aft [SwapRightRemove (it 10) (it 99)])
    = ([1; 2; 5; 6; 7; 8], [30; 40; 70; 90; 99], [(1, 99); (2, 30); (5, 30); (6, 30); (7, 99); (8, 99)]) /\
  answers (aft [SwapRightRemove (it 10) (it 99); SwapRightRemove (it 99) (it 10)]) = answers gmc /\
  answers (aft [SwapRight (it 10) (it 99); RemoveRight (it 10)]) = answers (aft [SwapRightRemove (it 10) (it 99)]) /\
  answers (aft [InsertRight (it 99); Pair (it 7) (it 99); Pair (it 1) (it 99); Pair (it 8) (it 99); RemoveRight (it 10)])
    = answers (aft [SwapRightRemove (it 10) (it 99)]) /\
  (exists i, get_left_iter env_collide gmc (it 10) = Some i /\ pair_rest env_collide gmc i = Done [it 7; it 1; it 8]) /\
  (* extend *)
  aft [Extend [(Some (it 1), it 30); (None, it 40); (Some (it 9), it 99)]]
    = aft [Insert (it 1) (it 30); InsertRight (it 40); Insert (it 9) (it 99)].
Proof.
  split; [apply gm1_reachable; [simpl; auto|reflexivity]|]. cbn zeta.
  repeat (split; [vm_compute; reflexivity|]). split; [eexists; split; vm_compute; reflexivity|vm_compute; reflexivity].
Qed.

(* Maps that answer alike: the same groups from another history, with other representatives,
   another hasher state and other layouts; the same calls give equal results. *)
Definition gmc' : gmap item item N :=
  fst (run env_collide (with_hasher 3 1 2)
    [Extend [(None, (90, 8)); (Some (2, 8), (30, 8)); (Some (8, 3), it 10); (None, it 40); (Some (it 5), it 30);
             (None, it 70); (Some (it 6), it 30); (Some (it 1), (10, 9)); (Some (it 7), (10, 9))]]).
Example C124_congruence_case :
  reachable env_collide 3 gmc' /\ answers gmc' = answers gmc /\
  let ops := [Remove (it 1) (it 10); GetRight (it 2); LenRight; InsertRemove (it 5) (it 99)] in
  snd (run env_collide gmc ops)
    = [OGroup (Some ([it 7; it 1; it 8], it 10)); OR (Some (it 30)); ONat 4; OInsRem (Some (it 5), None)] /\
  snd (run env_collide gmc' ops)
    = [OGroup (Some ([it 1; (8, 3); it 7], it 10)); OR (Some (30, 8)); ONat 4; OInsRem (Some (it 5), None)].
Proof.
  split; [|vm_compute; auto]. eexists 3, 1, 2, _. split; [|split; [|reflexivity]]; [vm_compute; reflexivity|].
  split; [|exact I]. unfold calm. cbn [with_extend map item_op fst snd guarded].
  repeat (split; [first [exact I|vm_compute; reflexivity]|]). exact I.
Qed.

Print Assumptions C124_insert_laws.
Print Assumptions C124_pair_laws.
Print Assumptions C124_remove_laws.
Print Assumptions C124_swap_laws.
Print Assumptions C124_move_law.
Print Assumptions C124_extend_laws.
Print Assumptions C124_congruence.
