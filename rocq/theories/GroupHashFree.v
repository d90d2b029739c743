(* GroupMap: property C59, independence from hashes and table layout, and where panics can
   come from. *)
From Coq Require Import List NArith Lia Bool Permutation PeanoNat.
From Verif Require Import Closures Prelude RawTable GroupMap ListFacts TableFacts GroupSpec GroupHistory
  IterFacts GroupProofs GroupProofs2 GroupProofs3 GroupProofs4 GroupProofs5 GroupProofs6
  GroupHistoryProofs Concrete GroupProps GroupProps3.
Import ListNotations.
Open Scope N_scope.

Section HashFree.
  Context {L R : Type}.

  (* Calls whose outcome does not hang on the order of iteration: closures answer from the
     item alone. *)
  Definition order_free (o : op L R) : Prop :=
    match o with
    | RetainPaired X f _ => exists p : L * R -> bool, forall x e, snd (f x e) = Some (p e)
    | RetainUnpaired X f _ => exists p : R -> bool, forall x e, snd (f x e) = Some (p e)
    | _ => True
    end.

  (* Equal results, up to the order of items. *)
  Definition same_out (w1 w2 : out L R) : Prop :=
    match w1, w2 with
    | OGroup a, OGroup b => same_group a b
    | OInsRem a, OInsRem b => fst a = fst b /\ same_group (snd a) (snd b)
    | OLsO (Some a), OLsO (Some b) => Permutation a b
    | OItems a, OItems b => Permutation a b
    | OPairs a, OPairs b => Permutation a b
    | OLs a, OLs b => Permutation a b
    | ORs a, ORs b => Permutation a b
    | _, _ => w1 = w2
    end.
End HashFree.

Section Det.
  Context {L R : Type} (eL : L -> L -> bool) (eR : R -> R -> bool).
  Context (EL : equivalence eL) (ER : equivalence eR).
  Notation contents := (contents L R).
  Notation grouping := (grouping eL eR).
  Implicit Types G : contents.

  Lemma same_refl : forall G, same G G.
  Proof. intros; split; auto. Qed.
  Lemma same_sym : forall G G', same G G' -> same G' G.
  Proof. intros G G' [A B]; split; symmetry; auto. Qed.
  Lemma same_group_trans : forall a b c : option (list L * R),
    same_group a b -> same_group c b -> same_group a c.
  Proof.
    intros [[a x]|] [[b y]|] [[c z]|]; simpl; auto; try contradiction.
    intros [A ->] [B ->]. split; auto. rewrite A, B. auto.
  Qed.
  Lemma grouping_same : forall G G', same G G' -> grouping G -> grouping G'.
  Proof.
    intros G G' [A B] (D1 & D2 & D3). split; [|split].
    - eapply distinct_perm; [exact EL|apply Permutation_map; exact B|auto].
    - eapply distinct_perm; [exact ER|exact A|auto].
    - intros p Hp. eapply Permutation_in; [exact A|]. apply D3. eapply Permutation_in; [symmetry; exact B|auto].
  Qed.

  Lemma find_l_same : forall G G' x, same G G' -> grouping G -> find_l eL G x = find_l eL G' x.
  Proof.
    intros G G' x [_ B] (D & _). unfold find_l.
    destruct (find (is_l eL x) (g_pairs G)) as [p|] eqn:F.
    - apply find_some in F as [F1 F2]. destruct (find (is_l eL x) (g_pairs G')) as [q|] eqn:F'.
      + apply find_some in F' as [F3 F4]. f_equal.
        eapply (distinct_map_inj eL EL fst (g_pairs G)); eauto.
        * eapply Permutation_in; [symmetry; exact B|auto].
        * unfold is_l in *. rewrite <- (eqb_replace_l _ EL _ _ _ F2). auto.
      + apply (Permutation_in _ B) in F1. rewrite (find_none _ _ F' p F1) in F2. discriminate.
    - symmetry. apply find_all_false. intros y Hy. eapply find_none; [exact F|].
      eapply Permutation_in; [symmetry; exact B|auto].
  Qed.
  Lemma find_r_same : forall G G' x, same G G' -> grouping G -> find_r eR G x = find_r eR G' x.
  Proof.
    intros G G' x [B _] (_ & D & _). unfold find_r.
    destruct (find (eR x) (g_rights G)) as [p|] eqn:F.
    - apply find_some in F as [F1 F2]. destruct (find (eR x) (g_rights G')) as [q|] eqn:F'.
      + apply find_some in F' as [F3 F4]. f_equal.
        eapply (distinct_In_eq eR ER (g_rights G)); eauto.
        * eapply Permutation_in; [symmetry; exact B|auto].
        * rewrite <- (eqb_replace_l _ ER _ _ _ F2). auto.
      + apply (Permutation_in _ B) in F1. rewrite (find_none _ _ F' p F1) in F2. discriminate.
    - symmetry. apply find_all_false. intros y Hy. eapply find_none; [exact F|].
      eapply Permutation_in; [symmetry; exact B|auto].
  Qed.
  Lemma contains_r_same : forall G G' x, same G G' -> s_contains_right eR G x = s_contains_right eR G' x.
  Proof. intros G G' x [A _]. apply existsb_perm; auto. Qed.
  Lemma contains_l_same : forall G G' x, same G G' -> s_contains_left eL G x = s_contains_left eL G' x.
  Proof. intros G G' x [_ A]. apply existsb_perm; auto. Qed.
  Lemma paired_same : forall G G' x y, same G G' -> s_are_paired eL eR G x y = s_are_paired eL eR G' x y.
  Proof. intros G G' x y [_ A]. apply existsb_perm; auto. Qed.
  Lemma right_paired_same : forall G G' y, same G G' -> s_is_right_paired eR G y = s_is_right_paired eR G' y.
  Proof. intros G G' y [_ A]. apply existsb_perm; auto. Qed.
  Lemma unpaired_same : forall G G', same G G' -> Permutation (s_unpaired eR G) (s_unpaired eR G').
  Proof.
    intros G G' H. unfold s_unpaired. rewrite (filter_ext _ (fun r => negb (s_is_right_paired eR G' r))).
    - apply filter_perm, H.
    - intros r. rewrite (right_paired_same G G'); auto.
  Qed.
  Lemma del_l_same : forall G G' x, same G G' -> Permutation (del_l eL G x) (del_l eL G' x).
  Proof. intros G G' x [_ A]. apply filter_perm; auto. Qed.
  Lemma group_same : forall G G' x, same G G' -> Permutation (group eR G x) (group eR G' x).
  Proof. intros G G' x [_ A]. apply Permutation_map, filter_perm; auto. Qed.

  Lemma insert_same : forall G G' l r, same G G' -> grouping G ->
    same (s_insert eL eR G l r) (s_insert eL eR G' l r).
  Proof.
    intros G G' l r H D. unfold s_insert, stored_l, stored_r.
    rewrite (find_l_same G G'), (find_r_same G G'), (contains_r_same G G') by auto.
    split; cbn [g_rights g_pairs].
    - destruct (s_contains_right eR G' r); [apply H|constructor; apply H].
    - constructor. apply del_l_same; auto.
  Qed.
  Lemma remove_left_same : forall G G' l, same G G' -> same (s_remove_left eL G l) (s_remove_left eL G' l).
  Proof. intros G G' l H. split; [apply H|apply del_l_same; auto]. Qed.
  Lemma remove_right_same : forall G G' r, same G G' -> same (s_remove_right eR G r) (s_remove_right eR G' r).
  Proof. intros G G' l [A B]. split; apply filter_perm; auto. Qed.
  Lemma grouping_remove_left : forall G l, grouping G -> grouping (s_remove_left eL G l).
  Proof.
    intros G l (D1 & D2 & D3). split; [|split]; cbn [s_remove_left g_pairs g_rights]; auto.
    - unfold del_l. clear - D1. induction (g_pairs G) as [|p t IH]; auto. cbn [map filter] in *.
      apply distinct_cons in D1 as [D1 D2]. destruct (negb (is_l eL l p)); auto.
      cbn [map]. apply distinct_cons. split; auto. intros y Hy. apply D1.
      apply in_map_iff in Hy as (q & <- & Hq). apply filter_In in Hq as [Hq _]. apply in_map; auto.
    - intros p Hp. apply filter_In in Hp as [Hp _]. auto.
  Qed.
  Lemma remove_right_out_same : forall G G' r, same G G' -> grouping G ->
    same_group (s_remove_right_out eR G r) (s_remove_right_out eR G' r).
  Proof.
    intros G G' r H D. unfold s_remove_right_out. rewrite (find_r_same G G'); auto.
    destruct (find_r eR G' r); simpl; auto. split; auto. apply group_same; auto.
  Qed.
  Lemma insert_right_same : forall G G' r, same G G' -> same (s_insert_right eR G r) (s_insert_right eR G' r).
  Proof.
    intros G G' r H. destruct (remove_right_same G G' r H) as [A B]. split; [constructor|]; auto.
  Qed.
  Lemma repaired_same : forall G G' o n, same G G' -> Permutation (repaired eR G o n) (repaired eR G' o n).
  Proof. intros G G' o n [_ A]. apply Permutation_map; auto. Qed.

  Lemma s_filter_pure : forall {T X} (f : X -> T -> X * verdict) (p : T -> bool),
    (forall x e, snd (f x e) = Some (p e)) ->
    forall l x, exists x', s_filter f x l = (x', filter p l, filter (fun e => negb (p e)) l, false).
  Proof.
    intros T X f p Hp. induction l as [|e l IH]; simpl; intros x; eauto.
    specialize (Hp x e). destruct (f x e) as [x1 v]. simpl in Hp. subst v.
    destruct (IH x1) as (x' & ->). exists x'. destruct (p e); auto.
  Qed.

  Lemma s_step_det : forall o G1 G2 G1' G2' w1 w2, order_free o -> grouping G1 -> same G1 G2 ->
    (forall G l r, grouping G -> grouping (s_insert eL eR G l r)) ->
    (forall G r, grouping G -> grouping (s_insert_right eR G r)) ->
    s_step eL eR G1 o G1' w1 -> s_step eL eR G2 o G2' w2 ->
    same G1' G2' /\ same_out w1 w2.
  Proof.
    intros o G1 G2 G1' G2' w1 w2 OF D H GI GR S1 S2.
    assert (H' := H). destruct H' as [HR HP].
    destruct o; cbn [s_step order_free] in *.
    - destruct S1 as [-> ->], S2 as [-> ->]. split; [apply insert_same; auto|reflexivity].
    - destruct S1 as (-> & g1 & A1 & ->), S2 as (-> & g2 & A2 & ->).
      assert (Y := remove_left_same G1 G2 l H). assert (Z := remove_right_same _ _ r Y). split.
      + split; cbn; constructor; apply Z.
      + cbn [same_out s_insert_remove_out fst snd] in *. split.
        * unfold s_remove_left_out. rewrite (find_l_same G1 G2); auto.
        * eapply same_group_trans; [|exact A2].
          assert (X := remove_right_out_same _ _ r Y (grouping_remove_left G1 l D)).
          revert A1 X. clear. generalize (s_remove_right_out eR (s_remove_left eL G1 l) r) as a,
            (s_remove_right_out eR (s_remove_left eL G2 l) r) as b.
          intros [[? ?]|] [[? ?]|]; destruct g1 as [[? ?]|]; simpl; try contradiction; auto.
          intros [A ->] [B ->]. split; auto. rewrite A; auto.
    - destruct S1 as [-> ->], S2 as [-> ->]. unfold s_insert_left, s_insert_left_out, s_remove_left_out.
      rewrite (find_l_same G1 G2), (find_r_same G1 G2) by auto. split; [|reflexivity].
      destruct (find_r eR G2 r); auto. split; cbn; auto. constructor. apply del_l_same; auto.
    - destruct S1 as (-> & g1 & A1 & ->), S2 as (-> & g2 & A2 & ->).
      split; [apply insert_right_same; auto|]. cbn [same_out]. eapply same_group_trans; [|exact A2].
      assert (X := remove_right_out_same _ _ r H D). revert A1 X. clear.
      generalize (s_remove_right_out eR G1 r) as a, (s_remove_right_out eR G2 r) as b.
      intros [[? ?]|] [[? ?]|]; destruct g1 as [[? ?]|]; simpl; try contradiction; auto.
      intros [A ->] [B ->]. split; auto. rewrite A; auto.
    - destruct S1 as [-> ->], S2 as [-> ->]. unfold s_swap_right. rewrite (find_r_same G1 G2) by auto.
      split; [|reflexivity]. destruct (find_r eR G2 old); [|apply insert_right_same; auto].
      split; cbn; [constructor; auto|apply repaired_same; auto].
    - destruct S1 as [-> ->], S2 as [-> ->]. unfold s_swap_right_remove. rewrite (find_r_same G1 G2) by auto.
      split; [|reflexivity]. destruct (find_r eR G2 old); [|apply insert_right_same; auto].
      split; cbn; [constructor; apply filter_perm; auto|apply repaired_same; auto].
    - destruct S1 as [-> ->], S2 as [-> ->]. unfold s_pair, s_pair_out.
      rewrite (find_l_same G1 G2), (find_r_same G1 G2), (contains_l_same G1 G2), (contains_r_same G1 G2) by auto.
      split; [|reflexivity]. destruct (find_l eL G2 l), (find_r eR G2 r); auto.
      split; cbn; auto. constructor. apply del_l_same; auto.
    - destruct S1 as (-> & g1 & A1 & ->), S2 as (-> & g2 & A2 & ->). unfold s_remove, s_remove_out in *.
      rewrite (paired_same G1 G2) in * by auto. split.
      + destruct (s_are_paired eL eR G2 l r); auto. apply remove_right_same; auto.
      + cbn [same_out]. eapply same_group_trans; [|exact A2].
        destruct (s_are_paired eL eR G2 l r); auto.
        assert (X := remove_right_out_same _ _ r H D). revert A1 X. clear.
        generalize (s_remove_right_out eR G1 r) as a, (s_remove_right_out eR G2 r) as b.
        intros [[? ?]|] [[? ?]|]; destruct g1 as [[? ?]|]; simpl; try contradiction; auto.
        intros [A ->] [B ->]. split; auto. rewrite A; auto.
    - destruct S1 as [-> ->], S2 as [-> ->]. unfold s_remove_left_out. rewrite (find_l_same G1 G2) by auto.
      split; [apply remove_left_same; auto|reflexivity].
    - destruct S1 as (-> & g1 & A1 & ->), S2 as (-> & g2 & A2 & ->).
      split; [apply remove_right_same; auto|]. cbn [same_out]. eapply same_group_trans; [|exact A2].
      assert (X := remove_right_out_same _ _ r H D). revert A1 X. clear.
      generalize (s_remove_right_out eR G1 r) as a, (s_remove_right_out eR G2 r) as b.
      intros [[? ?]|] [[? ?]|]; destruct g1 as [[? ?]|]; simpl; try contradiction; auto.
      intros [A ->] [B ->]. split; auto. rewrite A; auto.
    - destruct S1 as [-> ->], S2 as [-> ->]. rewrite (right_paired_same G1 G2) by auto. split; [auto|reflexivity].
    - destruct S1 as [-> ->], S2 as [-> ->]. rewrite (paired_same G1 G2) by auto. split; [auto|reflexivity].
    - destruct S1 as [-> ->], S2 as [-> ->]. rewrite (contains_l_same G1 G2) by auto. split; [auto|reflexivity].
    - destruct S1 as [-> ->], S2 as [-> ->]. rewrite (contains_r_same G1 G2) by auto. split; [auto|reflexivity].
    - destruct S1 as [-> ->], S2 as [-> ->]. unfold s_get_right. rewrite (find_l_same G1 G2) by auto.
      split; [auto|reflexivity].
    - destruct S1 as [-> S1], S2 as [-> S2]. split; auto. unfold s_get_left_iter in *.
      rewrite (find_r_same G1 G2) in S1 by auto. destruct (find_r eR G2 r); cbn [option_map] in *.
      + destruct S1 as (Q1 & A1 & ->), S2 as (Q2 & A2 & ->). cbn. rewrite A1, A2. apply group_same; auto.
      + subst. reflexivity.
    - destruct S1 as (-> & Q1 & A1 & ->), S2 as (-> & Q2 & A2 & ->). split; auto. cbn. rewrite A1, A2.
      unfold s_items. apply Permutation_app; apply Permutation_map; auto. apply unpaired_same; auto.
    - destruct S1 as (-> & Q1 & A1 & ->), S2 as (-> & Q2 & A2 & ->). split; auto. cbn. rewrite A1, A2. auto.
    - destruct S1 as (-> & Q1 & A1 & ->), S2 as (-> & Q2 & A2 & ->). split; auto. cbn. rewrite A1, A2.
      apply unpaired_same; auto.
    - destruct S1 as (-> & Q1 & A1 & ->), S2 as (-> & Q2 & A2 & ->). split; auto. cbn. rewrite A1, A2.
      apply Permutation_map; auto.
    - destruct S1 as (-> & Q1 & A1 & ->), S2 as (-> & Q2 & A2 & ->). split; auto. cbn. rewrite A1, A2. auto.
    - destruct OF as (p & Hp). destruct S1 as (Q1 & A1 & S1), S2 as (Q2 & A2 & S2).
      destruct (s_filter_pure f p Hp Q1 x) as (x1 & F1), (s_filter_pure f p Hp Q2 x) as (x2 & F2).
      rewrite F1 in S1. rewrite F2 in S2. destruct S1 as [-> ->], S2 as [-> ->].
      split; [|reflexivity]. split; cbn; auto. apply filter_perm. rewrite A1, A2; auto.
    - destruct OF as (p & Hp). destruct S1 as (Q1 & A1 & S1), S2 as (Q2 & A2 & S2).
      destruct (s_filter_pure f p Hp Q1 x) as (x1 & F1), (s_filter_pure f p Hp Q2 x) as (x2 & F2).
      rewrite F1 in S1. rewrite F2 in S2. destruct S1 as (P1 & R1 & ->), S2 as (P2 & R2 & ->).
      split; [|reflexivity]. split; [|congruence].
      apply (Permutation_app_inv_l (filter p Q1)). rewrite <- R1, HR, R2.
      apply Permutation_app_tail, filter_perm. rewrite A1, A2. symmetry. apply unpaired_same; auto.
    - destruct S1 as [-> ->], S2 as [-> ->]. split; [|reflexivity].
      clear OF HR HP. revert G1 G2 H D. induction xs as [|x xs IH]; cbn [fold_left]; intros; auto.
      apply IH; [apply insert_same; auto|auto].
    - destruct S1 as [-> ->], S2 as [-> ->]. split; [|reflexivity].
      clear OF HR HP. revert G1 G2 H D. induction xs as [|x xs IH]; cbn [fold_left]; intros; auto.
      unfold s_insert_item at 2 4. apply IH; destruct (fst x); auto.
      + apply insert_same; auto.
      + apply insert_right_same; auto.
    - destruct S1 as [-> ->], S2 as [-> ->]. split; [apply same_refl|reflexivity].
    - destruct S1 as [-> ->], S2 as [-> ->]. split; [auto|reflexivity].
    - destruct S1 as [-> ->], S2 as [-> ->]. rewrite (Permutation_length HP). split; [auto|reflexivity].
    - destruct S1 as [-> ->], S2 as [-> ->]. rewrite (Permutation_length HR). split; [auto|reflexivity].
    - destruct S1 as [-> ->], S2 as [-> ->]. split; auto. cbn.
      destruct (g_rights G1), (g_rights G2); auto; apply Permutation_length in HR; discriminate.
  Qed.
End Det.

Section Grouping.
  Context {L R : Type} (eL : L -> L -> bool) (eR : R -> R -> bool).
  Context (EL : equivalence eL) (ER : equivalence eR).
  Notation contents := (contents L R).
  Notation grouping := (grouping eL eR).
  Implicit Types G : contents.

  Lemma grouping_insert : forall G l r, grouping G -> grouping (s_insert eL eR G l r).
  Proof.
    intros G l r D. destruct (grouping_remove_left eL eR G l D) as (D1 & D2 & D3).
    cbn [s_remove_left g_pairs g_rights] in *. unfold s_insert, stored_l, stored_r.
    split; [|split]; cbn [g_pairs g_rights].
    - cbn [map fst]. apply distinct_cons. split; auto. intros y Hy.
      apply in_map_iff in Hy as (q & <- & Hq). apply filter_In in Hq as [_ Hq].
      unfold is_l in Hq. apply negb_true_iff in Hq. unfold find_l.
      destruct (find (is_l eL l) (g_pairs G)) as [p|] eqn:F; auto. apply find_some in F as [_ F].
      unfold is_l in F. rewrite <- (eqb_replace_l _ EL _ _ _ F). auto.
    - destruct (s_contains_right eR G r) eqn:C; auto. apply distinct_cons. split; auto.
      unfold s_contains_right in C. rewrite existsb_false in C. auto.
    - intros p [<-|Hp]; cbn [snd].
      + unfold find_r. destruct (find (eR r) (g_rights G)) as [q|] eqn:F.
        * apply find_some in F as [F1 F2]. replace (s_contains_right eR G r) with true; auto.
          symmetry. unfold s_contains_right. apply existsb_exists. eauto.
        * replace (s_contains_right eR G r) with false; [left; auto|]. symmetry.
          unfold s_contains_right. apply existsb_false. intros x Hx. eapply find_none; eauto.
      + destruct (s_contains_right eR G r); [|right]; auto.
  Qed.
  Lemma grouping_insert_right : forall G r, grouping G -> grouping (s_insert_right eR G r).
  Proof.
    intros G r (D1 & D2 & D3). split; [|split]; cbn [s_insert_right s_remove_right g_pairs g_rights].
    - clear - D1. induction (g_pairs G) as [|p t IH]; auto. cbn [map filter] in *.
      apply distinct_cons in D1 as [D1 D2]. destruct (negb _); auto.
      cbn [map]. apply distinct_cons. split; auto. intros y Hy. apply D1.
      apply in_map_iff in Hy as (q & <- & Hq). apply filter_In in Hq as [Hq _]. apply in_map; auto.
    - apply distinct_cons. split.
      + intros y Hy. apply filter_In in Hy as [_ Hy]. apply negb_true_iff in Hy. auto.
      + apply distinct_filter; auto.
    - intros p Hp. apply filter_In in Hp as [Hp Q]. right. apply filter_In. auto.
  Qed.
End Grouping.

Section Two.
  Context {L R S1 S2 : Type} (E1 : env L R S1) (E2 : env L R S2).
  Context (OK1 : lawful E1) (OK2 : lawful E2) (HL : eqL E1 = eqL E2) (HR : eqR E1 = eqR E2).

  Lemma det : forall o G1 G2 G1' G2' w1 w2, order_free o -> grouping (eqL E1) (eqR E1) G1 -> same G1 G2 ->
    s_step (eqL E1) (eqR E1) G1 o G1' w1 -> s_step (eqL E2) (eqR E2) G2 o G2' w2 ->
    same G1' G2' /\ same_out w1 w2.
  Proof.
    intros o G1 G2 G1' G2' w1 w2 OF D H T1 T2. rewrite <- HL, <- HR in T2.
    destruct OK1 as [eL1 eR1 _ _ _]. eapply s_step_det; eauto.
    - intros; apply grouping_insert; auto.
    - intros; apply grouping_insert_right; auto.
  Qed.

  Lemma calm1_transfer : forall s1 lc1 rc1 m1 G1 s2 lc2 rc2 m2 G2 o,
    Repr E1 (true, true) s1 lc1 rc1 m1 G1 -> Repr E2 (true, true) s2 lc2 rc2 m2 G2 -> same G1 G2 ->
    calm1 E1 m1 o -> calm1 E2 m2 o.
  Proof.
    intros s1 lc1 rc1 m1 G1 s2 lc2 rc2 m2 G2 o H1 H2 SM C.
    assert (CR : forall r, contains_right E2 m2 r = contains_right E1 m1 r).
    { intros r. rewrite (contains_right_ok E1 OK1 _ _ _ _ _ _ r H1), (contains_right_ok E2 OK2 _ _ _ _ _ _ r H2), HR.
      symmetry. apply contains_r_same; auto. }
    assert (CP : forall r, is_right_paired E2 m2 r = is_right_paired E1 m1 r).
    { intros r. rewrite (is_right_paired_ok E1 OK1 _ _ _ _ _ _ r H1), (is_right_paired_ok E2 OK2 _ _ _ _ _ _ r H2), HR.
      - symmetry. apply right_paired_same; auto.
      - exact (tame_all_clean E2 OK2 _ _ _ _ _ _ H2 r).
      - exact (tame_all_clean E1 OK1 _ _ _ _ _ _ H1 r). }
    destruct o; cbn [calm1] in *; auto.
    - rewrite (are_paired_ok E2 OK2 _ _ _ _ _ _ l r H2). rewrite (are_paired_ok E1 OK1 _ _ _ _ _ _ l r H1) in C.
      rewrite <- HL, <- HR. rewrite <- C. symmetry. apply paired_same; auto.
    - rewrite !CR, CP. auto.
    - rewrite !CR, CP, <- HR. auto.
    - intros Q y p PQ IQ.
      destruct (view E1 OK1 _ _ _ _ _ _ H1) as (rs1 & ps1 & [_ V1] & _ & P1 & _).
      destruct (view E2 OK2 _ _ _ _ _ _ H2) as (rs2 & ps2 & [_ V2] & _ & P2 & _).
      apply (C ps1); auto. rewrite PQ in V2. inversion V2; subst.
      eapply Permutation_in; [symmetry; exact P1|]. eapply Permutation_in; [symmetry; apply SM|].
      eapply Permutation_in; [exact P2|]. auto.
  Qed.
  Lemma calm_step : forall {S} (E : env L R S) (OK : lawful E) s lc rc m G o, Repr E (true, true) s lc rc m G ->
    lc + ids o < two64 -> rc + ids o < two64 -> calm E m o ->
    exists G' lc' rc', s_step (eqL E) (eqR E) G o G' (snd (step E m o)) /\
      Repr E (true, true) s lc' rc' (fst (step E m o)) G' /\ lc' <= lc + ids o /\ rc' <= rc + ids o.
  Proof.
    intros S E OK s lc rc m G o H B1 B2 C.
    destruct (step_ok E OK (true, true) s lc rc m G o H B1 B2 (calm_loose E OK _ _ _ _ _ _ H B1 B2 C))
      as ([b1 b2] & G' & lc' & rc' & T & H' & T1 & T2 & C1 & C2).
    destruct (calm_tidy_steady E m o C) as [X Y]. cbn [fst snd] in *.
    rewrite (T1 eq_refl X), (T2 eq_refl Y) in H'. exists G', lc', rc'. auto.
  Qed.
  Lemma items_transfer : forall xs s1 lc1 rc1 m1 G1 s2 lc2 rc2 m2 G2,
    Repr E1 (true, true) s1 lc1 rc1 m1 G1 -> Repr E2 (true, true) s2 lc2 rc2 m2 G2 -> same G1 G2 ->
    lc1 + N.of_nat (length xs) < two64 -> rc1 + N.of_nat (length xs) < two64 ->
    lc2 + N.of_nat (length xs) < two64 -> rc2 + N.of_nat (length xs) < two64 ->
    guarded E1 (calm1 E1) m1 (map item_op xs) -> guarded E2 (calm1 E2) m2 (map item_op xs).
  Proof.
    induction xs as [|x xs IH]; intros s1 lc1 rc1 m1 G1 s2 lc2 rc2 m2 G2 H1 H2 SM A1 A2 A3 A4 GD;
      cbn [map guarded] in *; auto.
    destruct GD as [C1 GD]. assert (C2 := calm1_transfer _ _ _ _ _ _ _ _ _ _ _ H1 H2 SM C1).
    split; auto. cbn [length] in *. rewrite Nat2N.inj_succ in *.
    assert (I1 : ids (@item_op L R x) = 1) by (destruct x as [[l|] r]; reflexivity).
    assert (D1 : calm E1 m1 (item_op x)) by (destruct x as [[l|] r]; exact C1).
    assert (D2 : calm E2 m2 (item_op x)) by (destruct x as [[l|] r]; exact C2).
    destruct (calm_step E1 OK1 _ _ _ _ _ (item_op x) H1) as (G1' & lc1' & rc1' & T1 & H1' & X1 & Y1);
      auto; [lia|lia|].
    destruct (calm_step E2 OK2 _ _ _ _ _ (item_op x) H2) as (G2' & lc2' & rc2' & T2 & H2' & X2 & Y2);
      auto; [lia|lia|].
    assert (OF : order_free (@item_op L R x)) by (destruct x as [[l|] r]; exact I).
    destruct (det _ _ _ _ _ _ _ OF (repr_grouping E1 _ _ _ _ _ _ H1) SM T1 T2) as [SM' _].
    eapply (IH _ _ _ _ _ _ _ _ _ _ H1' H2' SM'); auto; lia.
  Qed.
  Lemma calm_transfer : forall s1 lc1 rc1 m1 G1 s2 lc2 rc2 m2 G2 o,
    Repr E1 (true, true) s1 lc1 rc1 m1 G1 -> Repr E2 (true, true) s2 lc2 rc2 m2 G2 -> same G1 G2 ->
    lc1 + ids o < two64 -> rc1 + ids o < two64 -> lc2 + ids o < two64 -> rc2 + ids o < two64 ->
    calm E1 m1 o -> calm E2 m2 o.
  Proof.
    intros s1 lc1 rc1 m1 G1 s2 lc2 rc2 m2 G2 o H1 H2 SM A1 A2 A3 A4 C.
    destruct o; try (exact (calm1_transfer _ _ _ _ _ _ _ _ _ _ _ H1 H2 SM C));
      cbn [calm with_extend ids] in *.
    - assert (Q1 : map pair_op xs = map item_op (map (fun p : L * R => (Some (fst p), snd p)) xs))
        by (rewrite map_map; auto).
      unfold calm, with_extend in *. rewrite Q1 in *.
      eapply items_transfer; eauto; rewrite map_length; auto.
    - eapply items_transfer; eauto.
  Qed.

  Lemma calm_two : forall ops s1 lc1 rc1 m1 G1 s2 lc2 rc2 m2 G2,
    Repr E1 (true, true) s1 lc1 rc1 m1 G1 -> Repr E2 (true, true) s2 lc2 rc2 m2 G2 -> same G1 G2 ->
    lc1 + budget ops < two64 -> rc1 + budget ops < two64 ->
    lc2 + budget ops < two64 -> rc2 + budget ops < two64 -> Forall order_free ops ->
    guarded E1 (calm E1) m1 ops ->
    guarded E2 (calm E2) m2 ops /\ Forall2 same_out (snd (run E1 m1 ops)) (snd (run E2 m2 ops)) /\
    exists lc1 rc1 lc2 rc2 G1 G2, Repr E1 (true, true) s1 lc1 rc1 (fst (run E1 m1 ops)) G1 /\
      Repr E2 (true, true) s2 lc2 rc2 (fst (run E2 m2 ops)) G2 /\ same G1 G2.
  Proof.
    induction ops as [|o ops IH]; intros s1 lc1 rc1 m1 G1 s2 lc2 rc2 m2 G2 H1 H2 SM A1 A2 A3 A4 OF GD.
    - cbn. split; auto. split; auto. exists lc1, rc1, lc2, rc2, G1, G2. auto.
    - cbn [budget guarded] in *. destruct GD as [C1 GD]. inversion OF as [|? ? OF1 OF2]; subst.
      assert (C2 : calm E2 m2 o) by (eapply calm_transfer; try exact C1; eauto; lia).
      destruct (calm_step E1 OK1 _ _ _ _ _ o H1) as (G1' & lc1' & rc1' & T1 & H1' & X1 & Y1); auto; [lia|lia|].
      destruct (calm_step E2 OK2 _ _ _ _ _ o H2) as (G2' & lc2' & rc2' & T2 & H2' & X2 & Y2); auto; [lia|lia|].
      destruct (det _ _ _ _ _ _ _ OF1 (repr_grouping E1 _ _ _ _ _ _ H1) SM T1 T2) as [SM' SO].
      destruct (IH _ _ _ _ _ _ _ _ _ _ H1' H2' SM') as (G & F & Q); auto; try lia.
      cbn [run]. destruct (step E1 m1 o) as [m1' w1], (step E2 m2 o) as [m2' w2]. cbn [fst snd] in *.
      destruct (run E1 m1' ops) as [m1'' ws1], (run E2 m2' ops) as [m2'' ws2]. cbn [fst snd] in *.
      split; [split; auto|]. split; [constructor; auto|exact Q].
  Qed.
  Lemma loose_two : forall ops b1 s1 lc1 rc1 m1 G1 b2 s2 lc2 rc2 m2 G2,
    Repr E1 b1 s1 lc1 rc1 m1 G1 -> Repr E2 b2 s2 lc2 rc2 m2 G2 -> same G1 G2 ->
    lc1 + budget ops < two64 -> rc1 + budget ops < two64 ->
    lc2 + budget ops < two64 -> rc2 + budget ops < two64 -> Forall order_free ops ->
    guarded E1 (loose E1) m1 ops -> guarded E2 (loose E2) m2 ops ->
    Forall2 same_out (snd (run E1 m1 ops)) (snd (run E2 m2 ops)) /\
    exists b1 lc1 rc1 b2 lc2 rc2 G1 G2, Repr E1 b1 s1 lc1 rc1 (fst (run E1 m1 ops)) G1 /\
      Repr E2 b2 s2 lc2 rc2 (fst (run E2 m2 ops)) G2 /\ same G1 G2.
  Proof.
    induction ops as [|o ops IH];
      intros b1 s1 lc1 rc1 m1 G1 b2 s2 lc2 rc2 m2 G2 H1 H2 SM A1 A2 A3 A4 OF GD1 GD2.
    - cbn. split; auto. exists b1, lc1, rc1, b2, lc2, rc2, G1, G2. auto.
    - cbn [budget guarded] in *. destruct GD1 as [C1 GD1], GD2 as [C2 GD2]. inversion OF as [|? ? OF1 OF2]; subst.
      destruct (step_ok E1 OK1 _ _ _ _ _ _ o H1) as (b1' & G1' & lc1' & rc1' & T1 & H1' & _ & _ & X1 & Y1); auto; [lia|lia|].
      destruct (step_ok E2 OK2 _ _ _ _ _ _ o H2) as (b2' & G2' & lc2' & rc2' & T2 & H2' & _ & _ & X2 & Y2); auto; [lia|lia|].
      destruct (det _ _ _ _ _ _ _ OF1 (repr_grouping E1 _ _ _ _ _ _ H1) SM T1 T2) as [SM' SO].
      destruct (IH _ _ _ _ _ _ _ _ _ _ _ _ H1' H2' SM') as (F & Q); auto; try lia.
      cbn [run]. destruct (step E1 m1 o) as [m1' w1], (step E2 m2 o) as [m2' w2]. cbn [fst snd] in *.
      destruct (run E1 m1' ops) as [m1'' ws1], (run E2 m2' ops) as [m2'' ws2]. cbn [fst snd] in *.
      split; [constructor; auto|exact Q].
  Qed.

  (* Two maps over the same Eq, but with any hash functions, hasher states and table layouts:
     a history that is calm on one is calm on the other, and shows the same results and ends
     with the same groups, up to the order of iteration. *)
  Theorem C59_hash_independence : forall s1 s2 ll1 lr1 ll2 lr2 ops,
    Forall order_free ops -> budget ops < two64 -> guarded E1 (calm E1) (with_hasher s1 ll1 lr1) ops ->
    guarded E2 (calm E2) (with_hasher s2 ll2 lr2) ops /\
    Forall2 same_out (snd (run E1 (with_hasher s1 ll1 lr1) ops)) (snd (run E2 (with_hasher s2 ll2 lr2) ops)) /\
    exists rs1 ps1 rs2 ps2,
      holds E1 (fst (run E1 (with_hasher s1 ll1 lr1) ops)) rs1 ps1 /\
      holds E2 (fst (run E2 (with_hasher s2 ll2 lr2) ops)) rs2 ps2 /\
      Permutation rs1 rs2 /\ Permutation ps1 ps2.
  Proof.
    intros s1 s2 ll1 lr1 ll2 lr2 ops OF B GD.
    destruct (calm_two ops _ _ _ _ _ _ _ _ _ _ (new_ok E1 s1 ll1 lr1) (new_ok E2 s2 ll2 lr2) (same_refl _))
      as (GD2 & F & lc1 & rc1 & lc2 & rc2 & G1 & G2 & H1 & H2 & SM1 & SM2); auto; try lia.
    split; auto. split; auto.
    destruct (view E1 OK1 _ _ _ _ _ _ H1) as (rs1 & ps1 & V1 & P1 & Q1 & _).
    destruct (view E2 OK2 _ _ _ _ _ _ H2) as (rs2 & ps2 & V2 & P2 & Q2 & _).
    exists rs1, ps1, rs2, ps2. refine (conj V1 (conj V2 (conj _ _))).
    - rewrite P1, SM1, P2. auto.
    - rewrite Q1, SM2, Q2. auto.
  Qed.
  (* The same for the wider class of histories of C69. *)
  Theorem C59_loose_histories : forall s1 s2 ll1 lr1 ll2 lr2 ops,
    Forall order_free ops -> budget ops < two64 ->
    guarded E1 (loose E1) (with_hasher s1 ll1 lr1) ops ->
    guarded E2 (loose E2) (with_hasher s2 ll2 lr2) ops ->
    let m1 := fst (run E1 (with_hasher s1 ll1 lr1) ops) in
    let m2 := fst (run E2 (with_hasher s2 ll2 lr2) ops) in
    Forall2 same_out (snd (run E1 (with_hasher s1 ll1 lr1) ops)) (snd (run E2 (with_hasher s2 ll2 lr2) ops)) /\
    (forall l r, are_paired E1 m1 l r = are_paired E2 m2 l r) /\
    (exists Q1 Q2, right_rest (iter_right m1) = Done Q1 /\ right_rest (iter_right m2) = Done Q2 /\
       Permutation Q1 Q2) /\
    (exists Q1 Q2, left_rest (iter_left m1) = Done Q1 /\ left_rest (iter_left m2) = Done Q2 /\
       Permutation Q1 Q2).
  Proof.
    intros s1 s2 ll1 lr1 ll2 lr2 ops OF B GD1 GD2 m1 m2.
    destruct (loose_two ops _ _ _ _ _ _ _ _ _ _ _ _ (new_ok E1 s1 ll1 lr1) (new_ok E2 s2 ll2 lr2) (same_refl _))
      as (F & b1 & lc1 & rc1 & b2 & lc2 & rc2 & G1 & G2 & H1 & H2 & SM1 & SM2); auto; try lia.
    fold m1 in H1. fold m2 in H2. split; auto. split; [|split].
    - intros l r. rewrite (are_paired_ok E1 OK1 _ _ _ _ _ _ l r H1), (are_paired_ok E2 OK2 _ _ _ _ _ _ l r H2).
      rewrite HL, HR. apply paired_same. split; auto.
    - destruct (iter_right_ok E1 _ _ _ _ _ _ H1) as (Q1 & _ & R1 & _ & P1).
      destruct (iter_right_ok E2 _ _ _ _ _ _ H2) as (Q2 & _ & R2 & _ & P2).
      exists Q1, Q2. refine (conj R1 (conj R2 _)). rewrite P1, SM1, P2. auto.
    - destruct (iter_left_ok E1 _ _ _ _ _ _ H1) as (Q1 & _ & R1 & _ & P1).
      destruct (iter_left_ok E2 _ _ _ _ _ _ H2) as (Q2 & _ & R2 & _ & P2).
      exists Q1, Q2. refine (conj R1 (conj R2 _)). rewrite P1, P2. apply Permutation_map; auto.
  Qed.
End Two.

(* ---- no internal unwrap fails: in loose (so also in calm) histories a call panics only when
   a closure passed to it does. *)
Definition may_panic {L R} (m : op L R) : Prop :=
  match m with
  | RetainPaired X f _ => exists y e, snd (f y e) = None
  | RetainUnpaired X f _ => exists y e, snd (f y e) = None
  | _ => False
  end.

Section NoPanic.
  Context {L R S : Type}.
  Variable E : env L R S.
  Hypothesis OK : lawful E.

  Lemma s_filter_panicked : forall {T X} (f : X -> T -> X * verdict) l x x' yes no,
    s_filter f x l = (x', yes, no, true) -> exists y e, In e l /\ snd (f y e) = None.
  Proof.
    induction l as [|e l IH]; simpl; intros x x' yes no F; [discriminate|].
    destruct (f x e) as [x1 [b|]] eqn:FE.
    - destruct (s_filter f x1 l) as [[[x2 y2] n2] pn] eqn:F2.
      destruct b; inversion F; subst; destruct (IH _ _ _ _ F2) as (y & e' & I & Q); eauto.
    - exists x, e. rewrite FE. auto.
  Qed.
  Lemma s_step_panics : forall o (G G' : contents L R), s_step (eqL E) (eqR E) G o G' OPanic -> may_panic o.
  Proof.
    intros o G G' T. destruct o; simpl in T; simpl;
      repeat match goal with
      | X : (_ /\ _) |- _ => destruct X
      | X : (exists _, _) |- _ => destruct X
      end; subst; try discriminate.
    - destruct (s_get_left_iter _ _ _); [destruct H0 as (? & ? & ?)|]; discriminate.
    - destruct (s_filter f x _) as [[[x' yes] no] pn] eqn:F. destruct pn.
      + apply s_filter_panicked in F as (y & e & _ & Q). eauto.
      + destruct H0; discriminate.
    - destruct (s_filter f x _) as [[[x' yes] no] pn] eqn:F. destruct pn.
      + apply s_filter_panicked in F as (y & e & _ & Q). eauto.
      + destruct H0 as (? & ? & ?); discriminate.
  Qed.
  Theorem C59_no_panic : forall room m o, loosely_reachable E room m -> ids o <= room -> loose E m o ->
    snd (step E m o) = OPanic -> may_panic o.
  Proof.
    intros room m o H B GD PN. apply (loosely_reachable_repr E OK) in H as (b & s & lc & rc & G & H & C1 & C2).
    destruct (step_ok E OK b s lc rc m G o H) as (b' & G' & lc' & rc' & T & _); auto; try lia.
    rewrite PN in T. eapply s_step_panics; eauto.
  Qed.
  Theorem C59_no_panic_calm : forall room m o, reachable E room m -> ids o <= room -> calm E m o ->
    snd (step E m o) = OPanic -> may_panic o.
  Proof.
    intros room m o H B GD PN. apply (reachable_repr E OK) in H as (s & lc & rc & G & H & C1 & C2).
    destruct (calm_step E OK s lc rc m G o H) as (G' & lc' & rc' & T & _); auto; try lia.
    rewrite PN in T. eapply s_step_panics; eauto.
  Qed.
End NoPanic.

(* The history of C47 with colliding and with well-separated hashes: the same results in a
   different order. *)
Definition g_hist4 : list (op item item) := g_hist1 ++ [GetLeftIter (it 10); RemoveRight (it 30); IterRightAll].
Example C59_case : Forall order_free g_hist4 /\ budget g_hist4 < two64 /\
  guarded env_collide (calm env_collide) (with_hasher 7 0 0) g_hist4 /\
  snd (run env_collide (with_hasher 7 0 0) g_hist4) <> snd (run env_spread (with_hasher 1 5 6) g_hist4) /\
  skipn 19 (snd (run env_collide (with_hasher 7 0 0) g_hist4)) =
    [OLsO (Some [it 7; it 1; it 8]); OGroup (Some ([it 6; it 5; it 2], it 30)); ORs [it 40; it 10; it 70; it 90]] /\
  skipn 19 (snd (run env_spread (with_hasher 1 5 6) g_hist4)) =
    [OLsO (Some [it 8; it 7; it 1]); OGroup (Some ([it 2; it 6; it 5], it 30)); ORs [it 90; it 70; it 40; it 10]].
Proof.
  split; [repeat constructor; eexists; intros; reflexivity|].
  split; [vm_compute; reflexivity|]. split.
  { unfold g_hist4, g_hist1. cbn [guarded app].
    repeat (split; [first [exact I | vm_compute; reflexivity | vm_compute; auto; fail
                          | vm_compute; repeat split; auto; fail
                          | intros _; vm_compute; auto; fail | intros ? ? ? _ _; discriminate]|]); exact I. }
  split; [vm_compute; discriminate|]. split; vm_compute; reflexivity.
Qed.

Ltac loose_now o ::=
  unfold loose; cbn [with_extend loose1];
  lazymatch o with
  | Insert _ _ => split; [vm_compute; reflexivity|]; let X := fresh in intros X; vm_compute in X; discriminate X
  | RetainPaired _ _ _ =>
      apply (reachable_linked env_collide 1 _ env_collide_ok);
      exists 7, 0, 0, [Insert (it 1) (it 10); Insert (it 2) (it 10); Insert (it 3) (it 30)];
      split; [reflexivity|split; [calm_now|vm_compute; reflexivity]]
  | SwapRight _ _ => lazymatch goal with |- if ?c then _ else _ =>
      replace c with true by (vm_compute; reflexivity) end; split; [clean_now|vm_compute; reflexivity]
  | SwapRightRemove _ _ => lazymatch goal with |- if ?c then _ else _ =>
      replace c with true by (vm_compute; reflexivity) end; split; [clean_now|left; vm_compute; reflexivity]
  | GetLeftIter _ => clean_now
  | RemoveRight _ => clean_now
  | _ => exact I
  end.
(* the history of C69_loose_case (guards for env_spread are shown there) *)
Example C59_loose_case : Forall order_free loose_ops /\
  guarded env_collide (loose env_collide) (with_hasher 7 0 0) loose_ops /\
  snd (run env_collide (with_hasher 7 0 0) loose_ops) =
    [OUnit; OUnit; OUnit; OUnit; OUnit; OUnit; OLsO (Some [it 1; it 2; it 4]); OL None;
     OGroup (Some ([it 4; it 2; it 1; it 3], it 40)); OUnit; OR (Some (it 50)); OBool true].
Proof.
  split; [repeat constructor; eexists; intros; reflexivity|]. split.
  - unfold loose_ops. repeat loose_step. exact I.
  - vm_compute; reflexivity.
Qed.
(* a closure that panics *)
Example C59_no_panic_case :
  loosely_reachable env_collide 1 gmc /\
  snd (step env_collide gmc (RetainPaired unit (fun _ p => (tt, if fst (fst p) =? 1 then None else Some false)) tt)) = OPanic /\
  snd (step env_collide gmc (RetainUnpaired unit (fun _ p => (tt, if fst p =? 40 then None else Some false)) tt)) = OPanic.
Proof.
  split; [|vm_compute; auto]. apply (reachable_loosely env_collide env_collide_ok).
  apply gm1_reachable; [simpl; auto|reflexivity].
Qed.
Print Assumptions C59_hash_independence.
Print Assumptions C59_loose_histories.
Print Assumptions C59_no_panic.
Print Assumptions C59_no_panic_calm.
