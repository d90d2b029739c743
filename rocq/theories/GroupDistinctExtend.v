(* GroupMap: extend with items that do not get in each other's way (C155), on any map. *)
From Coq Require Import List NArith Lia Bool Permutation PeanoNat.
From Verif Require Import Closures Prelude RawTable GroupMap ListFacts GroupSpec GroupHistory GroupProofs GroupProofs2
  GroupProofs3 GroupProofs4 GroupProofs5 GroupProofs6 GroupHistoryProofs Concrete GroupProps GroupProps2 GroupProps3 GroupCollect
  GroupDistinct.
Import ListNotations.
Open Scope N_scope.

Section Extend.
  Context {L R S : Type} (E : env L R S) (OK : lawful E).
  Notation map := (gmap L R S).
  Notation "a =L b" := (eqL E a b = true) (at level 70).
  Notation "a =R b" := (eqR E a b = true) (at level 70).
  Let EL := eqL_equiv _ OK.
  Let ER := eqR_equiv _ OK.
  Implicit Types (x y : option L * R) (xs : list (option L * R)).

  (* an item asks for r without left items *)
  Definition empties (r : R) x : Prop := fst x = None /\ snd x =R r.
  (* the pair is left alone by the items *)
  Definition spared l r xs : Prop := forall x, In x xs -> ~ gives_left E l x /\ ~ empties r x.
  (* what the list says about l and r, if they were paired before iff b *)
  Definition says l r (b : Prop) xs : Prop :=
    (exists x, In x xs /\ gives_left E l x /\ gives_right E r x) \/ (b /\ spared l r xs).

  Lemma word_says : forall l r xs b, free E xs ->
    fold_left (last_word E l r) xs b = true <-> says l r (b = true) xs.
  Proof.
    intros l r. induction xs as [|x xs IH] using rev_ind; intros b D.
    - cbn. unfold says, spared. split.
      + intros ->. right. split; [reflexivity|intros x []].
      + intros [(x & [] & _)|[H _]]; auto.
    - destruct (free_snoc E _ _ D) as [D1 D2]. specialize (IH b D1). rewrite fold_left_app. cbn [fold_left].
      unfold last_word at 1. destruct x as [[a|] q]; cbn [fst snd].
      + destruct (eqL E a l) eqn:Q.
        * split.
          -- intros H. left. exists (Some a, q). split; [apply in_or_app; right; left; auto|].
             split; [exists a; auto|exact H].
          -- intros [(y & Hy & (c & F & Q1) & Q2)|[_ SP]].
             ++ apply in_app_or in Hy as [Hy|[<-|[]]]; auto.
                assert (Z := D2 y Hy). unfold clash in Z. rewrite F in Z. cbn [fst] in Z.
                rewrite (equiv_trans _ EL _ _ _ Q1 (equiv_sym _ EL _ _ Q)) in Z. discriminate.
             ++ exfalso. apply (proj1 (SP (Some a, q) (in_elt _ xs []))). exists a. auto.
        * rewrite IH. unfold says, spared. split.
          -- intros [(y & Hy & H)|[B SP]]; [left; exists y; split; [apply in_or_app; auto|auto]|right; split; auto].
             intros y Hy. apply in_app_or in Hy as [Hy|[<-|[]]]; auto. split.
             ++ intros (c & F & Q1). injection F as <-. congruence.
             ++ intros [F _]. discriminate F.
          -- intros [(y & Hy & (c & F & Q1) & Q2)|[B SP]].
             ++ apply in_app_or in Hy as [Hy|[<-|[]]]; [|cbn in F; congruence].
                left. exists y. split; auto. split; auto. exists c. auto.
             ++ right. split; auto. intros y Hy. apply SP, in_or_app. auto.
      + destruct (eqR E q r) eqn:Q.
        * split; [discriminate|]. intros [(y & Hy & (c & F & Q1) & Q2)|[_ SP]].
          -- apply in_app_or in Hy as [Hy|[<-|[]]]; [|discriminate F].
             assert (Z := D2 y Hy). unfold clash in Z. rewrite F in Z. cbn [fst snd] in Z.
             rewrite (equiv_trans _ ER _ _ _ Q2 (equiv_sym _ ER _ _ Q)) in Z. discriminate.
          -- exfalso. apply (proj2 (SP (None, q) (in_elt _ xs []))). split; auto.
        * rewrite IH. unfold says, spared. split.
          -- intros [(y & Hy & H)|[B SP]]; [left; exists y; split; [apply in_or_app; auto|auto]|right; split; auto].
             intros y Hy. apply in_app_or in Hy as [Hy|[<-|[]]]; auto. split.
             ++ intros (c & F & Q1). discriminate F.
             ++ intros [_ F]. cbn [snd] in F. congruence.
          -- intros [(y & Hy & (c & F & Q1) & Q2)|[B SP]].
             ++ apply in_app_or in Hy as [Hy|[<-|[]]]; [|discriminate F].
                left. exists y. split; auto. split; auto. exists c. auto.
             ++ right. split; auto. intros y Hy. apply SP, in_or_app. auto.
  Qed.

  Lemma reachable_less : forall room room' (m : map), room' <= room -> reachable E room m -> reachable E room' m.
  Proof. intros room room' m LE (s & ll & lr & ops & B & G & Q). exists s, ll, lr, ops. split; [lia|auto]. Qed.
  Lemma run_more : forall ops o (m : map), fst (run E m (ops ++ [o])) = fst (step E (fst (run E m ops)) o).
  Proof.
    induction ops as [|a ops IH]; intros o m; cbn [app run].
    - cbn [fst]. destruct (step E m o) as [m1 w]. reflexivity.
    - destruct (step E m a) as [m1 w]. specialize (IH o m1). destruct (run E m1 (ops ++ [o])), (run E m1 ops). exact IH.
  Qed.
  Lemma budget_more : forall (ops : list (op L R)) o, budget (ops ++ [o]) = budget ops + ids o.
  Proof. induction ops as [|a ops IH]; intros o; cbn [app budget]; [lia|]. rewrite IH. lia. Qed.

  (* the pairs that are there already: insert must not be given them (C48) *)
  Definition new_pairs (m : map) xs : Prop := forall a q, In (Some a, q) xs -> are_paired E m a q = false.

  Lemma extend_calm : forall (m : map) xs, reachable E (N.of_nat (length xs)) m -> free E xs -> new_pairs m xs ->
    guarded E (calm1 E) m (List.map item_op xs).
  Proof.
    intros m. induction xs as [|x xs IH] using rev_ind; intros RE D NP; [exact I|].
    rewrite app_length in RE. cbn [length] in RE. destruct (free_snoc E _ _ D) as [D1 D2].
    assert (RE1 : reachable E (N.of_nat (length xs) + 0) m) by (eapply reachable_less; [|exact RE]; lia).
    assert (G : guarded E (calm1 E) m (List.map item_op xs)).
    { apply IH; auto; [eapply reachable_less; [|exact RE]; lia|]. intros a q H. apply NP, in_or_app. auto. }
    rewrite map_app. cbn [List.map]. apply guarded_snoc; auto.
    destruct x as [[a|] q]; [|exact I]. cbn [item_op fst snd calm1].
    destruct (C58_extend_partial E OK xs 0 m RE1 G) as (m' & ws & X & RN & _ & A & _).
    rewrite RN. cbn [fst]. rewrite A. destruct (fold_left (last_word E a q) xs _) eqn:W; auto.
    apply (word_says a q xs _ D1) in W as [(y & Hy & (b & F & Q1) & _)|[W _]].
    - assert (Z := D2 y Hy). unfold clash in Z. rewrite F in Z. cbn [fst] in Z. congruence.
    - rewrite NP in W; [discriminate|]. apply in_or_app. right. left. auto.
  Qed.

  (* a left item is there iff it is paired with something *)
  Lemma left_iff : forall room (m : map) l, reachable E room m ->
    contains_left E m l = true <-> exists r, are_paired E m l r = true.
  Proof.
    intros room m l RE. destruct (reachable_repr E OK _ _ RE) as (s1 & lc & rc & G1 & H1 & _).
    destruct (view E OK _ _ _ _ _ _ H1) as (rs & ps & _ & _ & _ & H2).
    assert (AN := answers_repr E OK _ _ _ _ _ _ _ H2). rewrite (an_contains_left _ _ _ _ AN). split.
    - intros (a & b & I1 & Q). exists b. apply (an_are_paired _ _ _ _ AN). exists a, b. split; auto. split; auto. apply (equiv_refl _ ER).
    - intros (r & H). apply (an_are_paired _ _ _ _ AN) in H as (a & b & I1 & Q & _). eauto.
  Qed.

  (* extending any reachable map by items of which no two clash, and of which none gives a pair
     that is there already, does exactly what the items say *)
  Theorem C155_extend : forall room m xs, reachable E (N.of_nat (length xs) + room) m -> free E xs -> new_pairs m xs ->
    exists m', extend E xs m = Ret m' tt /\ reachable E room m' /\
      (forall l r, are_paired E m' l r = true <-> says l r (are_paired E m l r = true) xs) /\
      (forall l, contains_left E m' l = true <->
        (exists x, In x xs /\ gives_left E l x) \/ (exists r, are_paired E m l r = true /\ spared l r xs)) /\
      (forall r, contains_right E m' r = true <-> contains_right E m r = true \/ exists x, In x xs /\ gives_right E r x).
  Proof.
    intros room m xs RE D NP.
    assert (G : guarded E (calm1 E) m (List.map item_op xs)).
    { apply extend_calm; auto. eapply reachable_less; [|exact RE]. lia. }
    destruct (C58_extend_partial E OK xs room m RE G) as (m' & ws & X & RN & _ & A & C & _).
    assert (RE' : reachable E room m').
    { destruct RE as (s & ll & lr & ops & B & GD & Q). exists s, ll, lr, (ops ++ [Extend xs]).
      split; [rewrite budget_more; cbn [ids]; lia|]. split.
      - apply guarded_snoc; auto. rewrite <- Q. exact G.
      - rewrite run_more, <- Q. cbn [step]. rewrite X. reflexivity. }
    assert (A' : forall l r, are_paired E m' l r = true <-> says l r (are_paired E m l r = true) xs).
    { intros l r. rewrite A. apply word_says. auto. }
    exists m'. split; auto. split; auto. split; auto. split.
    - intros l. rewrite (left_iff room m' l RE'). split.
      + intros (r & H). apply A' in H as [(x & I1 & H & _)|[H1 H2]]; eauto.
      + intros [(x & I1 & H)|(r & H1 & H2)].
        * exists (snd x). apply A'. left. exists x. split; auto. split; auto. apply (equiv_refl _ ER).
        * exists r. apply A'. right. auto.
    - intros r. rewrite C, orb_true_iff, existsb_exists.
      split; (intros [H|(x & I1 & H)]; [auto|]; right; exists x; split; auto; apply (equiv_sym _ ER); auto).
  Qed.

  (* so the order of the items does not matter *)
  Theorem C155_extend_order : forall room m xs xs', reachable E (N.of_nat (length xs) + room) m -> free E xs ->
    new_pairs m xs -> Permutation xs xs' ->
    exists m1 m2, extend E xs m = Ret m1 tt /\ extend E xs' m = Ret m2 tt /\ twins E m1 m2.
  Proof.
    intros room m xs xs' RE D NP P.
    destruct (C155_extend room m xs RE D NP) as (m1 & X1 & RE1 & A1 & L1 & R1).
    destruct (C155_extend room m xs') as (m2 & X2 & RE2 & A2 & L2 & R2).
    { rewrite <- (Permutation_length P). auto. }
    { apply (free_perm E OK _ _ P D). }
    { intros a q H. apply NP. exact (Permutation_in _ (Permutation_sym P) H). }
    assert (SW : forall Q : option L * R -> Prop, (exists x, In x xs /\ Q x) <-> (exists x, In x xs' /\ Q x)).
    { intros Q. split; intros (x & I1 & H); exists x; split; auto;
        [apply (Permutation_in _ P)|apply (Permutation_in _ (Permutation_sym P))]; auto. }
    assert (SP : forall l r, spared l r xs <-> spared l r xs').
    { intros l r. split; intros H x I1; apply H; [apply (Permutation_in _ (Permutation_sym P))|apply (Permutation_in _ P)]; auto. }
    exists m1, m2. split; auto. split; auto. apply (twins_intro E OK room room); auto; intros; apply eq_true_iff_eq.
    - rewrite A1, A2. unfold says. rewrite SW, SP. reflexivity.
    - rewrite L1, L2, SW. split; (intros [H|(r & H1 & H2)]; [auto|]; right; exists r; split; auto; apply SP; auto).
    - rewrite R1, R2, SW. reflexivity.
  Qed.
End Extend.

(* a map of three groups, extended by items one of which empties a group whose left item another
   item takes away *)
Definition before155 : list (option item * item) :=
  [(Some (it 1), it 20); (Some (it 4), it 10); (Some (it 2), it' 10); (None, it 30)].
Definition more155 : list (option item * item) :=
  [(Some (it 4), it 40); (None, it 10); (Some (it 7), it 30); (Some (it 1), it 30)].
Example C155_extend_case : free env_collide more155 /\
  match from_iter env_collide 7 0 0 before155 with
  | Ret m _ => new_pairs env_collide m more155 /\
      match extend env_collide more155 m, extend env_collide (rev more155) m with
      | Ret m1 _, Ret m2 _ => map_eq env_collide m1 m2 = Done true /\ len_left m1 = 3%nat /\ len_right m1 = 4%nat /\
          contains_left env_collide m1 (it 2) = false /\ are_paired env_collide m2 (it 4) (it 40) = true
      | _, _ => False
      end
  | _ => False
  end.
Proof.
  split.
  - unfold more155. repeat (apply free_cons; split;
      [intros y Hy; repeat (destruct Hy as [<-|Hy]; [vm_compute; reflexivity|]); destruct Hy|]). constructor.
  - assert (K : exists m, from_iter env_collide 7 0 0 before155 = Ret m tt /\
      forallb (fun x => match fst x with Some a => negb (are_paired env_collide m a (snd x)) | None => true end) more155 = true /\
      match extend env_collide more155 m, extend env_collide (rev more155) m with
      | Ret m1 _, Ret m2 _ => map_eq env_collide m1 m2 = Done true /\ len_left m1 = 3%nat /\ len_right m1 = 4%nat /\
          contains_left env_collide m1 (it 2) = false /\ are_paired env_collide m2 (it 4) (it 40) = true
      | _, _ => False
      end).
    { eexists. split; [vm_compute; reflexivity|]. vm_compute. repeat split; reflexivity. }
    destruct K as (m & -> & F & K). split; auto. intros a q H. rewrite forallb_forall in F. specialize (F _ H).
    cbn [fst snd] in F. destruct (are_paired env_collide m a q); auto.
Qed.

Print Assumptions C155_extend.
Print Assumptions C155_extend_order.
