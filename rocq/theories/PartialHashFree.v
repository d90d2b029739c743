(* PartialCycleMap: property C45, independence from hashes and table layout, and where panics
   can come from. *)
From Coq Require Import List NArith Lia Bool Permutation PeanoNat.
From Verif Require Import Closures Prelude RawTable Optionals PartialCycleMap ListFacts TableFacts
  PartialSpec PartialHistory IterFacts PartialProofs PartialProofs2 PartialProofs3 PartialProofs4
  PartialProofs5 PartialProofs6 PartialProofs7 PartialProofs8 PartialHistoryProofs Concrete PartialProps
  PartialProps2.
Import ListNotations.
Open Scope N_scope.

Section HashFree.
  Context {L R : Type}.
  Notation entry := (optional_pair L R).

  (* Calls whose outcome does not hang on the order of iteration: closures answer from the
     entry alone, and a drain_filter is not leaked half way. *)
  Definition order_free (o : op L R) : Prop :=
    match o with
    | Retain X f _ | RetainUnpaired X f _ =>
        exists p : entry -> bool, forall x e, snd (f x e) = Some (p e)
    | RetainPaired X f _ => exists p : L * R -> bool, forall x e, snd (f x e) = Some (p e)
    | DrainFilter X f _ _ leak =>
        leak = false /\ exists p : entry -> bool, forall x e, snd (f x e) = Some (p e)
    | _ => True
    end.

  Definition some_item (o : option entry) : bool := match o with Some _ => true | None => false end.
  Definition some_left (o : option entry) : bool :=
    match o with Some e => has_left_item e | None => false end.

  (* Equal results, up to the order of items; the items of an unfinished drain or drain_filter
     are compared in number only; a finished drain may yield any one unpaired right item (C39);
     try_reserve may succeed or fail. *)
  Definition same_out (o : op L R) (w1 w2 : out L R) : Prop :=
    match o, w1, w2 with
    | (TryReserveLeft _ | TryReserveRight _), OBool _, OBool _ => True
    | DrainN _, OItems a p, OItems b q =>
        p = q /\ length (filter some_item a) = length (filter some_item b) /\ length a = length b /\
        (In None a -> Permutation (filter some_left a) (filter some_left b))
    | _, OItems a p, OItems b q =>
        p = q /\ length (filter some_item a) = length (filter some_item b) /\ length a = length b /\
        (In None a -> Permutation a b)
    | _, OPairs a, OPairs b => Permutation a b
    | _, OEntries a, OEntries b => Permutation a b
    | _, OLs a, OLs b => Permutation a b
    | _, ORs a, ORs b => Permutation a b
    | _, _, _ => w1 = w2
    end.

End HashFree.

Section Det.
  Context {L R S : Type}.
  Variable E : env L R S.
  Hypothesis OK : lawful E.
  Notation entry := (optional_pair L R).
  Notation eL := (eqL E).
  Notation eR := (eqR E).
  Let EL := eqL_equiv E OK.
  Let ER := eqR_equiv E OK.
  Notation pb := (partial_bijection eL eR).
  Implicit Types P Q : list entry.

  Lemma find_l_perm : forall P Q x, Permutation P Q -> pb P -> find_l eL P x = find_l eL Q x.
  Proof.
    intros P Q x H B. unfold find_l. destruct (find (has_l eL x) P) as [e|] eqn:F.
    - apply find_some in F as [F1 F2]. symmetry. apply (find_l_in eL eR EL ER); auto.
      + eapply (pb_permute eL eR EL ER); eauto.
      + eapply Permutation_in; eauto.
    - symmetry. apply find_all_false. intros y Hy. eapply find_none; [exact F|].
      eapply Permutation_in; [symmetry; exact H|auto].
  Qed.
  Lemma find_r_perm : forall P Q x, Permutation P Q -> pb P -> find_r eR P x = find_r eR Q x.
  Proof.
    intros P Q x H B. unfold find_r. destruct (find (has_r eR x) P) as [e|] eqn:F.
    - apply find_some in F as [F1 F2]. symmetry. apply (find_r_in eL eR EL ER); auto.
      + eapply (pb_permute eL eR EL ER); eauto.
      + eapply Permutation_in; eauto.
    - symmetry. apply find_all_false. intros y Hy. eapply find_none; [exact F|].
      eapply Permutation_in; [symmetry; exact H|auto].
  Qed.
  Lemma del_l_perm : forall P Q x, Permutation P Q -> Permutation (del_l eL P x) (del_l eL Q x).
  Proof. intros. apply filter_perm; auto. Qed.
  Lemma del_r_perm : forall P Q x, Permutation P Q -> Permutation (del_r eR P x) (del_r eR Q x).
  Proof. intros. apply filter_perm; auto. Qed.
  Hint Resolve del_l_perm del_r_perm : core.
  Lemma insert_perm : forall P Q x y, Permutation P Q ->
    Permutation (s_insert eL eR P x y) (s_insert eL eR Q x y).
  Proof. intros. constructor. auto. Qed.
  Lemma insert_entry_perm : forall P Q e, Permutation P Q ->
    Permutation (s_insert_entry eL eR P e) (s_insert_entry eL eR Q e).
  Proof. intros P Q e H. destruct e; simpl; unfold s_insert, s_insert_left, s_insert_right; auto. Qed.
  Lemma insert_out_perm : forall P Q x y, Permutation P Q -> pb P ->
    s_insert_out eL eR P x y = s_insert_out eL eR Q x y.
  Proof.
    intros P Q x y H B. unfold s_insert_out. rewrite (find_l_perm P Q x); auto.
    rewrite (find_r_perm (del_l eL P x) (del_l eL Q x)); auto. apply pb_filter; auto.
  Qed.
  Lemma paired_perm : forall P Q x y, Permutation P Q ->
    s_are_paired eL eR P x y = s_are_paired eL eR Q x y.
  Proof. intros. apply existsb_perm; auto. Qed.
  Lemma contains_l_perm : forall P Q x, Permutation P Q -> s_contains_left eL P x = s_contains_left eL Q x.
  Proof. intros. apply existsb_perm; auto. Qed.
  Lemma contains_r_perm : forall P Q x, Permutation P Q -> s_contains_right eR P x = s_contains_right eR Q x.
  Proof. intros. apply existsb_perm; auto. Qed.
  Lemma swap_left_perm : forall P Q o n, Permutation P Q -> pb P ->
    Permutation (s_swap_left eL P o n) (s_swap_left eL Q o n) /\
    s_swap_left_out eL P o n = s_swap_left_out eL Q o n.
  Proof.
    intros P Q o n H B. unfold s_swap_left, s_swap_left_out, s_swap_left_base.
    rewrite (find_l_perm P Q o), (find_l_perm P Q n); auto. split; auto.
    destruct (find_l eL Q o); destruct (eL n o); auto.
  Qed.
  Lemma swap_right_perm : forall P Q o n, Permutation P Q -> pb P ->
    Permutation (s_swap_right eR P o n) (s_swap_right eR Q o n) /\
    s_swap_right_out eR P o n = s_swap_right_out eR Q o n.
  Proof.
    intros P Q o n H B. unfold s_swap_right, s_swap_right_out, s_swap_right_base.
    rewrite (find_r_perm P Q o), (find_r_perm P Q n); auto. split; auto.
    destruct (find_r eR Q o); destruct (eR n o); auto.
  Qed.

  Lemma filter_somes : forall (k : list entry) n j,
    filter some_item (firstn n (map Some k) ++ repeat None j) = firstn n (map Some k).
  Proof.
    intros k n j. rewrite filter_app, filter_all_true, filter_all_false.
    - apply app_nil_r.
    - intros x Hx. apply repeat_spec in Hx. subst; auto.
    - intros x Hx. assert (I : In x (map Some k)).
      { rewrite <- (firstn_skipn n (map Some k)). apply in_or_app; auto. }
      apply in_map_iff in I as (y & <- & _). auto.
  Qed.
  Lemma shown_none : forall (k : list entry) n,
    In None (firstn n (map Some k) ++ repeat None (n - length k)) ->
    firstn n (map Some k) = map Some k.
  Proof.
    intros k n I. assert (n - length k <> 0)%nat.
    { intros Z. rewrite Z in I. simpl in I. rewrite app_nil_r in I.
      assert (I' : In None (map (@Some entry) k)).
      { rewrite <- (firstn_skipn n (map Some k)). apply in_or_app; auto. }
      apply in_map_iff in I' as (y & E0 & _). discriminate. }
    apply firstn_all2. rewrite map_length; lia.
  Qed.
  Lemma items_len : forall (a b : list entry) n, length a = length b ->
    let f k := firstn n (map Some k) ++ repeat None (n - length k) in
    length (filter some_item (f a)) = length (filter some_item (f b)) /\ length (f a) = length (f b).
  Proof.
    intros a b n H f. unfold f.
    rewrite !filter_somes, !app_length, !firstn_length, !map_length, !repeat_length. lia.
  Qed.

  Lemma s_filter_pure : forall {T X} (f : X -> T -> X * verdict) (p : T -> bool),
    (forall x e, snd (f x e) = Some (p e)) ->
    forall l x, exists x', s_filter f x l = (x', filter p l, filter (fun e => negb (p e)) l, false).
  Proof.
    intros T X f p Hp. induction l as [|e l IH]; simpl; intros x; eauto.
    specialize (Hp x e). destruct (f x e) as [x1 v]. simpl in Hp. subst v.
    destruct (IH x1) as (x' & ->). exists x'. destruct (p e); auto.
  Qed.
  (* the visits of drain_filter, with a closure answering from the entry alone *)
  Lemma visits_pure : forall {X} (f : X -> entry -> X * verdict) (p : entry -> bool),
    (forall x e, snd (f x e) = Some (p e)) ->
    forall V x tk, exists x' tk', 
      s_filter (on_visit eR f) (x, tk) V =
      let '(_, yes, no, pn) := s_filter (on_visit eR (fun (_ : unit) e => (tt, Some (p e)))) (tt, tk) V in
      ((x', tk'), yes, no, pn).
  Proof.
    intros X f p Hp. induction V as [|v V IH]; intros x tk; [cbn; eauto|].
    cbn [s_filter]. unfold on_visit at 1 3. destruct v as [e|e].
    - cbn [fst snd]. specialize (Hp x e). destruct (f x e) as [x1 b]. cbn in Hp. subst b.
      destruct (p e).
      + destruct (IH x1 (e :: tk)) as (x' & tk' & ->). exists x', tk'.
        destruct (s_filter _ (tt, e :: tk) V) as [[[? ?] ?] ?]; auto.
      + destruct (IH x1 tk) as (x' & tk' & ->). exists x', tk'.
        destruct (s_filter _ (tt, tk) V) as [[[? ?] ?] ?]; auto.
    - cbn [fst snd]. destruct (op_get_right e) as [r|].
      + destruct (existsb (has_r eR r) tk).
        * destruct (IH x tk) as (x' & tk' & ->). exists x', tk'.
          destruct (s_filter _ (tt, tk) V) as [[[? ?] ?] ?]; auto.
        * specialize (Hp x (SomeRight r)). destruct (f x (SomeRight r)) as [x1 b]. cbn in Hp. subst b.
          destruct (IH x1 tk) as (x' & tk' & ->). exists x', tk'.
          destruct (s_filter _ (tt, tk) V) as [[[? ?] ?] ?]; destruct (p (SomeRight r)); auto.
      + destruct (IH x tk) as (x' & tk' & ->). exists x', tk'.
        destruct (s_filter _ (tt, tk) V) as [[[? ?] ?] ?]; auto.
  Qed.

  Lemma visits_result : forall {X} (f : X -> entry -> X * verdict) (p : entry -> bool) x P Q W,
    (forall x e, snd (f x e) = Some (p e)) -> pb P ->
    Permutation Q (filter has_left_item P) ->
    Permutation W (filter (fun e => is_some (op_get_right e)) P) ->
    (forall l r, In (SomeBoth l r) P -> p (SomeRight r) = false) ->
    exists x' taken others,
      s_filter (on_visit eR f) (x, []) (map VE Q ++ map VR W) = (x', taken, others, false) /\
      Permutation (map shown taken) (filter p P) /\
      Permutation (flat_map keep others) (filter (fun e => negb (p e)) P).
  Proof.
    intros X f p x P Q W Hp B PQ PW G. assert (NN : ~ In Neither P) by apply B.
    assert (IQ : forall e, In e Q -> In e P /\ has_left_item e = true).
    { intros e He. apply (Permutation_in _ PQ) in He. apply filter_In in He. auto. }
    assert (IW : forall e, In e W -> In e P /\ is_some (op_get_right e) = true).
    { intros e He. apply (Permutation_in _ PW) in He. apply filter_In in He. auto. }
    destruct (visits_pure f p Hp (map VE Q ++ map VR W) x []) as (x' & tk' & F0).
    destruct (visits_pred_r E p W (rev (filter p Q))) as (x'' & F).
    { intros e He. apply IW; auto. }
    { intros e He HL r HR. destruct (IW e He) as [I1 _].
      destruct e as [|a|b|a b]; simpl in HL, HR; try discriminate. inversion HR; subst b.
      eapply G; eauto. }
    { intros e e' He He' HL r HR. apply in_rev in He'. apply filter_In in He' as [He' _].
      destruct (has_r (eqR E) r e') eqn:HH; auto. exfalso.
      assert (e = e').
      { eapply (unique_r _ _ EL ER P r); eauto; [apply IW; auto|apply IQ; auto|].
        unfold has_r. rewrite HR. apply (equiv_refl _ ER). }
      subst e'. destruct (IQ e He'). congruence. }
    assert (VP := visits_pred E p Q [] (map VR W)). cbv zeta in VP. rewrite app_nil_r, F in VP.
    rewrite VP in F0. do 3 eexists. split; [exact F0|]. clear F0 VP F.
    assert (KE : forall K : list entry, flat_map keep (map VE K) = K).
    { intros K0. induction K0; simpl; auto. f_equal; auto. }
    assert (SE : forall K : list entry, map shown (map VE K) = K).
    { intros. rewrite map_map. cbn. apply map_id. }
    assert (SR : forall K : list entry, (forall e, In e K -> has_left_item e = false /\ In e W) ->
               map shown (map VR K) = K).
    { intros K0. induction K0 as [|e K0 IH]; intros HK; auto. cbn [map]. rewrite IH; [|intros; apply HK; right; auto].
      destruct (HK e (or_introl eq_refl)) as [A A']. f_equal. unfold has_left_item in A.
      apply IW in A' as [_ A']. destruct e; simpl in *; congruence. }
    assert (PP : Permutation (Q ++ filter (fun e => negb (has_left_item e)) W) P).
    { rewrite (filter_split_perm has_left_item P).
      apply Permutation_app; auto. rewrite (filter_perm _ _ _ PW).
      clear - NN. induction P as [|e P IH]; auto.
      assert (NN' : ~ In Neither P) by (intro; apply NN; right; auto).
      cbn [filter]. destruct e; simpl; auto. exfalso; apply NN; left; auto. }
    rewrite <- !(filter_perm _ _ _ PP), !filter_app. split.
    - rewrite map_app, SE, SR; auto. intros e He. apply filter_In in He as [He _].
      apply filter_In in He as [He Y]. split; auto. apply negb_true_iff in Y. auto.
    - rewrite flat_map_app, KE. apply Permutation_app; auto. apply Permutation_refl'.
      clear. induction W as [|e W IH]; auto. cbn [map filter].
      destruct (has_left_item e) eqn:HL; cbn [negb andb flat_map keep].
      + rewrite HL. auto.
      + cbn [filter]. destruct (p e); cbn [negb flat_map keep]; auto. rewrite HL. cbn. f_equal. auto.
  Qed.

  (* drain_filter closures refuse the right halves of pairs *)
  Definition spares (P : list entry) (o : op L R) : Prop :=
    match o with
    | DrainFilter X f _ _ _ => forall y l r, In (SomeBoth l r) P -> snd (f y (SomeRight r)) <> Some true
    | _ => True
    end.

  Lemma s_step_det : forall o P1 P2 P1' P2' w1 w2, order_free o -> spares P1 o -> pb P1 ->
    Permutation P1 P2 ->
    s_step eL eR P1 o P1' w1 -> s_step eL eR P2 o P2' w2 ->
    Permutation P1' P2' /\ same_out o w1 w2.
  Proof.
    intros o P1 P2 P1' P2' w1 w2 OF SP B H S1 S2. destruct o; simpl in S1, S2, OF, SP.
    - destruct S1 as [-> ->], S2 as [-> ->]. split; [apply insert_perm; auto|].
      simpl. rewrite (insert_out_perm P1 P2); auto.
    - destruct S1 as [-> ->], S2 as [-> ->]. simpl. rewrite (find_l_perm P1 P2); auto.
      split; auto. unfold s_insert_left; auto.
    - destruct S1 as [-> ->], S2 as [-> ->]. simpl. rewrite (find_r_perm P1 P2); auto.
      split; auto. unfold s_insert_right; auto.
    - destruct S1 as [-> ->], S2 as [-> ->]. simpl. unfold s_pair, s_pair_out.
      rewrite (find_l_perm P1 P2), (find_r_perm P1 P2); auto. split; auto.
      destruct (find_l eL P2 l) as [[]|]; auto. destruct (find_r eR P2 r) as [[]|]; auto.
    - destruct S1 as [-> ->], S2 as [-> ->]. simpl. unfold s_pair_forced, s_pair_forced_out.
      rewrite (find_l_perm P1 P2), (find_r_perm P1 P2); auto. split; auto.
      destruct (find_l eL P2 l), (find_r eR P2 r); auto. destruct (has_r eR r o); auto.
      do 3 apply Permutation_app_head. auto.
    - destruct S1 as [-> ->], S2 as [-> ->]. simpl. unfold s_pair_forced_remove, s_pair_forced_out.
      rewrite (find_l_perm P1 P2), (find_r_perm P1 P2); auto. split; auto.
      destruct (find_l eL P2 l), (find_r eR P2 r); auto. destruct (has_r eR r o); auto.
      apply Permutation_app_head. auto.
    - destruct S1 as [-> ->], S2 as [-> ->]. simpl. unfold s_unpair.
      rewrite (find_l_perm P1 P2), (paired_perm P1 P2); auto. split; auto.
      destruct (find_l eL P2 l); auto. destruct (has_r eR r o); auto.
      do 2 apply Permutation_app_head. auto.
    - destruct S1 as [-> ->], S2 as [-> ->]. unfold s_remove, s_remove_out. simpl.
      rewrite (paired_perm P1 P2), (find_l_perm P1 P2); auto.
      split; auto. destruct (s_are_paired eL eR P2 l r); auto.
    - destruct S1 as [-> ->], S2 as [-> ->]. simpl. unfold s_remove_left, s_remove_left_out.
      rewrite (find_l_perm P1 P2); auto. split; auto.
      destruct (find_l eL P2 l); auto. apply Permutation_app_head. auto.
    - destruct S1 as [-> ->], S2 as [-> ->]. simpl. unfold s_remove_right, s_remove_right_out.
      rewrite (find_r_perm P1 P2); auto. split; auto.
      destruct (find_r eR P2 r); auto. apply Permutation_app_head. auto.
    - destruct S1 as [-> ->], S2 as [-> ->]. simpl. rewrite (find_l_perm P1 P2); auto.
    - destruct S1 as [-> ->], S2 as [-> ->]. simpl. rewrite (find_r_perm P1 P2); auto.
    - destruct S1 as [-> ->], S2 as [-> ->].
      destruct (swap_left_perm P1 P2 old new H B) as [X ->]. simpl; auto.
    - destruct (swap_left_perm P1 P2 old new H B) as [X Y].
      rewrite (paired_perm P1 P2) in S1; auto.
      destruct (s_are_paired eL eR P2 old expected); destruct S1 as [-> ->], S2 as [-> ->];
        rewrite ?Y; simpl; auto.
    - destruct (swap_left_perm P1 P2 old new H B) as [X Y].
      rewrite (contains_l_perm P1 P2) in S1; auto.
      destruct (s_contains_left eL P2 old); destruct S1 as [-> ->], S2 as [-> ->].
      + rewrite ?Y; simpl; auto.
      + rewrite (contains_l_perm P1 P2), (find_r_perm P1 P2); auto.
        split; [apply insert_perm; auto|]. simpl. destruct (s_contains_left eL P2 new); simpl; auto.
    - destruct S1 as [-> ->], S2 as [-> ->].
      destruct (swap_right_perm P1 P2 old new H B) as [X ->]. simpl; auto.
    - destruct (swap_right_perm P1 P2 old new H B) as [X Y].
      rewrite (paired_perm P1 P2) in S1; auto.
      destruct (s_are_paired eL eR P2 expected old); destruct S1 as [-> ->], S2 as [-> ->];
        rewrite ?Y; simpl; auto.
    - destruct (swap_right_perm P1 P2 old new H B) as [X Y].
      rewrite (contains_r_perm P1 P2) in S1; auto.
      destruct (s_contains_right eR P2 old); destruct S1 as [-> ->], S2 as [-> ->].
      + rewrite ?Y; simpl; auto.
      + rewrite (contains_r_perm (del_l eL P1 to_insert) (del_l eL P2 to_insert)), (find_l_perm P1 P2); auto.
        split; [apply insert_perm; auto|]. simpl.
        destruct (s_contains_right eR _ new); simpl; auto.
    - destruct S1 as [-> ->], S2 as [-> ->]. simpl. rewrite (paired_perm P1 P2); auto.
    - destruct S1 as [-> ->], S2 as [-> ->]. simpl. unfold s_is_left_paired.
      rewrite (existsb_perm _ _ _ H); auto.
    - destruct S1 as [-> ->], S2 as [-> ->]. simpl. unfold s_is_right_paired.
      rewrite (existsb_perm _ _ _ H); auto.
    - destruct S1 as [-> ->], S2 as [-> ->]. simpl. rewrite (contains_l_perm P1 P2); auto.
    - destruct S1 as [-> ->], S2 as [-> ->]. simpl. rewrite (contains_r_perm P1 P2); auto.
    - destruct S1 as [-> ->], S2 as [-> ->]. simpl. unfold s_get_left.
      rewrite (find_r_perm P1 P2); auto.
    - destruct S1 as [-> ->], S2 as [-> ->]. simpl. unfold s_get_right.
      rewrite (find_l_perm P1 P2); auto.
    - destruct S1 as [-> ->], S2 as [-> ->]. simpl. rewrite (Permutation_length (lefts_perm _ _ H)); auto.
    - destruct S1 as [-> ->], S2 as [-> ->]. simpl. rewrite (Permutation_length (rights_perm _ _ H)); auto.
    - destruct S1 as [-> ->], S2 as [-> ->]. simpl. split; auto.
      destruct P1, P2; auto; apply Permutation_length in H; discriminate.
    - destruct S1 as (-> & Q1 & A & ->), S2 as (-> & Q2 & A' & ->). simpl. split; auto.
      rewrite A, A'. apply filter_perm; auto.
    - destruct S1 as (-> & Q1 & A & ->), S2 as (-> & Q2 & A' & ->). simpl. split; auto.
      rewrite A, A'. apply Permutation_flat_map; auto.
    - destruct S1 as (-> & Q1 & A & ->), S2 as (-> & Q2 & A' & ->). simpl. split; auto.
      rewrite A, A'. apply filter_perm; auto.
    - destruct S1 as (-> & Q1 & A & ->), S2 as (-> & Q2 & A' & ->). simpl. split; auto.
      rewrite A, A'. apply lefts_perm; auto.
    - destruct S1 as (-> & Q1 & A & ->), S2 as (-> & Q2 & A' & ->). simpl. split; auto.
      rewrite A, A'. apply rights_perm; auto.
    - destruct S1 as [-> ->], S2 as [-> ->]. split; [|simpl; auto].
      clear B SP OF. revert P1 P2 H. induction xs as [|x xs IH]; simpl; intros; auto.
      apply IH. apply insert_perm; auto.
    - destruct S1 as [-> ->], S2 as [-> ->]. split; [|simpl; auto].
      clear B SP OF. revert P1 P2 H. induction xs as [|x xs IH]; simpl; intros; auto.
      apply IH. apply insert_entry_perm; auto.
    - destruct OF as (p & Hp). destruct S1 as (Q1 & A & S1), S2 as (Q2 & A' & S2).
      destruct (s_filter_pure f p Hp Q1 x) as (x1 & F1), (s_filter_pure f p Hp Q2 x) as (x2 & F2).
      rewrite F1 in S1. rewrite F2 in S2. destruct S1 as [-> ->], S2 as [-> ->]. simpl.
      split; auto. apply Permutation_app; [|apply filter_perm; auto].
      apply filter_perm. rewrite A, A'. apply filter_perm; auto.
    - destruct OF as (p & Hp). destruct S1 as (Q1 & A & S1), S2 as (Q2 & A' & S2).
      destruct (s_filter_pure f p Hp Q1 x) as (x1 & F1), (s_filter_pure f p Hp Q2 x) as (x2 & F2).
      rewrite F1 in S1. rewrite F2 in S2. destruct S1 as [-> ->], S2 as [-> ->]. simpl.
      split; auto. apply Permutation_app; [|apply filter_perm; auto].
      apply Permutation_map, filter_perm. rewrite A, A'. apply Permutation_flat_map; auto.
    - destruct OF as (p & Hp). destruct S1 as (Q1 & A & S1), S2 as (Q2 & A' & S2).
      destruct (s_filter_pure f p Hp Q1 x) as (x1 & F1), (s_filter_pure f p Hp Q2 x) as (x2 & F2).
      rewrite F1 in S1. rewrite F2 in S2. destruct S1 as [-> ->], S2 as [-> ->]. simpl.
      split; auto. apply Permutation_app; [|apply filter_perm; auto].
      apply filter_perm. rewrite A, A'. apply filter_perm; auto.
    - destruct S1 as (-> & Q1 & y1 & A & I1 & N1 & ->), S2 as (-> & Q2 & y2 & A' & I2 & N2 & ->).
      split; auto.
      assert (PQ : Permutation Q1 Q2) by (rewrite A, A'; apply filter_perm; auto).
      assert (LN : length (Q1 ++ y1) = length (Q2 ++ y2)).
      { rewrite !app_length, N1, N2, (Permutation_length PQ).
        rewrite (Permutation_length (filter_perm (fun e => negb (has_left_item e)) _ _ H)). auto. }
      destruct (items_len _ _ n LN) as [X Y]. cbv zeta in X, Y.
      cbn [same_out]. split; auto. split; [exact X|]. split; [exact Y|]. clear X Y.
      intros I.
      assert (I2' : In None (firstn n (map Some (Q2 ++ y2)) ++ repeat None (n - length (Q2 ++ y2)))).
      { assert (n - length (Q1 ++ y1) <> 0)%nat.
        { intros Z. rewrite (shown_none _ _ I), Z in I. simpl in I. rewrite app_nil_r in I.
          apply in_map_iff in I as (? & ? & _). discriminate. }
        rewrite <- LN. apply in_or_app. right.
        destruct (n - length (Q1 ++ y1))%nat; [congruence|left; auto]. }
      rewrite (shown_none _ _ I), (shown_none _ _ I2').
      assert (ZZ : forall Q y j, (forall e, In e Q -> has_left_item e = true) ->
                (forall e, In e y -> has_left_item e = false) ->
                filter some_left (map Some (Q ++ y) ++ repeat None j) = map Some Q).
      { intros Q y j HQ Hy. rewrite map_app, !filter_app, filter_all_true, !filter_all_false.
        - rewrite !app_nil_r. auto.
        - intros z Hz. apply repeat_spec in Hz. subst; auto.
        - intros z Hz. apply in_map_iff in Hz as (e & <- & He). simpl. auto.
        - intros z Hz. apply in_map_iff in Hz as (e & <- & He). simpl. auto. }
      rewrite !ZZ; [apply Permutation_map; auto| | | |].
      + intros e He. apply (Permutation_in _ A') in He. apply filter_In in He. apply He.
      + intros e He. apply I2 in He. apply filter_In in He as [_ He]. apply negb_true_iff in He. auto.
      + intros e He. apply (Permutation_in _ A) in He. apply filter_In in He. apply He.
      + intros e He. apply I1 in He. apply filter_In in He as [_ He]. apply negb_true_iff in He. auto.
    - destruct OF as (-> & p & Hp).
      destruct S1 as (Q1 & W1 & A & A1 & S1), S2 as (Q2 & W2 & A' & A2 & S2).
      assert (G : forall P, Permutation P1 P -> forall l r, In (SomeBoth l r) P -> p (SomeRight r) = false).
      { intros P PM l r I. destruct (p (SomeRight r)) eqn:PR; auto. exfalso.
        apply (SP x l r); [eapply Permutation_in; [symmetry; exact PM|auto]|]. rewrite Hp, PR. auto. }
      destruct (visits_result f p x P1 Q1 W1 Hp B A A1 (G P1 (Permutation_refl _))) as (z1 & t1 & o1 & F1 & T1 & K1).
      destruct (visits_result f p x P2 Q2 W2 Hp) as (z2 & t2 & o2 & F2 & T2 & K2); auto.
      { eapply (pb_permute eL eR EL ER); eauto. }
      { eapply G; eauto. }
      rewrite F1 in S1. rewrite F2 in S2. cbn [andb] in S1, S2. destruct S1 as [-> ->], S2 as [-> ->].
      split; [rewrite K1, K2; apply filter_perm; auto|].
      assert (PT : Permutation (map shown t1) (map shown t2)) by (rewrite T1, T2; apply filter_perm; auto).
      rewrite <- (map_length shown t1), <- (map_length shown t2).
      destruct (items_len _ _ n (Permutation_length PT)) as [X1 Y1]. cbv zeta in X1, Y1.
      cbn [same_out]. split; auto. split; [exact X1|]. split; [exact Y1|]. clear X1 Y1.
      intros I. rewrite <- (Permutation_length PT). apply Permutation_app_tail.
      rewrite (shown_none _ _ I).
      assert (n - length (map shown t1) <> 0)%nat.
      { intros Z. rewrite (shown_none _ _ I), Z in I. simpl in I. rewrite app_nil_r in I.
        apply in_map_iff in I as (? & ? & _). discriminate. }
      rewrite firstn_all2 by (rewrite map_length; rewrite <- (Permutation_length PT); lia).
      apply Permutation_map; auto.
    - destruct S1 as [-> ->], S2 as [-> ->]. simpl; auto.
    - destruct S1 as [-> ->], S2 as [-> ->]. simpl; auto.
    - destruct S1 as [-> ->], S2 as [-> ->]. simpl; auto.
    - destruct S1 as [-> ->], S2 as [-> ->]. simpl; auto.
    - destruct S1 as [-> ->], S2 as [-> ->]. simpl; auto.
    - destruct S1 as [-> ->], S2 as [-> ->]. simpl; auto.
    - destruct S1 as [-> ->], S2 as [-> ->]. simpl; auto.
    - destruct S1 as (-> & b1 & ->), S2 as (-> & b2 & ->). split; simpl; auto.
    - destruct S1 as (-> & b1 & ->), S2 as (-> & b2 & ->). split; simpl; auto.
  Qed.

  Lemma guard_spares : forall s c m P o, Repr E s c m P -> guard E m o -> spares P o.
  Proof.
    intros s c m P o H G. destruct o; simpl in *; auto. intros y l r I.
    destruct (iter_all_ok E OK s c m P H) as (Q & HQ & PQ). apply (G Q y l r HQ).
    eapply Permutation_in; [symmetry; exact PQ|]. apply filter_In. auto.
  Qed.
End Det.

(* Two environments with the same Eq but otherwise unrelated: hasher types, hash functions,
   hashbrown layouts, overflow checks. *)
Theorem C45_hash_independence :
  forall {L R S1 S2 : Type} (E1 : env L R S1) (E2 : env L R S2) s1 s2 ll1 lr1 ll2 lr2 ops,
    lawful E1 -> lawful E2 ->
    eqL E1 = eqL E2 -> eqR E1 = eqR E2 ->
    Forall order_free ops -> budget ops < two64 ->
    guarded E1 (with_hasher s1 ll1 lr1) ops -> guarded E2 (with_hasher s2 ll2 lr2) ops ->
    let (m1, ws1) := run E1 (with_hasher s1 ll1 lr1) ops in
    let (m2, ws2) := run E2 (with_hasher s2 ll2 lr2) ops in
    (* the same results *)
    Forall2 (fun o ww => same_out o (fst ww) (snd ww)) ops (combine ws1 ws2) /\
    length ws1 = length ops /\ length ws2 = length ops /\
    (* the same entries *)
    (exists P1 P2, contents E1 m1 P1 /\ contents E2 m2 P2 /\ Permutation P1 P2).
Proof.
  intros L R S1 S2 E1 E2 s1 s2 ll1 lr1 ll2 lr2 ops OK1 OK2 HL HR.
  assert (G : forall ops c1 c2 m1 m2 P1 P2, Repr E1 s1 c1 m1 P1 -> Repr E2 s2 c2 m2 P2 ->
    Permutation P1 P2 -> Forall order_free ops -> c1 + budget ops < two64 -> c2 + budget ops < two64 ->
    guarded E1 m1 ops -> guarded E2 m2 ops ->
    Forall2 (fun o ww => same_out o (fst ww) (snd ww)) ops
            (combine (snd (run E1 m1 ops)) (snd (run E2 m2 ops))) /\
    length (snd (run E1 m1 ops)) = length ops /\ length (snd (run E2 m2 ops)) = length ops /\
    exists P1 P2, contents E1 (fst (run E1 m1 ops)) P1 /\ contents E2 (fst (run E2 m2 ops)) P2 /\
                  Permutation P1 P2).
  { clear ops. induction ops as [|o ops IH]; intros c1 c2 m1 m2 P1 P2 H1 H2 PM OF B1 B2 G1 G2.
    - simpl. repeat split; auto.
      destruct (view E1 OK1 _ _ _ _ H1) as (Q1 & V1 & X1).
      destruct (view E2 OK2 _ _ _ _ H2) as (Q2 & V2 & X2).
      exists Q1, Q2. repeat split; auto. rewrite X1, X2. auto.
    - cbn [budget guarded] in *. inversion OF as [|? ? OF1 OF2]; subst.
      destruct G1 as [G1 G1'], G2 as [G2 G2'].
      destruct (step_ok E1 OK1 s1 c1 m1 P1 o H1) as (P1' & c1' & T1 & H1' & C1); [lia|auto|].
      destruct (step_ok E2 OK2 s2 c2 m2 P2 o H2) as (P2' & c2' & T2 & H2' & C2); [lia|auto|].
      rewrite <- HL, <- HR in T2.
      destruct (s_step_det E1 OK1 o P1 P2 P1' P2' _ _ OF1 (guard_spares E1 OK1 _ _ _ _ _ H1 G1)
                  (repr_bij _ _ _ _ _ H1) PM T1 T2) as [PM' SO].
      cbn [run]. destruct (step E1 m1 o) as [m1' w1], (step E2 m2 o) as [m2' w2].
      cbn [fst snd] in *.
      destruct (IH c1' c2' m1' m2' P1' P2') as (A & A1 & A2 & A3); auto; [lia|lia|].
      destruct (run E1 m1' ops) as [m1'' ws1], (run E2 m2' ops) as [m2'' ws2].
      cbn [fst snd combine length] in *. repeat split; auto. }
  intros OF B G1 G2.
  specialize (G ops 0 0 _ _ [] [] (new_ok E1 s1 ll1 lr1) (new_ok E2 s2 ll2 lr2)
                (Permutation_refl _) OF B B G1 G2).
  destruct (run E1 _ ops), (run E2 _ ops). exact G.
Qed.

(* ---- no internal unwrap fails ---- a call panics only when a closure passed to it does, or
   in swap_left_or_insert / swap_right_or_insert with the arguments described in C36. *)
Definition may_panic {L R S} (E : env L R S) (m : pmap L R S) (o : op L R) : Prop :=
  match o with
  | SwapLeftOrInsert old new _ => contains_left E m old = false /\ contains_left E m new = true
  | SwapRightOrInsert old new _ => contains_right E m old = false /\ contains_right E m new = true
  | Retain X f _ | RetainUnpaired X f _ | DrainFilter X f _ _ _ => exists y e, snd (f y e) = None
  | RetainPaired X f _ => exists y e, snd (f y e) = None
  | _ => False
  end.
Definition panicked {L R} (w : out L R) : Prop := w = OPanic \/ exists a, w = OItems a true.

Section NoPanic.
  Context {L R S : Type}.
  Variable E : env L R S.
  Hypothesis OK : lawful E.

  Lemma s_filter_panicked : forall {T X} (f : X -> T -> X * verdict) l x x' yes no,
    s_filter f x l = (x', yes, no, true) -> exists y e, In e l /\ snd (f y e) = None.
  Proof.
    induction l as [|e l IH]; simpl; intros x x' yes no F; [discriminate|].
    destruct (f x e) as [x1 [b|]] eqn:FE.
    - destruct (s_filter f x1 l) as [[[x2 y2] n2] pn] eqn:F2. 
      destruct b; inversion F; subst; destruct (IH _ _ _ _ F2) as (y & e' & I & Q); eauto.
    - exists x, e. rewrite FE. auto.
  Qed.
  Lemma on_visit_none : forall {X} (f : X -> optional_pair L R -> X * verdict) y v,
    snd (on_visit (eqR E) f y v) = None -> exists y e, snd (f y e) = None.
  Proof.
    intros X f y v H. destruct v as [e|e]; simpl in H.
    - destruct (f (fst y) e) as [x1 b] eqn:F. simpl in H. subst b. exists (fst y), e. rewrite F. auto.
    - destruct (op_get_right e) as [r|]; [|discriminate].
      destruct (existsb _ _); [discriminate|].
      destruct (f (fst y) (SomeRight r)) as [x1 b] eqn:F. simpl in H. subst b.
      exists (fst y), (SomeRight r). rewrite F. auto.
  Qed.

  Theorem C45_no_panic : forall room m o, reachable E room m -> ids o <= room -> guard E m o ->
    panicked (snd (step E m o)) -> may_panic E m o.
  Proof.
    intros room m o H B G PN. apply (reachable_repr E OK) in H as (s & c & P & H & C).
    destruct (step_ok E OK s c m P o H) as (P' & c' & T & _); [lia|auto|].
    assert (W : snd (step E m o) = OPanic \/ exists a, snd (step E m o) = OItems a true) by exact PN.
    revert T W. generalize (snd (step E m o)) as w. intros w T W.
    destruct o; simpl in T; simpl;
      repeat match goal with
      | X : (_ /\ _) |- _ => destruct X
      | X : (exists _, _) |- _ => destruct X
      end; subst; try (destruct W as [W|(? & W)]; discriminate).
    - destruct (s_are_paired _ _ _ _ _); destruct T; subst; destruct W as [W|(? & W)]; discriminate.
    - rewrite !(contains_left_spec E OK _ _ _ _ _ H).
      destruct (s_contains_left (eqL E) P old); destruct T; subst.
      + destruct W as [W|(? & W)]; discriminate.
      + destruct (s_contains_left (eqL E) P new); auto. destruct W as [W|(? & W)]; discriminate.
    - destruct (s_are_paired _ _ _ _ _); destruct T; subst; destruct W as [W|(? & W)]; discriminate.
    - rewrite !(contains_right_spec E OK _ _ _ _ _ H).
      destruct (s_contains_right (eqR E) P old); destruct T; subst.
      + destruct W as [W|(? & W)]; discriminate.
      + destruct (s_contains_right (eqR E) (del_l (eqL E) P to_insert) new) eqn:CR.
        * split; auto. apply contains_r_iff in CR as (e & I & Q). apply filter_In in I as [I _].
          apply contains_r_iff. eauto.
        * destruct W as [W|(? & W)]; discriminate.
    - destruct (s_filter f x _) as [[[x' yes] no] pn] eqn:F. destruct pn.
      + apply s_filter_panicked in F as (y & e & _ & Q). eauto.
      + destruct H1; subst. destruct W as [W|(? & W)]; discriminate.
    - destruct (s_filter f x _) as [[[x' yes] no] pn] eqn:F. destruct pn.
      + apply s_filter_panicked in F as (y & e & _ & Q). eauto.
      + destruct H1; subst. destruct W as [W|(? & W)]; discriminate.
    - destruct (s_filter f x _) as [[[x' yes] no] pn] eqn:F. destruct pn.
      + apply s_filter_panicked in F as (y & e & _ & Q). eauto.
      + destruct H1; subst. destruct W as [W|(? & W)]; discriminate.
    - destruct (s_filter (on_visit (eqR E) f) _ _) as [[[x' yes] no] pn] eqn:F. destruct pn.
      + apply s_filter_panicked in F as (y & e & _ & Q). eapply on_visit_none; eauto.
      + cbn [andb] in H2. destruct leak; destruct H2; subst; destruct W as [W|(? & W)]; discriminate.
  Qed.
End NoPanic.

(* The same history with colliding and with well-separated hashes. *)
Definition p_hist3 : list (op item item) :=
  [Extend [SomeBoth (it 1) (it 10); SomeLeft (it 2); SomeBoth (it 129) (it 30); SomeRight (it 40)];
   SwapLeft (it' 1) (it 129); Pair (it 129) (it 40); Insert (it 7) (it 70);
   Unpair (it 7) (it' 70); PairForced (it 2) (it 10); IterUnpairedAll;
   DrainFilter unit (fun _ e => (tt, Some (match e with SomeLeft _ | SomeRight (70, _) => true | _ => false end)))
     tt 4 false; GetLeft (it 10); DrainN 3].
Lemma p_hist3_guards : guarded env_collide (with_hasher 7 0 0) p_hist3 /\
                       guarded env_spread (with_hasher 1 5 6) p_hist3.
Proof.
  split.
  - do 4 (split; [exact I|]). split; [intros a b A; vm_compute in A; inversion A; subst;
      intros; vm_compute; reflexivity|]. do 2 (split; [exact I|]).
    split; [|split; [exact I|split; exact I]].
    intros Q y l r HQ. vm_compute in HQ. inversion HQ; subst. clear HQ. simpl.
    intros HI. repeat destruct HI as [HI|HI]; inversion HI; subst; simpl; discriminate.
  - do 4 (split; [exact I|]). split; [intros a b A; vm_compute in A; inversion A; subst;
      intros; vm_compute; reflexivity|]. do 2 (split; [exact I|]).
    split; [|split; [exact I|split; exact I]].
    intros Q y l r HQ. vm_compute in HQ. inversion HQ; subst. clear HQ. simpl.
    intros HI. repeat destruct HI as [HI|HI]; inversion HI; subst; simpl; discriminate.
Qed.
Example C45_case : Forall order_free p_hist3 /\ budget p_hist3 < two64 /\
  snd (run env_collide (with_hasher 7 0 0) p_hist3) <> snd (run env_spread (with_hasher 1 5 6) p_hist3) /\
  snd (run env_spread (with_hasher 1 5 6) p_hist3) =
  [OUnit; OSwapL (SomeBoth (it 1) (SomeBoth (it 129) (it 30))); OBool false;
   OIns (Neither, Neither); OBool true; OEntry (SomeLeft (it 129));
   OEntries [SomeLeft (it 7); SomeLeft (it 129); SomeRight (it 70); SomeRight (it 40)];
   OItems [Some (SomeLeft (it 7)); Some (SomeLeft (it 129)); Some (SomeRight (it 70)); None] false;
   OL (Some (it 2)); OItems [Some (SomeBoth (it 2) (it 10)); Some (SomeRight (it 40)); None] false].
Proof.
  split; [repeat constructor; eexists; intros; reflexivity|].
  split; [vm_compute; reflexivity|]. split; [vm_compute; discriminate|vm_compute; reflexivity].
Qed.
Print Assumptions C45_hash_independence.
Print Assumptions C45_no_panic.
