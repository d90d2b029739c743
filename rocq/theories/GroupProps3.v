(* GroupMap: properties C57, C58, C60, C68, C69.  Vocabulary as in GroupProps.v. *)
From Coq Require Import List NArith Lia Bool Permutation PeanoNat.
From Verif Require Import Closures Prelude RawTable GroupMap ListFacts TableFacts GroupSpec GroupHistory
  IterFacts GroupProofs GroupProofs2 GroupProofs3 GroupProofs4 GroupProofs5 GroupProofs6
  GroupHistoryProofs Concrete GroupProps.
Import ListNotations.
Open Scope N_scope.

(* an injection into a list that is not longer is onto *)
Lemma embed_onto : forall {A} (e : A -> A -> bool), equivalence e -> forall l l', distinct e l ->
  (forall x, In x l -> exists y, In y l' /\ e x y = true) -> (length l' <= length l)%nat ->
  forall y, In y l' -> exists x, In x l /\ e x y = true.
Proof.
  intros A e EQ l l' D H LE y Hy. destruct (existsb (fun x => e x y) l) eqn:X.
  - apply existsb_exists in X as (x & H1 & H2). eauto.
  - exfalso. rewrite existsb_false in X. destruct (perm_in_cons _ _ Hy) as (l2 & P).
    assert (LL : (length l <= length l2)%nat).
    { apply (distinct_embed_length e EQ); auto. intros x Hx. destruct (H x Hx) as (z & Hz & Q).
      apply (Permutation_in _ P) in Hz as [->|Hz]; [|eauto]. rewrite (X x Hx) in Q. discriminate. }
    apply Permutation_length in P. simpl in P. lia.
Qed.

Section Props3.
  Context {L R S : Type} (E : env L R S) (OK : lawful E).
  Notation "a =L b" := (eqL E a b = true) (at level 70).
  Notation "a =R b" := (eqR E a b = true) (at level 70).
  Notation Repr := (Repr E).
  Notation isl l := (fun p => eqL E l (fst p)).
  Let EL := eqL_equiv _ OK.
  Let ER := eqR_equiv _ OK.

  Ltac start H :=
    let s := fresh "s" in let lc := fresh "lc" in let rc := fresh "rc" in let G := fresh "G" in
    let H' := fresh "H" in let B1 := fresh "B1" in let B2 := fresh "B2" in
    let rs := fresh "rs" in let ps := fresh "ps" in let V := fresh "V" in
    apply (reachable_repr E OK) in H as (s & lc & rc & G & H' & B1 & B2);
    apply (view E OK) in H' as (rs & ps & V & _ & _ & H); clear G.

  (* ---- C57 ---- *)
  (* the same groups up to Eq *)
  Definition alike (m m' : gmap L R S) : Prop :=
    (forall r, contains_right E m r = contains_right E m' r) /\
    (forall l r, are_paired E m l r = are_paired E m' l r).

  (* What == tests: see the iff.  It is right in one direction, and in the other if both sides
     have the same numbers of items and all right items of a are in b.
     Missing: the rest of the other direction ([C57_*_refuted]). *)
  Theorem C57_equality_partial : forall room room' m m', reachable E room m -> reachable E room' m' ->
    exists rs ps b, holds E m rs ps /\ map_eq E m m' = Done b /\
      (b = true <->
         (len_left m = len_left m' \/ len_right m = len_right m') /\
         (forall l r, In (l, r) ps -> are_paired E m' l r = true) /\
         (forall r, In r (lonely E rs ps) -> is_right_paired E m' r = false)) /\
      (alike m m' -> b = true) /\
      (b = true -> len_left m = len_left m' -> len_right m = len_right m' ->
         (forall r, contains_right E m r = true -> contains_right E m' r = true) -> alike m m').
  Proof.
    intros room room' m m' H H'. start H. start H'.
    rename s0 into s', rs0 into rs', ps0 into ps', V0 into V'.
    assert (AN := answers_repr E OK _ _ _ _ _ _ _ H).
    assert (AN' := answers_repr E OK _ _ _ _ _ _ _ H').
    assert (GR := repr_grouping E _ _ _ _ _ _ H). assert (GR' := repr_grouping E _ _ _ _ _ _ H').
    assert (CL := tame_all_clean E OK _ _ _ _ _ _ H). assert (CL' := tame_all_clean E OK _ _ _ _ _ _ H').
    assert (LK := tame_all_linked E OK _ _ _ _ _ _ H).
    assert (ME := map_eq_ok E OK _ _ _ _ _ _ _ _ _ _ _ _ H LK CL H' CL'). cbn [g_pairs g_rights] in ME.
    exists rs, ps. eexists. split; [exact V|]. split; [exact ME|].
    match goal with |- (?b = true <-> ?C) /\ _ => assert (CH : b = true <-> C) end.
    { rewrite (an_len_left _ _ _ _ AN), (an_len_left _ _ _ _ AN'),
        (an_len_right _ _ _ _ AN), (an_len_right _ _ _ _ AN').
      rewrite <- (Nat.eqb_eq (length ps)), <- (Nat.eqb_eq (length rs)).
      destruct (Nat.eqb (length ps) (length ps')), (Nat.eqb (length rs) (length rs')); cbn [negb andb];
        try (split; [discriminate|intros [[X|X] _]; discriminate]);
      (rewrite forallb_forall; unfold s_items, s_eq_item; cbn [g_pairs]; split;
        [intros X; split; [auto|]; split;
          [intros l r HI;
           specialize (X (Some l, r)); cbn [fst snd] in X;
           rewrite (are_paired_ok E OK _ _ _ _ _ _ l r H'); apply X;
           apply in_or_app; left; apply in_map_iff; exists (l, r); auto
          |intros r HI; specialize (X (None, r)); cbn [fst snd] in X;
           rewrite (is_right_paired_ok E OK _ _ _ _ _ _ r H' (CL' r)); apply negb_true_iff, X;
           apply in_or_app; right; apply in_map_iff; exists r; split; auto;
           rewrite <- (lonely_unpaired E) in HI; exact HI]
        |intros (_ & X1 & X2) [o r] HI; apply in_app_or in HI as [HI|HI]; apply in_map_iff in HI;
          [destruct HI as ([a b] & Q & HI); inversion Q; subst; cbn [fst snd];
           rewrite <- (are_paired_ok E OK _ _ _ _ _ _ a r H'); auto
          |destruct HI as (b & Q & HI); inversion Q; subst; cbn [fst snd];
           rewrite <- (is_right_paired_ok E OK _ _ _ _ _ _ r H' (CL' r)); apply negb_true_iff, X2;
           rewrite <- (lonely_unpaired E); exact HI]]). }
    split; [exact CH|]. split.
    - intros [A1 A2]. apply CH. rewrite (an_len_left _ _ _ _ AN), (an_len_left _ _ _ _ AN').
      assert (XX : forall l r, In (l, r) ps -> are_paired E m' l r = true).
      { intros l r HI. rewrite <- A2. apply (an_are_paired _ _ _ _ AN). exists l, r.
        rewrite (equiv_refl _ EL), (equiv_refl _ ER). auto. }
      assert (YY : forall l r, In (l, r) ps' -> are_paired E m l r = true).
      { intros l r HI. rewrite A2. apply (an_are_paired _ _ _ _ AN'). exists l, r.
        rewrite (equiv_refl _ EL), (equiv_refl _ ER). auto. }
      split; [left|split; [exact XX|]].
      + rewrite <- (map_length fst ps), <- (map_length fst ps').
        apply Nat.le_antisymm; apply (distinct_embed_length _ EL); try apply GR; try apply GR';
          intros l HI; apply in_map_iff in HI as ([a b] & <- & HI).
        * apply XX in HI. apply (an_are_paired _ _ _ _ AN') in HI as (a' & b' & HI & Q & _).
          exists a'. split; auto. apply in_map_iff. exists (a', b'). auto.
        * apply YY in HI. apply (an_are_paired _ _ _ _ AN) in HI as (a' & b' & HI & Q & _).
          exists a'. split; auto. apply in_map_iff. exists (a', b'). auto.
      + intros r HI. destruct (is_right_paired E m' r) eqn:P; auto. exfalso.
        apply (an_is_right_paired _ _ _ _ AN') in P as (a & b & HI' & Q).
        assert (Z : are_paired E m a r = true).
        { rewrite A2. apply (an_are_paired _ _ _ _ AN'). exists a, b. rewrite (equiv_refl _ EL). auto. }
        apply (an_are_paired _ _ _ _ AN) in Z as (a' & b' & HI2 & Q1 & Q2).
        unfold lonely, lefts_of in HI. apply filter_In in HI as [_ HI].
        assert (IN : In a' (map fst (filter (fun p => eqR E r (snd p)) ps))).
        { apply in_map_iff. exists (a', b'). split; auto. apply filter_In. auto. }
        destruct (map fst (filter (fun p => eqR E r (snd p)) ps)); [destruct IN|discriminate].
    - intros B LL LR CR. apply CH in B as (_ & X1 & X2).
      rewrite (an_len_left _ _ _ _ AN), (an_len_left _ _ _ _ AN') in LL.
      rewrite (an_len_right _ _ _ _ AN), (an_len_right _ _ _ _ AN') in LR.
      assert (ON := embed_onto _ ER rs rs' (proj1 (proj2 GR))). specialize (ON).
      assert (IR : forall x, In x rs -> exists y, In y rs' /\ x =R y).
      { intros x Hx. assert (C : contains_right E m x = true).
        { apply (an_contains_right _ _ _ _ AN). exists x. rewrite (equiv_refl _ ER). auto. }
        apply CR in C. apply (an_contains_right _ _ _ _ AN') in C. exact C. }
      assert (IP : forall x, In x (map fst ps) -> exists y, In y (map fst ps') /\ x =L y).
      { intros x Hx. apply in_map_iff in Hx as ([a b] & <- & HI). apply X1 in HI.
        apply (an_are_paired _ _ _ _ AN') in HI as (a' & b' & HI & Q & _). exists a'. split; auto.
        apply in_map_iff. exists (a', b'). auto. }
      assert (OL := embed_onto _ EL (map fst ps) (map fst ps') (proj1 GR) IP).
      rewrite !map_length in OL. specialize (OL ltac:(lia)). specialize (ON IR ltac:(lia)).
      split.
      + intros r. apply eq_true_iff_eq. split; [apply CR|]. intros C.
        apply (an_contains_right _ _ _ _ AN') in C as (b & HI & Q).
        destruct (ON b HI) as (x & Hx & Q'). apply (an_contains_right _ _ _ _ AN). exists x. split; auto.
        rewrite (eqb_replace_l _ ER _ _ _ Q). apply (equiv_sym _ ER); auto.
      + intros l r. apply eq_true_iff_eq. split; intros C.
        * apply (an_are_paired _ _ _ _ AN) in C as (a & b & HI & Q1 & Q2). apply X1 in HI.
          apply (an_are_paired _ _ _ _ AN') in HI as (a' & b' & HI & Q3 & Q4).
          apply (an_are_paired _ _ _ _ AN'). exists a', b'. split; auto.
          rewrite (eqb_replace_l _ EL _ _ _ Q1), (eqb_replace_l _ ER _ _ _ Q2). auto.
        * apply (an_are_paired _ _ _ _ AN') in C as (a & b & HI & Q1 & Q2).
          destruct (OL a) as (x & Hx & Q3); [apply in_map_iff; exists (a, b); auto|].
          apply in_map_iff in Hx as ([x' b2] & <- & HI2). simpl in Q3. rename x' into x.
          assert (HI3 := X1 _ _ HI2).
          apply (an_are_paired _ _ _ _ AN') in HI3 as (a' & b' & HI3 & Q4 & Q5).
          assert (QQ : (a', b') = (a, b)).
          { apply (pairs_unique E OK rs' ps'); auto. simpl.
            rewrite <- (eqb_replace_l _ EL _ _ _ Q4). auto. }
          inversion QQ; subst. apply (an_are_paired _ _ _ _ AN). exists x, b2. split; auto.
          split; [rewrite (eqb_replace_l _ EL _ _ _ Q1); apply (equiv_sym _ EL); auto|].
          rewrite (eqb_replace_l _ ER _ _ _ Q2). apply (equiv_sym _ ER); auto.
  Qed.
  Theorem C57_reflexive : forall room m, reachable E room m -> map_eq E m m = Done true.
  Proof.
    intros room m H. assert (H0 := H).
    destruct (C57_equality_partial room room m m H H0) as (_ & _ & b & _ & -> & _ & X & _).
    f_equal. apply X. split; auto.
  Qed.

  (* ---- C58 ---- *)
  (* who is paired with whom after an item list: the last word on l or r counts *)
  Definition last_word (l : L) (r : R) (b : bool) (x : option L * R) : bool :=
    match fst x with
    | Some l' => if eqL E l' l then eqR E (snd x) r else b
    | None => if eqR E (snd x) r then false else b
    end.

  Lemma s_are_paired_insert : forall G l r a b,
    s_are_paired (eqL E) (eqR E) (s_insert (eqL E) (eqR E) G l r) a b =
    if eqL E l a then eqR E r b else s_are_paired (eqL E) (eqR E) G a b.
  Proof.
    intros G l r a b. unfold s_are_paired at 1, s_insert. cbn [g_pairs existsb]. unfold is_l at 1, is_r at 1.
    cbn [fst snd].
    assert (QL : l =L stored_l (eqL E) G l).
    { unfold stored_l, find_l. destruct (find _ _) as [p|] eqn:F; [|apply (equiv_refl _ EL)].
      apply find_some in F. apply F. }
    assert (QR : r =R stored_r (eqR E) G r).
    { unfold stored_r, find_r. destruct (find _ _) as [p|] eqn:F; [|apply (equiv_refl _ ER)].
      apply find_some in F. apply F. }
    rewrite <- (eqb_replace_r _ EL _ _ a QL), <- (eqb_replace_r _ ER _ _ b QR).
    rewrite (eqb_sym _ EL a l), (eqb_sym _ ER b r).
    unfold del_l, s_are_paired. destruct (eqL E l a) eqn:Q; cbn [andb orb].
    - rewrite (proj2 (existsb_false _ _)); [apply orb_false_r|]. intros p Hp.
      apply filter_In in Hp as [_ Hp]. apply negb_true_iff in Hp. unfold is_l in *.
      rewrite <- (eqb_replace_l _ EL _ _ _ Q), Hp. auto.
    - induction (g_pairs G) as [|p t IH]; auto. cbn [filter existsb].
      destruct (is_l (eqL E) l p) eqn:X; cbn [negb existsb].
      + rewrite IH. unfold is_l in *. rewrite (eqb_sym _ EL a), <- (eqb_replace_l _ EL _ _ _ X), Q. auto.
      + rewrite IH. auto.
  Qed.
  Lemma s_are_paired_insert_right : forall G r a b,
    s_are_paired (eqL E) (eqR E) (s_insert_right (eqR E) G r) a b =
    if eqR E r b then false else s_are_paired (eqL E) (eqR E) G a b.
  Proof.
    intros G r a b. unfold s_are_paired, s_insert_right, s_remove_right. cbn [g_pairs].
    induction (g_pairs G) as [|p t IH]; cbn [filter existsb]; [destruct (eqR E r b); auto|].
    destruct (is_r (eqR E) r p) eqn:X; cbn [negb existsb]; rewrite IH; unfold is_r in *;
      destruct (eqR E r b) eqn:Q; auto.
    - rewrite (eqb_sym _ ER b), <- (eqb_replace_l _ ER _ _ _ X), Q, andb_false_r. auto.
    - rewrite <- (eqb_replace_l _ ER _ _ _ Q), X, andb_false_r. auto.
  Qed.
  Lemma s_are_paired_items : forall xs G a b,
    s_are_paired (eqL E) (eqR E) (fold_left (s_insert_item (eqL E) (eqR E)) xs G) a b =
    fold_left (last_word a b) xs (s_are_paired (eqL E) (eqR E) G a b).
  Proof.
    induction xs as [|[[l|] r] xs IH]; intros G a b; auto; cbn [fold_left]; rewrite IH; f_equal;
      unfold s_insert_item, last_word; cbn [fst snd].
    - apply s_are_paired_insert.
    - apply s_are_paired_insert_right.
  Qed.
  Lemma s_contains_right_items : forall xs (G : contents L R) b,
    s_contains_right (eqR E) (fold_left (s_insert_item (eqL E) (eqR E)) xs G) b =
    s_contains_right (eqR E) G b || existsb (fun x => eqR E b (snd x)) xs.
  Proof.
    induction xs as [|[[l|] r] xs IH]; intros G b; cbn [fold_left existsb snd]; [rewrite orb_false_r; auto| |];
      rewrite IH, orb_assoc; f_equal; unfold s_insert_item, s_contains_right; cbn [fst snd].
    - unfold s_insert. cbn [g_rights]. fold (s_contains_right (eqR E) G r).
      destruct (s_contains_right (eqR E) G r) eqn:C; cbn [existsb]; [|apply orb_comm].
      destruct (eqR E b r) eqn:Q; [|rewrite orb_false_r; auto]. rewrite orb_true_r.
      unfold s_contains_right in C. rewrite <- C. clear -Q ER.
      induction (g_rights G); cbn [existsb]; auto. rewrite IHl, (eqb_replace_l _ ER _ _ _ Q). auto.
    - unfold s_insert_right, s_remove_right. cbn [g_rights existsb]. rewrite orb_comm.
      destruct (eqR E b r) eqn:Q; [rewrite !orb_true_r; auto|]. rewrite !orb_false_r.
      induction (g_rights G) as [|c t IHt]; auto. cbn [filter existsb].
      destruct (eqR E r c) eqn:X; cbn [negb existsb]; rewrite IHt; auto.
      rewrite (eqb_sym _ ER b c), <- (eqb_replace_l _ ER _ _ _ X), (eqb_sym _ ER r b), Q. auto.
  Qed.
  Lemma no_panic_run : forall xs b s lc rc m (G : contents L R), Repr b s lc rc m G ->
    lc + N.of_nat (length xs) < two64 -> rc + N.of_nat (length xs) < two64 ->
    guarded E (loose1 E) m (map item_op xs) -> ~ In OPanic (snd (run E m (map item_op xs))).
  Proof.
    intros xs b s lc rc m G H B1 B2 GD.
    assert (BU : budget (map (@item_op L R) xs) = N.of_nat (length xs)).
    { clear. induction xs as [|[[l|] r] xs IH]; auto; cbn [map budget item_op fst ids length];
        rewrite IH, Nat2N.inj_succ; lia. }
    destruct (run_ok E OK (map item_op xs) b s lc rc m G) as (b' & G' & lc' & rc' & SR & _);
      rewrite ?BU; auto.
    { clear -GD. revert m GD. induction xs as [|[[l|] r] xs IH]; intros m GD; cbn in *; auto;
        (split; [apply GD|apply IH, GD]). }
    revert SR. generalize (snd (run E m (map item_op xs))). clear. revert G.
    induction xs as [|x xs IH]; intros G ws SR; inversion SR; subst; [intros []|].
    intros [Q|Q]; [|eapply IH; eauto]. subst w.
    match goal with X : s_step _ _ _ _ _ OPanic |- _ => rename X into Z end.
    unfold item_op in Z. destruct x as [[l|] r]; cbn in Z; destruct Z as [_ Z]; [discriminate|].
    destruct Z as (g & _ & Z). discriminate.
  Qed.

  (* extend is the sequence of insert / insert_right calls, none of which panics; a pair is
     there afterwards iff the last word about its items says so; no right item is lost *)
  Theorem C58_extend_partial : forall xs room m, reachable E (N.of_nat (length xs) + room) m ->
    guarded E (calm1 E) m (map item_op xs) ->
    exists m' ws, extend E xs m = Ret m' tt /\ run E m (map item_op xs) = (m', ws) /\ ~ In OPanic ws /\
      (forall l r, are_paired E m' l r = fold_left (last_word l r) xs (are_paired E m l r)) /\
      (forall r, contains_right E m' r = contains_right E m r || existsb (fun x => eqR E r (snd x)) xs) /\
      exists rs ps, holds E m' rs ps /\ answers E m' rs ps /\ follows E m' ps.
  Proof.
    intros xs room m H GD. start H.
    assert (GL := calm_loose_items E OK xs _ _ _ _ _ H ltac:(lia) ltac:(lia) GD).
    destruct (extend_ok E OK xs _ _ _ _ _ _ H ltac:(lia) ltac:(lia) GL) as (m' & lc' & rc' & X & H' & RN & _).
    exists m', (snd (run E m (map item_op xs))). split; [auto|].
    split; [rewrite RN; destruct (run E m (map item_op xs)); auto|].
    split; [eapply no_panic_run; eauto; lia|].
    split; [|split].
    - intros l r. rewrite (are_paired_ok E OK _ _ _ _ _ _ l r H'), (are_paired_ok E OK _ _ _ _ _ _ l r H).
      apply s_are_paired_items.
    - intros r. rewrite (contains_right_ok E OK _ _ _ _ _ _ r H'), (contains_right_ok E OK _ _ _ _ _ _ r H).
      apply s_contains_right_items.
    - destruct (view E OK _ _ _ _ _ _ H') as (rs' & ps' & V' & _ & _ & H2). exists rs', ps'.
      split; [auto|]. split; [eapply (answers_repr E OK); eauto|eapply (follows_repr E OK); eauto].
  Qed.
  (* in particular the last pair given for l decides *)
  Theorem C58_last_pair_partial : forall pre l r post room m,
    let xs := pre ++ (Some l, r) :: post in
    reachable E (N.of_nat (length xs) + room) m ->
    guarded E (calm1 E) m (map item_op xs) ->
    (forall l' r', In (Some l', r') post -> eqL E l' l = false) ->
    (forall r', In (None, r') post -> eqR E r' r = false) ->
    exists m' r0, extend E xs m = Ret m' tt /\ are_paired E m' l r = true /\
      get_right E m' l = Some r0 /\ r =R r0.
  Proof.
    intros pre l r post room m xs H GD N1 N2.
    destruct (C58_extend_partial xs room m H GD) as (m' & ws & X & _ & _ & AP & _ & rs & ps & V & AN & FO).
    assert (P : are_paired E m' l r = true).
    { rewrite AP. unfold xs. rewrite fold_left_app. cbn [fold_left]. unfold last_word at 2. cbn [fst snd].
      rewrite (equiv_refl _ EL), (equiv_refl _ ER). clear - N1 N2.
      assert (Y : forall b, fold_left (last_word l r) post b = b); [|apply Y].
      induction post as [|[[l'|] r'] t IH]; intros b; auto; cbn [fold_left]; unfold last_word at 2; cbn [fst snd].
      - rewrite (N1 l' r' (or_introl eq_refl)). apply IH; intros; [eapply N1|apply N2]; right; eauto.
      - rewrite (N2 r' (or_introl eq_refl)). apply IH; intros; [eapply N1|apply N2]; right; eauto. }
    assert (P' := P). apply (an_are_paired _ _ _ _ AN) in P' as (a & b & HI & Q1 & Q2).
    exists m', b. refine (conj X (conj P (conj _ Q2))). apply FO. eauto.
  Qed.
  (* any list, any map: extend stops at the first call that panics and is otherwise the
     sequence of calls *)
  Theorem C58_sequence : forall xs m, exists done rest, xs = done ++ rest /\
    ~ In OPanic (snd (run E m (map item_op done))) /\
    let m1 := fst (run E m (map item_op done)) in
    match rest with
    | [] => extend E xs m = Ret m1 tt
    | x :: _ => snd (step E m1 (item_op x)) = OPanic /\ extend E xs m = Panic (fst (step E m1 (item_op x)))
    end.
  Proof.
    induction xs as [|x xs IH]; intros m.
    - exists [], []. cbn. auto.
    - assert (Q : snd (step E m (item_op x)) = OPanic /\ extend E (x :: xs) m = Panic (fst (step E m (item_op x))) \/
                  snd (step E m (item_op x)) <> OPanic /\ extend E (x :: xs) m = extend E xs (fst (step E m (item_op x)))).
      { destruct x as [[l|] r]; cbn [extend item_op fst snd step]; mrun.
        - destruct (insert E l r m); cbn; [right|left]; split; auto; discriminate.
        - destruct (insert_right E r m); cbn; [right|left]; split; auto; discriminate. }
      destruct Q as [[W Q]|[W Q]].
      + exists [], (x :: xs). cbn [map run fst snd app]. split; auto.
      + destruct (IH (fst (step E m (item_op x)))) as (d & t & -> & NP & K). exists (x :: d), t.
        split; [auto|]. cbn [map run]. destruct (step E m (item_op x)) as [m1 w]. cbn [fst snd] in *.
        destruct (run E m1 (map item_op d)) as [m2 ws]. cbn [fst snd] in *.
        split; [intros [X|X]; auto|]. rewrite Q. exact K.
  Qed.
  Theorem C58_extend_pairs : forall xs m,
    extend_pairs E xs m = extend E (map (fun p => (Some (fst p), snd p)) xs) m /\
    forall s ll lr, from_iter_pairs E s ll lr xs = extend_pairs E xs (with_hasher s ll lr).
  Proof. intros. split; [apply extend_pairs_extend|auto]. Qed.

  (* ---- C60 ---- *)
  Theorem C60_clone : forall room m, reachable E room m ->
    map_eq E m (clone m) = Done true /\ map_eq E (clone m) m = Done true /\
    (forall ops, run E (clone m) ops = run E m ops) /\ reachable E room (clone m).
  Proof.
    intros room m H. rewrite clone_same. assert (RF := C57_reflexive room m H). auto.
  Qed.
  Theorem C60_clear : forall room m, reachable E room m ->
    exists m', clear E m = Ret m' tt /\ holds E m' [] [] /\ answers E m' [] [] /\ follows E m' [] /\
      is_empty m' = true.
  Proof.
    intros room m H. start H. destruct (clear_ok E _ _ _ _ _ _ H) as (m' & X & H').
    destruct (view E OK _ _ _ _ _ _ H') as (rs' & ps' & V' & P1 & P2 & _). cbn in P1, P2.
    symmetry in P1, P2. apply Permutation_nil in P1, P2. subst.
    exists m'. split; [auto|]. split; [auto|]. split; [eapply (answers_repr E OK); eauto|].
    split; [eapply (follows_repr E OK); eauto|].
    unfold is_empty. rewrite (len_left_ok E _ _ _ _ _ _ H'), (len_right_ok E _ _ _ _ _ _ H'). auto.
  Qed.
  Theorem C60_len : forall room m, reachable E room m ->
    exists rs ps, holds E m rs ps /\ len_left m = length ps /\ len_right m = length rs /\
      (is_empty m = true <-> (forall l, contains_left E m l = false) /\
                             (forall r, contains_right E m r = false)).
  Proof.
    intros room m H. start H. exists rs, ps. split; auto.
    split; [apply (len_left_ok E _ _ _ _ _ _ H)|]. split; [apply (len_right_ok E _ _ _ _ _ _ H)|].
    unfold is_empty. rewrite (len_left_ok E _ _ _ _ _ _ H), (len_right_ok E _ _ _ _ _ _ H).
    cbn [g_pairs g_rights]. rewrite Nat.eqb_eq. split.
    - intros Q. destruct ps; [|discriminate]. destruct rs; [|discriminate]. split; intros k.
      + rewrite (contains_left_ok E OK _ _ _ _ _ _ k H). auto.
      + rewrite (contains_right_ok E OK _ _ _ _ _ _ k H). auto.
    - intros [A A']. destruct rs as [|b rs].
      + destruct ps as [|p ps]; auto. exfalso. apply (repr_grouping E) in H as (_ & _ & LK).
        exact (LK p (or_introl eq_refl)).
      + exfalso. specialize (A' b). rewrite (contains_right_ok E OK _ _ _ _ _ _ b H) in A'.
        unfold s_contains_right in A'. cbn in A'. rewrite (equiv_refl _ ER) in A'. discriminate.
  Qed.

  (* ---- C69 ---- *)
  (* m behaves, now and in every calm history, as the plain lists rs and ps *)
  Definition behaves_as (room : N) (m : gmap L R S) (G : contents L R) : Prop :=
    forall ops, budget ops <= room -> guarded E (calm E) m ops ->
      exists G' rs' ps', s_run (eqL E) (eqR E) G ops G' (snd (run E m ops)) /\
        holds E (fst (run E m ops)) rs' ps' /\
        Permutation rs' (g_rights G') /\ Permutation ps' (g_pairs G').
  Theorem C69_history_refinement : forall room m, reachable E room m ->
    exists rs ps, holds E m rs ps /\ distinct (eqR E) rs /\ distinct (eqL E) (map fst ps) /\
      (forall p, In p ps -> In (snd p) rs) /\ behaves_as room m (GC rs ps).
  Proof.
    intros room m H. start H. exists rs, ps. split; auto.
    destruct (repr_grouping E _ _ _ _ _ _ H) as (D1 & D2 & D3).
    refine (conj D2 (conj D1 (conj D3 _))). intros ops B GD.
    destruct (run_calm E OK ops _ _ _ _ _ H) as (G' & lc' & rc' & SR & H' & _); auto; try lia.
    destruct (view E OK _ _ _ _ _ _ H') as (rs' & ps' & V' & P1 & P2 & _). exists G', rs', ps'. auto.
  Qed.
  (* from the constructor on; includes panics, which only closures cause *)
  Theorem C69_from_new : forall s ll lr ops, budget ops < two64 ->
    guarded E (calm E) (with_hasher s ll lr) ops ->
    exists G rs ps, s_run (eqL E) (eqR E) (GC [] []) ops G (snd (run E (with_hasher s ll lr) ops)) /\
      holds E (fst (run E (with_hasher s ll lr) ops)) rs ps /\
      Permutation rs (g_rights G) /\ Permutation ps (g_pairs G).
  Proof.
    intros s ll lr ops B GD.
    destruct (run_calm E OK ops s 0 0 _ _ (new_ok E s ll lr)) as (G' & lc' & rc' & SR & H' & _); auto; try lia.
    destruct (view E OK _ _ _ _ _ _ H') as (rs' & ps' & V' & P1 & P2 & _). exists G', rs', ps'. auto.
  Qed.
  (* A wider class of histories ([loose], GroupHistory.v): swap_right of right items in use and
     retain_paired that drops are allowed, as long as later calls stay off the damage they
     did.  Outputs are still those of the plain lists, and so are the answers of the functions
     listed; all of [answers] if no retain_paired dropped anything, also get_right if no
     swap was made of a right item in use. *)
  Theorem C69_loose_histories : forall s ll lr ops, budget ops < two64 ->
    guarded E (loose E) (with_hasher s ll lr) ops ->
    let m := fst (run E (with_hasher s ll lr) ops) in
    exists rs ps, s_run (eqL E) (eqR E) (GC [] []) ops (GC rs ps) (snd (run E (with_hasher s ll lr) ops)) /\
      distinct (eqR E) rs /\ distinct (eqL E) (map fst ps) /\ (forall p, In p ps -> In (snd p) rs) /\
      (forall l r, are_paired E m l r = true <-> exists a b, In (a, b) ps /\ l =L a /\ r =R b) /\
      (forall l, contains_left E m l = true <-> exists a b, In (a, b) ps /\ l =L a) /\
      (forall r, contains_right E m r = true <-> exists b, In b rs /\ r =R b) /\
      (exists Q, right_rest (iter_right m) = Done Q /\ Permutation Q rs) /\
      (exists Q, left_rest (iter_left m) = Done Q /\ Permutation Q (map fst ps)) /\
      len_left m = length ps /\ len_right m = length rs /\
      (guarded E (tidy E) (with_hasher s ll lr) ops -> answers E m rs ps) /\
      (guarded E (steady E) (with_hasher s ll lr) ops -> follows E m ps /\
         exists Q, paired_rest E m (iter_paired m) = Done Q /\ Permutation Q ps).
  Proof.
    intros s ll lr ops B GD m.
    destruct (run_ok E OK ops (true, true) s 0 0 _ _ (new_ok E s ll lr))
      as ([b1 b2] & [rs ps] & lc' & rc' & SR & H & T & U & _); auto; try lia.
    cbn [fst snd] in T, U. fold m in H. exists rs, ps. split; auto.
    destruct (repr_grouping E _ _ _ _ _ _ H) as (D1 & D2 & D3). cbn [g_rights g_pairs] in *.
    refine (conj D2 (conj D1 (conj D3 (conj _ (conj _ (conj _ (conj _ (conj _ (conj _ (conj _ (conj _ _))))))))))).
    - intros l r. rewrite (are_paired_ok E OK _ _ _ _ _ _ l r H). unfold s_are_paired, is_l, is_r. simpl.
      rewrite existsb_exists. split.
      + intros ([a b] & HI & X). apply andb_true_iff in X as [X Y]. exists a, b. auto.
      + intros (a & b & HI & X & Y). exists (a, b). simpl. rewrite X, Y. auto.
    - intros l. rewrite (contains_left_ok E OK _ _ _ _ _ _ l H). unfold s_contains_left, is_l. simpl.
      rewrite existsb_exists. split.
      + intros ([a b] & HI & X). exists a, b. auto.
      + intros (a & b & HI & X). exists (a, b). auto.
    - intros r. rewrite (contains_right_ok E OK _ _ _ _ _ _ r H). unfold s_contains_right. simpl.
      rewrite existsb_exists. reflexivity.
    - destruct (iter_right_ok E _ _ _ _ _ _ H) as (l & _ & R1 & _ & R2). eauto.
    - destruct (iter_left_ok E _ _ _ _ _ _ H) as (l & _ & R1 & _ & R2). eauto.
    - apply (len_left_ok E _ _ _ _ _ _ H).
    - apply (len_right_ok E _ _ _ _ _ _ H).
    - intros TY. rewrite (T eq_refl TY) in H. eapply (answers_repr E OK); eauto.
    - intros SY. rewrite (U eq_refl SY) in H. split; [eapply (follows_repr E OK); eauto|].
      assert (LK := tame_all_linked E OK _ _ _ _ _ _ H).
      destruct (iter_paired_ok E OK _ _ _ _ _ _ H LK) as (Q & _ & P1 & _ & P2). eauto.
  Qed.

  (* ---- C70 ---- borrowed forms of the keys; holds in every state, reachable or not *)
  Definition borrow_ok {Q T} (qhash : S -> Q -> N) (qeq : T -> Q -> bool)
      (hash : S -> T -> N) (eqT : T -> T -> bool) : Prop :=
    (forall s q t, qeq t q = true -> qhash s q = hash s t) /\
    (forall q t t', eqT t t' = true -> qeq t q = qeq t' q) /\
    (forall q t t', qeq t q = true -> qeq t' q = true -> eqT t t' = true).

  Lemma t_get_ext : forall {A} (t : table A) h p q, (forall e, p e = q e) ->
    t_get (lo E) t h p = t_get (lo E) t h q.
  Proof.
    intros A t h p q H. unfold t_get, t_find.
    induction (hb_probe _ _ _ _) as [|i l IH]; cbn [find]; auto.
    destruct (nth_error (slots t) i) as [[h' e]|] eqn:Hn; [rewrite <- H; destruct (p e)|]; auto.
  Qed.
  Lemma t_get_some : forall {A} (t : table A) h p e, t_get (lo E) t h p = Some e -> p e = true.
  Proof.
    intros A t h p e H. unfold t_get in H. destruct (t_find (lo E) t h p) as [i|] eqn:F; [|discriminate].
    apply t_find_some in F as (h' & e' & Hn & Hp). unfold t_entry in H. rewrite Hn in H. congruence.
  Qed.
  Theorem C70_borrowed : forall m,
    (forall Q (qhash : S -> Q -> N) (qeq : L -> Q -> bool), borrow_ok qhash qeq (hashL E) (eqL E) ->
       forall q, (forall l, qeq l q = true -> get_right_q E qhash qeq m q = get_right E m l) /\
         (forall r, get_right_q E qhash qeq m q = Some r <->
                    exists l, qeq l q = true /\ get_right E m l = Some r)) /\
    (forall Q (qhash : S -> Q -> N) (qeq : R -> Q -> bool), borrow_ok qhash qeq (hashR E) (eqR E) ->
       forall q, (forall r, qeq r q = true -> get_left_iter_q E qhash qeq m q = get_left_iter E m r) /\
         (forall it, get_left_iter_q E qhash qeq m q = Some it <->
                     exists r, qeq r q = true /\ get_left_iter E m r = Some it)).
  Proof.
    intros m. split; intros Q qhash qeq (B1 & B2 & B3) q.
    - assert (X : forall l, qeq l q = true -> get_right_q E qhash qeq m q = get_right E m l).
      { intros l HQ. unfold get_right, get_right_q. rewrite (B1 _ _ _ HQ).
        rewrite (t_get_ext _ _ _ (equivalent_key_left (eqL E) l)); auto.
        intros e. unfold equivalent_key_left. apply eq_true_iff_eq. split; intros Y.
        - apply (B3 q); auto.
        - rewrite (B2 _ _ _ Y). auto. }
      split; [exact X|]. intros r. split.
      + intros Y. assert (Y' := Y). unfold get_right_q in Y'.
        destruct (t_get (lo E) (left_set m) _ _) as [e|] eqn:T; [|discriminate].
        apply t_get_some in T. exists (l_value e). split; auto. rewrite <- X; auto.
      + intros (l & HQ & Y). rewrite (X l HQ). auto.
    - assert (X : forall r, qeq r q = true -> get_left_iter_q E qhash qeq m q = get_left_iter E m r).
      { intros l HQ. unfold get_left_iter, get_left_iter_q. rewrite (B1 _ _ _ HQ).
        rewrite (t_get_ext _ _ _ (equivalent_key_right (eqR E) l)); auto.
        intros e. unfold equivalent_key_right. apply eq_true_iff_eq. split; intros Y.
        - apply (B3 q); auto.
        - rewrite (B2 _ _ _ Y). auto. }
      split; [exact X|]. intros r. split.
      + intros Y. assert (Y' := Y). unfold get_left_iter_q in Y'.
        destruct (t_get (lo E) (right_set m) _ _) as [e|] eqn:T; [|discriminate].
        apply t_get_some in T. exists (r_value e). split; auto. rewrite <- X; auto.
      + intros (l & HQ & Y). rewrite (X l HQ). auto.
  Qed.

  (* ---- C71 ---- ids: unique on each side and below the counters; the (hash, id) pairs in
     the set of a right item are those of its left items, whose r_id is its id *)
  Theorem C71_ids : forall room m, reachable E room m ->
    NoDup (map (fun x => l_id (snd x)) (slots (left_set m))) /\
    NoDup (map (fun x => r_id (snd x)) (slots (right_set m))) /\
    (forall x, In x (slots (left_set m)) -> l_id (snd x) < left_counter m) /\
    (forall y, In y (slots (right_set m)) -> r_id (snd y) < right_counter m) /\
    (forall x y, In x (slots (left_set m)) -> In y (slots (right_set m)) ->
       (l_rid (snd x) = r_id (snd y) <-> are_paired E m (l_value (snd x)) (r_value (snd y)) = true) /\
       (In (fst x, l_id (snd x)) (map snd (slots (r_pairs (snd y)))) <->
        are_paired E m (l_value (snd x)) (r_value (snd y)) = true)).
  Proof.
    intros room m H. apply (reachable_repr E OK) in H as (s & lc & rc & G & H & _).
    assert (AP := fun l r => are_paired_ok E OK _ _ _ _ _ _ l r H).
    destruct H as (A & D & B & H & -> & (T1 & T2) & -> & ->). cbn [fst snd] in *.
    rewrite (T1 eq_refl) in H. clear D T1. specialize (T2 eq_refl).
    assert (PL := rep_l _ _ _ _ _ _ _ _ H). assert (PR := rep_r _ _ _ _ _ _ _ _ H).
    assert (NL := rep_lids _ _ _ _ _ _ _ _ H). rewrite app_nil_r in NL.
    split; [|split; [|split; [|split]]].
    - eapply Permutation_NoDup; [apply Permutation_map; symmetry; exact PL|]. rewrite map_map. exact NL.
    - eapply Permutation_NoDup; [apply Permutation_map; symmetry; exact PR|]. rewrite map_map.
      apply (rep_rids _ _ _ _ _ _ _ _ H).
    - intros x Hx. apply (Permutation_in _ PL) in Hx. apply in_map_iff in Hx as (z & <- & Hz).
      apply (rep_llt _ _ _ _ _ _ _ _ H). apply in_or_app. auto.
    - intros x Hx. apply (Permutation_in _ PR) in Hx. apply in_map_iff in Hx as (z & <- & Hz).
      apply (rep_rlt _ _ _ _ _ _ _ _ H). auto.
    - intros x y Hx Hy. apply (Permutation_in _ PL) in Hx. apply in_map_iff in Hx as (z & <- & Hz).
      apply (Permutation_in _ PR) in Hy. apply in_map_iff in Hy as (w & <- & Hw).
      cbn [slotL slotR fst snd l_rid l_id l_value r_id r_value r_pairs].
      assert (X : are_paired E m (z_l z) (y_r w) = true <-> z_g z = y_id w).
      { rewrite AP. unfold s_are_paired, GroupProofs.view, is_l, is_r. cbn [g_pairs].
        rewrite existsb_exists. split.
        - intros (p & Hp & Q). apply in_map_iff in Hp as (z' & <- & Hz'). cbn [z_pair fst snd] in Q.
          apply andb_true_iff in Q as [Q1 Q2].
          assert (z = z').
          { eapply (distinct_map_inj (eqL E) EL z_l A); eauto. apply (rep_eql _ _ _ _ _ _ _ _ H). }
          subst z'. destruct (rep_link _ _ _ _ _ _ _ _ H z Hz) as (w' & Hw' & I & V).
          rewrite <- V in Q2. rewrite <- I. f_equal. symmetry.
          eapply (distinct_map_inj (eqR E) ER y_r B); eauto. apply (rep_eqr _ _ _ _ _ _ _ _ H).
        - intros Q. exists (z_pair z). split; [apply in_map; auto|].
          destruct (rep_link _ _ _ _ _ _ _ _ H z Hz) as (w' & Hw' & I & V).
          assert (w' = w).
          { eapply NoDup_map_inj; [apply (rep_rids _ _ _ _ _ _ _ _ H)| | |]; auto. congruence. }
          subst w'. unfold z_pair. cbn [fst snd]. rewrite <- V, (equiv_refl _ EL), (equiv_refl _ ER). auto. }
      split; [rewrite (T2 z Hz), X; reflexivity|]. rewrite X.
      assert (PT := Permutation_map snd (rep_tab _ _ _ _ _ _ _ _ H w Hw)). rewrite map_map, app_nil_r in PT.
      split.
      + intros I. apply (Permutation_in _ PT) in I. apply in_map_iff in I as (z' & Q & I).
        apply filter_In in I as [I I']. unfold pslot, pkey in Q. cbn [snd] in Q. inversion Q.
        assert (z' = z) by (eapply NoDup_map_inj; [exact NL| | |]; auto). subst z'.
        apply N.eqb_eq. exact I'.
      + intros Q. eapply Permutation_in; [symmetry; exact PT|]. apply in_map_iff. exists z. split; auto.
        apply filter_In. split; auto. apply N.eqb_eq. auto.
  Qed.
End Props3.

(* ---- concrete cases ---- *)
Definition made (ops : list (op item item)) : gmap item item N :=
  fst (run env_spread (with_hasher 7 0 0) ops).
Ltac calm_now :=
  cbn [guarded]; repeat (split; [first [exact I | vm_compute; reflexivity | intros _; vm_compute; auto; fail]|]);
  exact I.
Lemma made_reachable : forall ops room, budget ops + room < two64 ->
  guarded env_spread (calm env_spread) (with_hasher 7 0 0) ops -> reachable env_spread room (made ops).
Proof. intros ops room B G. exists 7, 0, 0, ops. auto. Qed.
Ltac made_it := apply made_reachable; [vm_compute; reflexivity|calm_now].

Definition ma := made [Insert (it 1) (it 10); Insert (it 2) (it 20); InsertRight (it 30)].
Definition mb := made [InsertRight (it' 30); Insert (it' 2) (it' 10); Insert (it' 1) (it' 10); Insert (it 2) (it' 20)].
Definition mc := made [Insert (it 1) (it 10); Insert (it 2) (it 10); InsertRight (it 30)].
Example C57_case : reachable env_spread 1 ma /\ reachable env_spread 1 mb /\ reachable env_spread 1 mc /\
  map_eq env_spread ma mb = Done true /\ map_eq env_spread mb ma = Done true /\
  map_eq env_spread ma mc = Done false /\ map_eq env_spread ma ma = Done true.
Proof.
  split; [made_it|]. split; [made_it|]. split; [made_it|].
  repeat (split; [vm_compute; reflexivity|]). vm_compute; reflexivity.
Qed.
(* C57 as stated is false: == is not symmetric ... *)
Theorem C57_symmetry_refuted : exists (E : env item item N) m m',
  lawful E /\ reachable E 1 m /\ reachable E 1 m' /\
  map_eq E m m' = Done true /\ map_eq E m' m = Done false /\
  contains_left E m (it 2) = false /\ contains_left E m' (it 2) = true.
Proof.
  exists env_spread, (made [Insert (it 1) (it 10)]), (made [Insert (it 1) (it 10); Insert (it 2) (it 10)]).
  split; [exact env_spread_ok|]. split; [made_it|]. split; [made_it|].
  repeat (split; [vm_compute; reflexivity|]). vm_compute; reflexivity.
Qed.
(* ... and maps with equal item counts and different unpaired right items are equal, both ways *)
Theorem C57_equality_refuted : exists (E : env item item N) m m',
  lawful E /\ reachable E 1 m /\ reachable E 1 m' /\
  map_eq E m m' = Done true /\ map_eq E m' m = Done true /\
  len_left m = len_left m' /\ len_right m = len_right m' /\
  contains_right E m (it 30) = true /\ contains_right E m' (it 30) = false.
Proof.
  exists env_spread, (made [Insert (it 1) (it 10); InsertRight (it 30)]),
    (made [Insert (it 1) (it 10); InsertRight (it 40)]).
  split; [exact env_spread_ok|]. split; [made_it|]. split; [made_it|].
  repeat (split; [vm_compute; reflexivity|]). vm_compute; reflexivity.
Qed.
Theorem C57_transitivity_refuted : exists (E : env item item N) m1 m2 m3,
  lawful E /\ reachable E 1 m1 /\ reachable E 1 m2 /\ reachable E 1 m3 /\
  map_eq E m1 m2 = Done true /\ map_eq E m2 m3 = Done true /\ map_eq E m1 m3 = Done false.
Proof.
  exists env_spread, (made [InsertRight (it 10)]), (made [InsertRight (it 20)]),
    (made [Insert (it 1) (it 10)]).
  split; [exact env_spread_ok|]. split; [made_it|]. split; [made_it|]. split; [made_it|].
  repeat (split; [vm_compute; reflexivity|]). vm_compute; reflexivity.
Qed.

(* an item list with repeated left items, an already present pair taken apart and a group
   replaced *)
Definition xs58 : list (option item * item) :=
  [(Some (it 1), it 20); (Some (it 4), it 10); (None, it' 20); (Some (it' 1), it' 10);
   (Some (it 5), it 50); (Some (it 4), it' 50)].
Example C58_case : reachable env_spread (N.of_nat (length xs58) + 1) ma /\
  guarded env_spread (calm1 env_spread) ma (map item_op xs58) /\
  match extend env_spread xs58 ma with
  | Ret m _ => iter_rest env_spread m (iter m) =
      Done [(Some (it 4), it 50); (Some (it 5), it 50); (None, it' 20); (None, it 30); (Some (it' 1), it 10)]
  | Panic _ => False
  end.
Proof.
  split; [made_it|]. split; [unfold xs58; cbn [map item_op fst snd]; calm_now|].
  vm_compute. reflexivity.
Qed.
(* collecting a list in which a pair occurs twice loses the pair *)
Theorem C58_duplicate_refuted : exists (E : env item item N) xs m,
  lawful E /\ from_iter_pairs E 7 0 0 xs = Ret m tt /\ xs = [(it 1, it 10); (it 1, it 10)] /\
  are_paired E m (it 1) (it 10) = false /\ is_right_paired E m (it 10) = false /\
  contains_left E m (it 1) = true.
Proof.
  exists env_spread. do 2 eexists. split; [exact env_spread_ok|].
  split; [|split; [reflexivity|]]; [vm_compute; reflexivity|].
  repeat (split; [vm_compute; reflexivity|]). vm_compute; reflexivity.
Qed.
Example C60_case : map_eq env_collide gmc (clone gmc) = Done true /\
  len_left gmc = 6%nat /\ len_right gmc = 5%nat /\ is_empty gmc = false /\
  exists m, clear env_collide gmc = Ret m tt /\ len_right m = 0%nat.
Proof. repeat (split; [vm_compute; reflexivity|]). eexists. vm_compute. auto. Qed.

(* C47 without its restriction on histories is false: two inserts are enough. *)
Theorem C68_any_history_refuted : forall E, In E [env_collide; env_spread; env_parity] ->
  exists ops, lawful E /\ budget ops < two64 /\
  let m := fst (run E (with_hasher 7 0 0) ops) in
  snd (run E (with_hasher 7 0 0) ops) = [OUnit; OUnit] /\
  get_right E m (it 1) = Some (it 10) /\ are_paired E m (it 1) (it 10) = false /\
  is_right_paired E m (it 10) = false /\
  snd (step E m (RemoveLeft (it 1))) = OPanic.
Proof.
  intros E HE. exists [Insert (it 1) (it 10); Insert (it 1) (it 10)].
  destruct (gm1_reachable E 1 HE eq_refl) as [OK _].
  destruct HE as [<-|[<-|[<-|[]]]]; (split; [exact OK|]); (split; [reflexivity|]);
    repeat (split; [vm_compute; reflexivity|]); vm_compute; reflexivity.
Qed.

(* swap_right of a right item in use and a retain_paired that drops, then calls that stay off
   the damage *)
Definition loose_ops : list (op item item) :=
  [Insert (it 1) (it 10); Insert (it 2) (it 10); Insert (it 3) (it 30);
   RetainPaired unit (fun _ p => (tt, Some (fst (fst p) =? 3))) tt;
   Insert (it 4) (it 10); SwapRight (it 10) (it 40); GetLeftIter (it 40); InsertLeft (it 3) (it 40);
   RemoveRight (it 40); Insert (it 5) (it 50); SwapRightRemove (it 50) (it 60); ArePaired (it 5) (it 60)].
Lemma reachable_linked : forall {L R S} (E : env L R S) room m, lawful E -> reachable E room m ->
  forall l, linked_at E m l.
Proof.
  intros L R S E room m OK H l. apply (reachable_repr E OK) in H as (s & lc & rc & G & H & _).
  exact (tame_all_linked E OK _ _ _ _ _ _ H l).
Qed.
Ltac clean_now := let i := fresh in let X := fresh in
  intros i X; vm_compute in X; inversion X; subst i; eexists; vm_compute; reflexivity.
Ltac loose_now o :=
  unfold loose; cbn [with_extend loose1];
  lazymatch o with
  | Insert _ _ => split; [vm_compute; reflexivity|]; let X := fresh in intros X; vm_compute in X; discriminate X
  | RetainPaired _ _ _ =>
      apply (reachable_linked env_spread 1 _ env_spread_ok);
      exists 7, 0, 0, [Insert (it 1) (it 10); Insert (it 2) (it 10); Insert (it 3) (it 30)];
      split; [reflexivity|split; [calm_now|vm_compute; reflexivity]]
  | SwapRight _ _ => lazymatch goal with |- if ?c then _ else _ =>
      replace c with true by (vm_compute; reflexivity) end; split; [clean_now|vm_compute; reflexivity]
  | SwapRightRemove _ _ => lazymatch goal with |- if ?c then _ else _ =>
      replace c with true by (vm_compute; reflexivity) end; split; [clean_now|left; vm_compute; reflexivity]
  | GetLeftIter _ => clean_now
  | RemoveRight _ => clean_now
  | _ => exact I
  end.
Ltac loose_step :=
  lazymatch goal with |- guarded ?E ?g ?m (?o :: ?t) =>
    let m' := eval vm_compute in m in
    replace m with m' by (vm_compute; reflexivity);
    change (g m' o /\ guarded E g (fst (step E m' o)) t);
    split; [loose_now o|]
  end.
Example C69_loose_case :
  budget loose_ops < two64 /\
  guarded env_spread (loose env_spread) (with_hasher 7 0 0) loose_ops /\
  snd (run env_spread (with_hasher 7 0 0) loose_ops) =
    [OUnit; OUnit; OUnit; OUnit; OUnit; OUnit; OLsO (Some [it 1; it 2; it 4]); OL None;
     OGroup (Some ([it 3; it 1; it 2; it 4], it 40)); OUnit; OR (Some (it 50)); OBool true].
Proof.
  split; [reflexivity|]. split; [|vm_compute; reflexivity].
  unfold loose_ops. repeat loose_step. exact I.
Qed.
Example C69_case : behaves_as env_collide 1 gmc
  (GC [it 40; it 10; it 30; it 70; it 90]
      [(it 7, it 10); (it 5, it 30); (it 1, it 10); (it 2, it 30); (it 6, it 30); (it 8, it 10)]).
Proof.
  destruct (C69_history_refinement env_collide env_collide_ok 1 gmc) as (rs & ps & V & _ & _ & _ & B).
  { apply gm1_reachable; [simpl; auto|reflexivity]. }
  destruct gmc_holds as [V1 V2]. destruct V as [W1 W2]. rewrite V1 in W1. rewrite V2 in W2.
  inversion W1; inversion W2; subst. exact B.
Qed.
Definition key_eq (a : item) (k : N) : bool := fst a =? k.
Example C70_case : borrow_ok (fun s k => 0) key_eq (hashL env_collide) (eqL env_collide) /\
  get_right_q env_collide (fun _ _ => 0) key_eq gmc 5 = Some (it 30) /\
  get_right_q env_collide (fun _ _ => 0) key_eq gmc 3 = None.
Proof.
  split; [|vm_compute; auto]. unfold borrow_ok, key_eq. simpl. unfold item_eq.
  repeat split; auto.
  - intros q t t' H. apply N.eqb_eq in H. rewrite H. auto.
  - intros q t t' H H'. apply N.eqb_eq in H, H'. apply N.eqb_eq. congruence.
Qed.
Example C71_case : left_counter gmc = 8 /\ right_counter gmc = 8 /\
  map (fun x => (l_id (snd x), l_rid (snd x), fst (l_value (snd x)))) (slots (left_set gmc)) =
    [(6, 0, 7); (4, 1, 5); (0, 0, 1); (1, 1, 2); (5, 1, 6); (7, 0, 8)].
Proof. vm_compute. auto. Qed.

Print Assumptions C57_equality_partial.
Print Assumptions C57_reflexive.
Print Assumptions C57_symmetry_refuted.
Print Assumptions C57_equality_refuted.
Print Assumptions C57_transitivity_refuted.
Print Assumptions C58_extend_partial.
Print Assumptions C58_last_pair_partial.
Print Assumptions C58_sequence.
Print Assumptions C58_extend_pairs.
Print Assumptions C58_duplicate_refuted.
Print Assumptions C60_clone.
Print Assumptions C60_clear.
Print Assumptions C60_len.
Print Assumptions C68_any_history_refuted.
Print Assumptions C69_history_refinement.
Print Assumptions C69_from_new.
Print Assumptions C69_loose_histories.
Print Assumptions C70_borrowed.
Print Assumptions C71_ids.
