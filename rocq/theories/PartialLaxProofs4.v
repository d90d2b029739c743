(* The model meets PartialLax, part 4: drain_filter. *)
From Coq Require Import List NArith Lia Bool Permutation PeanoNat.
From Verif Require Import Closures Prelude RawTable Optionals PartialCycleMap ListFacts TableFacts
  IterFacts PartialSpec PartialHistory PartialProofs PartialProofs2 PartialProofs3 PartialProofs4
  PartialProofs6 PartialProofs7 PartialLax PartialLaxProofs PartialLaxProofs2 PartialLaxProofs3.
Import ListNotations.
Open Scope N_scope.

Lemma remove_nth_after : forall {A} (l : list A) i j, (i < j)%nat ->
  nth_error (remove_nth i l) (j - 1) = nth_error l j.
Proof.
  induction l as [|a l IH]; intros i j H.
  - destruct i, j; simpl; try lia; destruct j; auto.
  - destruct j as [|j]; [lia|]. cbn [Nat.sub]. rewrite Nat.sub_0_r. destruct i as [|i]; auto.
    destruct j as [|j]; [lia|]. cbn [remove_nth nth_error].
    assert (Q := IH i (Datatypes.S j) ltac:(lia)). cbn [Nat.sub] in Q. rewrite Nat.sub_0_r in Q. auto.
Qed.

Section LaxProofs4.
  Context {L R S : Type} (E : env L R S) (OK : lax E).
  Notation pm := (pmap L R S).
  Notation entry := (optional_pair L R).
  Notation zent := (N * entry)%type.
  Notation slotL := (slotL E).
  Notation slotR := (slotR E).
  Let LO := CycleMapLax.lax_lo _ OK.
  Context {X : Type} (f : X -> entry -> X * verdict).

  Definition accepts (e : entry) : Prop := exists x x', f x e = (x', Some true).
  Definition rejects (e : entry) : Prop := exists x x', f x e = (x', Some false).
  Definition panics : Prop := exists x e x', f x e = (x', None).
  Definition finished (Z : list zent) : Prop := forall z, In z Z ->
    (has_left_item (snd z) = true -> rejects (snd z)) /\
    (forall r, op_get_right (snd z) = Some r -> rejects (SomeRight r)).

  (* the slot of entry i is at position p or later *)
  Definition later {T} (sl : list (N * mapping_pair T)) (p : nat) (i : N) : Prop :=
    exists k h e, (p <= k)%nat /\ nth_error sl k = Some (h, e) /\ pid e = i.

  (* ok: the closure has not panicked so far *)
  Record DI (ok : bool) (s : S) (Z : list zent) (d : df_inner (L:=L) (R:=R)) : Prop := {
    di_l : Permutation (slots (df_left d)) (flat_map (slotL s) Z);
    di_r : Permutation (slots (df_right d)) (flat_map (slotR s) Z);
    di_ids : NoDup (map fst Z);
    di_nn : ~ In Neither (map snd Z);
    di_guard : forall z y a b, In z Z -> snd z = SomeBoth a b -> snd (f y (SomeRight b)) <> Some true;
    di_seen : ok = true -> forall z, In z Z -> has_left_item (snd z) = true ->
      rejects (snd z) \/ later (slots (df_left d)) (df_lpos d) (fst z);
    di_done : df_reset d = false -> (length (slots (df_left d)) <= df_lpos d)%nat;
    di_seen_r : ok = true -> df_reset d = false -> forall z r, In z Z -> op_get_right (snd z) = Some r ->
      rejects (SomeRight r) \/ later (slots (df_right d)) (df_rpos d) (fst z)
  }.

  Lemma di_perm : forall ok s Z Z' d, Permutation Z Z' -> DI ok s Z d -> DI ok s Z' d.
  Proof.
    intros ok s Z Z' d P H. assert (I : forall z, In z Z' -> In z Z).
    { intros z. apply Permutation_in. symmetry; auto. }
    destruct H. constructor; auto.
    - etransitivity; eauto. apply Permutation_flat_map; auto.
    - etransitivity; eauto. apply Permutation_flat_map; auto.
    - eapply NoDup_perm; [apply Permutation_map; exact P|auto].
    - intro Q. apply di_nn0. eapply Permutation_in; [apply Permutation_map; symmetry; exact P|auto].
    - intros z y a b Hz. eapply di_guard0; eauto.
  Qed.
  Lemma di_weak : forall ok s Z d, DI ok s Z d -> DI false s Z d.
  Proof. intros ok s Z d H. destruct H. constructor; auto; discriminate. Qed.
  Lemma di_same : forall ok s Z d z w, DI ok s Z d -> In z Z -> In w Z -> fst z = fst w -> z = w.
  Proof.
    intros ok s Z d z w H Hz Hw EQ. destruct (perm_in_cons _ _ Hz) as (Z' & P).
    apply (Permutation_in _ P) in Hw. destruct Hw as [|Hw]; auto. exfalso.
    eapply (ids_other z Z'); [|exact Hw|auto].
    eapply NoDup_perm; [apply Permutation_map, P|apply (di_ids _ _ _ _ H)].
  Qed.

  (* a later slot that is not the one at p is later than p *)
  Lemma later_step : forall {T} (sl : list (N * mapping_pair T)) p h e i, later sl p i ->
    nth_error sl p = Some (h, e) -> pid e <> i -> later sl (Datatypes.S p) i.
  Proof.
    intros T sl p h e i (k & h' & e' & K & N & Q) Hp Hi. exists k, h', e'. split; auto.
    destruct (Nat.eq_dec p k) as [->|]; [|lia]. congruence.
  Qed.
  Lemma later_remove : forall {T} (sl : list (N * mapping_pair T)) p i, later sl (Datatypes.S p) i ->
    later (remove_nth p sl) p i.
  Proof.
    intros T sl p i (k & h' & e' & K & N & Q). exists (k - 1)%nat, h', e'. split; [lia|].
    rewrite remove_nth_after by lia. auto.
  Qed.

  Definition df_post (ok : bool) (s : S) (Z : list zent)
      (r : res (df_inner (L:=L) (R:=R) * X) (option entry)) : Prop :=
    match r with
    | Ret (d', _) (Some e) => exists z Z', Permutation Z (z :: Z') /\ snd z = e /\ DI ok s Z' d' /\
        accepts e
    | Ret (d', _) None => DI ok s Z d' /\ (ok = true -> finished Z) /\ df_reset d' = false /\
        (length (slots (df_right d')) <= df_rpos d')%nat
    | Panic (d', _) => DI false s Z d' /\ panics
    end.

  (* the right table; left iteration is over *)
  Lemma df_right_w : forall fuel ok s Z d x, DI ok s Z d -> df_reset d = false ->
    (length (slots (df_right d)) - df_rpos d <= fuel)%nat -> df_post ok s Z (df_next_right E f fuel d x).
  Proof.
    induction fuel as [|fuel IH]; intros ok s Z d x H RS HF; cbn [df_next_right]; unfold t_entry;
      destruct (nth_error (slots (df_right d)) (df_rpos d)) as [[h rp]|] eqn:NE.
    1:{ assert (df_rpos d < length (slots (df_right d)))%nat by (apply nth_error_Some; congruence). lia. }
    2:{ assert (I := nth_error_In _ _ NE). apply (Permutation_in _ (di_r _ _ _ _ H)) in I.
      apply in_flat_map in I as (z & Hz & Ez). unfold PartialProofs.slotR in Ez.
      destruct (op_get_right (snd z)) as [b|] eqn:Hb; [|easy]. destruct Ez as [Ez|[]].
      injection Ez as <- <-. cbn [value].
      assert (LT : (df_rpos d < length (slots (df_right d)))%nat) by (apply nth_error_Some; congruence).
      destruct (f x (SomeRight b)) as [x' [[|]|]] eqn:F.
      - (* taken: an unpaired right item *)
        assert (SZ : snd z = SomeRight b).
        { destruct (snd z) as [| | |a' b'] eqn:Q; simpl in Hb; try congruence.
          injection Hb as ->. exfalso. apply (di_guard _ _ _ _ H z x a' b Hz Q). rewrite F; auto. }
        destruct (perm_in_cons _ _ Hz) as (Z' & P). exists z, Z'. split; auto. split; auto.
        split; [|exists x, x'; auto].
        assert (H' := di_perm _ _ _ _ _ P H). destruct H'. constructor; cbn [df_left df_right df_lpos df_rpos df_reset].
        + cbn [flat_map] in di_l0. unfold PartialProofs.slotL in di_l0 at 1. rewrite SZ in di_l0. exact di_l0.
        + eapply t_remove_at_perm; [exact NE|]. cbn [flat_map] in di_r0.
          rewrite (slotR_some E s z b Hb) in di_r0. exact di_r0.
        + inversion di_ids0; auto.
        + intro. apply di_nn0. right; auto.
        + intros w y a' b' Hw. eapply di_guard0. right; auto.
        + intros A w Hw. apply di_seen0; auto. right; auto.
        + intros _. auto.
        + intros A _ w r Hw Hr. destruct (di_seen_r0 A RS w r (or_intror Hw) Hr) as [|LA]; auto.
          right. unfold t_remove_at. cbn [slots]. apply later_remove. eapply later_step; eauto. cbn [pid].
          intros EQ. apply (ids_other z Z' di_ids0 w Hw). auto.
      - (* refused *)
        apply IH; cbn [df_reset df_right df_rpos]; auto; [|lia].
        destruct H. constructor; auto.
        intros A B w r Hw Hr. cbn [df_right df_rpos]. destruct (di_seen_r0 A B w r Hw Hr) as [|LA]; auto.
        destruct (N.eq_dec (fst z) (fst w)) as [EQ|NEQ].
        + left. assert (z = w).
          { eapply (di_same ok s Z d); eauto. constructor; auto. }
          subst w. rewrite Hb in Hr. injection Hr as <-. exists x, x'; auto.
        + right. eapply later_step; eauto.
      - (* panic *)
        split; [|exists x, (SomeRight b), x'; auto]. apply di_weak in H. destruct H.
        constructor; auto; discriminate. }
    all: assert (GE : (length (slots (df_right d)) <= df_rpos d)%nat) by (apply nth_error_None; auto);
      cbn [df_post]; split; [exact H|]; split; [|split; [exact RS|exact GE]];
      intros A z Hz; split;
      [ intros HL; destruct (di_seen _ _ _ _ H A z Hz HL) as [|(k & h & e & K & NK & _)]; [auto|]; exfalso;
        assert (k < length (slots (df_left d)))%nat by (apply nth_error_Some; congruence);
        assert (LE := di_done _ _ _ _ H RS); lia
      | intros r Hr; destruct (di_seen_r _ _ _ _ H A RS z r Hz Hr) as [|(k & h & e & K & NK & _)]; [auto|];
        exfalso; assert (k < length (slots (df_right d)))%nat by (apply nth_error_Some; congruence); lia ].
  Qed.

  Lemma df_left_w : forall fuel ok s Z d x, DI ok s Z d ->
    (length (slots (df_left d)) - df_lpos d <= fuel)%nat -> df_post ok s Z (df_next_left E f fuel d x).
  Proof.
    induction fuel as [|fuel IH]; intros ok s Z d x H HF; cbn [df_next_left]; unfold t_entry;
      destruct (nth_error (slots (df_left d)) (df_lpos d)) as [[h lp]|] eqn:NE.
    1:{ assert (df_lpos d < length (slots (df_left d)))%nat by (apply nth_error_Some; congruence). lia. }
    2:{ assert (I := nth_error_In _ _ NE). apply (Permutation_in _ (di_l _ _ _ _ H)) in I.
      apply in_flat_map in I as (z & Hz & Ez). unfold PartialProofs.slotL in Ez.
      destruct (op_get_left (snd z)) as [a|] eqn:Ha; [|easy]. destruct Ez as [Ez|[]].
      injection Ez as <- <-. cbn [value phash pid].
      assert (LT : (df_lpos d < length (slots (df_left d)))%nat) by (apply nth_error_Some; congruence).
      assert (RS : df_reset d = true).
      { destruct (df_reset d) eqn:Q; auto. assert (LE := di_done _ _ _ _ H Q). lia. }
      destruct (perm_in_cons _ _ Hz) as (Z' & P). assert (H' := di_perm _ _ _ _ _ P H).
      (* taken *)
      assert (TAKE : forall tr, Permutation (slots tr) (flat_map (slotR s) Z') ->
        DI ok s Z' (DF (t_remove_at (lo E) (df_left d) (df_lpos d)) (df_lpos d) tr (df_rpos d) (df_reset d))).
      { intros tr Ptr. destruct H'. constructor; cbn [df_left df_right df_lpos df_rpos df_reset]; auto.
        + eapply t_remove_at_perm; [exact NE|]. cbn [flat_map] in di_l0.
          rewrite (slotL_some E s z a Ha) in di_l0. exact di_l0.
        + inversion di_ids0; auto.
        + intro. apply di_nn0. right; auto.
        + intros w y a' b' Hw. eapply di_guard0. right; auto.
        + intros A w Hw HL. destruct (di_seen0 A w (or_intror Hw) HL) as [|LA]; auto.
          right. unfold t_remove_at. cbn [slots]. apply later_remove. eapply later_step; eauto. cbn [pid].
          intros EQ. apply (ids_other z Z' di_ids0 w Hw). auto.
        + congruence.
        + congruence. }
      (* refused *)
      assert (NEXT : rejects (snd z) ->
        DI ok s Z (DF (df_left d) (Datatypes.S (df_lpos d)) (df_right d) (df_rpos d) (df_reset d))).
      { intros RJ. assert (H0 := H). destruct H0. constructor; cbn [df_left df_right df_lpos df_rpos df_reset]; auto.
        + intros A w Hw HL. destruct (di_seen0 A w Hw HL) as [|LA]; auto.
          destruct (N.eq_dec (fst z) (fst w)) as [EQ|NEQ].
          * left. assert (z = w) by (eapply (di_same ok s Z d); eauto). subst w. auto.
          * right. eapply later_step; eauto. }
      assert (STOP : DI false s Z (DF (df_left d) (Datatypes.S (df_lpos d)) (df_right d) (df_rpos d) (df_reset d))).
      { apply di_weak in H. destruct H. constructor; cbn [df_left df_right df_lpos df_rpos df_reset];
          auto; try discriminate; congruence. }
      destruct (op_get_right (snd z)) as [b|] eqn:Hb; cbn [option_map].
      - assert (SZ : snd z = SomeBoth a b) by (destruct (snd z); simpl in *; congruence).
        assert (PR : Permutation (slots (df_right d))
          ((hashR E s b, MP b (Some (hashL E s a)) (fst z)) :: flat_map (slotR s) Z')).
        { assert (PR := di_r _ _ _ _ H'). cbn [flat_map] in PR. rewrite (slotR_some E s z b Hb), Ha in PR. exact PR. }
        destruct (mut_unique E OK _ (hashR E s b) (just_id (fst z)) _ _ PR) as (j & -> & At).
        { apply just_id_refl. }
        { intros y Hy. eapply id_r_other; eauto. apply ids_other. apply (di_ids _ _ _ _ H'). }
        cbn [value]. destruct (f x (SomeBoth a b)) as [x' [[|]|]] eqn:F.
        + exists z, Z'. split; auto. split; auto. split; [|exists x, x'; auto].
          apply TAKE. eapply at_remove; eauto.
        + apply IH; [|cbn [df_left df_lpos]; lia]. apply NEXT. exists x, x'. rewrite SZ; auto.
        + split; auto. exists x, (SomeBoth a b), x'; auto.
      - assert (SZ : snd z = SomeLeft a) by (destruct (snd z); simpl in *; congruence).
        destruct (f x (SomeLeft a)) as [x' [[|]|]] eqn:F.
        + exists z, Z'. split; auto. split; auto. split; [|exists x, x'; auto].
          apply TAKE. assert (PR := di_r _ _ _ _ H'). cbn [flat_map] in PR.
          rewrite (slotR_none E s z Hb) in PR. exact PR.
        + apply IH; [|cbn [df_left df_lpos]; lia]. apply NEXT. exists x, x'. rewrite SZ; auto.
        + split; auto. exists x, (SomeLeft a), x'; auto. }
    all: assert (GE : (length (slots (df_left d)) <= df_lpos d)%nat) by (apply nth_error_None; auto);
      apply df_right_w;
      [ unfold df_enter_right; destruct (df_reset d) eqn:RS; [|exact H];
        destruct H; constructor; cbn [df_left df_right df_lpos df_rpos df_reset]; auto;
        intros A _ z r Hz Hr; right;
        assert (I : In (hashR E s r, MP r (option_map (hashL E s) (op_get_left (snd z))) (fst z))
                       (slots (df_right d)))
          by (eapply Permutation_in; [symmetry; exact di_r0|];
              apply in_flat_map; exists z; split; auto; rewrite (slotR_some E s z r Hr); left; auto);
        destruct (In_nth_error _ _ I) as (k & Hk); eexists k, _, _; split; [lia|]; split; [exact Hk|auto]
      | unfold df_enter_right; destruct (df_reset d) eqn:RS; auto
      | unfold t_len; lia ].
  Qed.

  Lemma df_next_w : forall ok s Z d x, DI ok s Z d -> df_post ok s Z (df_next E f (d, x)).
  Proof. intros. unfold df_next. apply df_left_w; auto. cbn [fst]. unfold t_len. lia. Qed.
  (* after None: None *)
  Lemma df_next_done : forall ok s Z d x, DI ok s Z d -> df_reset d = false ->
    (length (slots (df_right d)) <= df_rpos d)%nat -> df_next E f (d, x) = Ret (d, x) None.
  Proof.
    intros ok s Z d x H RS GE. unfold df_next. cbn [fst snd].
    assert (LE := di_done _ _ _ _ H RS).
    destruct (t_len (df_left d)); cbn [df_next_left]; unfold t_entry;
      rewrite (proj2 (nth_error_None _ _) LE); unfold df_enter_right; rewrite RS;
      destruct (t_len (df_right d)); cbn [df_next_right]; unfold t_entry;
      rewrite (proj2 (nth_error_None _ _) GE); auto.
  Qed.

  Lemma df_nexts_done : forall n ok s Z d x, DI ok s Z d -> df_reset d = false ->
    (length (slots (df_right d)) <= df_rpos d)%nat -> df_nexts E f n (d, x) = Ret (d, x) (repeat None n).
  Proof.
    induction n; intros ok s Z d x H RS GE; auto. cbn [df_nexts].
    rewrite (df_next_done ok s Z d x H RS GE), (IHn ok s Z d x H RS GE). auto.
  Qed.
  Lemma df_nexts_w : forall n ok s Z d x, DI ok s Z d ->
    match df_nexts E f n (d, x) with
    | Ret (d', _) is => exists T Z' k, Permutation Z (T ++ Z') /\
        is = map Some (map snd T) ++ repeat None k /\ length is = n /\ DI ok s Z' d' /\
        (forall z, In z T -> accepts (snd z)) /\ (ok = true -> (0 < k)%nat -> finished Z')
    | Panic (d', _) => exists T Z', Permutation Z (T ++ Z') /\ DI false s Z' d' /\
        (forall z, In z T -> accepts (snd z)) /\ panics
    end.
  Proof.
    induction n; intros ok s Z d x H.
    - cbn [df_nexts]. exists [], Z, 0%nat. cbn.
      split; [auto|]. split; [auto|]. split; [auto|]. split; [exact H|]. split; [easy|lia].
    - cbn [df_nexts]. assert (K := df_next_w ok s Z d x H).
      destruct (df_next E f (d, x)) as [[d1 x1] [e|]|[d1 x1]]; cbn [df_post] in K.
      + destruct K as (z & Z1 & P & <- & H1 & A). specialize (IHn ok s Z1 d1 x1 H1).
        destruct (df_nexts E f n (d1, x1)) as [[d2 x2] is|[d2 x2]].
        * destruct IHn as (T & Z' & k & P2 & -> & LN & H2 & AC & FI).
          exists (z :: T), Z', k. split; [etransitivity; [exact P|]; constructor; auto|].
          split; auto. split; [simpl; lia|]. split; auto. split; auto. intros y [<-|Hy]; auto.
        * destruct IHn as (T & Z' & P2 & H2 & AC & PA).
          exists (z :: T), Z'. split; [etransitivity; [exact P|]; constructor; auto|].
          split; auto. split; auto. intros y [<-|Hy]; auto.
      + destruct K as (H1 & FI & RS & GE). rewrite (df_nexts_done n ok s Z d1 x1 H1 RS GE).
        exists [], Z, (Datatypes.S n). cbn. rewrite repeat_length.
        split; [auto|]. split; [auto|]. split; [auto|]. split; [exact H1|]. split; [easy|auto].
      + destruct K as (H1 & PA). exists [], Z. cbn. split; [auto|]. split; [exact H1|]. split; [easy|auto].
  Qed.

  Definition size_of (d : df_inner (L:=L) (R:=R)) : nat := (t_len (df_left d) + t_len (df_right d))%nat.
  Lemma size_less : forall ok s z Z d d', DI ok s (z :: Z) d -> DI ok s Z d' -> (size_of d' < size_of d)%nat.
  Proof.
    intros ok s z Z d d' H H'. unfold size_of, t_len.
    rewrite (Permutation_length (di_l _ _ _ _ H)), (Permutation_length (di_r _ _ _ _ H)).
    rewrite (Permutation_length (di_l _ _ _ _ H')), (Permutation_length (di_r _ _ _ _ H')).
    cbn [flat_map]. rewrite !app_length. assert (NN := di_nn _ _ _ _ H).
    unfold PartialProofs.slotL at 2. unfold PartialProofs.slotR at 2.
    destruct (snd z) eqn:Q; cbn [op_get_left op_get_right length]; try lia.
    exfalso. apply NN. left; auto.
  Qed.
  Lemma df_drop_w : forall fuel ok s Z d x, DI ok s Z d -> (size_of d <= fuel)%nat ->
    match df_drop_fuel E f fuel (d, x) with
    | Ret (d', _) _ => exists U Z', Permutation Z (U ++ Z') /\ DI ok s Z' d' /\
        (forall z, In z U -> accepts (snd z)) /\ (ok = true -> finished Z')
    | Panic (d', _) => exists U Z', Permutation Z (U ++ Z') /\ DI false s Z' d' /\
        (forall z, In z U -> accepts (snd z)) /\ panics
    end.
  Proof.
    induction fuel as [|fuel IH]; intros ok s Z d x H HF; cbn [df_drop_fuel];
      assert (K := df_next_w ok s Z d x H);
      destruct (df_next E f (d, x)) as [[d1 x1] [e|]|[d1 x1]]; cbn [df_post] in K.
    1,4: destruct K as (z & Z1 & P & <- & H1 & A);
      assert (LT := size_less ok s z Z1 d d1 (di_perm _ _ _ _ _ P H) H1).
    1: lia.
    1:{ assert (K := IH ok s Z1 d1 x1 H1 ltac:(lia)).
      destruct (df_drop_fuel E f fuel (d1, x1)) as [[d2 x2] is|[d2 x2]];
        destruct K as (U & Z' & P2 & H2 & AC & FI); exists (z :: U), Z';
        (split; [etransitivity; [exact P|]; constructor; auto|]); (split; [auto|]);
        (split; [|auto]); intros y [<-|Hy]; auto. }
    1,3: destruct K as (H1 & FI & RS & GE); exists [], Z; split; [auto|]; split; [exact H1|]; split; [easy|auto].
    1,2: destruct K as (H1 & PA); exists [], Z; split; [auto|]; split; [exact H1|]; split; [easy|auto].
  Qed.
  Lemma df_drop_all : forall ok s Z d x, DI ok s Z d ->
    match df_drop E f (d, x) with
    | Ret (d', _) _ => exists U Z', Permutation Z (U ++ Z') /\ DI ok s Z' d' /\
        (forall z, In z U -> accepts (snd z)) /\ (ok = true -> finished Z')
    | Panic (d', _) => exists U Z', Permutation Z (U ++ Z') /\ DI false s Z' d' /\
        (forall z, In z U -> accepts (snd z)) /\ panics
    end.
  Proof. intros. unfold df_drop. apply df_drop_w; auto. Qed.

  Lemma di_start : forall s c m Z, WRep E s c m Z ->
    (forall ps y l r, paired_rest E m (iter_paired m) = Done ps -> In (l, r) ps ->
       snd (f y (SomeRight r)) <> Some true) -> DI true s Z (drain_filter m).
  Proof.
    intros s c m Z H G. destruct (paired_all_w E OK s c m Z H) as (ps & EP & PP & _).
    assert (H0 := H). destruct H0. constructor; cbn [drain_filter df_left df_right df_lpos df_rpos df_reset]; auto.
    - intros z y a b Hz SZ. apply (G ps y a b EP). eapply Permutation_in; [symmetry; exact PP|].
      apply in_flat_map. exists (SomeBoth a b). split; [rewrite <- SZ; apply in_map; auto|left; auto].
    - intros _ z Hz HL. right. unfold has_left_item in HL.
      destruct (op_get_left (snd z)) as [a|] eqn:Ha; [|discriminate].
      assert (I : In (hashL E s a, MP a (option_map (hashR E s) (op_get_right (snd z))) (fst z))
                     (slots (left_set m))).
      { eapply Permutation_in; [symmetry; exact w_l|]. apply in_flat_map. exists z. split; auto.
        rewrite (slotL_some E s z a Ha). left; auto. }
      destruct (In_nth_error _ _ I) as (k & Hk). eexists k, _, _. split; [lia|]. split; [exact Hk|auto].
    - discriminate.
    - discriminate.
  Qed.
  Lemma di_end : forall ok s c m Z Y D d, WRep E s c m Y -> Permutation Y (D ++ Z) -> DI ok s Z d ->
    WRep E s c (df_end m d) Z.
  Proof.
    intros ok s c m Z Y D d H P H'. apply (w_perm E _ _ _ _ _ P) in H.
    eapply (w_tail E s c m _ D); eauto; cbn; [apply (di_l _ _ _ _ H')|apply (di_r _ _ _ _ H')].
  Qed.
End LaxProofs4.
