(* Refinement of PartialCycleMap, part 2: the mutating calls on single items. *)
From Coq Require Import List NArith Lia Bool Permutation.
From Verif Require Import Prelude RawTable Optionals PartialCycleMap PartialSpec ListFacts TableFacts
  PartialProofs.
Import ListNotations.
Open Scope N_scope.

Lemma find_filter_imp : forall {A} (p q : A -> bool) l, (forall x, p x = true -> q x = true) ->
  find p (filter q l) = find p l.
Proof.
  induction l; simpl; intros H; auto. destruct (q a) eqn:Q; simpl.
  - destruct (p a); auto.
  - destruct (p a) eqn:X; auto. apply H in X. congruence.
Qed.

Lemma filter_comm : forall {A} (p q : A -> bool) l, filter p (filter q l) = filter q (filter p l).
Proof.
  induction l; simpl; auto. destruct (p a) eqn:P, (q a) eqn:Q; simpl; rewrite ?P, ?Q, IHl; auto.
Qed.

Lemma u64_incr_ok : forall ck c, c + 1 < two64 -> u64_incr ck c = Some (c + 1).
Proof. intros ck c H. unfold u64_incr. apply N.ltb_lt in H. rewrite H. auto. Qed.

Section Proofs2.
  Context {L R S : Type} (E : env L R S) (OK : lawful E).
  Notation pm := (pmap L R S).
  Notation entry := (optional_pair L R).
  Notation zent := (N * entry)%type.
  Notation Rep := (Rep E).
  Notation Repr := (Repr E).
  Notation slotL := (slotL E).
  Notation slotR := (slotR E).
  Let EL := eqL_equiv _ OK.
  Let ER := eqR_equiv _ OK.
  Let LO := lo_ok _ OK.

  (* ---- removal with partner ---- *)
  Lemma remove_via_left_ok : forall s c m P l, Repr s c m P ->
    exists m', remove_via_left E l m = Ret m' (or_neither (find_l (eqL E) P l)) /\
               Repr s c m' (del_l (eqL E) P l).
  Proof.
    intros s c m P l (Z & H & ->). unfold remove_via_left, left_remove_entry, right_remove_entry.
    mrun. rewrite (rep_hb _ _ _ _ _ H). unfold find_l, del_l.
    destruct (split_l E OK _ _ _ _ l H) as [(z & Z' & a & P & H' & Ha & Hq & Hh & Hn)|Hn].
    - rewrite Hh. destruct (t_remove_entry_unique (lo E) LO (left_set m) _
          (equivalent_key (eqL E) l) _ _ (rep_l_cons E _ _ _ _ _ _ H' Ha) Hq) as (tl & -> & Pl).
      { intros x Hx. eapply key_l_other; eauto. }
      cbn [phash pid value]. assert (HL := has_l_some E l (snd z) a Ha Hq).
      rewrite (find_split _ Z z Z' P HL Hn).
      assert (PD := filter_del _ Z z Z' P HL Hn).
      destruct z as [i x]; cbn [fst snd] in *. destruct x as [|a'|b|a' b]; simpl in Ha; inversion Ha; subst.
      + simpl. eexists; split; [reflexivity|]. eapply (repr_perm E OK); [symmetry; exact PD|].
        exists Z'; split; auto. eapply (rep_tail E s c m _ [_]); eauto; simpl; auto.
        apply (rep_r _ _ _ _ _ H').
      + cbn [option_map op_get_right].
        destruct (t_remove_entry_unique (lo E) LO (right_set m) (hashR E s b)
          (hash_and_id (hashL E s a) i) _ _ (rep_r_cons E _ _ _ _ _ _ H' eq_refl)) as (tr & Er & Pr).
        { unfold hash_and_id; simpl. rewrite !N.eqb_refl; auto. }
        { intros y Hy. apply hid_of_id. eapply id_r_other; eauto.
          apply (ids_other (i, SomeBoth a b)). apply (rep_ids _ _ _ _ _ H'). }
        cbn [right_set set_left]. rewrite Er.
        eexists; split; [reflexivity|]. eapply (repr_perm E OK); [symmetry; exact PD|].
        exists Z'; split; auto. eapply (rep_tail E s c m _ [_]); eauto; simpl; auto.
    - rewrite t_remove_entry_absent by (eapply left_absent; eauto).
      exists m; split.
      + rewrite find_absent; auto.
      + rewrite filter_absent; auto. exists Z; auto.
  Qed.

  Lemma remove_via_right_ok : forall s c m P r, Repr s c m P ->
    exists m', remove_via_right E r m = Ret m' (or_neither (find_r (eqR E) P r)) /\
               Repr s c m' (del_r (eqR E) P r).
  Proof.
    intros s c m P r (Z & H & ->). unfold remove_via_right, left_remove_entry, right_remove_entry.
    mrun. rewrite (rep_hb _ _ _ _ _ H). unfold find_r, del_r.
    destruct (split_r E OK _ _ _ _ r H) as [(z & Z' & a & P & H' & Ha & Hq & Hh & Hn)|Hn].
    - rewrite Hh. destruct (t_remove_entry_unique (lo E) LO (right_set m) _
          (equivalent_key (eqR E) r) _ _ (rep_r_cons E _ _ _ _ _ _ H' Ha) Hq) as (tl & -> & Pl).
      { intros x Hx. eapply key_r_other; eauto. }
      cbn [phash pid value]. assert (HL := has_r_some E r (snd z) a Ha Hq).
      rewrite (find_split _ Z z Z' P HL Hn).
      assert (PD := filter_del _ Z z Z' P HL Hn).
      destruct z as [i x]; cbn [fst snd] in *. destruct x as [|b|a'|b a']; simpl in Ha; inversion Ha; subst.
      + simpl. eexists; split; [reflexivity|]. eapply (repr_perm E OK); [symmetry; exact PD|].
        exists Z'; split; auto. eapply (rep_tail E s c m _ [_]); eauto; simpl; auto.
        apply (rep_l _ _ _ _ _ H').
      + cbn [option_map op_get_left].
        destruct (t_remove_entry_unique (lo E) LO (left_set m) (hashL E s b)
          (hash_and_id (hashR E s a) i) _ _ (rep_l_cons E _ _ _ _ _ _ H' eq_refl)) as (tr & Er & Pr).
        { unfold hash_and_id; simpl. rewrite !N.eqb_refl; auto. }
        { intros y Hy. apply hid_of_id. eapply id_l_other; eauto.
          apply (ids_other (i, SomeBoth b a)). apply (rep_ids _ _ _ _ _ H'). }
        cbn [left_set set_right]. rewrite Er.
        eexists; split; [reflexivity|]. eapply (repr_perm E OK); [symmetry; exact PD|].
        exists Z'; split; auto. eapply (rep_tail E s c m _ [_]); eauto; simpl; auto.
    - rewrite t_remove_entry_absent by (eapply right_absent; eauto).
      exists m; split.
      + rewrite find_absent; auto.
      + rewrite filter_absent; auto. exists Z; auto.
  Qed.

  Lemma remove_ok : forall s c m P l r, Repr s c m P ->
    exists m', remove E l r m = Ret m' (s_remove_out (eqL E) (eqR E) P l r) /\
               Repr s c m' (s_remove (eqL E) (eqR E) P l r).
  Proof.
    intros s c m P l r H. unfold remove, s_remove, s_remove_out.
    destruct (remove_via_left_ok s c m P l H) as (m1 & E1 & H1).
    mrun. rewrite (are_paired_spec E OK _ _ _ _ l r H).
    destruct (s_are_paired _ _ P l r) eqn:AP; eauto.
    rewrite E1. exists m1; split; auto.
    (* the entry of l is the pair *)
    assert (B := repr_bij E _ _ _ _ H). clear H H1 E1.
    unfold s_are_paired in AP. apply existsb_exists in AP as (x & Hx & HX).
    apply andb_true_iff in HX as [HL HR].
    unfold find_l. destruct (find (has_l (eqL E) l) P) as [y|] eqn:F.
    2:{ eapply find_none in F; eauto; congruence. }
    apply find_some in F as [Hy HY].
    assert (x = y) as ->.
    { apply has_l_true in HL as (a & Ha & La). apply has_l_true in HY as (b & Hb & Lb).
      destruct (in_split _ _ Hx) as (P1 & P2 & ->).
      assert (PP : Permutation (P1 ++ x :: P2) (x :: P1 ++ P2)) by (symmetry; apply Permutation_middle).
      eapply Permutation_in in Hy; [|exact PP]. destruct Hy as [->|Hy]; auto.
      destruct B as (D & _). eapply distinct_perm in D; [|exact EL|apply lefts_perm; exact PP].
      assert (F : has_l (eqL E) l y = false).
      { eapply (has_l_apart _ EL [x] (P1 ++ P2) l a); auto.
        apply in_lefts. exists x; split; [left|]; auto. }
      unfold has_l in F. rewrite Hb in F. congruence. }
    unfold has_l in HL. unfold has_r in HR.
    destruct y; simpl in *; try discriminate. auto.
  Qed.

  (* ---- removal of one side only ---- *)
  Lemma nodup_two : forall (z w : zent) Z, NoDup (map fst (z :: w :: Z)) ->
    fst z <> fst w /\ (forall x, In x Z -> fst x <> fst z) /\ (forall x, In x Z -> fst x <> fst w).
  Proof.
    intros z w Z H. split; [|split].
    - intro A. apply (NoDup_map_cons_notin fst z (w :: Z) H w); [left|]; auto.
    - intros x Hx. apply (NoDup_map_cons_notin fst z (w :: Z) H x); right; auto.
    - intros x Hx. inversion H; subst. eapply (NoDup_map_cons_notin fst w Z); eauto.
  Qed.

  Lemma pb_app_l : forall P P', partial_bijection (eqL E) (eqR E) (P ++ P') ->
    partial_bijection (eqL E) (eqR E) P.
  Proof.
    intros P P' (A & B & C). rewrite lefts_app in A. rewrite rights_app in B.
    apply distinct_app in A as (A & _). apply distinct_app in B as (B & _).
    split; [|split]; auto. intro I. apply C, in_app_iff; auto.
  Qed.

  Lemma distinct_one : forall {T} (e : T -> T -> bool) a, distinct e [a].
  Proof. intros. apply distinct_cons. split; [intros y []|apply distinct_nil]. Qed.
  Lemma distinct_two : forall {T} (e : T -> T -> bool) a b, distinct e [a; b] <-> e a b = false.
  Proof.
    intros. rewrite distinct_cons. split.
    - intros [A _]. apply A; left; auto.
    - intros A. split; [intros y [<-|[]]; auto|apply distinct_one].
  Qed.
  Lemma distinct_two_swap : forall {T} (e : T -> T -> bool), equivalence e -> forall a b,
    distinct e [a; b] -> distinct e [b; a].
  Proof. intros T e Q a b. rewrite !distinct_two. apply eqb_false_sym; auto. Qed.

  Lemma remove_left_ok : forall s c m P l, Repr s c m P ->
    exists m', remove_left E l m = Ret m' (s_remove_left_out (eqL E) P l) /\
               Repr s c m' (s_remove_left (eqL E) P l).
  Proof.
    intros s c m P l (Z & H & ->). unfold remove_left, left_remove_entry, right_assign.
    mrun. rewrite (rep_hb _ _ _ _ _ H). unfold s_remove_left, s_remove_left_out, find_l, del_l.
    destruct (split_l E OK _ _ _ _ l H) as [(z & Z' & a & P & H' & Ha & Hq & Hh & Hn)|Hn].
    - rewrite Hh. destruct (t_remove_entry_unique (lo E) LO (left_set m) _
          (equivalent_key (eqL E) l) _ _ (rep_l_cons E _ _ _ _ _ _ H' Ha) Hq) as (tl & -> & Pl).
      { intros x Hx. eapply key_l_other; eauto. }
      cbn [phash pid value]. assert (HL := has_l_some E l (snd z) a Ha Hq).
      rewrite (find_split _ Z z Z' P HL Hn).
      assert (PD := filter_del _ Z z Z' P HL Hn).
      destruct z as [i x]; cbn [fst snd] in *. destruct x as [|a'|b|a' b]; simpl in Ha; inversion Ha; subst.
      + simpl. eexists; split; [reflexivity|]. eapply (repr_perm E OK); [symmetry; exact PD|].
        exists Z'; split; auto. eapply (rep_tail E s c m _ [_]); eauto; simpl; auto.
        apply (rep_r _ _ _ _ _ H').
      + cbn [option_map op_get_right right_set set_left].
        destruct (get_mut_unique E OK (right_set m) (hashR E s b) (just_id i) _ _
          (rep_r_cons E _ _ _ _ _ _ H' eq_refl)) as (j & Er & AT).
        { unfold just_id; simpl. rewrite !N.eqb_refl; auto. }
        { intros y Hy. eapply id_r_other; eauto.
          apply (ids_other (i, SomeBoth a b)). apply (rep_ids _ _ _ _ _ H'). }
        cbn [fst] in Er. rewrite Er. cbn [fst].
        eexists; split; [reflexivity|]. simpl.
        eapply (repr_perm E OK); [apply perm_skip; symmetry; exact PD|].
        apply (modify_at _ _ _ _ _ (set_hash None)) in AT as [_ AT].
        exists ((i, SomeRight b) :: Z'); split; auto.
        assert (B := rep_bij _ _ _ _ _ H').
        eapply (rep_rebuild E s c c m _ [(i, SomeBoth a b)] [(i, SomeRight b)]); eauto; simpl; auto.
        * rewrite <- (rep_hb _ _ _ _ _ H'); auto.
        * rewrite <- (rep_c _ _ _ _ _ H'); auto.
        * lia.
        * constructor; auto; constructor.
        * split; [|split]; simpl; [apply distinct_nil|apply distinct_one|intros [|[]]; discriminate].
        * intros ? [].
        * intros r [<-|[]] x Hx. apply (rep_apart_r E OK s c m [(i, SomeBoth a b)] Z' H' b); [left|]; auto.
    - rewrite t_remove_entry_absent by (eapply left_absent; eauto).
      exists m; split.
      + rewrite find_absent; auto.
      + rewrite find_absent; auto. exists Z; auto.
  Qed.

  Lemma remove_right_ok : forall s c m P r, Repr s c m P ->
    exists m', remove_right E r m = Ret m' (s_remove_right_out (eqR E) P r) /\
               Repr s c m' (s_remove_right (eqR E) P r).
  Proof.
    intros s c m P r (Z & H & ->). unfold remove_right, right_remove_entry, left_assign.
    mrun. rewrite (rep_hb _ _ _ _ _ H). unfold s_remove_right, s_remove_right_out, find_r, del_r.
    destruct (split_r E OK _ _ _ _ r H) as [(z & Z' & a & P & H' & Ha & Hq & Hh & Hn)|Hn].
    - rewrite Hh. destruct (t_remove_entry_unique (lo E) LO (right_set m) _
          (equivalent_key (eqR E) r) _ _ (rep_r_cons E _ _ _ _ _ _ H' Ha) Hq) as (tl & -> & Pl).
      { intros x Hx. eapply key_r_other; eauto. }
      cbn [phash pid value]. assert (HL := has_r_some E r (snd z) a Ha Hq).
      rewrite (find_split _ Z z Z' P HL Hn).
      assert (PD := filter_del _ Z z Z' P HL Hn).
      destruct z as [i x]; cbn [fst snd] in *. destruct x as [|b|a'|b a']; simpl in Ha; inversion Ha; subst.
      + simpl. eexists; split; [reflexivity|]. eapply (repr_perm E OK); [symmetry; exact PD|].
        exists Z'; split; auto. eapply (rep_tail E s c m _ [_]); eauto; simpl; auto.
        apply (rep_l _ _ _ _ _ H').
      + cbn [option_map op_get_left left_set set_right].
        destruct (get_mut_unique E OK (left_set m) (hashL E s b) (just_id i) _ _
          (rep_l_cons E _ _ _ _ _ _ H' eq_refl)) as (j & Er & AT).
        { unfold just_id; simpl. rewrite !N.eqb_refl; auto. }
        { intros y Hy. eapply id_l_other; eauto.
          apply (ids_other (i, SomeBoth b a)). apply (rep_ids _ _ _ _ _ H'). }
        cbn [fst] in Er. rewrite Er. cbn [fst].
        eexists; split; [reflexivity|]. simpl.
        eapply (repr_perm E OK); [apply perm_skip; symmetry; exact PD|].
        apply (modify_at _ _ _ _ _ (set_hash None)) in AT as [_ AT].
        exists ((i, SomeLeft b) :: Z'); split; auto.
        assert (B := rep_bij _ _ _ _ _ H').
        eapply (rep_rebuild E s c c m _ [(i, SomeBoth b a)] [(i, SomeLeft b)]); eauto; simpl; auto.
        * rewrite <- (rep_hb _ _ _ _ _ H'); auto.
        * rewrite <- (rep_c _ _ _ _ _ H'); auto.
        * lia.
        * constructor; auto; constructor.
        * split; [|split]; simpl; [apply distinct_one|apply distinct_nil|intros [|[]]; discriminate].
        * intros l [<-|[]] x Hx. apply (rep_apart_l E OK s c m [(i, SomeBoth b a)] Z' H' b); [left|]; auto.
        * intros ? [].
    - rewrite t_remove_entry_absent by (eapply right_absent; eauto).
      exists m; split.
      + rewrite find_absent; auto.
      + rewrite find_absent; auto. exists Z; auto.
  Qed.
End Proofs2.
