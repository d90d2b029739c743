(* A CycleMap some of whose entries have lost their partner: the other pairs are not affected. *)
From Coq Require Import List NArith Lia Bool Permutation PeanoNat.
From Verif Require Import Prelude RawTable Optionals CycleMap ListFacts TableFacts SoundTables
  CycleMapSpec CycleMapProofs CycleMapProofs2 CycleMapAny.
Import ListNotations.
Open Scope N_scope.

Section Damage.
  Context {L R S : Type} (E : env L R S) (OK : lawful E).
  Notation cm := (cmap L R S).
  Notation trip := (N * L * R)%type.
  Let EL := eqL_equiv _ OK.
  Let ER := eqR_equiv _ OK.
  Let LO := lo_ok _ OK.
  Notation Top := (fun _ => True).
  Notation slotL := (slotL E).
  Notation slotR := (slotR E).
  Definition vals {A} (d : list (N * mapping_pair A)) : list A := map (fun x => value (snd x)) d.

  (* the pairs Z, and besides the left entries dl and the right entries dr *)
  Record Dam (s : S) (c : N) (m : cm) (dl : list (N * mapping_pair L)) (dr : list (N * mapping_pair R))
             (Z : list trip) : Prop := {
    dm_hb : hash_builder m = s;
    dm_c : counter m = c;
    dm_l : Permutation (slots (left_set m)) (dl ++ map (slotL s) Z);
    dm_r : Permutation (slots (right_set m)) (dr ++ map (slotR s) Z);
    dm_ids : NoDup (map zid Z);
    dm_lt : forall z, In z Z -> zid z < c;
    dm_hl : forall x, In x dl -> fst x = hashL E s (value (snd x));
    dm_hr : forall x, In x dr -> fst x = hashR E s (value (snd x));
    dm_dl : distinct (eqL E) (vals dl ++ map zl Z);
    dm_dr : distinct (eqR E) (vals dr ++ map zr Z);
    dm_il : forall x z, In x dl -> In z Z -> pid (snd x) <> zid z;
    dm_ir : forall x z, In x dr -> In z Z -> pid (snd x) <> zid z
  }.

  Lemma distinct_tail : forall {A} (e : A -> A -> bool) a b, distinct e (a ++ b) -> distinct e b.
  Proof. induction a; simpl; intros b D; auto. apply distinct_cons in D as [_ D]; auto. Qed.
  Lemma dam_clean : forall s c m Z, Dam s c m [] [] Z -> Rep E s c m Z.
  Proof. intros s c m Z []. constructor; auto. Qed.

  Lemma vals_slots : forall {A} (v : trip -> A) (f : trip -> N * mapping_pair A) d Z,
    (forall z, value (snd (f z)) = v z) -> vals (d ++ map f Z) = vals d ++ map v Z.
  Proof.
    intros A v f d Z H. unfold vals. rewrite map_app, map_map. f_equal. apply map_ext. auto.
  Qed.
  Lemma dam_values_l : forall s c m dl dr Z, Dam s c m dl dr Z ->
    Permutation (t_values (@value L) (left_set m)) (vals dl ++ map zl Z).
  Proof.
    intros s c m dl dr Z H. destruct H. unfold t_values.
    rewrite <- (vals_slots zl (slotL s)) by reflexivity. apply Permutation_map; auto.
  Qed.
  Lemma dam_values_r : forall s c m dl dr Z, Dam s c m dl dr Z ->
    Permutation (t_values (@value R) (right_set m)) (vals dr ++ map zr Z).
  Proof.
    intros s c m dl dr Z H. destruct H. unfold t_values.
    rewrite <- (vals_slots zr (slotR s)) by reflexivity. apply Permutation_map; auto.
  Qed.
  Lemma dam_inv : forall s c m dl dr Z, Dam s c m dl dr Z -> Inv E Top Top s m.
  Proof.
    intros s c m dl dr Z H. pose proof (dam_values_l _ _ _ _ _ _ H) as VL. pose proof (dam_values_r _ _ _ _ _ _ H) as VR.
    destruct H. split; auto. split; (split; [|split; [|apply Forall_top]]).
    - intros x Hx. eapply Permutation_in in Hx; [|exact dm_l0]. apply in_app_or in Hx as [Hx|Hx]; auto.
      apply in_map_iff in Hx as (z & <- & _). reflexivity.
    - eapply distinct_perm; [exact EL|symmetry; exact VL|auto].
    - intros x Hx. eapply Permutation_in in Hx; [|exact dm_r0]. apply in_app_or in Hx as [Hx|Hx]; auto.
      apply in_map_iff in Hx as (z & <- & _). reflexivity.
    - eapply distinct_perm; [exact ER|symmetry; exact VR|auto].
  Qed.

  (* looking an entry up by its item *)
  Lemma dam_get_l : forall s c m dl dr Z h e q, Dam s c m dl dr Z -> In (h, e) (slots (left_set m)) ->
    eqL E q (value e) = true ->
    t_get (lo E) (left_set m) (hashL E s q) (equivalent_key (eqL E) q) = Some e.
  Proof.
    intros s c m dl dr Z h e q H IN Q. destruct (dam_inv _ _ _ _ _ _ H) as (_ & HL & _).
    eapply get_there; [exact LO|exact EL|exact (hashL_ok E OK s)|intros; reflexivity|exact HL|exact IN|exact Q].
  Qed.
  Lemma dam_get_r : forall s c m dl dr Z h e q, Dam s c m dl dr Z -> In (h, e) (slots (right_set m)) ->
    eqR E q (value e) = true ->
    t_get (lo E) (right_set m) (hashR E s q) (equivalent_key (eqR E) q) = Some e.
  Proof.
    intros s c m dl dr Z h e q H IN Q. destruct (dam_inv _ _ _ _ _ _ H) as (_ & _ & HR).
    eapply get_there; [exact LO|exact ER|exact (hashR_ok E OK s)|intros; reflexivity|exact HR|exact IN|exact Q].
  Qed.

  Lemma dam_contains_l : forall s c m dl dr Z q, Dam s c m dl dr Z ->
    contains_left E m q = existsb (eqL E q) (vals dl) || s_contains_left (eqL E) (map zpair Z) q.
  Proof.
    intros s c m dl dr Z q H. apply eq_true_iff_eq. rewrite (contains_l E OK s m q (dam_inv _ _ _ _ _ _ H)).
    assert (V := dam_values_l _ _ _ _ _ _ H). unfold s_contains_left. rewrite orb_true_iff, !existsb_exists. split.
    - intros (x & Hx & Q). eapply Permutation_in in Hx; [|exact V]. apply in_app_or in Hx as [Hx|Hx]; [left; eauto|right].
      apply in_map_iff in Hx as (z & <- & Hz). exists (zpair z). split; auto. apply in_map; auto.
    - intros [(x & Hx & Q)|(x & Hx & Q)].
      + exists x. split; auto. eapply Permutation_in; [symmetry; exact V|]. apply in_or_app; auto.
      + apply in_map_iff in Hx as (z & <- & Hz). exists (zl z). split; auto.
        eapply Permutation_in; [symmetry; exact V|]. apply in_or_app; right. apply in_map; auto.
  Qed.
  Lemma dam_contains_r : forall s c m dl dr Z q, Dam s c m dl dr Z ->
    contains_right E m q = existsb (eqR E q) (vals dr) || s_contains_right (eqR E) (map zpair Z) q.
  Proof.
    intros s c m dl dr Z q H. apply eq_true_iff_eq. rewrite (contains_r E OK s m q (dam_inv _ _ _ _ _ _ H)).
    assert (V := dam_values_r _ _ _ _ _ _ H). unfold s_contains_right. rewrite orb_true_iff, !existsb_exists. split.
    - intros (x & Hx & Q). eapply Permutation_in in Hx; [|exact V]. apply in_app_or in Hx as [Hx|Hx]; [left; eauto|right].
      apply in_map_iff in Hx as (z & <- & Hz). exists (zpair z). split; auto. apply in_map; auto.
    - intros [(x & Hx & Q)|(x & Hx & Q)].
      + exists x. split; auto. eapply Permutation_in; [symmetry; exact V|]. apply in_or_app; auto.
      + apply in_map_iff in Hx as (z & <- & Hz). exists (zr z). split; auto.
        eapply Permutation_in; [symmetry; exact V|]. apply in_or_app; right. apply in_map; auto.
  Qed.

  Lemma dam_split_l : forall s c m dl dr Z q, Dam s c m dl dr Z -> existsb (eqL E q) (vals dl) = false ->
    (exists z Z', Permutation Z (z :: Z') /\ eqL E q (zl z) = true /\ hashL E s q = hashL E s (zl z) /\
                  forall x, In x Z' -> eqL E q (zl x) = false)
    \/ (forall x, In x Z -> eqL E q (zl x) = false).
  Proof.
    intros s c m dl dr Z q H X. assert (D := distinct_tail _ _ _ (dm_dl _ _ _ _ _ _ H)).
    destruct (split_key (eqL E) EL zl Z q D) as [(z & Z' & P & Hq & Hn)|Hn]; [left|right; auto].
    exists z, Z'. repeat split; auto. apply hashL_ok; auto.
  Qed.
  Lemma dam_split_r : forall s c m dl dr Z q, Dam s c m dl dr Z -> existsb (eqR E q) (vals dr) = false ->
    (exists z Z', Permutation Z (z :: Z') /\ eqR E q (zr z) = true /\ hashR E s q = hashR E s (zr z) /\
                  forall x, In x Z' -> eqR E q (zr x) = false)
    \/ (forall x, In x Z -> eqR E q (zr x) = false).
  Proof.
    intros s c m dl dr Z q H X. assert (D := distinct_tail _ _ _ (dm_dr _ _ _ _ _ _ H)).
    destruct (split_key (eqR E) ER zr Z q D) as [(z & Z' & P & Hq & Hn)|Hn]; [left|right; auto].
    exists z, Z'. repeat split; auto. apply hashR_ok; auto.
  Qed.

  (* the other pairs *)
  Lemma ids_away : forall {A} z Z' Z (d : list (N * mapping_pair A)) (f : trip -> N * mapping_pair A) h x,
    Permutation Z (z :: Z') -> NoDup (map zid Z) -> (forall y, pid (snd (f y)) = zid y) ->
    (forall x y, In x d -> In y Z -> pid (snd x) <> zid y) -> In x (d ++ map f Z') ->
    hash_and_id h (zid z) (snd x) = false.
  Proof.
    intros A z Z' Z d f h x P ND Hf Hd Hx. unfold hash_and_id. apply andb_false_iff. left. apply N.eqb_neq.
    apply in_app_or in Hx as [Hx|Hx].
    - intros Q. apply (Hd x z Hx); auto. eapply Permutation_in; [symmetry; exact P|left; auto].
    - apply in_map_iff in Hx as (y & <- & Hy). rewrite Hf. intros Q.
      apply (Permutation_map zid) in P. eapply Permutation_NoDup in ND; [|exact P]. inversion ND; subst.
      apply H1. rewrite Q. apply in_map; auto.
  Qed.
  Lemma slots_split : forall {A} (d : list A) (f : trip -> A) z Z Z', Permutation Z (z :: Z') ->
    Permutation (d ++ map f Z) (f z :: d ++ map f Z').
  Proof.
    intros A d f z Z Z' P. rewrite P. simpl. symmetry. apply Permutation_middle.
  Qed.
  Lemma dam_get_right : forall s c m dl dr Z q, Dam s c m dl dr Z -> existsb (eqL E q) (vals dl) = false ->
    get_right E m q = s_get_right (eqL E) (map zpair Z) q.
  Proof.
    intros s c m dl dr Z q H X. unfold get_right, get_right_q. rewrite (dm_hb _ _ _ _ _ _ H).
    destruct (dam_split_l _ _ _ _ _ _ q H X) as [(z & Z' & P & Hq & Hh & Hn)|Hn].
    - assert (IN : In (slotL s z) (slots (left_set m))).
      { eapply Permutation_in; [symmetry; apply (dm_l _ _ _ _ _ _ H)|]. apply in_or_app. right. apply in_map.
        eapply Permutation_in; [symmetry; exact P|left; auto]. }
      rewrite (dam_get_l _ _ _ _ _ _ _ _ q H IN Hq). cbn [phash pid].
      erewrite t_get_unique; [|exact LO| | |].
      2:{ etransitivity; [apply (dm_r _ _ _ _ _ _ H)|]. exact (slots_split dr (slotR s) z Z Z' P). }
      3:{ intros x Hx. eapply ids_away; eauto; [apply (dm_ids _ _ _ _ _ _ H)|reflexivity|apply (dm_ir _ _ _ _ _ _ H)]. }
      2:{ unfold hash_and_id. simpl. rewrite Hh, !N.eqb_refl. reflexivity. }
      unfold s_get_right, find_l. rewrite (find_split _ Z z Z'); auto.
    - rewrite t_get_absent.
      + unfold s_get_right, find_l. rewrite find_all_false; auto. intros x Hx.
        apply in_map_iff in Hx as (z & <- & Hz). apply Hn; auto.
      + intros x Hx. eapply Permutation_in in Hx; [|apply (dm_l _ _ _ _ _ _ H)]. apply in_app_or in Hx as [Hx|Hx].
        * rewrite existsb_false in X. apply X. unfold vals. exact (in_map (fun x => value (snd x)) _ _ Hx).
        * apply in_map_iff in Hx as (z & <- & Hz). apply Hn; auto.
  Qed.
  Lemma dam_get_left : forall s c m dl dr Z q, Dam s c m dl dr Z -> existsb (eqR E q) (vals dr) = false ->
    get_left E m q = s_get_left (eqR E) (map zpair Z) q.
  Proof.
    intros s c m dl dr Z q H X. unfold get_left, get_left_q. rewrite (dm_hb _ _ _ _ _ _ H).
    destruct (dam_split_r _ _ _ _ _ _ q H X) as [(z & Z' & P & Hq & Hh & Hn)|Hn].
    - assert (IN : In (slotR s z) (slots (right_set m))).
      { eapply Permutation_in; [symmetry; apply (dm_r _ _ _ _ _ _ H)|]. apply in_or_app. right. apply in_map.
        eapply Permutation_in; [symmetry; exact P|left; auto]. }
      rewrite (dam_get_r _ _ _ _ _ _ _ _ q H IN Hq). cbn [phash pid].
      erewrite t_get_unique; [|exact LO| | |].
      2:{ etransitivity; [apply (dm_l _ _ _ _ _ _ H)|]. exact (slots_split dl (slotL s) z Z Z' P). }
      3:{ intros x Hx. eapply ids_away; eauto; [apply (dm_ids _ _ _ _ _ _ H)|reflexivity|apply (dm_il _ _ _ _ _ _ H)]. }
      2:{ unfold hash_and_id. simpl. rewrite Hh, !N.eqb_refl. reflexivity. }
      unfold s_get_left, find_r. rewrite (find_split _ Z z Z'); auto.
    - rewrite t_get_absent.
      + unfold s_get_left, find_r. rewrite find_all_false; auto. intros x Hx.
        apply in_map_iff in Hx as (z & <- & Hz). apply Hn; auto.
      + intros x Hx. eapply Permutation_in in Hx; [|apply (dm_r _ _ _ _ _ _ H)]. apply in_app_or in Hx as [Hx|Hx].
        * rewrite existsb_false in X. apply X. unfold vals. exact (in_map (fun x => value (snd x)) _ _ Hx).
        * apply in_map_iff in Hx as (z & <- & Hz). apply Hn; auto.
  Qed.

  (* an entry without a partner: [x] has none in dr *)
  Definition alone {A B} (h : N) (x : mapping_pair A) (d : list (N * mapping_pair B)) : Prop :=
    forall y, In y d -> hash_and_id h (pid x) (snd y) = false.
  Lemma alone_r : forall s c m dl dr Z x h, Dam s c m dl dr Z -> In x dl -> alone h (snd x) dr ->
    forall y, In y (slots (right_set m)) -> hash_and_id h (pid (snd x)) (snd y) = false.
  Proof.
    intros s c m dl dr Z x h H Hx A y Hy. eapply Permutation_in in Hy; [|apply (dm_r _ _ _ _ _ _ H)].
    apply in_app_or in Hy as [Hy|Hy]; auto. apply in_map_iff in Hy as (z & <- & Hz).
    unfold hash_and_id. apply andb_false_iff. left. apply N.eqb_neq. apply (dm_il _ _ _ _ _ _ H x z); auto.
  Qed.
  Lemma alone_l : forall s c m dl dr Z x h, Dam s c m dl dr Z -> In x dr -> alone h (snd x) dl ->
    forall y, In y (slots (left_set m)) -> hash_and_id h (pid (snd x)) (snd y) = false.
  Proof.
    intros s c m dl dr Z x h H Hx A y Hy. eapply Permutation_in in Hy; [|apply (dm_l _ _ _ _ _ _ H)].
    apply in_app_or in Hy as [Hy|Hy]; auto. apply in_map_iff in Hy as (z & <- & Hz).
    unfold hash_and_id. apply andb_false_iff. left. apply N.eqb_neq. apply (dm_ir _ _ _ _ _ _ H x z); auto.
  Qed.
  Lemma dam_left_in : forall s c m dl dr Z x, Dam s c m dl dr Z -> In x dl -> In x (slots (left_set m)).
  Proof. intros s c m dl dr Z x H Hx. eapply Permutation_in; [symmetry; apply (dm_l _ _ _ _ _ _ H)|]. apply in_or_app; auto. Qed.
  Lemma dam_right_in : forall s c m dl dr Z x, Dam s c m dl dr Z -> In x dr -> In x (slots (right_set m)).
  Proof. intros s c m dl dr Z x H Hx. eapply Permutation_in; [symmetry; apply (dm_r _ _ _ _ _ _ H)|]. apply in_or_app; auto. Qed.

  Lemma dam_lonely_right : forall s c m dl dr Z x q, Dam s c m dl dr Z -> In x dl ->
    eqL E q (value (snd x)) = true -> alone (fst x) (snd x) dr -> get_right E m q = None.
  Proof.
    intros s c m dl dr Z [h e] q H Hx Q A. simpl in *. unfold get_right, get_right_q. rewrite (dm_hb _ _ _ _ _ _ H).
    rewrite (dam_get_l _ _ _ _ _ _ h e q H (dam_left_in _ _ _ _ _ _ _ H Hx) Q).
    rewrite t_get_absent; auto. apply (alone_r _ _ _ _ _ _ (h, e) _ H Hx).
    assert (HH := dm_hl _ _ _ _ _ _ H _ Hx). simpl in HH.
    rewrite (hashL_ok E OK s _ _ Q), <- HH. auto.
  Qed.
  Lemma dam_lonely_left : forall s c m dl dr Z x q, Dam s c m dl dr Z -> In x dr ->
    eqR E q (value (snd x)) = true -> alone (fst x) (snd x) dl -> get_left E m q = None.
  Proof.
    intros s c m dl dr Z [h e] q H Hx Q A. simpl in *. unfold get_left, get_left_q. rewrite (dm_hb _ _ _ _ _ _ H).
    rewrite (dam_get_r _ _ _ _ _ _ h e q H (dam_right_in _ _ _ _ _ _ _ H Hx) Q).
    rewrite t_get_absent; auto. apply (alone_l _ _ _ _ _ _ (h, e) _ H Hx).
    assert (HH := dm_hr _ _ _ _ _ _ H _ Hx). simpl in HH.
    rewrite (hashR_ok E OK s _ _ Q), <- HH. auto.
  Qed.
  (* iteration meets it and panics *)
  Lemma iter_rest_lost : forall m it fuel x, In x it -> get_right E m (value (snd x)) = None ->
    collect (iter_next E m) fuel it = Panicked.
  Proof.
    induction it as [|[h e] it IH]; intros fuel x Hx Q; [destruct Hx|].
    destruct fuel; simpl; destruct (get_right E m (value e)) eqn:G; auto.
    destruct Hx as [<-|Hx]; [simpl in Q; congruence|]. erewrite IH; eauto.
  Qed.
  Lemma dam_iter : forall s c m dl dr Z x, Dam s c m dl dr Z -> In x dl -> alone (fst x) (snd x) dr ->
    iter_all E m = Panicked.
  Proof.
    intros s c m dl dr Z x H Hx A. eapply iter_rest_lost with (x := x).
    - eapply dam_left_in; eauto.
    - eapply dam_lonely_right; eauto. apply (equiv_refl _ EL).
  Qed.

  (* its removal panics, and leaves the map without it *)
  Lemma dam_perm : forall s c m dl dl' dr dr' Z Z', Permutation dl dl' -> Permutation dr dr' -> Permutation Z Z' ->
    Dam s c m dl dr Z -> Dam s c m dl' dr' Z'.
  Proof.
    intros s c m dl dl' dr dr' Z Z' PL PR PZ H. destruct H. constructor; auto.
    - rewrite <- PL, <- PZ. auto.
    - rewrite <- PR, <- PZ. auto.
    - eapply NoDup_perm; [apply Permutation_map; exact PZ|auto].
    - intros. apply dm_lt0. eapply Permutation_in; [symmetry|]; eauto.
    - intros. apply dm_hl0. eapply Permutation_in; [symmetry|]; eauto.
    - intros. apply dm_hr0. eapply Permutation_in; [symmetry|]; eauto.
    - eapply distinct_perm; [exact EL| |exact dm_dl0]. apply Permutation_app; apply Permutation_map; auto.
    - eapply distinct_perm; [exact ER| |exact dm_dr0]. apply Permutation_app; apply Permutation_map; auto.
    - intros. apply dm_il0; (eapply Permutation_in; [symmetry|]; eauto).
    - intros. apply dm_ir0; (eapply Permutation_in; [symmetry|]; eauto).
  Qed.
  Lemma dam_remove_l : forall s c m x dl dr Z q, Dam s c m (x :: dl) dr Z -> eqL E q (value (snd x)) = true ->
    alone (fst x) (snd x) dr ->
    exists m', remove_via_left E q m = Panic m' /\ Dam s c m' dl dr Z.
  Proof.
    intros s c m [h e] dl dr Z q H Q A. cbn [fst snd] in *.
    assert (HH := dm_hl _ _ _ _ _ _ H _ (or_introl eq_refl)). cbn [fst snd] in HH.
    assert (HQ := hashL_ok E OK s _ _ Q). rewrite <- HH in HQ.
    unfold remove_via_left, left_remove_entry, right_remove_entry. mrun. rewrite (dm_hb _ _ _ _ _ _ H), HQ.
    assert (D := dm_dl _ _ _ _ _ _ H). simpl in D. apply distinct_cons in D as [D1 D2].
    destruct (t_remove_entry_unique (lo E) LO (left_set m) h (equivalent_key (eqL E) q) e _ (dm_l _ _ _ _ _ _ H) Q)
      as (tl & -> & Pl).
    { intros x Hx. change (eqL E q (value (snd x)) = false). rewrite (eqb_replace_l _ EL _ _ _ Q).
      apply D1. rewrite <- (vals_slots zl (slotL s)) by reflexivity. exact (in_map (fun x => value (snd x)) _ _ Hx). }
    simpl. rewrite t_remove_entry_absent by (apply (alone_r _ _ _ _ _ _ (h, e) _ H (or_introl eq_refl) A)).
    eexists. split; [reflexivity|]. destruct H. constructor; auto; simpl.
    - intros. apply dm_hl0. right; auto.
    - intros. apply dm_il0; auto. right; auto.
  Qed.
  Lemma dam_remove_r : forall s c m x dl dr Z q, Dam s c m dl (x :: dr) Z -> eqR E q (value (snd x)) = true ->
    alone (fst x) (snd x) dl ->
    exists m', remove_via_right E q m = Panic m' /\ Dam s c m' dl dr Z.
  Proof.
    intros s c m [h e] dl dr Z q H Q A. cbn [fst snd] in *.
    assert (HH := dm_hr _ _ _ _ _ _ H _ (or_introl eq_refl)). cbn [fst snd] in HH.
    assert (HQ := hashR_ok E OK s _ _ Q). rewrite <- HH in HQ.
    unfold remove_via_right, left_remove_entry, right_remove_entry. mrun. rewrite (dm_hb _ _ _ _ _ _ H), HQ.
    assert (D := dm_dr _ _ _ _ _ _ H). simpl in D. apply distinct_cons in D as [D1 D2].
    destruct (t_remove_entry_unique (lo E) LO (right_set m) h (equivalent_key (eqR E) q) e _ (dm_r _ _ _ _ _ _ H) Q)
      as (tl & -> & Pl).
    { intros x Hx. change (eqR E q (value (snd x)) = false). rewrite (eqb_replace_l _ ER _ _ _ Q).
      apply D1. rewrite <- (vals_slots zr (slotR s)) by reflexivity. exact (in_map (fun x => value (snd x)) _ _ Hx). }
    simpl. rewrite t_remove_entry_absent by (apply (alone_l _ _ _ _ _ _ (h, e) _ H (or_introl eq_refl) A)).
    eexists. split; [reflexivity|]. destruct H. constructor; auto; simpl.
    - intros. apply dm_hr0. right; auto.
    - intros. apply dm_ir0; auto. right; auto.
  Qed.
End Damage.
