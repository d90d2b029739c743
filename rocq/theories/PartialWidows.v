(* PartialCycleMap after a defect has struck (C32, C40): some items count as paired although
   nothing is paired with them ("widows").  What every read of such a map returns, and which
   calls panic. *)
From Coq Require Import List NArith Lia Bool Permutation PeanoNat.
From Verif Require Import Prelude RawTable Optionals PartialCycleMap PartialSpec ListFacts TableFacts
  Closures IterFacts PartialProofs PartialProofs2 PartialProofs3 PartialProofs6.
Import ListNotations.
Open Scope N_scope.

Section Widows.
  Context {L R S : Type} (E : env L R S) (OK : lawful E).
  Notation pm := (pmap L R S).
  Notation entry := (optional_pair L R).
  Notation zent := (N * entry)%type.
  Notation slotL := (slotL E).
  Notation slotR := (slotR E).
  Implicit Types (m : pm) (P : list entry) (Z VL VR : list zent).
  Let EL := eqL_equiv _ OK.
  Let ER := eqR_equiv _ OK.
  Let LO := lo_ok _ OK.

  (* The map, seen from outside: the entries P, left items WL and right items WR that count as
     paired but have no partner. *)
  Record torn m P (WL : list L) (WR : list R) : Prop := {
    tn_dl : distinct (eqL E) (lefts P ++ WL);
    tn_dr : distinct (eqR E) (rights P ++ WR);
    tn_nn : ~ In Neither P;
    tn_cl : forall q, contains_left E m q = existsb (eqL E q) (lefts P ++ WL);
    tn_cr : forall q, contains_right E m q = existsb (eqR E q) (rights P ++ WR);
    tn_ll : len_left m = length (lefts P ++ WL);
    tn_lr : len_right m = length (rights P ++ WR);
    tn_gr : forall q, get_right E m q = s_get_right (eqL E) P q;
    tn_gl : forall q, get_left E m q = s_get_left (eqR E) P q;
    tn_pl : forall q, is_left_paired E m q = s_is_left_paired (eqL E) P q || existsb (eqL E q) WL;
    tn_pr : forall q, is_right_paired E m q = s_is_right_paired (eqR E) P q || existsb (eqR E q) WR;
    tn_ap : forall l r, are_paired E m l r = s_are_paired (eqL E) (eqR E) P l r;
    tn_il : Permutation (map (fun x => value (snd x)) (iter_left m)) (lefts P ++ WL);
    tn_ir : Permutation (map (fun x => value (snd x)) (iter_right m)) (rights P ++ WR);
    tn_it : exists Q, iter_all E m = Done Q /\
              Permutation Q (filter has_left_item P ++ map SomeLeft WL);
    tn_iu : exists Q, unpaired_rest (iter_unpaired m) = Done Q /\ Permutation Q (s_unpaired P);
    tn_ip : WL <> [] -> paired_rest E m (iter_paired m) = Panicked;
    (* a widow cannot be taken out with its partner, nor inserted again *)
    tn_xl : forall q, existsb (eqL E q) WL = true -> (exists m', remove_via_left E q m = Panic m') /\
              (exists m', insert_left E q m = Panic m') /\ (forall r, exists m', insert E q r m = Panic m');
    tn_xr : forall q, existsb (eqR E q) WR = true -> (exists m', remove_via_right E q m = Panic m') /\
              (exists m', insert_right E q m = Panic m')
  }.

  (* The tables: VL, VR: the widows with the pairs they come from *)
  Record WRep (s : S) m Z VL VR : Prop := {
    w_hb : hash_builder m = s;
    w_l : Permutation (slots (left_set m)) (flat_map (slotL s) (Z ++ VL));
    w_r : Permutation (slots (right_set m)) (flat_map (slotR s) (Z ++ VR));
    w_ids : NoDup (map fst (Z ++ VL));
    w_idr : NoDup (map fst VR);
    w_idlr : forall v w, In v VL -> In w VR -> fst v <> fst w;
    w_idzr : forall z w, In z Z -> In w VR -> fst z = fst w -> op_get_right (snd z) = None;
    w_bl : forall v, In v VL -> exists a b, snd v = SomeBoth a b;
    w_br : forall v, In v VR -> exists a b, snd v = SomeBoth a b;
    w_dl : distinct (eqL E) (lefts (map snd (Z ++ VL)));
    w_dr : distinct (eqR E) (rights (map snd (Z ++ VR)));
    w_nn : ~ In Neither (map snd Z)
  }.

  (* where an item is *)
  Lemma wl_find : forall (A : list zent) q, distinct (eqL E) (lefts (map snd A)) ->
    (exists z A' a, Permutation A (z :: A') /\ In z A /\ op_get_left (snd z) = Some a /\
       eqL E q a = true /\ (forall x, In x A' -> has_l (eqL E) q (snd x) = false)) \/
    (forall x, In x A -> has_l (eqL E) q (snd x) = false).
  Proof.
    intros A q D. destruct (existsb (fun z => has_l (eqL E) q (snd z)) A) eqn:X.
    - left. apply existsb_exists in X as (z & Hz & Hq). apply has_l_true in Hq as (a & Ha & Hq).
      assert (HIn := Hz). apply perm_in_cons in Hz as [A' P]. exists z, A', a. do 4 (split; auto).
      intros x Hx. eapply (distinct_perm _ EL) in D; [|apply lefts_perm, Permutation_map; exact P].
      eapply (has_l_apart _ EL [snd z] (map snd A')); eauto.
      + apply in_lefts. exists (snd z); split; [left|]; auto.
      + apply in_map; auto.
    - right. intros x Hx. rewrite existsb_false in X. apply (X x Hx).
  Qed.

  Inductive at_l (s : S) m Z VL (q : L) : Prop :=
  | al_entry : forall z Z' a, Permutation Z (z :: Z') -> op_get_left (snd z) = Some a ->
      eqL E q a = true -> hashL E s q = hashL E s a ->
      (forall x, In x (Z' ++ VL) -> has_l (eqL E) q (snd x) = false) ->
      t_get (lo E) (left_set m) (hashL E s q) (equivalent_key (eqL E) q)
        = Some (MP a (option_map (hashR E s) (op_get_right (snd z))) (fst z)) -> at_l s m Z VL q
  | al_widow : forall v V a b, Permutation VL (v :: V) -> snd v = SomeBoth a b ->
      eqL E q a = true -> hashL E s q = hashL E s a ->
      (forall x, In x (Z ++ V) -> has_l (eqL E) q (snd x) = false) ->
      t_get (lo E) (left_set m) (hashL E s q) (equivalent_key (eqL E) q)
        = Some (MP a (Some (hashR E s b)) (fst v)) -> at_l s m Z VL q
  | al_none : (forall x, In x (Z ++ VL) -> has_l (eqL E) q (snd x) = false) ->
      t_get (lo E) (left_set m) (hashL E s q) (equivalent_key (eqL E) q) = None -> at_l s m Z VL q.

  Lemma wl_at : forall s m Z VL VR q, WRep s m Z VL VR -> at_l s m Z VL q.
  Proof.
    intros s m Z VL VR q H.
    destruct (wl_find (Z ++ VL) q (w_dl _ _ _ _ _ H)) as [(z & A & a & P & HIn & Ha & Hq & Hn)|Hn].
    - assert (HH := hashL_ok _ OK s q a Hq).
      assert (G : t_get (lo E) (left_set m) (hashL E s q) (equivalent_key (eqL E) q)
                  = Some (MP a (option_map (hashR E s) (op_get_right (snd z))) (fst z))).
      { rewrite HH. eapply (t_get_unique _ LO) with (rest := flat_map (slotL s) A).
        - rewrite (w_l _ _ _ _ _ H), (Permutation_flat_map _ P). simpl.
          rewrite (slotL_some E s z a Ha). auto.
        - exact Hq.
        - intros x Hx. eapply key_l_other; eauto. }
      apply in_app_iff in HIn as [HIn|HIn]; apply perm_in_cons in HIn as [W PW].
      + eapply al_entry; eauto. intros x Hx. apply Hn.
        apply (Permutation_in (l := W ++ VL)); auto.
        apply (Permutation_cons_inv (a := z)). rewrite <- P, PW. auto.
      + destruct (w_bl _ _ _ _ _ H z) as (a' & b & Q).
        { eapply Permutation_in; [symmetry; exact PW|left; auto]. }
        rewrite Q in *. simpl in Ha. inversion Ha; subst a'.
        eapply al_widow; eauto. intros x Hx. apply Hn.
        apply (Permutation_in (l := Z ++ W)); auto.
        apply (Permutation_cons_inv (a := z)). rewrite <- P, PW. apply Permutation_middle.
    - apply al_none; auto. apply t_get_absent. intros x Hx. eapply key_l_other; [exact Hn|].
      eapply Permutation_in; [apply (w_l _ _ _ _ _ H)|auto].
  Qed.

    Lemma wr_find : forall (A : list zent) q, distinct (eqR E) (rights (map snd A)) ->
    (exists z A' a, Permutation A (z :: A') /\ In z A /\ op_get_right (snd z) = Some a /\
       eqR E q a = true /\ (forall x, In x A' -> has_r (eqR E) q (snd x) = false)) \/
    (forall x, In x A -> has_r (eqR E) q (snd x) = false).
  Proof.
    intros A q D. destruct (existsb (fun z => has_r (eqR E) q (snd z)) A) eqn:X.
    - left. apply existsb_exists in X as (z & Hz & Hq). apply has_r_true in Hq as (a & Ha & Hq).
      assert (HIn := Hz). apply perm_in_cons in Hz as [A' P]. exists z, A', a. do 4 (split; auto).
      intros x Hx. eapply (distinct_perm _ ER) in D; [|apply rights_perm, Permutation_map; exact P].
      eapply (has_r_apart _ ER [snd z] (map snd A')); eauto.
      + apply in_rights. exists (snd z); split; [left|]; auto.
      + apply in_map; auto.
    - right. intros x Hx. rewrite existsb_false in X. apply (X x Hx).
  Qed.

  Inductive at_r (s : S) m Z VR (q : R) : Prop :=
  | ar_entry : forall z Z' a, Permutation Z (z :: Z') -> op_get_right (snd z) = Some a ->
      eqR E q a = true -> hashR E s q = hashR E s a ->
      (forall x, In x (Z' ++ VR) -> has_r (eqR E) q (snd x) = false) ->
      t_get (lo E) (right_set m) (hashR E s q) (equivalent_key (eqR E) q)
        = Some (MP a (option_map (hashL E s) (op_get_left (snd z))) (fst z)) -> at_r s m Z VR q
  | ar_widow : forall v V a b, Permutation VR (v :: V) -> snd v = SomeBoth b a ->
      eqR E q a = true -> hashR E s q = hashR E s a ->
      (forall x, In x (Z ++ V) -> has_r (eqR E) q (snd x) = false) ->
      t_get (lo E) (right_set m) (hashR E s q) (equivalent_key (eqR E) q)
        = Some (MP a (Some (hashL E s b)) (fst v)) -> at_r s m Z VR q
  | ar_none : (forall x, In x (Z ++ VR) -> has_r (eqR E) q (snd x) = false) ->
      t_get (lo E) (right_set m) (hashR E s q) (equivalent_key (eqR E) q) = None -> at_r s m Z VR q.

  Lemma wr_at : forall s m Z VL VR q, WRep s m Z VL VR -> at_r s m Z VR q.
  Proof.
    intros s m Z VL VR q H.
    destruct (wr_find (Z ++ VR) q (w_dr _ _ _ _ _ H)) as [(z & A & a & P & HIn & Ha & Hq & Hn)|Hn].
    - assert (HH := hashR_ok _ OK s q a Hq).
      assert (G : t_get (lo E) (right_set m) (hashR E s q) (equivalent_key (eqR E) q)
                  = Some (MP a (option_map (hashL E s) (op_get_left (snd z))) (fst z))).
      { rewrite HH. eapply (t_get_unique _ LO) with (rest := flat_map (slotR s) A).
        - rewrite (w_r _ _ _ _ _ H), (Permutation_flat_map _ P). simpl.
          rewrite (slotR_some E s z a Ha). auto.
        - exact Hq.
        - intros x Hx. eapply key_r_other; eauto. }
      apply in_app_iff in HIn as [HIn|HIn]; apply perm_in_cons in HIn as [W PW].
      + eapply ar_entry; eauto. intros x Hx. apply Hn.
        apply (Permutation_in (l := W ++ VR)); auto.
        apply (Permutation_cons_inv (a := z)). rewrite <- P, PW. auto.
      + destruct (w_br _ _ _ _ _ H z) as (b & a' & Q).
        { eapply Permutation_in; [symmetry; exact PW|left; auto]. }
        rewrite Q in *. simpl in Ha. inversion Ha; subst a'.
        eapply ar_widow; eauto. intros x Hx. apply Hn.
        apply (Permutation_in (l := Z ++ W)); auto.
        apply (Permutation_cons_inv (a := z)). rewrite <- P, PW. apply Permutation_middle.
    - apply ar_none; auto. apply t_get_absent. intros x Hx. eapply key_r_other; [exact Hn|].
      eapply Permutation_in; [apply (w_r _ _ _ _ _ H)|auto].
  Qed.

  Lemma NoDup_app_remove_tail : forall {T} (l l' : list T), NoDup (l ++ l') -> NoDup l.
  Proof.
    intros T l l' H. apply (NoDup_app_r l' l). eapply NoDup_perm; [apply Permutation_app_comm|auto].
  Qed.
  Lemma t_get_some : forall {A} (t : table A) h p e, t_get (lo E) t h p = Some e ->
    exists h', In (h', e) (slots t) /\ p e = true.
  Proof.
    intros A t h p e H. unfold t_get in H. destruct (t_find (lo E) t h p) as [i|] eqn:F; [|discriminate].
    apply t_find_some in F as (h' & e' & N & P). unfold t_entry in H. rewrite N in H.
    inversion H; subst e'. exists h'. split; auto. eapply nth_error_In; eauto.
  Qed.

  (* the other half *)
  Lemma w_right_of : forall s m Z VL VR z Z' a b, WRep s m Z VL VR -> Permutation Z (z :: Z') ->
    snd z = SomeBoth a b ->
    t_get (lo E) (right_set m) (hashR E s b) (hash_and_id (hashL E s a) (fst z))
      = Some (MP b (Some (hashL E s a)) (fst z)).
  Proof.
    intros s m Z VL VR z Z' a b H P Q.
    eapply (t_get_unique _ LO) with (rest := flat_map (slotR s) (Z' ++ VR)).
    - rewrite (w_r _ _ _ _ _ H), !flat_map_app, (Permutation_flat_map _ P). simpl.
      unfold PartialProofs.slotR at 1. rewrite Q. simpl. auto.
    - unfold hash_and_id; simpl. rewrite !N.eqb_refl; auto.
    - intros x Hx. apply hid_of_id. eapply id_r_other; [|exact Hx]. intros y Hy.
      apply in_app_iff in Hy as [Hy|Hy].
      + assert (ND := w_ids _ _ _ _ _ H). rewrite map_app in ND.
        apply NoDup_app_remove_tail in ND. apply (NoDup_perm _ _ (Permutation_map fst P)) in ND.
        apply (ids_other z Z' ND y Hy).
      + intro EQ. assert (A := w_idzr _ _ _ _ _ H z y).
        rewrite Q in A. discriminate A; auto.
        eapply Permutation_in; [symmetry; exact P|left; auto].
  Qed.
  Lemma w_left_of : forall s m Z VL VR z Z' a b, WRep s m Z VL VR -> Permutation Z (z :: Z') ->
    snd z = SomeBoth a b ->
    t_get (lo E) (left_set m) (hashL E s a) (hash_and_id (hashR E s b) (fst z))
      = Some (MP a (Some (hashR E s b)) (fst z)).
  Proof.
    intros s m Z VL VR z Z' a b H P Q.
    eapply (t_get_unique _ LO) with (rest := flat_map (slotL s) (Z' ++ VL)).
    - rewrite (w_l _ _ _ _ _ H), !flat_map_app, (Permutation_flat_map _ P). simpl.
      unfold PartialProofs.slotL at 1. rewrite Q. simpl. auto.
    - unfold hash_and_id; simpl. rewrite !N.eqb_refl; auto.
    - intros x Hx. apply hid_of_id. eapply id_l_other; [|exact Hx].
      assert (ND := w_ids _ _ _ _ _ H).
      apply (NoDup_perm _ (map fst (z :: Z' ++ VL))) in ND.
      + apply (ids_other z (Z' ++ VL) ND).
      + apply Permutation_map. change (z :: Z' ++ VL) with ((z :: Z') ++ VL).
        apply Permutation_app_tail. auto.
  Qed.
  Lemma w_no_right : forall s m Z VL VR v h, WRep s m Z VL VR -> In v VL ->
    forall x, In x (slots (right_set m)) -> hash_and_id h (fst v) (snd x) = false.
  Proof.
    intros s m Z VL VR v h H Hv x Hx. eapply Permutation_in in Hx; [|apply (w_r _ _ _ _ _ H)].
    apply hid_of_id. eapply id_r_other; [|exact Hx]. intros y Hy. apply in_app_iff in Hy as [Hy|Hy].
    - apply in_split in Hv as (A & B & ->). assert (ND := w_ids _ _ _ _ _ H).
      apply (NoDup_perm _ (map fst (v :: Z ++ A ++ B))) in ND.
      + apply (ids_other v _ ND). apply in_app_iff; auto.
      + apply Permutation_map. symmetry. rewrite !app_assoc. apply Permutation_middle.
    - intro EQ. symmetry in EQ. exact (w_idlr _ _ _ _ _ H v y Hv Hy EQ).
  Qed.
  Lemma w_no_left : forall s m Z VL VR w h, WRep s m Z VL VR -> In w VR ->
    forall x, In x (slots (left_set m)) -> hash_and_id h (fst w) (snd x) = false.
  Proof.
    intros s m Z VL VR w h H Hw x Hx. eapply Permutation_in in Hx; [|apply (w_l _ _ _ _ _ H)].
    apply in_flat_map in Hx as (y & Hy & Hx).
    destruct (op_get_left (snd y)) as [a|] eqn:Ha; [|rewrite (slotL_none E s y Ha) in Hx; easy].
    rewrite (slotL_some E s y a Ha) in Hx. destruct Hx as [<-|[]].
    unfold hash_and_id. cbn [snd pid phash].
    destruct (fst w =? fst y) eqn:EQ; auto. apply N.eqb_eq in EQ. symmetry in EQ.
    apply in_app_iff in Hy as [Hy|Hy].
    - rewrite (w_idzr _ _ _ _ _ H y w Hy Hw EQ). auto.
    - exfalso. exact (w_idlr _ _ _ _ _ H y w Hy Hw EQ).
  Qed.

  Lemma lefts_app_map : forall (A B : list zent), lefts (map snd (A ++ B)) = lefts (map snd A) ++ lefts (map snd B).
  Proof. intros. rewrite map_app. apply lefts_app. Qed.
  Lemma rights_app_map : forall (A B : list zent), rights (map snd (A ++ B)) = rights (map snd A) ++ rights (map snd B).
  Proof. intros. rewrite map_app. apply rights_app. Qed.
  Lemma has_l_lefts : forall q (A : list zent),
    existsb (eqL E q) (lefts (map snd A)) = existsb (has_l (eqL E) q) (map snd A).
  Proof.
    intros q A. unfold lefts. induction (map snd A) as [|e l IH]; auto. cbn [flat_map existsb].
    rewrite existsb_app, IH. unfold has_l at 2. destruct (op_get_left e); simpl; auto.
    rewrite orb_false_r. auto.
  Qed.
  Lemma has_r_rights : forall q (A : list zent),
    existsb (eqR E q) (rights (map snd A)) = existsb (has_r (eqR E) q) (map snd A).
  Proof.
    intros q A. unfold rights. induction (map snd A) as [|e l IH]; auto. cbn [flat_map existsb].
    rewrite existsb_app, IH. unfold has_r at 2. destruct (op_get_right e); simpl; auto.
    rewrite orb_false_r. auto.
  Qed.

  Lemma w_contains_left : forall s m Z VL VR q, WRep s m Z VL VR ->
    contains_left E m q = existsb (eqL E q) (lefts (map snd Z) ++ lefts (map snd VL)).
  Proof.
    intros s m Z VL VR q H. unfold contains_left.
    rewrite (w_hb _ _ _ _ _ H), <- lefts_app_map, has_l_lefts.
    destruct (wl_at _ _ _ _ _ q H) as [z Z' a P Ha Hq Hh Hn G|v V a b P Hv Hq Hh Hn G|Hn G]; rewrite G; simpl.
    - rewrite (existsb_split _ (Z ++ VL) z (Z' ++ VL)); auto.
      + symmetry. eapply has_l_some; eauto.
      + change (z :: Z' ++ VL) with ((z :: Z') ++ VL). apply Permutation_app_tail; auto.
    - rewrite (existsb_split _ (Z ++ VL) v (Z ++ V)); auto.
      + symmetry. apply (has_l_some E q _ a); auto. rewrite Hv. auto.
      + rewrite P. symmetry. apply Permutation_middle.
    - rewrite existsb_absent; auto.
  Qed.
  Lemma w_contains_right : forall s m Z VL VR q, WRep s m Z VL VR ->
    contains_right E m q = existsb (eqR E q) (rights (map snd Z) ++ rights (map snd VR)).
  Proof.
    intros s m Z VL VR q H. unfold contains_right.
    rewrite (w_hb _ _ _ _ _ H), <- rights_app_map, has_r_rights.
    destruct (wr_at _ _ _ _ _ q H) as [z Z' a P Ha Hq Hh Hn G|v V a b P Hv Hq Hh Hn G|Hn G]; rewrite G; simpl.
    - rewrite (existsb_split _ (Z ++ VR) z (Z' ++ VR)); auto.
      + symmetry. eapply has_r_some; eauto.
      + change (z :: Z' ++ VR) with ((z :: Z') ++ VR). apply Permutation_app_tail; auto.
    - rewrite (existsb_split _ (Z ++ VR) v (Z ++ V)); auto.
      + symmetry. apply (has_r_some E q _ a); auto. rewrite Hv. auto.
      + rewrite P. symmetry. apply Permutation_middle.
    - rewrite existsb_absent; auto.
  Qed.

  Lemma in_l : forall {T} (x : T) A B, In x A -> In x (A ++ B).
  Proof. intros. apply in_app_iff; auto. Qed.
  Lemma in_r : forall {T} (x : T) A B, In x B -> In x (A ++ B).
  Proof. intros. apply in_app_iff; auto. Qed.
  Local Hint Resolve in_l in_r : core.

  Lemma w_get_right : forall s m Z VL VR q, WRep s m Z VL VR ->
    get_right E m q = s_get_right (eqL E) (map snd Z) q.
  Proof.
    intros s m Z VL VR q H. unfold get_right, get_right_q, s_get_right, find_l.
    rewrite (w_hb _ _ _ _ _ H).
    destruct (wl_at _ _ _ _ _ q H) as [z Z' a P Ha Hq Hh Hn G|v V a b P Hv Hq Hh Hn G|Hn G]; rewrite G;
      cbn [phash pid].
    - rewrite (find_split (has_l (eqL E) q) Z z Z'); auto; [|eapply has_l_some; eauto].
      simpl. destruct (snd z) as [|a'|b|a' b] eqn:Q; simpl in Ha; inversion Ha; subst a'; simpl; auto.
      rewrite Hh. rewrite (w_right_of _ _ _ _ _ z Z' a b H P Q). auto.
    - rewrite find_absent by auto. simpl.
      rewrite t_get_absent; auto. intros x Hx. eapply w_no_right; eauto.
      eapply Permutation_in; [symmetry; exact P|left; auto].
    - rewrite find_absent; auto.
  Qed.
  Lemma w_get_left : forall s m Z VL VR q, WRep s m Z VL VR ->
    get_left E m q = s_get_left (eqR E) (map snd Z) q.
  Proof.
    intros s m Z VL VR q H. unfold get_left, get_left_q, s_get_left, find_r.
    rewrite (w_hb _ _ _ _ _ H).
    destruct (wr_at _ _ _ _ _ q H) as [z Z' a P Ha Hq Hh Hn G|v V a b P Hv Hq Hh Hn G|Hn G]; rewrite G;
      cbn [phash pid].
    - rewrite (find_split (has_r (eqR E) q) Z z Z'); auto; [|eapply has_r_some; eauto].
      simpl. destruct (snd z) as [|a'|b|b a'] eqn:Q; simpl in Ha; inversion Ha; subst; simpl; auto.
      rewrite Hh. rewrite (w_left_of _ _ _ _ _ z Z' b a H P Q). auto.
    - rewrite find_absent by auto. simpl.
      rewrite t_get_absent; auto. intros x Hx. eapply w_no_left; eauto.
      eapply Permutation_in; [symmetry; exact P|left; auto].
    - rewrite find_absent; auto.
  Qed.

  Lemma w_is_left_paired : forall s m Z VL VR q, WRep s m Z VL VR ->
    is_left_paired E m q = s_is_left_paired (eqL E) (map snd Z) q || existsb (eqL E q) (lefts (map snd VL)).
  Proof.
    intros s m Z VL VR q H. unfold is_left_paired, s_is_left_paired.
    rewrite (w_hb _ _ _ _ _ H), has_l_lefts.
    destruct (wl_at _ _ _ _ _ q H) as [z Z' a P Ha Hq Hh Hn G|v V a b P Hv Hq Hh Hn G|Hn G]; rewrite G;
      cbn [phash].
    - rewrite (existsb_split _ Z z Z') by (auto; intros x Hx; rewrite Hn; auto).
      rewrite (existsb_absent _ VL) by auto. rewrite (has_l_some E q _ a) by auto. rewrite orb_false_r.
      destruct (snd z); simpl in *; auto; discriminate.
    - rewrite (existsb_split _ VL v V) by auto.
      rewrite (has_l_some E q _ a) by (auto; rewrite Hv; auto). rewrite orb_true_r. auto.
    - rewrite !existsb_absent; auto. intros x Hx. rewrite Hn; auto.
  Qed.
  Lemma w_is_right_paired : forall s m Z VL VR q, WRep s m Z VL VR ->
    is_right_paired E m q = s_is_right_paired (eqR E) (map snd Z) q || existsb (eqR E q) (rights (map snd VR)).
  Proof.
    intros s m Z VL VR q H. unfold is_right_paired, s_is_right_paired.
    rewrite (w_hb _ _ _ _ _ H), has_r_rights.
    destruct (wr_at _ _ _ _ _ q H) as [z Z' a P Ha Hq Hh Hn G|v V a b P Hv Hq Hh Hn G|Hn G]; rewrite G;
      cbn [phash].
    - rewrite (existsb_split _ Z z Z') by (auto; intros x Hx; rewrite Hn; auto).
      rewrite (existsb_absent _ VR) by auto. rewrite (has_r_some E q _ a) by auto. rewrite orb_false_r.
      destruct (snd z); simpl in *; auto; discriminate.
    - rewrite (existsb_split _ VR v V) by auto.
      rewrite (has_r_some E q _ a) by (auto; rewrite Hv; auto). rewrite orb_true_r. auto.
    - rewrite !existsb_absent; auto. intros x Hx. rewrite Hn; auto.
  Qed.

  Lemma w_are_paired : forall s m Z VL VR l r, WRep s m Z VL VR ->
    are_paired E m l r = s_are_paired (eqL E) (eqR E) (map snd Z) l r.
  Proof.
    intros s m Z VL VR l r H. unfold are_paired, s_are_paired. rewrite (w_hb _ _ _ _ _ H).
    destruct (wl_at _ _ _ _ _ l H) as [z Z' a P Ha Hq Hh Hn G|v V a b P Hv Hq Hh Hn G|Hn G]; rewrite G.
    - rewrite (existsb_split _ Z z Z' P) by (intros x Hx; rewrite Hn; auto).
      rewrite (has_l_some E l (snd z) a) by auto. cbn [andb].
      assert (IZ : In z Z) by (eapply Permutation_in; [symmetry; exact P|left; auto]).
      destruct (wr_at _ _ _ _ _ r H) as [w W b PW Hb Hr Hhr Hnr GR|w W b b' PW Hw Hr Hhr Hnr GR|Hnr GR];
        rewrite GR; cbn [pid phash].
      + assert (IW : In w Z) by (eapply Permutation_in; [symmetry; exact PW|left; auto]).
        destruct (has_r (eqR E) r (snd z)) eqn:X.
        * assert (w = z) as ->.
          { assert (IN : In z (w :: W)) by (eapply Permutation_in; [exact PW|auto]).
            destruct IN as [->|IN]; auto. rewrite Hnr in X by auto. discriminate. }
          rewrite Ha, Hb. simpl. rewrite Hh, Hhr, !N.eqb_refl. auto.
        * assert (fst z =? fst w = false) as ->; auto.
          apply N.eqb_neq. intro EQ.
          assert (IN : In w (z :: Z')) by (eapply Permutation_in; [exact P|auto]).
          destruct IN as [->|IN].
          { erewrite has_r_some in X; eauto. discriminate. }
          assert (ND := w_ids _ _ _ _ _ H). rewrite map_app in ND. apply NoDup_app_remove_tail in ND.
          apply (NoDup_perm _ _ (Permutation_map fst P)) in ND.
          exact (ids_other z Z' ND w IN (eq_sym EQ)).
      + rewrite Hnr by auto. destruct (fst z =? fst w) eqn:EQ; auto. apply N.eqb_eq in EQ.
        assert (IW : In w VR) by (eapply Permutation_in; [symmetry; exact PW|left; auto]).
        rewrite (w_idzr _ _ _ _ _ H z w IZ IW EQ).
        simpl. rewrite andb_false_r. auto.
      + symmetry. apply Hnr; auto.
    - rewrite existsb_absent by (intros x Hx; rewrite Hn; auto).
      assert (IV : In v VL) by (eapply Permutation_in; [symmetry; exact P|left; auto]).
      destruct (t_get (lo E) (right_set m) (hashR E s r) (equivalent_key (eqR E) r)) as [e|] eqn:GR; auto.
      apply t_get_some in GR as (h & HIn & _).
      assert (NO := w_no_right _ _ _ _ _ v (hashL E s l) H IV (h, e) HIn).
      unfold hash_and_id in NO. cbn [snd] in NO. cbn [pid]. rewrite NO. auto.
    - rewrite existsb_absent; auto. intros x Hx. rewrite Hn; auto.
  Qed.

  Lemma t_get_remove : forall {A} (t : table A) h p e, t_get (lo E) t h p = Some e ->
    exists t', t_remove_entry (lo E) t h p = Some (e, t').
  Proof.
    intros A t h p e H. unfold t_get, t_remove_entry in *. destruct (t_find (lo E) t h p); [|discriminate].
    rewrite H. eauto.
  Qed.

  Lemma w_remove_left_panics : forall s m Z VL VR q, WRep s m Z VL VR ->
    existsb (eqL E q) (lefts (map snd VL)) = true -> exists m', remove_via_left E q m = Panic m'.
  Proof.
    intros s m Z VL VR q H X. rewrite has_l_lefts in X.
    unfold remove_via_left, left_remove_entry, right_remove_entry.
    cbv [bind ret getst putst unwrap panic]. rewrite (w_hb _ _ _ _ _ H).
    destruct (wl_at _ _ _ _ _ q H) as [z Z' a P Ha Hq Hh Hn G|v V a b P Hv Hq Hh Hn G|Hn G].
    1,3: rewrite existsb_absent in X by auto; discriminate.
    destruct (t_get_remove _ _ _ _ G) as (t' & ->). cbn [phash pid].
    assert (NR : t_remove_entry (lo E) (right_set m) (hashR E s b) (hash_and_id (hashL E s q) (fst v)) = None).
    { apply t_remove_entry_absent. intros x Hx. eapply w_no_right; eauto.
      eapply Permutation_in; [symmetry; exact P|left; auto]. }
    cbn [set_left right_set]. rewrite NR. eauto.
  Qed.
  Lemma w_remove_right_panics : forall s m Z VL VR q, WRep s m Z VL VR ->
    existsb (eqR E q) (rights (map snd VR)) = true -> exists m', remove_via_right E q m = Panic m'.
  Proof.
    intros s m Z VL VR q H X. rewrite has_r_rights in X.
    unfold remove_via_right, left_remove_entry, right_remove_entry.
    cbv [bind ret getst putst unwrap panic]. rewrite (w_hb _ _ _ _ _ H).
    destruct (wr_at _ _ _ _ _ q H) as [z Z' a P Ha Hq Hh Hn G|v V a b P Hv Hq Hh Hn G|Hn G].
    1,3: rewrite existsb_absent in X by auto; discriminate.
    destruct (t_get_remove _ _ _ _ G) as (t' & ->). cbn [phash pid].
    assert (NR : t_remove_entry (lo E) (left_set m) (hashL E s b) (hash_and_id (hashR E s q) (fst v)) = None).
    { apply t_remove_entry_absent. intros x Hx. eapply w_no_left; eauto.
      eapply Permutation_in; [symmetry; exact P|left; auto]. }
    cbn [set_right left_set]. rewrite NR. eauto.
  Qed.

  (* ---- iterators ---- *)
  Lemma w_get_of : forall s m Z VL VR z a, WRep s m Z VL VR -> In z Z -> op_get_left (snd z) = Some a ->
    get_right E m a = op_get_right (snd z).
  Proof.
    intros s m Z VL VR z a H Hz Ha. rewrite (w_get_right _ _ _ _ _ a H). unfold s_get_right, find_l.
    apply perm_in_cons in Hz as [Z' P]. rewrite (find_split _ Z z Z' P); auto.
    - eapply has_l_some; eauto. apply (equiv_refl _ EL).
    - intros x Hx. assert (D := w_dl _ _ _ _ _ H). rewrite lefts_app_map in D.
      apply distinct_app in D as (D & _ & _).
      eapply (distinct_perm _ EL) in D; [|apply lefts_perm, Permutation_map; exact P].
      apply (has_l_apart _ EL [snd z] (map snd Z') a a); auto.
      + apply in_lefts. exists (snd z); split; [left|]; auto.
      + apply (equiv_refl _ EL).
      + apply in_map; auto.
  Qed.
  Lemma w_get_widow : forall s m Z VL VR v a, WRep s m Z VL VR -> In v VL -> op_get_left (snd v) = Some a ->
    get_right E m a = None.
  Proof.
    intros s m Z VL VR v a H Hv Ha. rewrite (w_get_right _ _ _ _ _ a H). unfold s_get_right, find_l.
    rewrite find_absent; auto. intros x Hx. assert (D := w_dl _ _ _ _ _ H).
    apply (has_l_apart _ EL (map snd VL) (map snd Z) a a).
    - eapply (distinct_perm _ EL); [|exact D]. rewrite map_app. apply lefts_perm, Permutation_app_comm.
    - apply in_lefts. exists (snd v); split; [apply in_map|]; auto.
    - apply (equiv_refl _ EL).
    - apply in_map; auto.
  Qed.

  Lemma iter_collect : forall m it fuel, (length it <= fuel)%nat ->
    collect (iter_next E m) fuel it
      = Done (map (fun x => op_from_pair (Some (value (snd x)), get_right E m (value (snd x)))) it).
  Proof.
    induction it as [|[h e] it IH]; intros fuel HF.
    - destruct fuel; auto.
    - destruct fuel; simpl in HF; [lia|]. cbn [collect iter_next map fst snd]. rewrite IH by lia. auto.
  Qed.
  Lemma w_iter : forall s m Z VL VR, WRep s m Z VL VR ->
    exists Q, iter_all E m = Done Q /\
      Permutation Q (filter has_left_item (map snd Z) ++ map SomeLeft (lefts (map snd VL))).
  Proof.
    intros s m Z VL VR H. unfold iter_all. rewrite iter_collect by auto. eexists; split; [reflexivity|].
    unfold iter. rewrite (Permutation_map _ (w_l _ _ _ _ _ H)), flat_map_app, map_app.
    apply Permutation_app.
    - assert (G := fun z a => w_get_of s m Z VL VR z a H). clear H.
      induction Z as [|z Z IH]; auto. cbn [flat_map map filter]. rewrite map_app.
      assert (GZ := fun a => G z a (or_introl eq_refl)).
      rewrite IH by (intros; apply G; simpl; auto).
      change (has_left_item (snd z)) with (is_some (op_get_left (snd z))). unfold PartialProofs.slotL.
      destruct (op_get_left (snd z)) as [a|] eqn:Ha; auto. cbn [map app value snd]. rewrite GZ by auto.
      destruct (snd z); simpl in *; inversion Ha; subst; auto.
    - assert (G := fun z a => w_get_widow s m Z VL VR z a H). clear H.
      induction VL as [|z V IH]; auto. cbn [flat_map map]. rewrite map_app.
      assert (GZ := fun a => G z a (or_introl eq_refl)).
      rewrite IH by (intros z0 a0 A0; apply G; simpl; auto).
      unfold lefts at 2. cbn [map flat_map]. rewrite map_app. fold (lefts (map snd V)).
      unfold PartialProofs.slotL. destruct (op_get_left (snd z)) as [a|] eqn:Ha; auto.
      cbn [map app value snd opt_list]. rewrite GZ; auto.
  Qed.

  (* the iterator over the pairs meets a widow *)
  Lemma paired_collect_panics : forall m it fuel,
    (forall h e h', In (h, e) it -> phash e = Some h' ->
       get_via_hashes_and_id E m (hashL E (hash_builder m) (value e)) h' (pid e) <> Done None) ->
    (exists h e h', In (h, e) it /\ phash e = Some h' /\
       get_via_hashes_and_id E m (hashL E (hash_builder m) (value e)) h' (pid e) = Panicked) ->
    (length it <= fuel)%nat ->
    collect (paired_next E m) fuel it = Panicked.
  Proof.
    assert (ONE : forall m it,
      (forall h e h', In (h, e) it -> phash e = Some h' ->
         get_via_hashes_and_id E m (hashL E (hash_builder m) (value e)) h' (pid e) <> Done None) ->
      (exists h e h', In (h, e) it /\ phash e = Some h' /\
         get_via_hashes_and_id E m (hashL E (hash_builder m) (value e)) h' (pid e) = Panicked) ->
      paired_next E m it = Panicked \/
      exists p it', paired_next E m it = Done (Some p, it') /\ (length it' < length it)%nat /\
        (forall x, In x it' -> In x it) /\
        (exists h e h', In (h, e) it' /\ phash e = Some h' /\
         get_via_hashes_and_id E m (hashL E (hash_builder m) (value e)) h' (pid e) = Panicked)).
    { induction it as [|[h e] it IH]; intros NN (h0 & e0 & h1 & HIn & HP & HG); [easy|].
      cbn [paired_next]. destruct (phash e) as [h'|] eqn:PH.
      - assert (NE := NN h e h' (or_introl eq_refl) PH).
        destruct (get_via_hashes_and_id E m (hashL E (hash_builder m) (value e)) h' (pid e)) as [[p|]|] eqn:G;
          [|easy|auto].
        right. exists p, it. split; auto. split; [simpl; lia|]. split; [intros; right; auto|].
        exists h0, e0, h1. destruct HIn as [HIn|HIn]; auto. inversion HIn; subst. congruence.
      - destruct HIn as [HIn|HIn]; [inversion HIn; subst; congruence|].
        destruct IH as [IH|(p & it' & A & B & C & D)].
        + intros; eapply NN; eauto. right; eauto.
        + exists h0, e0, h1. auto.
        + auto.
        + right. exists p, it'. split; auto. split; [simpl; lia|]. split; auto. intros x Hx. right; auto. }
    intros m it fuel. revert it. induction fuel as [|fuel IH]; intros it NN EX HF.
    - destruct it; [|simpl in HF; lia]. destruct EX as (? & ? & ? & [] & _).
    - cbn [collect]. destruct (ONE m it NN EX) as [->|(p & it' & -> & LT & SUB & EX')]; auto.
      rewrite IH; auto; [|lia]. intros; eapply NN; eauto.
  Qed.

  Lemma w_paired_panics : forall s m Z VL VR, WRep s m Z VL VR -> lefts (map snd VL) <> [] ->
    paired_rest E m (iter_paired m) = Panicked.
  Proof.
    intros s m Z VL VR H NE. unfold paired_rest. apply paired_collect_panics; auto; unfold iter_paired.
    - intros h e h' HIn PH. unfold get_via_hashes_and_id. rewrite (w_hb _ _ _ _ _ H).
      eapply Permutation_in in HIn; [|apply (w_l _ _ _ _ _ H)].
      apply in_flat_map in HIn as (z & Hz & HIn).
      destruct (op_get_left (snd z)) as [a|] eqn:Ha; [|rewrite (slotL_none E s z Ha) in HIn; easy].
      rewrite (slotL_some E s z a Ha) in HIn. destruct HIn as [HIn|[]]. inversion HIn; subst h e. clear HIn.
      cbn [value pid phash] in *. apply perm_in_cons in Hz as [Z' P].
      rewrite (t_get_unique _ LO) with
        (e := MP a (option_map (hashR E s) (op_get_right (snd z))) (fst z)) (rest := flat_map (slotL s) Z').
      + destruct (t_get (lo E) (right_set m) h' (hash_and_id (hashL E s a) (fst z))); discriminate.
      + rewrite (w_l _ _ _ _ _ H), (Permutation_flat_map _ P). simpl.
        rewrite (slotL_some E s z a Ha). auto.
      + unfold hash_and_id, opt_is. cbn [pid phash]. rewrite PH, !N.eqb_refl. auto.
      + intros x Hx. apply hid_of_id. eapply id_l_other; eauto.
        assert (ND := w_ids _ _ _ _ _ H). apply (NoDup_perm _ _ (Permutation_map fst P)) in ND.
        apply (ids_other z Z' ND).
    - destruct VL as [|v V]; [easy|]. destruct (w_bl _ _ _ _ _ H v (or_introl eq_refl)) as (a & b & Q).
      exists (hashL E s a), (MP a (Some (hashR E s b)) (fst v)), (hashR E s b).
      assert (PP : Permutation (Z ++ v :: V) (v :: Z ++ V)) by (symmetry; apply Permutation_middle).
      assert (SV : slotL s v = [(hashL E s a, MP a (Some (hashR E s b)) (fst v))])
        by (unfold PartialProofs.slotL; rewrite Q; auto).
      assert (PL : Permutation (slots (left_set m))
         ((hashL E s a, MP a (Some (hashR E s b)) (fst v)) :: flat_map (slotL s) (Z ++ V))).
      { rewrite (w_l _ _ _ _ _ H), (Permutation_flat_map _ PP). simpl. rewrite SV. auto. }
      split; [|split; [auto|]].
      + eapply Permutation_in; [symmetry; exact PL|left; auto].
      + unfold get_via_hashes_and_id. rewrite (w_hb _ _ _ _ _ H). cbn [value pid].
        erewrite (t_get_unique _ LO); [|exact PL| |].
        * rewrite t_get_absent; auto. intros x Hx. eapply w_no_right; eauto. left; auto.
        * unfold hash_and_id, opt_is. cbn [pid phash]. rewrite !N.eqb_refl. auto.
        * intros x Hx. apply hid_of_id. eapply id_l_other; eauto.
          assert (ND := w_ids _ _ _ _ _ H). apply (NoDup_perm _ _ (Permutation_map fst PP)) in ND.
          apply (ids_other v _ ND).
  Qed.

  Lemma w_unpaired : forall s m Z VL VR, WRep s m Z VL VR ->
    exists Q, unpaired_rest (iter_unpaired m) = Done Q /\ Permutation Q (s_unpaired (map snd Z)).
  Proof.
    intros s m Z VL VR H.
    destruct (flat_map_perm_inv _ (slotL_le E s) _ _ (w_l _ _ _ _ _ H)) as (Y & PY & SL).
    destruct (flat_map_perm_inv _ (slotR_le E s) _ _ (w_r _ _ _ _ _ H)) as (Y' & PY' & SR).
    exists (filter is_sl (map snd Y) ++ filter is_sr (map snd Y')). split.
    - unfold unpaired_rest, iter_unpaired. cbn [fst snd]. rewrite SL, SR.
      eapply collect_as; [apply (unpaired_steps E s)| |].
      + exists Y, Y'. auto.
      + rewrite app_length, (lefts_length E s), (rights_length E s).
        assert (U := is_sl_lefts (map snd Y)). assert (V := is_sr_rights (map snd Y')). lia.
    - rewrite unpaired_split by apply (w_nn _ _ _ _ _ H).
      assert (NL : filter is_sl (map snd VL) = []).
      { apply filter_all_false. intros e He. apply in_map_iff in He as (v & <- & Hv).
        destruct (w_bl _ _ _ _ _ H v Hv) as (a & b & ->). auto. }
      assert (NR : filter is_sr (map snd VR) = []).
      { apply filter_all_false. intros e He. apply in_map_iff in He as (v & <- & Hv).
        destruct (w_br _ _ _ _ _ H v Hv) as (a & b & ->). auto. }
      apply Permutation_app.
      + rewrite <- (filter_perm _ _ _ (Permutation_map snd PY)), map_app, filter_app, NL, app_nil_r. auto.
      + rewrite <- (filter_perm _ _ _ (Permutation_map snd PY')), map_app, filter_app, NR, app_nil_r. auto.
  Qed.

  Lemma w_torn : forall s m Z VL VR, WRep s m Z VL VR ->
    torn m (map snd Z) (lefts (map snd VL)) (rights (map snd VR)).
  Proof.
    intros s m Z VL VR H. split.
    - rewrite <- lefts_app_map. apply (w_dl _ _ _ _ _ H).
    - rewrite <- rights_app_map. apply (w_dr _ _ _ _ _ H).
    - apply (w_nn _ _ _ _ _ H).
    - intros; eapply w_contains_left; eauto.
    - intros; eapply w_contains_right; eauto.
    - unfold len_left, t_len. rewrite <- lefts_app_map, <- (slots_lefts E s), map_length.
      apply Permutation_length, (w_l _ _ _ _ _ H).
    - unfold len_right, t_len. rewrite <- rights_app_map, <- (slots_rights E s), map_length.
      apply Permutation_length, (w_r _ _ _ _ _ H).
    - intros; eapply w_get_right; eauto.
    - intros; eapply w_get_left; eauto.
    - intros; eapply w_is_left_paired; eauto.
    - intros; eapply w_is_right_paired; eauto.
    - intros; eapply w_are_paired; eauto.
    - rewrite <- lefts_app_map, <- (slots_lefts E s). apply Permutation_map, (w_l _ _ _ _ _ H).
    - rewrite <- rights_app_map, <- (slots_rights E s). apply Permutation_map, (w_r _ _ _ _ _ H).
    - eapply w_iter; eauto.
    - eapply w_unpaired; eauto.
    - eapply w_paired_panics; eauto.
    - intros q X. destruct (w_remove_left_panics _ _ _ _ _ q H X) as (m' & Q).
      split; [eauto|split].
      + unfold insert_left. cbv [bind]. rewrite Q. eauto.
      + intros r. unfold insert. cbv [bind]. rewrite Q. eauto.
    - intros q X. destruct (w_remove_right_panics _ _ _ _ _ q H X) as (m' & Q).
      split; [eauto|]. unfold insert_right. cbv [bind]. rewrite Q. eauto.
  Qed.

  (* without widows it is an ordinary map *)
  Lemma w_repr : forall s c m Z, WRep s m Z [] [] -> counter m = c -> (forall z, In z Z -> fst z < c) ->
    Repr E s c m (map snd Z).
  Proof.
    intros s c m Z H HC LT. exists Z. split; auto. destruct H. rewrite !app_nil_r in *.
    split; auto. split; auto.
  Qed.
End Widows.
