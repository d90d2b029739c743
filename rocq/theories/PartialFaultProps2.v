(* PartialCycleMap when the Hash of the items panics in a call that has to enlarge a table, or
   half way through a swap: what is left of the map, and how it can be mended (C96-C98). *)
From Coq Require Import List NArith Lia Bool Permutation PeanoNat.
From Verif Require Import Closures Prelude RawTable Optionals PartialCycleMap ListFacts TableFacts SoundTables
  PartialSpec PartialHistory PartialProofs PartialProofs2 PartialProofs3 PartialProofs4 PartialProofs5 PartialProofs6
  PartialHistoryProofs Concrete PartialProps PartialProps2 PartialAny Capacity PartialCapacity PartialWidows
  Faults FaultTables PartialFault PartialFaultProofs PartialFaultProps.
Import ListNotations.
Open Scope N_scope.

Section Modify.
  Context (lo : layout) {A : Type}.
  Lemma nth_update : forall {B} (g : B -> B) l i j, nth_error (update_nth i g l) j =
    if Nat.eqb i j then option_map g (nth_error l j) else nth_error l j.
  Proof.
    intros B g. induction l as [|x l IH]; intros [|i] [|j]; simpl; auto. destruct (Nat.eqb i j); auto.
  Qed.
  Lemma find_eq : forall {B} (p q : B -> bool) l, (forall x, p x = q x) -> find p l = find q l.
  Proof. intros B p q l H. induction l as [|x l IH]; simpl; auto. rewrite H, IH. auto. Qed.
  Lemma map_fst_update : forall i (f : A -> A) (l : list (N * A)),
    map fst (update_nth i (fun s => (fst s, f (snd s))) l) = map fst l.
  Proof. induction i; intros f [|x l]; simpl; auto. rewrite IHi. auto. Qed.
  (* writing to an entry that a search does not want, before or after *)
  Lemma t_find_modify : forall (t : table A) i h0 e f h p, nth_error (slots t) i = Some (h0, e) -> p (f e) = p e ->
    t_find lo (t_modify t i f) h p = t_find lo t h p.
  Proof.
    intros t i h0 e f h p N Q. unfold t_find. cbn [t_modify slots lay]. rewrite map_fst_update.
    apply find_eq. intros j. rewrite nth_update. destruct (Nat.eqb_spec i j) as [->|_]; auto.
    rewrite N. simpl. auto.
  Qed.
  Lemma t_get_modify_other : forall (t : table A) i h0 e f h p, nth_error (slots t) i = Some (h0, e) ->
    p e = false -> p (f e) = false -> t_get lo (t_modify t i f) h p = t_get lo t h p.
  Proof.
    intros t i h0 e f h p N Q1 Q2. unfold t_get. rewrite (t_find_modify _ _ _ _ _ _ _ N) by congruence.
    destruct (t_find lo t h p) as [j|] eqn:FI; auto. apply t_find_some in FI as (h1 & e1 & N1 & P1).
    unfold t_entry. cbn [t_modify slots]. rewrite nth_update. destruct (Nat.eqb_spec i j) as [->|_]; auto. congruence.
  Qed.
  Lemma t_get_modify : forall (t : table A) i h0 e f h p, nth_error (slots t) i = Some (h0, e) -> p (f e) = p e ->
    t_get lo (t_modify t i f) h p = t_get lo t h p \/
    (t_get lo t h p = Some e /\ t_get lo (t_modify t i f) h p = Some (f e)).
  Proof.
    intros t i h0 e f h p N Q. unfold t_get. rewrite (t_find_modify _ _ _ _ _ _ _ N) by congruence.
    destruct (t_find lo t h p) as [j|] eqn:FI; auto.
    unfold t_entry. cbn [t_modify slots]. rewrite nth_update. destruct (Nat.eqb_spec i j) as [->|_]; auto.
    rewrite N. simpl. auto.
  Qed.
End Modify.

Section Wrecks.
  Context {L R S : Type}.
  Variable E : env L R S.
  Hypothesis OK : lawful E.
  Notation map := (pmap L R S).
  Notation entry := (optional_pair L R).
  Notation zent := (N * entry)%type.
  Notation slotL := (slotL E).
  Notation slotR := (slotR E).
  Notation WRep := (WRep E).
  Notation lefts := PartialSpec.lefts.
  Notation rights := PartialSpec.rights.
  Let EL := eqL_equiv _ OK.
  Let ER := eqR_equiv _ OK.
  Let LO := lo_ok _ OK.

  (* ---- the words of the theorems: only calls of the map and what they return ---- *)
  (* the calls ops all panic; if the panics are caught, the map is then sound and holds B *)
  Definition mended_by (k : N) (m : map) (ops : list (op L R)) (B : list entry) : Prop :=
    exists m', run E m ops = (m', List.map (fun _ => OPanic) ops) /\ behaves_as E k m' B.
  (* m holds B, and besides items that count as paired but have no partner ([PartialWidows.torn]
     says what every read returns) *)
  Definition wrecked_l (k : N) (m : map) (B : list entry) (ls : list L) : Prop :=
    PartialWidows.torn E m B ls [] /\ mended_by k m (List.map RemoveViaLeft ls) B.
  Definition wrecked_r (k : N) (m : map) (B : list entry) (rs : list R) : Prop :=
    PartialWidows.torn E m B [] rs /\ mended_by k m (List.map RemoveViaRight rs) B.

  Definition both (z : zent) : bool := is_both (snd z).
  (* no entry consists of a right (left) item only *)
  Definition none_only_r (P : list entry) : Prop := forall e, In e P -> has_left_item e = true.
  Definition none_only_l (P : list entry) : Prop := forall e, In e P -> op_get_right e <> None.

  (* the tables, with the counter *)
  Record WC (s : S) (c : N) (m : map) (Z VL VR : list zent) : Prop := {
    wc_rep : WRep s m Z VL VR;
    wc_c : counter m = c;
    wc_lt : forall z, In z Z -> fst z < c
  }.
  Lemma rep_wc : forall s c m Z, Rep E s c m Z -> WC s c m Z [] [].
  Proof.
    intros s c m Z []. split; auto. destruct rep_bij as (D1 & D2 & D3).
    constructor; rewrite ?app_nil_r; auto; simpl; auto; try (intros; easy). constructor.
  Qed.
  Lemma wc_behaves : forall s c m Z k, WC s c m Z [] [] -> c + k < two64 -> behaves_as E k m (List.map snd Z).
  Proof.
    intros s c m Z k [H1 H2 H3] B. eapply (repr_behaves E OK s c); auto. eapply w_repr; eauto.
  Qed.

  (* ---- mending ---- *)
  Lemma w_drop_l : forall s c m Z v VL, WC s c m Z (v :: VL) [] -> exists a b m',
    snd v = SomeBoth a b /\ remove_via_left E a m = Panic m' /\ WC s c m' Z VL [].
  Proof.
    intros s c m Z v VL [H HC HL]. destruct (w_bl _ _ _ _ _ _ H v) as (a & b & Q); [left; auto|].
    assert (PL : Permutation (slots (left_set m))
              ((hashL E s a, MP a (Some (hashR E s b)) (fst v)) :: flat_map (slotL s) (Z ++ VL))).
    { rewrite (w_l _ _ _ _ _ _ H), !flat_map_app. cbn [flat_map].
      unfold PartialProofs.slotL at 2. rewrite Q. simpl. symmetry. apply Permutation_middle. }
    assert (PD : distinct (eqL E) (a :: lefts (List.map snd (Z ++ VL)))).
    { eapply (distinct_perm _ EL); [|apply (w_dl _ _ _ _ _ _ H)]. rewrite !lefts_app_map.
      cbn [List.map]. unfold lefts at 2. cbn [flat_map]. rewrite Q. simpl. symmetry. apply Permutation_middle. }
    apply distinct_cons in PD as [PA PD].
    destruct (t_remove_entry_unique (lo E) LO (left_set m) (hashL E s a) (equivalent_key (eqL E) a) _ _ PL)
      as (t & QT & PT).
    { apply (equiv_refl _ EL). }
    { intros x Hx. eapply key_l_other; [|exact Hx]. intros z Hz. destruct (has_l (eqL E) a (snd z)) eqn:X; auto.
      apply has_l_true in X as (a' & Ha & Hq). rewrite <- Hq. apply PA. apply in_lefts.
      exists (snd z). split; auto. apply in_map; auto. }
    exists a, b, (set_left t m). split; auto. split.
    - unfold remove_via_left, left_remove_entry, right_remove_entry.
      cbv [bind ret getst putst unwrap panic]. rewrite (w_hb _ _ _ _ _ _ H), QT. cbn [phash pid].
      rewrite t_remove_entry_absent; [reflexivity|]. intros x Hx. eapply w_no_right; eauto. left; auto.
    - split; auto. destruct H. constructor; auto; simpl in *.
      + rewrite map_app in w_ids. apply NoDup_remove_1 in w_ids. rewrite map_app. auto.
      + intros x Hx. apply w_bl. auto.
  Qed.
  Lemma w_drop_r : forall s c m Z v VR, WC s c m Z [] (v :: VR) -> exists a b m',
    snd v = SomeBoth a b /\ remove_via_right E b m = Panic m' /\ WC s c m' Z [] VR.
  Proof.
    intros s c m Z v VR [H HC HL]. destruct (w_br _ _ _ _ _ _ H v) as (a & b & Q); [left; auto|].
    assert (PR : Permutation (slots (right_set m))
              ((hashR E s b, MP b (Some (hashL E s a)) (fst v)) :: flat_map (slotR s) (Z ++ VR))).
    { rewrite (w_r _ _ _ _ _ _ H), !flat_map_app. cbn [flat_map].
      unfold PartialProofs.slotR at 2. rewrite Q. simpl. symmetry. apply Permutation_middle. }
    assert (PD : distinct (eqR E) (b :: rights (List.map snd (Z ++ VR)))).
    { eapply (distinct_perm _ ER); [|apply (w_dr _ _ _ _ _ _ H)]. rewrite !rights_app_map.
      cbn [List.map]. unfold rights at 2. cbn [flat_map]. rewrite Q. simpl. symmetry. apply Permutation_middle. }
    apply distinct_cons in PD as [PA PD].
    destruct (t_remove_entry_unique (lo E) LO (right_set m) (hashR E s b) (equivalent_key (eqR E) b) _ _ PR)
      as (t & QT & PT).
    { apply (equiv_refl _ ER). }
    { intros x Hx. eapply key_r_other; [|exact Hx]. intros z Hz. destruct (has_r (eqR E) b (snd z)) eqn:X; auto.
      apply has_r_true in X as (b' & Hb & Hq). rewrite <- Hq. apply PA. apply in_rights.
      exists (snd z). split; auto. apply in_map; auto. }
    exists a, b, (set_right t m). split; auto. split.
    - unfold remove_via_right, left_remove_entry, right_remove_entry.
      cbv [bind ret getst putst unwrap panic]. rewrite (w_hb _ _ _ _ _ _ H), QT. cbn [phash pid].
      rewrite t_remove_entry_absent; [reflexivity|]. intros x Hx. eapply w_no_left; eauto. left; auto.
    - split; auto. destruct H. constructor; auto; simpl in *.
      + inversion w_idr; auto.
      + intros z w Hz Hw. apply w_idzr; auto.
      + intros x Hx. apply w_br. auto.
  Qed.
  Lemma mend_l : forall VL s c m Z k, WC s c m Z VL [] -> c + k < two64 ->
    mended_by k m (List.map RemoveViaLeft (lefts (List.map snd VL))) (List.map snd Z).
  Proof.
    induction VL as [|v VL IH]; intros s c m Z k H B.
    - exists m. split; auto. eapply wc_behaves; eauto.
    - destruct (w_drop_l _ _ _ _ _ _ H) as (a & b & m1 & QV & Q & H1).
      destruct (IH s c m1 Z k H1 B) as (m' & Q' & H'). exists m'. split; auto.
      cbn [List.map]. unfold lefts. cbn [flat_map]. rewrite QV. cbn [op_get_left opt_list app List.map run step].
      fold (lefts (List.map snd VL)). rewrite Q. cbn [via]. rewrite Q'. reflexivity.
  Qed.
  Lemma mend_r : forall VR s c m Z k, WC s c m Z [] VR -> c + k < two64 ->
    mended_by k m (List.map RemoveViaRight (rights (List.map snd VR))) (List.map snd Z).
  Proof.
    induction VR as [|v VR IH]; intros s c m Z k H B.
    - exists m. split; auto. eapply wc_behaves; eauto.
    - destruct (w_drop_r _ _ _ _ _ _ H) as (a & b & m1 & QV & Q & H1).
      destruct (IH s c m1 Z k H1 B) as (m' & Q' & H'). exists m'. split; auto.
      cbn [List.map]. unfold rights. cbn [flat_map]. rewrite QV. cbn [op_get_right opt_list app List.map run step].
      fold (rights (List.map snd VR)). rewrite Q. cbn [via]. rewrite Q'. reflexivity.
  Qed.
  Lemma wc_wrecked_l : forall s c m Z VL k, WC s c m Z VL [] -> c + k < two64 ->
    wrecked_l k m (List.map snd Z) (lefts (List.map snd VL)).
  Proof.
    intros s c m Z VL k H B. split; [exact (w_torn E OK _ _ _ _ _ (wc_rep _ _ _ _ _ _ H))|eapply mend_l; eauto].
  Qed.
  Lemma wc_wrecked_r : forall s c m Z VR k, WC s c m Z [] VR -> c + k < two64 ->
    wrecked_r k m (List.map snd Z) (rights (List.map snd VR)).
  Proof.
    intros s c m Z VR k H B. split; [exact (w_torn E OK _ _ _ _ _ (wc_rep _ _ _ _ _ _ H))|eapply mend_r; eauto].
  Qed.

  (* ---- losing buckets of one table ---- *)
  Lemma torn_split : forall {A} (g : zent -> list A) (Hg : forall z, g z = [] \/ exists x, g z = [x]) Z a b,
    Permutation (a ++ b) (flat_map g Z) ->
    exists Z1 Z2, Permutation Z (Z1 ++ Z2) /\ Permutation a (flat_map g Z1) /\ forall z, In z Z2 -> g z <> [].
  Proof.
    intros A g Hg. induction Z as [|z Z IH]; simpl; intros a b P.
    - symmetry in P. apply Permutation_nil in P. apply app_eq_nil in P as [-> ->].
      exists [], []. simpl. split; auto.
    - destruct (Hg z) as [Q|(x & Q)]; rewrite Q in P; simpl in P.
      + destruct (IH a b P) as (Z1 & Z2 & P1 & P2 & P3). exists (z :: Z1), Z2. split; [simpl; auto|].
        split; auto. simpl. rewrite Q. auto.
      + assert (I : In x (a ++ b)) by (eapply Permutation_in; [symmetry; exact P|left; auto]).
        apply in_app_or in I as [I|I]; apply perm_in_cons in I as (u & PU).
        * destruct (IH u b) as (Z1 & Z2 & P1 & P2 & P3).
          { apply (Permutation_cons_inv (a := x)). rewrite <- P, PU. reflexivity. }
          exists (z :: Z1), Z2. split; [simpl; auto|]. split; auto. simpl. rewrite Q, PU. simpl. auto.
        * destruct (IH a u) as (Z1 & Z2 & P1 & P2 & P3).
          { apply (Permutation_cons_inv (a := x)). rewrite <- P, PU. apply Permutation_middle. }
          exists Z1, (z :: Z2). split; [rewrite P1; apply Permutation_middle|]. split; auto.
          intros w [<-|Hw]; auto. rewrite Q. discriminate.
  Qed.
  Lemma slotL_one : forall s z, slotL s z = [] \/ exists x, slotL s z = [x].
  Proof. intros s z. unfold PartialProofs.slotL. destruct (op_get_left (snd z)); eauto. Qed.
  Lemma slotR_one : forall s z, slotR s z = [] \/ exists x, slotR s z = [x].
  Proof. intros s z. unfold PartialProofs.slotR. destruct (op_get_right (snd z)); eauto. Qed.
  Lemma both_r : forall s Z2, none_only_r (List.map snd Z2) ->
    flat_map (slotR s) (filter both Z2) = flat_map (slotR s) Z2 /\
    rights (List.map snd (filter both Z2)) = rights (List.map snd Z2).
  Proof.
    intros s. induction Z2 as [|[i e] Z IH]; intros H; auto. destruct IH as [I1 I2].
    { intros x Hx. apply H. right; auto. }
    assert (HL := H e (or_introl eq_refl)). unfold PartialSpec.rights in *.
    destruct e; try discriminate; cbn [filter both is_both snd List.map flat_map]; rewrite I1, I2; auto.
  Qed.
  Lemma both_l : forall s Z2, none_only_l (List.map snd Z2) ->
    flat_map (slotL s) (filter both Z2) = flat_map (slotL s) Z2 /\
    lefts (List.map snd (filter both Z2)) = lefts (List.map snd Z2).
  Proof.
    intros s. induction Z2 as [|[i e] Z IH]; intros H; auto. destruct IH as [I1 I2].
    { intros x Hx. apply H. right; auto. }
    assert (HL := H e (or_introl eq_refl)). unfold PartialSpec.lefts in *.
    destruct e; try (exfalso; apply HL; reflexivity); cbn [filter both is_both snd List.map flat_map]; rewrite I1, I2; auto.
  Qed.
  Lemma both_is : forall v Z2, In v (filter both Z2) -> In v Z2 /\ exists a b, snd v = SomeBoth a b.
  Proof.
    intros v Z2 H. apply filter_In in H as [H Q]. split; auto. unfold both in Q.
    destruct (snd v); try discriminate. eauto.
  Qed.
  Lemma nodup_split : forall (Z Z1 Z2 : list zent), Permutation Z (Z1 ++ Z2) -> NoDup (List.map fst Z) ->
    NoDup (List.map fst Z1) /\ NoDup (List.map fst (filter both Z2)) /\
    forall x y, In x Z2 -> In y Z1 -> fst x <> fst y.
  Proof.
    intros Z Z1 Z2 P ND. apply (Permutation_map fst) in P. eapply Permutation_NoDup in ND; [|exact P].
    rewrite map_app in ND. clear P. induction Z1 as [|z Z1 IH]; simpl in *.
    - split; [constructor|]. split; [|intros x y _ []]. induction Z2 as [|y Z2 IH]; simpl; [constructor|].
      inversion ND; subst. destruct (both y); simpl; auto. constructor; auto. intros Q.
      apply in_map_iff in Q as (x & Q & Hx). apply filter_In in Hx as [Hx _]. apply H1. rewrite <- Q. apply in_map; auto.
    - inversion ND; subst. destruct IH as (I1 & I2 & I3); auto. split; [|split; auto].
      + constructor; auto. intros Q. apply H1. apply in_or_app; auto.
      + intros x y Hx [<-|Hy]; auto. intros Q. apply H1. apply in_or_app. right. rewrite <- Q. apply in_map; auto.
  Qed.
  Lemma nodup_cat : forall {A} (l1 l2 : list A), NoDup l1 -> NoDup l2 -> (forall x, In x l1 -> In x l2 -> False) ->
    NoDup (l1 ++ l2).
  Proof.
    intros A. induction l1 as [|x l1 IH]; simpl; intros l2 H1 H2 H3; auto. inversion H1; subst.
    constructor; [|apply IH; auto; intros; eapply H3; eauto]. intros I. apply in_app_or in I as [I|I]; auto.
    eapply H3; eauto.
  Qed.

  Lemma tear_l : forall s c m VR Z t, WC s c m Z [] VR -> Faults.torn (left_set m) t ->
    exists Z1 Z2, Permutation Z (Z1 ++ Z2) /\ none_only_r (List.map snd Z2) /\
      WC s c (set_left t m) Z1 [] (VR ++ filter both Z2).
  Proof.
    intros s c m VR Z t [H HC HL] (lost & T).
    assert (PL := w_l _ _ _ _ _ _ H). rewrite app_nil_r in PL. rewrite PL in T.
    destruct (torn_split _ (slotL_one s) _ _ _ T) as (Z1 & Z2 & P & P1 & NO).
    assert (NR : none_only_r (List.map snd Z2)).
    { intros e He. apply in_map_iff in He as (z & <- & Hz). specialize (NO z Hz).
      unfold PartialProofs.slotL in NO. destruct (snd z); simpl in *; auto. }
    exists Z1, Z2. split; auto. split; auto.
    assert (IDS := w_ids _ _ _ _ _ _ H). rewrite app_nil_r in IDS.
    destruct (nodup_split _ _ _ P IDS) as (ND1 & ND2 & AP).
    destruct (both_r s Z2 NR) as [BR1 BR2].
    assert (IN1 : forall z, In z Z1 -> In z Z).
    { intros z Hz. eapply Permutation_in; [symmetry; exact P|]. apply in_or_app; auto. }
    assert (IN2 : forall z, In z Z2 -> In z Z).
    { intros z Hz. eapply Permutation_in; [symmetry; exact P|]. apply in_or_app; auto. }
    split; auto. destruct H. constructor; simpl; auto.
    - rewrite app_nil_r. auto.
    - rewrite w_r, !flat_map_app, BR1, P, flat_map_app, <- app_assoc. apply Permutation_app_head. apply Permutation_app_comm.
    - rewrite app_nil_r. auto.
    - rewrite map_app. apply nodup_cat; auto. intros i I1 I2. apply in_map_iff in I1 as (v & <- & Hv).
      apply in_map_iff in I2 as (w & Q & Hw). apply both_is in Hw as (Hw & a & b & QB).
      assert (X := w_idzr w v (IN2 w Hw) Hv Q). rewrite QB in X. discriminate.
    - intros z w Hz Hw Q. apply in_app_or in Hw as [Hw|Hw]; [eapply w_idzr; eauto|].
      apply both_is in Hw as (Hw & _). exfalso. eapply AP; eauto.
    - intros v Hv. apply in_app_or in Hv as [Hv|Hv]; auto. apply both_is in Hv as [_ Hv]; auto.
    - rewrite app_nil_r in *. eapply distinct_prefix with (b := lefts (List.map snd Z2)).
      rewrite <- lefts_app, <- map_app.
      eapply (distinct_perm _ EL); [|exact w_dl]. apply lefts_perm, Permutation_map; auto.
    - eapply (distinct_perm _ ER); [|exact w_dr]. rewrite !map_app, !rights_app, BR2.
      rewrite (rights_perm _ _ (Permutation_map snd P)), map_app, rights_app, <- app_assoc.
      apply Permutation_app_head. apply Permutation_app_comm.
    - intros I. apply w_nn. apply in_map_iff in I as (z & Q & Hz). rewrite <- Q. apply in_map; auto.
  Qed.
  Lemma tear_r : forall s c m VL Z t, WC s c m Z VL [] -> Faults.torn (right_set m) t ->
    exists Z1 Z2, Permutation Z (Z1 ++ Z2) /\ none_only_l (List.map snd Z2) /\
      WC s c (set_right t m) Z1 (VL ++ filter both Z2) [].
  Proof.
    intros s c m VL Z t [H HC HL] (lost & T).
    assert (PR := w_r _ _ _ _ _ _ H). rewrite app_nil_r in PR. rewrite PR in T.
    destruct (torn_split _ (slotR_one s) _ _ _ T) as (Z1 & Z2 & P & P1 & NO).
    assert (NR : none_only_l (List.map snd Z2)).
    { intros e He. apply in_map_iff in He as (z & <- & Hz). specialize (NO z Hz).
      unfold PartialProofs.slotR in NO. destruct (snd z); simpl in *; auto; discriminate. }
    exists Z1, Z2. split; auto. split; auto.
    assert (IDS := w_ids _ _ _ _ _ _ H). rewrite map_app in IDS. assert (IDZ := IDS).
    apply NoDup_app_remove_tail in IDZ.
    destruct (nodup_split _ _ _ P IDZ) as (ND1 & ND2 & AP).
    destruct (both_l s Z2 NR) as [BR1 BR2].
    assert (IN1 : forall z, In z Z1 -> In z Z).
    { intros z Hz. eapply Permutation_in; [symmetry; exact P|]. apply in_or_app; auto. }
    split; auto. destruct H. constructor; simpl; auto; try (intros; easy).
    - rewrite w_l, !flat_map_app, BR1, P, flat_map_app, <- app_assoc. apply Permutation_app_head. apply Permutation_app_comm.
    - rewrite app_nil_r. auto.
    - rewrite map_app. apply nodup_cat; auto.
      + rewrite map_app. apply nodup_cat; auto.
        * eapply IterFacts.NoDup_app_r; eauto.
        * intros i I1 I2. apply in_map_iff in I2 as (w & <- & Hw). apply both_is in Hw as (Hw & _).
          eapply (Permutation_NoDup (l' := List.map fst (Z2 ++ Z1) ++ List.map fst VL)) in IDS.
          -- apply in_split in Hw as (u & v & ->). rewrite <- app_assoc in IDS. rewrite map_app in IDS. simpl in IDS.
             rewrite <- app_assoc in IDS. simpl in IDS.
             apply NoDup_remove_2 in IDS. apply IDS. apply in_or_app. right. apply in_or_app; auto.
          -- apply Permutation_app_tail. apply Permutation_map. rewrite P. apply Permutation_app_comm.
      + intros i I1 I2. apply in_map_iff in I1 as (z & <- & Hz). rewrite map_app in I2. apply in_app_or in I2 as [I2|I2].
        * clear - IDS I2 Hz IN1. apply IN1 in Hz. apply in_split in Hz as (u & v & ->). rewrite map_app in IDS. simpl in IDS.
          rewrite <- app_assoc in IDS. simpl in IDS.
          apply NoDup_remove_2 in IDS. apply IDS. apply in_or_app. right. apply in_or_app; auto.
        * apply in_map_iff in I2 as (w & Q & Hw). apply both_is in Hw as (Hw & _). eapply AP; eauto.
    - intros v Hv. apply in_app_or in Hv as [Hv|Hv]; auto. apply both_is in Hv as [_ Hv]; auto.
    - eapply (distinct_perm _ EL); [|exact w_dl]. rewrite !map_app, !lefts_app, BR2.
      rewrite (lefts_perm _ _ (Permutation_map snd P)), map_app, lefts_app, <- app_assoc.
      apply Permutation_app_head. apply Permutation_app_comm.
    - rewrite app_nil_r in *. eapply distinct_prefix with (b := rights (List.map snd Z2)).
      rewrite <- rights_app, <- map_app.
      eapply (distinct_perm _ ER); [|exact w_dr]. apply rights_perm, Permutation_map; auto.
    - intros I. apply w_nn. apply in_map_iff in I as (z & Q & Hz). rewrite <- Q. apply in_map; auto.
  Qed.

  Variable F : fault.
  Hypothesis FO : fault_ok F.
  Notation s_half_insert := (s_half_insert (eqL E) (eqR E)).

  (* the entries left when the items of e have been removed *)
  Definition cleared (P : list entry) (e : entry) : list entry :=
    match e with
    | Neither => P
    | SomeLeft l => del_l (eqL E) P l
    | SomeRight r => del_r (eqR E) P r
    | SomeBoth l r => del_r (eqR E) (del_l (eqL E) P l) r
    end.
  (* the left item a panic of the second insertion leaves behind *)
  Definition half_in (e : entry) : list L := match e with SomeBoth l _ => [l] | _ => [] end.
  (* what a panic of user code may leave when the entry e is inserted into a map that held P:
     a sound map; or a left table that lost entries while it grew; or a right table that did so,
     with the new left item already in the map *)
  Definition insert_wreck (k : N) (m' : map) (P : list entry) (e : entry) : Prop :=
    (exists P', s_half_insert P e P' /\ behaves_as E k m' P') \/
    (exists kept lost, Permutation (cleared P e) (kept ++ lost) /\
       ((has_left_item e = true /\ none_only_r lost /\ wrecked_r k m' kept (rights lost)) \/
        (op_get_right e <> None /\ none_only_l lost /\ wrecked_l k m' kept (half_in e ++ lefts lost)))).

  Lemma wc_counter : forall s c c' m Z, WC s c m Z [] [] -> c <= c' ->
    WC s c' (set_counter c' m) Z [] [].
  Proof.
    intros s c c' m Z [H HC HL] LE. split; auto; [|intros z Hz; apply HL in Hz; lia].
    destruct H. constructor; auto.
  Qed.
  Lemma lose_l : forall s c m Z VR t k, WC s c m Z [] VR -> Faults.torn (left_set m) t -> c + k < two64 ->
    exists kept lost, Permutation (List.map snd Z) (kept ++ lost) /\ none_only_r lost /\
      wrecked_r k (set_left t m) kept (rights (List.map snd VR) ++ rights lost).
  Proof.
    intros s c m Z VR t k H T B. destruct (tear_l _ _ _ _ _ _ H T) as (Z1 & Z2 & P & NO & H').
    exists (List.map snd Z1), (List.map snd Z2). split; [rewrite <- map_app; apply Permutation_map; auto|].
    split; auto. destruct (both_r s Z2 NO) as [_ <-]. rewrite <- rights_app, <- map_app.
    eapply wc_wrecked_r; eauto.
  Qed.
  Lemma lose_r : forall s c m Z VL t k, WC s c m Z VL [] -> Faults.torn (right_set m) t -> c + k < two64 ->
    exists kept lost, Permutation (List.map snd Z) (kept ++ lost) /\ none_only_l lost /\
      wrecked_l k (set_right t m) kept (lefts (List.map snd VL) ++ lefts lost).
  Proof.
    intros s c m Z VL t k H T B. destruct (tear_r _ _ _ _ _ _ H T) as (Z1 & Z2 & P & NO & H').
    exists (List.map snd Z1), (List.map snd Z2). split; [rewrite <- map_app; apply Permutation_map; auto|].
    split; auto. destruct (both_l s Z2 NO) as [_ <-]. rewrite <- lefts_app, <- map_app.
    eapply wc_wrecked_l; eauto.
  Qed.
  Lemma wc_half : forall s c m Z l r, Rep E s c m Z -> (forall z, In z Z -> has_l (eqL E) l (snd z) = false) ->
    WC s (c + 1) (set_left (t_insert (lo E) (left_set m) (hashL E s l) (MP l (Some (hashR E s r)) c)
                              (make_hasher_l E s)) (set_counter (c + 1) m)) Z [(c, SomeBoth l r)] [].
  Proof.
    intros s c m Z l r H HN. assert (HL := rep_hashed_l E _ _ _ _ H). destruct H.
    destruct rep_bij as (D1 & D2 & D3). split; [|reflexivity|intros z Hz; apply rep_lt in Hz; lia].
    constructor; cbn [hash_builder set_left set_counter left_set right_set]; auto; rewrite ?app_nil_r; auto;
      try (intros; easy).
    - rewrite flat_map_app. etransitivity; [apply t_insert_perm; auto|]. rewrite rep_l. apply Permutation_cons_append.
    - rewrite map_app. simpl. eapply Permutation_NoDup; [apply Permutation_cons_append|].
      constructor; auto. intros I. apply in_map_iff in I as (z & Q & Hz). apply rep_lt in Hz. lia.
    - constructor.
    - intros v [<-|[]]. exists l, r. reflexivity.
    - rewrite map_app, lefts_app. simpl. eapply (distinct_perm _ EL); [apply Permutation_cons_append|].
      apply distinct_cons. split; auto. intros y Hy. apply in_lefts in Hy as (e & He & Q).
      apply in_map_iff in He as (z & <- & Hz). specialize (HN z Hz). unfold has_l in HN. rewrite Q in HN. auto.
  Qed.

  Lemma insert_wrecks : forall s c m P l r m' k, Repr E s c m P -> c + 1 + k < two64 ->
    P_insert E F l r m m' -> insert_wreck k m' P (SomeBoth l r).
  Proof.
    intros s c m P l r m' k H B [->|[(a & Q)|(m1 & a & m2 & b & Q1 & Q2 & K)]].
    - left. exists P. split; [left; auto|]. eapply (repr_behaves E OK); eauto. lia.
    - destruct (remove_via_left_ok E OK s c m P l H) as (m1 & Q1 & H1). rewrite Q in Q1. inversion Q1; subst.
      left. eexists. split; [right; left; reflexivity|]. eapply (repr_behaves E OK); eauto. lia.
    - destruct (remove_via_left_ok E OK s c m P l H) as (m1' & Q1' & H1). rewrite Q1 in Q1'. inversion Q1'; subst.
      destruct (remove_via_right_ok E OK s c _ _ r H1) as (m2' & Q2' & H2). rewrite Q2 in Q2'. inversion Q2'; subst.
      destruct K as [->|(m3 & Q3 & K)].
      { left. eexists. split; [right; right; reflexivity|]. eapply (repr_behaves E OK); eauto. lia. }
      right. destruct H2 as (Z & H2 & HZ). cbn [cleared]. rewrite HZ.
      unfold incr_counter, bind, getst, putst in Q3. rewrite (rep_c _ _ _ _ _ H2), u64_incr_ok in Q3 by lia.
      simpl in Q3. inversion Q3; subst m3. clear Q3.
      destruct K as [(t & SP & ->)|(m4 & Q4 & t & SP & ->)].
      + assert (W := wc_counter _ _ (c + 1) _ _ (rep_wc _ _ _ _ H2)). apply (spoilt_torn _ _ FO) in SP.
        destruct (lose_l _ _ _ _ _ _ k (W ltac:(lia)) SP ltac:(lia)) as (kept & lost & PP & NO & HW).
        exists kept, lost. split; auto.
      + assert (HN : forall z, In z Z -> has_l (eqL E) l (snd z) = false).
        { intros z Hz. apply (in_map snd) in Hz. rewrite <- HZ in Hz. apply filter_In in Hz as [Hz _].
          apply filter_In in Hz as [_ Hz]. apply negb_true_iff; auto. }
        unfold left_insert, bind, getst, putst in Q4. inversion Q4; subst m4. clear Q4.
        apply (spoilt_torn _ _ FO) in SP.
        pose proof (wc_half s c _ Z l r H2 HN) as W.
        cbn [hash_builder set_counter left_set] in *. rewrite (rep_hb _ _ _ _ _ H2), (rep_c _ _ _ _ _ H2) in *.
        destruct (lose_r _ _ _ _ _ _ k W SP ltac:(lia)) as (kept & lost & PP & NO & HW).
        exists kept, lost. split; auto. right. split; [discriminate|]. split; auto.
  Qed.
  Lemma insert_left_wrecks : forall s c m P l m' k, Repr E s c m P -> c + 1 + k < two64 ->
    P_insert_left E F l m m' -> insert_wreck k m' P (SomeLeft l).
  Proof.
    intros s c m P l m' k H B [->|(m1 & a & Q1 & K)].
    - left. exists P. split; [left; auto|]. eapply (repr_behaves E OK); eauto. lia.
    - destruct (remove_via_left_ok E OK s c m P l H) as (m1' & Q1' & H1). rewrite Q1 in Q1'. inversion Q1'; subst.
      destruct K as [->|(m2 & Q2 & K)].
      { left. eexists. split; [right; reflexivity|]. eapply (repr_behaves E OK); eauto. lia. }
      right. destruct H1 as (Z & H1 & HZ). cbn [cleared]. rewrite HZ.
      unfold incr_counter, bind, getst, putst in Q2. rewrite (rep_c _ _ _ _ _ H1), u64_incr_ok in Q2 by lia.
      simpl in Q2. inversion Q2; subst m2. clear Q2. destruct K as (t & SP & ->).
      assert (W := wc_counter _ _ (c + 1) _ _ (rep_wc _ _ _ _ H1)). apply (spoilt_torn _ _ FO) in SP.
      destruct (lose_l _ _ _ _ _ _ k (W ltac:(lia)) SP ltac:(lia)) as (kept & lost & PP & NO & HW).
      exists kept, lost. split; auto.
  Qed.
  Lemma insert_right_wrecks : forall s c m P r m' k, Repr E s c m P -> c + 1 + k < two64 ->
    P_insert_right E F r m m' -> insert_wreck k m' P (SomeRight r).
  Proof.
    intros s c m P r m' k H B [->|(m1 & a & Q1 & K)].
    - left. exists P. split; [left; auto|]. eapply (repr_behaves E OK); eauto. lia.
    - destruct (remove_via_right_ok E OK s c m P r H) as (m1' & Q1' & H1). rewrite Q1 in Q1'. inversion Q1'; subst.
      destruct K as [->|(m2 & Q2 & K)].
      { left. eexists. split; [right; reflexivity|]. eapply (repr_behaves E OK); eauto. lia. }
      right. destruct H1 as (Z & H1 & HZ). cbn [cleared]. rewrite HZ.
      unfold incr_counter, bind, getst, putst in Q2. rewrite (rep_c _ _ _ _ _ H1), u64_incr_ok in Q2 by lia.
      simpl in Q2. inversion Q2; subst m2. clear Q2. destruct K as (t & SP & ->).
      assert (W := wc_counter _ _ (c + 1) _ _ (rep_wc _ _ _ _ H1)). apply (spoilt_torn _ _ FO) in SP.
      destruct (lose_r _ _ _ _ _ _ k (W ltac:(lia)) SP ltac:(lia)) as (kept & lost & PP & NO & HW).
      exists kept, lost. split; auto. right. split; [discriminate|]. split; auto.
  Qed.

  (* reserve_left, try_reserve_left; reserve_right, try_reserve_right *)
  Definition reserve_left_wreck (k : N) (m' : map) (P : list entry) : Prop :=
    exists kept lost, Permutation P (kept ++ lost) /\ none_only_r lost /\ wrecked_r k m' kept (rights lost).
  Definition reserve_right_wreck (k : N) (m' : map) (P : list entry) : Prop :=
    exists kept lost, Permutation P (kept ++ lost) /\ none_only_l lost /\ wrecked_l k m' kept (lefts lost).
  Lemma reserve_left_wrecks : forall s c m P n m' k, Repr E s c m P -> c + k < two64 ->
    lost_l E F (CSize (Grow n)) m m' -> reserve_left_wreck k m' P.
  Proof.
    intros s c m P n m' k (Z & H & ->) B (t & SP & ->). apply (spoilt_torn _ _ FO) in SP.
    exact (lose_l _ _ _ _ _ _ k (rep_wc _ _ _ _ H) SP B).
  Qed.
  Lemma reserve_right_wrecks : forall s c m P n m' k, Repr E s c m P -> c + k < two64 ->
    lost_r E F (CSize (Grow n)) m m' -> reserve_right_wreck k m' P.
  Proof.
    intros s c m P n m' k (Z & H & ->) B (t & SP & ->). apply (spoilt_torn _ _ FO) in SP.
    exact (lose_r _ _ _ _ _ _ k (rep_wc _ _ _ _ H) SP B).
  Qed.

  (* extend: the entries done before the panic are in, then an insertion is interrupted *)
  Definition extend_wreck (k : N) (m' : map) (P : list entry) (xs : list entry) : Prop :=
    exists dn e td, xs = dn ++ e :: td /\
      insert_wreck k m' (fold_left (s_insert_entry (eqL E) (eqR E)) dn P) e.
  Lemma extend_wrecks : forall xs s c m P m' k, Repr E s c m P -> c + N.of_nat (length xs) + k < two64 ->
    P_extend E F xs m m' -> extend_wreck k m' P xs.
  Proof.
    assert (X : forall e xs k m' P, extend_wreck k m' (s_insert_entry (eqL E) (eqR E) P e) xs ->
      extend_wreck k m' P (e :: xs)).
    { intros e xs k m' P (dn & f & td & -> & H). exists (e :: dn), f, td. auto. }
    assert (Y : forall e xs k m' P, insert_wreck k m' P e -> extend_wreck k m' P (e :: xs)).
    { intros e xs k m' P H. exists [], e, xs. auto. }
    induction xs as [|e xs IH]; cbn [P_extend length]; intros s c m P m' k H B K; [destruct K|].
    destruct e as [|l|r|l r].
    - apply X. eapply IH; eauto. lia.
    - destruct K as [K|(m1 & d & Q & K)]; [apply Y; eapply insert_left_wrecks; eauto; lia|].
      destruct (insert_left_ok E OK s c m P l H) as (m1' & Q' & H1); [lia|]. rewrite Q in Q'. inversion Q'; subst.
      apply X. eapply IH; eauto. lia.
    - destruct K as [K|(m1 & d & Q & K)]; [apply Y; eapply insert_right_wrecks; eauto; lia|].
      destruct (insert_right_ok E OK s c m P r H) as (m1' & Q' & H1); [lia|]. rewrite Q in Q'. inversion Q'; subst.
      apply X. eapply IH; eauto. lia.
    - destruct K as [K|(m1 & d & Q & K)]; [apply Y; eapply insert_wrecks; eauto; lia|].
      destruct (insert_ok E OK s c m P l r H) as (m1' & Q' & H1); [lia|]. rewrite Q in Q'. inversion Q'; subst.
      apply X. eapply IH; eauto. lia.
  Qed.
  Lemma extend_pairs_wrecks : forall xs s c m P m' k, Repr E s c m P -> c + N.of_nat (length xs) + k < two64 ->
    P_extend_pairs E F xs m m' -> extend_wreck k m' P (List.map (fun p => SomeBoth (fst p) (snd p)) xs).
  Proof.
    induction xs as [|[l r] xs IH]; cbn [P_extend_pairs length List.map fst snd]; intros s c m P m' k H B K; [destruct K|].
    destruct K as [K|(m1 & d & Q & K)].
    - exists [], (SomeBoth l r), (List.map (fun p => SomeBoth (fst p) (snd p)) xs). split; auto.
      eapply insert_wrecks; eauto; lia.
    - destruct (insert_ok E OK s c m P l r H) as (m1' & Q' & H1); [lia|]. rewrite Q in Q'. inversion Q'; subst.
      destruct (IH s (c + 1) m1' _ m' k H1) as (dn & e & td & EQ & HW); [lia|auto|].
      exists (SomeBoth l r :: dn), e, td. rewrite EQ. auto.
  Qed.

  (* ---- swaps ---- *)
  (* The partner b of the left item a has been told that it belongs to another left item: all
     lookups are those of B, except that a has lost its partner and b may have. *)
  Record adrift_l (k : N) (m : map) (B : list entry) (a : L) (b : R) : Prop := {
    ad_cl : forall q, contains_left E m q = s_contains_left (eqL E) B q;
    ad_cr : forall q, contains_right E m q = s_contains_right (eqR E) B q;
    ad_ll : len_left m = length (lefts B);
    ad_lr : len_right m = length (rights B);
    ad_pl : forall q, is_left_paired E m q = s_is_left_paired (eqL E) B q;
    ad_pr : forall q, is_right_paired E m q = s_is_right_paired (eqR E) B q;
    ad_gr : forall q, get_right E m q = if eqL E q a then None else s_get_right (eqL E) B q;
    ad_gl : forall q, get_left E m q = s_get_left (eqR E) B q \/ (eqR E q b = true /\ get_left E m q = None);
    ad_fix : mended_by k m [RemoveViaLeft a; RemoveViaRight b] (del_l (eqL E) B a)
  }.
  Record adrift_r (k : N) (m : map) (B : list entry) (a : L) (b : R) : Prop := {
    ar_cr : forall q, contains_right E m q = s_contains_right (eqR E) B q;
    ar_cl : forall q, contains_left E m q = s_contains_left (eqL E) B q;
    ar_lr : len_right m = length (rights B);
    ar_ll : len_left m = length (lefts B);
    ar_pr : forall q, is_right_paired E m q = s_is_right_paired (eqR E) B q;
    ar_pl : forall q, is_left_paired E m q = s_is_left_paired (eqL E) B q;
    ar_gl : forall q, get_left E m q = if eqR E q b then None else s_get_left (eqR E) B q;
    ar_gr : forall q, get_right E m q = s_get_right (eqL E) B q \/ (eqL E q a = true /\ get_right E m q = None);
    ar_fix : mended_by k m [RemoveViaRight b; RemoveViaLeft a] (del_r (eqR E) B b)
  }.

  (* the entry of a without its left item: what removing the old left entry leaves *)
  Lemma wc_orphan_r : forall s c m z Z a b new t t', Rep E s c m (z :: Z) -> snd z = SomeBoth a b ->
    Permutation (slots t) (flat_map (slotL s) Z) ->
    Permutation (slots t') ((hashR E s b, MP b (Some (hashL E s new)) (fst z)) :: flat_map (slotR s) Z) ->
    WC s c (set_left t (set_right t' m)) Z [] [(fst z, SomeBoth new b)].
  Proof.
    intros s c m z Z a b new t t' H Q PL PR. destruct H. destruct rep_bij as (D1 & D2 & D3).
    cbn [List.map] in *. split; [|auto|intros; apply rep_lt; right; auto].
    constructor; cbn [hash_builder set_left set_right left_set right_set]; auto; rewrite ?app_nil_r; auto;
      try (intros; easy).
    - rewrite PR, flat_map_app. simpl. apply Permutation_cons_append.
    - inversion rep_ids; auto.
    - simpl. constructor; [intros []|constructor].
    - intros x w Hx [<-|[]] QI. inversion rep_ids; subst. exfalso. apply H1. simpl in QI. rewrite <- QI. apply in_map; auto.
    - intros v [<-|[]]. exists new, b. reflexivity.
    - unfold PartialSpec.lefts in D1. cbn [flat_map] in D1. rewrite Q in D1. simpl in D1. apply distinct_cons in D1 as [_ D1]. auto.
    - unfold PartialSpec.rights in D2. cbn [flat_map] in D2. rewrite Q in D2. simpl in D2.
      rewrite map_app, rights_app. simpl. eapply (distinct_perm _ ER); [apply Permutation_cons_append|]. exact D2.
    - intros I. apply D3. right. auto.
  Qed.
  Lemma wc_orphan_l : forall s c m z Z a b new t t', Rep E s c m (z :: Z) -> snd z = SomeBoth a b ->
    Permutation (slots t) (flat_map (slotR s) Z) ->
    Permutation (slots t') ((hashL E s a, MP a (Some (hashR E s new)) (fst z)) :: flat_map (slotL s) Z) ->
    WC s c (set_right t (set_left t' m)) Z [(fst z, SomeBoth a new)] [].
  Proof.
    intros s c m z Z a b new t t' H Q PR PL. destruct H. destruct rep_bij as (D1 & D2 & D3).
    cbn [List.map] in *. split; [|auto|intros; apply rep_lt; right; auto].
    constructor; cbn [hash_builder set_left set_right left_set right_set]; auto; rewrite ?app_nil_r; auto;
      try (intros; easy).
    - rewrite PL, flat_map_app. simpl. apply Permutation_cons_append.
    - rewrite map_app. simpl. eapply Permutation_NoDup; [apply Permutation_cons_append|]. auto.
    - constructor.
    - intros v [<-|[]]. exists a, new. reflexivity.
    - unfold PartialSpec.lefts in D1. cbn [flat_map] in D1. rewrite Q in D1. simpl in D1.
      rewrite map_app, lefts_app. simpl. eapply (distinct_perm _ EL); [apply Permutation_cons_append|]. exact D1.
    - unfold PartialSpec.rights in D2. cbn [flat_map] in D2. rewrite Q in D2. simpl in D2. apply distinct_cons in D2 as [_ D2]. auto.
    - intros I. apply D3. right. auto.
  Qed.

  Lemma only_l : forall s c m z Z a, Rep E s c m (z :: Z) -> op_get_left (snd z) = Some a -> forall q, eqL E q a = true ->
    forall x, In x Z -> has_l (eqL E) q (snd x) = false.
  Proof.
    intros s c m z Z a H Ha q Q x Hx. assert (O := rep_others_l E OK _ _ _ _ _ _ H Ha x Hx).
    destruct (has_l (eqL E) q (snd x)) eqn:X; auto. apply has_l_true in X as (y & Hy & QY).
    unfold has_l in O. rewrite Hy in O. rewrite <- O. symmetry.
    eapply (equiv_trans _ EL); [|exact QY]. apply (equiv_sym _ EL). auto.
  Qed.
  Lemma only_r : forall s c m z Z a, Rep E s c m (z :: Z) -> op_get_right (snd z) = Some a -> forall q, eqR E q a = true ->
    forall x, In x Z -> has_r (eqR E) q (snd x) = false.
  Proof.
    intros s c m z Z a H Ha q Q x Hx. assert (O := rep_others_r E OK _ _ _ _ _ _ H Ha x Hx).
    destruct (has_r (eqR E) q (snd x)) eqn:X; auto. apply has_r_true in X as (y & Hy & QY).
    unfold has_r in O. rewrite Hy in O. rewrite <- O. symmetry.
    eapply (equiv_trans _ ER); [|exact QY]. apply (equiv_sym _ ER). auto.
  Qed.

  Lemma drift_l : forall s c m Z0 z Z a b new i rest k, Rep E s c m Z0 -> Permutation Z0 (z :: Z) ->
    snd z = SomeBoth a b -> hashL E s new <> hashL E s a ->
    at_slot (right_set m) i (hashR E s b) (MP b (Some (hashL E s a)) (fst z)) rest ->
    Permutation rest (flat_map (slotR s) Z) -> c + k < two64 ->
    adrift_l k (set_right (t_modify (right_set m) i (set_hash (Some (hashL E s new)))) m) (List.map snd Z0) a b.
  Proof.
    intros s c m Z0 z Z a b new i rest k H0 PZ QZ HN AT PR B.
    assert (HR : Repr E s c m (List.map snd Z0)) by (exists Z0; auto).
    assert (H := rep_perm E OK _ _ _ _ _ PZ H0). assert (HB := rep_hb _ _ _ _ _ H).
    assert (IDS := ids_other z Z (rep_ids _ _ _ _ _ H)).
    assert (Ha : op_get_left (snd z) = Some a) by (rewrite QZ; auto).
    assert (Hb : op_get_right (snd z) = Some b) by (rewrite QZ; auto).
    assert (PL := rep_l_cons E _ _ _ _ _ _ H Ha). rewrite Hb in PL. cbn [option_map] in PL.
    set (m2 := set_right _ m). destruct AT as [N AT].
    assert (AT2 := t_modify_perm (right_set m) i _ _ _ (set_hash (Some (hashL E s new))) N AT).
    cbn [set_hash value pid] in AT2. rewrite PR in AT2.
    assert (NR : forall q, eqL E q a = true -> forall x, In x (slots (right_set m2)) ->
      hash_and_id (hashL E s q) (fst z) (snd x) = false).
    { intros q Q x Hx. eapply Permutation_in in Hx; [|exact AT2]. destruct Hx as [<-|Hx].
      - unfold hash_and_id. cbn [snd pid phash opt_is]. rewrite (hashL_ok E OK s _ _ Q).
        apply andb_false_iff. right. apply N.eqb_neq. auto.
      - apply hid_of_id. eapply id_r_other; eauto. }
    constructor.
    - intros q. rewrite <- (contains_left_spec E OK s c m _ q HR). reflexivity.
    - intros q. rewrite <- (contains_right_spec E OK s c m _ q HR). unfold contains_right.
      cbn [m2 set_right right_set hash_builder].
      destruct (t_get_modify (lo E) (right_set m) i _ _ (set_hash (Some (hashL E s new))) (hashR E (hash_builder m) q)
        (equivalent_key (eqR E) q) N eq_refl) as [->|[-> ->]]; auto.
    - rewrite <- (len_left_ok E s c m _ HR). reflexivity.
    - rewrite <- (len_right_ok E s c m _ HR). unfold len_right, t_len.
      apply Permutation_length in AT, AT2, PR. cbn [length] in *. cbn [m2 set_right right_set]. lia.
    - intros q. rewrite <- (is_left_paired_spec E OK s c m _ q HR). reflexivity.
    - intros q. rewrite <- (is_right_paired_spec E OK s c m _ q HR). unfold is_right_paired.
      cbn [m2 set_right right_set hash_builder].
      destruct (t_get_modify (lo E) (right_set m) i _ _ (set_hash (Some (hashL E s new))) (hashR E (hash_builder m) q)
        (equivalent_key (eqR E) q) N eq_refl) as [->|[-> ->]]; auto.
    - intros q. destruct (eqL E q a) eqn:Q.
      + unfold get_right, get_right_q. change (hash_builder m2) with (hash_builder m). rewrite HB.
        change (left_set m2) with (left_set m).
        rewrite (left_get_found E OK _ _ _ _ _ _ _ H Ha Q (only_l _ _ _ _ _ _ H Ha q Q)).
        rewrite Hb. cbn [option_map phash pid]. rewrite t_get_absent; auto.
      + rewrite <- (get_right_spec E OK s c m _ q HR). unfold get_right, get_right_q.
        cbn [m2 set_right right_set left_set hash_builder].
        destruct (t_get (lo E) (left_set m) _ _) as [lp|] eqn:G; auto. destruct (phash lp) as [h|]; auto.
        apply t_get_some in G as (h' & I & KQ).
        assert (NID : pid lp <> fst z).
        { eapply Permutation_in in I; [|exact PL]. destruct I as [I|I].
          - inversion I; subst. unfold equivalent_key in KQ. simpl in KQ. congruence.
          - pose proof (id_l_other E s Z (fst z) _ IDS I) as X. unfold just_id in X. cbn [snd] in X.
            apply N.eqb_neq in X. auto. }
        f_equal. eapply t_get_modify_other; [exact N| |]; apply hid_of_id; unfold just_id; cbn [set_hash pid];
          apply N.eqb_neq; auto.
    - intros q. rewrite <- (get_left_spec E OK s c m _ q HR). unfold get_left, get_left_q.
      cbn [m2 set_right right_set left_set hash_builder].
      destruct (t_get_modify (lo E) (right_set m) i _ _ (set_hash (Some (hashL E s new))) (hashR E (hash_builder m) q)
        (equivalent_key (eqR E) q) N eq_refl) as [->|[G ->]]; [left; auto|].
      rewrite G. cbn [set_hash phash pid].
      apply t_get_some in G as (h' & I & KQ). unfold equivalent_key in KQ. cbn [value] in KQ.
      destruct (t_get (lo E) (left_set m) (hashL E s new) _) as [x|] eqn:GX; [left|right; auto].
      apply t_get_some in GX as (h2 & I2 & KX). unfold hash_and_id in KX. apply andb_true_iff in KX as [KX _].
      apply N.eqb_eq in KX. eapply Permutation_in in I2; [|exact PL]. destruct I2 as [I2|I2].
      + inversion I2; subst x. rewrite HB. rewrite (t_get_unique (lo E) LO (left_set m) _ _ _ _ PL); auto.
        * unfold hash_and_id. cbn [pid phash opt_is]. rewrite (hashR_ok E OK s _ _ KQ), !N.eqb_refl. auto.
        * intros y Hy. apply hid_of_id. eapply id_l_other; eauto.
      + pose proof (id_l_other E s Z (fst z) _ IDS I2) as X. unfold just_id in X. cbn [snd] in X.
        apply N.eqb_neq in X. congruence.
    - destruct (t_remove_entry_unique (lo E) LO (left_set m) (hashL E s a) (equivalent_key (eqL E) a) _ _ PL)
        as (t & QT & PT).
      { apply (equiv_refl _ EL). }
      { intros x Hx. eapply key_l_other; [|exact Hx]. eapply only_l; eauto. apply (equiv_refl _ EL). }
      pose proof (wc_orphan_r s c m z Z a b new t _ H QZ PT AT2) as W.
      destruct (w_drop_r _ _ _ _ _ _ W) as (a' & b' & m3 & QV & Q3 & W3). cbn [snd] in QV. inversion QV; subst a' b'.
      exists m3. split.
      + cbn [run step List.map].
        assert (Q2 : remove_via_left E a m2 = Panic (set_left t m2)).
        { unfold remove_via_left, left_remove_entry, right_remove_entry.
          cbv [bind ret getst putst unwrap panic]. change (hash_builder m2) with (hash_builder m).
          change (left_set m2) with (left_set m). rewrite HB, QT. cbn [phash pid].
          rewrite t_remove_entry_absent; [reflexivity|]. cbn [set_left right_set]. apply NR. apply (equiv_refl _ EL). }
        rewrite Q2. cbn [via]. unfold m2. rewrite Q3. reflexivity.
      + eapply (repr_behaves E OK s c); [|exact B]. eapply (repr_perm E OK).
        2:{ destruct W3. eapply w_repr; eauto. }
        symmetry. apply (filter_del (has_l (eqL E) a) Z0 z Z PZ).
        * eapply has_l_some; eauto. apply (equiv_refl _ EL).
        * eapply only_l; eauto. apply (equiv_refl _ EL).
  Qed.
  Lemma drift_r : forall s c m Z0 z Z b a new i rest k, Rep E s c m Z0 -> Permutation Z0 (z :: Z) ->
    snd z = SomeBoth a b -> hashR E s new <> hashR E s b ->
    at_slot (left_set m) i (hashL E s a) (MP a (Some (hashR E s b)) (fst z)) rest ->
    Permutation rest (flat_map (slotL s) Z) -> c + k < two64 ->
    adrift_r k (set_left (t_modify (left_set m) i (set_hash (Some (hashR E s new)))) m) (List.map snd Z0) a b.
  Proof.
    intros s c m Z0 z Z b a new i rest k H0 PZ QZ HN AT PL B.
    assert (HR : Repr E s c m (List.map snd Z0)) by (exists Z0; auto).
    assert (H := rep_perm E OK _ _ _ _ _ PZ H0). assert (HB := rep_hb _ _ _ _ _ H).
    assert (IDS := ids_other z Z (rep_ids _ _ _ _ _ H)).
    assert (Hb : op_get_right (snd z) = Some b) by (rewrite QZ; auto).
    assert (Ha : op_get_left (snd z) = Some a) by (rewrite QZ; auto).
    assert (PR := rep_r_cons E _ _ _ _ _ _ H Hb). rewrite Ha in PR. cbn [option_map] in PR.
    set (m2 := set_left _ m). destruct AT as [N AT].
    assert (AT2 := t_modify_perm (left_set m) i _ _ _ (set_hash (Some (hashR E s new))) N AT).
    cbn [set_hash value pid] in AT2. rewrite PL in AT2.
    assert (NL : forall q, eqR E q b = true -> forall x, In x (slots (left_set m2)) ->
      hash_and_id (hashR E s q) (fst z) (snd x) = false).
    { intros q Q x Hx. eapply Permutation_in in Hx; [|exact AT2]. destruct Hx as [<-|Hx].
      - unfold hash_and_id. cbn [snd pid phash opt_is]. rewrite (hashR_ok E OK s _ _ Q).
        apply andb_false_iff. right. apply N.eqb_neq. auto.
      - apply hid_of_id. eapply id_l_other; eauto. }
    constructor.
    - intros q. rewrite <- (contains_right_spec E OK s c m _ q HR). reflexivity.
    - intros q. rewrite <- (contains_left_spec E OK s c m _ q HR). unfold contains_left.
      cbn [m2 set_left left_set hash_builder].
      destruct (t_get_modify (lo E) (left_set m) i _ _ (set_hash (Some (hashR E s new))) (hashL E (hash_builder m) q)
        (equivalent_key (eqL E) q) N eq_refl) as [->|[-> ->]]; auto.
    - rewrite <- (len_right_ok E s c m _ HR). reflexivity.
    - rewrite <- (len_left_ok E s c m _ HR). unfold len_left, t_len.
      apply Permutation_length in AT, AT2, PL. cbn [length] in *. cbn [m2 set_left left_set]. lia.
    - intros q. rewrite <- (is_right_paired_spec E OK s c m _ q HR). reflexivity.
    - intros q. rewrite <- (is_left_paired_spec E OK s c m _ q HR). unfold is_left_paired.
      cbn [m2 set_left left_set hash_builder].
      destruct (t_get_modify (lo E) (left_set m) i _ _ (set_hash (Some (hashR E s new))) (hashL E (hash_builder m) q)
        (equivalent_key (eqL E) q) N eq_refl) as [->|[-> ->]]; auto.
    - intros q. destruct (eqR E q b) eqn:Q.
      + unfold get_left, get_left_q. change (hash_builder m2) with (hash_builder m). rewrite HB.
        change (right_set m2) with (right_set m).
        rewrite (right_get_found E OK _ _ _ _ _ _ _ H Hb Q (only_r _ _ _ _ _ _ H Hb q Q)).
        rewrite Ha. cbn [option_map phash pid]. rewrite t_get_absent; auto.
      + rewrite <- (get_left_spec E OK s c m _ q HR). unfold get_left, get_left_q.
        cbn [m2 set_left left_set right_set hash_builder].
        destruct (t_get (lo E) (right_set m) _ _) as [lp|] eqn:G; auto. destruct (phash lp) as [h|]; auto.
        apply t_get_some in G as (h' & I & KQ).
        assert (NID : pid lp <> fst z).
        { eapply Permutation_in in I; [|exact PR]. destruct I as [I|I].
          - inversion I; subst. unfold equivalent_key in KQ. simpl in KQ. congruence.
          - pose proof (id_r_other E s Z (fst z) _ IDS I) as X. unfold just_id in X. cbn [snd] in X.
            apply N.eqb_neq in X. auto. }
        f_equal. eapply t_get_modify_other; [exact N| |]; apply hid_of_id; unfold just_id; cbn [set_hash pid];
          apply N.eqb_neq; auto.
    - intros q. rewrite <- (get_right_spec E OK s c m _ q HR). unfold get_right, get_right_q.
      cbn [m2 set_left left_set right_set hash_builder].
      destruct (t_get_modify (lo E) (left_set m) i _ _ (set_hash (Some (hashR E s new))) (hashL E (hash_builder m) q)
        (equivalent_key (eqL E) q) N eq_refl) as [->|[G ->]]; [left; auto|].
      rewrite G. cbn [set_hash phash pid].
      apply t_get_some in G as (h' & I & KQ). unfold equivalent_key in KQ. cbn [value] in KQ.
      destruct (t_get (lo E) (right_set m) (hashR E s new) _) as [x|] eqn:GX; [left|right; auto].
      apply t_get_some in GX as (h2 & I2 & KX). unfold hash_and_id in KX. apply andb_true_iff in KX as [KX _].
      apply N.eqb_eq in KX. eapply Permutation_in in I2; [|exact PR]. destruct I2 as [I2|I2].
      + inversion I2; subst x. rewrite HB. rewrite (t_get_unique (lo E) LO (right_set m) _ _ _ _ PR); auto.
        * unfold hash_and_id. cbn [pid phash opt_is]. rewrite (hashL_ok E OK s _ _ KQ), !N.eqb_refl. auto.
        * intros y Hy. apply hid_of_id. eapply id_r_other; eauto.
      + pose proof (id_r_other E s Z (fst z) _ IDS I2) as X. unfold just_id in X. cbn [snd] in X.
        apply N.eqb_neq in X. congruence.
    - destruct (t_remove_entry_unique (lo E) LO (right_set m) (hashR E s b) (equivalent_key (eqR E) b) _ _ PR)
        as (t & QT & PT).
      { apply (equiv_refl _ ER). }
      { intros x Hx. eapply key_r_other; [|exact Hx]. eapply only_r; eauto. apply (equiv_refl _ ER). }
      pose proof (wc_orphan_l s c m z Z a b new t _ H QZ PT AT2) as W.
      destruct (w_drop_l _ _ _ _ _ _ W) as (b' & a' & m3 & QV & Q3 & W3). cbn [snd] in QV. inversion QV; subst b' a'.
      exists m3. split.
      + cbn [run step List.map].
        assert (Q2 : remove_via_right E b m2 = Panic (set_right t m2)).
        { unfold remove_via_right, right_remove_entry, left_remove_entry.
          cbv [bind ret getst putst unwrap panic]. change (hash_builder m2) with (hash_builder m).
          change (right_set m2) with (right_set m). rewrite HB, QT. cbn [phash pid].
          rewrite t_remove_entry_absent; [reflexivity|]. cbn [set_right left_set]. apply NL. apply (equiv_refl _ ER). }
        rewrite Q2. cbn [via]. unfold m2. rewrite Q3. reflexivity.
      + eapply (repr_behaves E OK s c); [|exact B]. eapply (repr_perm E OK).
        2:{ destruct W3. eapply w_repr; eauto. }
        symmetry. apply (filter_del (has_r (eqR E) b) Z0 z Z PZ).
        * eapply has_r_some; eauto. apply (equiv_refl _ ER).
        * eapply only_r; eauto. apply (equiv_refl _ ER).
  Qed.

  (* swap_left: as before the call; without the entry of new; with old without its partner, who
     is told to belong to new; or the old item gone, its partner alone, and the left table torn *)
  Definition swap_left_wreck (k : N) (m' : map) (P : list entry) (old new : L) : Prop :=
    behaves_as E k m' P \/
    let B := s_swap_left_base (eqL E) P old new in
    behaves_as E k m' B \/
    exists e, find_l (eqL E) B old = Some e /\
      ((exists a b, e = SomeBoth a b /\ adrift_l k m' B a b) \/
       exists kept lost, Permutation (del_l (eqL E) B old) (kept ++ lost) /\ none_only_r lost /\
         wrecked_r k m' kept (opt_list (op_get_right e) ++ rights lost)).
  Lemma swap_left_wrecks : forall s c m P old new m' k, Repr E s c m P -> c + k < two64 ->
    P_swap_left E F old new m m' -> swap_left_wreck k m' P old new.
  Proof.
    intros s c m P old new m' k H BD [->|(m1 & o & Q1 & K)]; [left; eapply (repr_behaves E OK); eauto|].
    destruct (swap_left_eq_check_ok E OK s c m P old new H) as (m1' & Q1' & H1).
    rewrite (repr_hb E _ _ _ _ H) in Q1. rewrite Q1 in Q1'. inversion Q1'; subst m1' o. clear Q1'.
    right. unfold swap_left_wreck. set (BB := s_swap_left_base (eqL E) P old new) in *. clearbody BB.
    assert (HBB : behaves_as E k m1 BB) by (eapply (repr_behaves E OK); eauto).
    destruct K as [->|(lp & m2 & G & RP & K)]; [left; auto|].
    rewrite (repr_hb E _ _ _ _ H1), ?(repr_hb E _ _ _ _ H) in *. assert (HR := H1). destruct H1 as (Z & H1 & HZ).
    assert (HB := rep_hb _ _ _ _ _ H1).
    destruct (split_l E OK _ _ _ _ old H1) as [(z & Z' & a & PZ & H' & Ha & Hq & Hh & Hn)|Hn].
    2:{ exfalso. rewrite t_get_absent in G by (eapply left_absent; eauto). discriminate. }
    rewrite (left_get_found E OK _ _ _ _ _ _ _ H' Ha Hq Hn) in G. inversion G; subst lp. clear G.
    assert (HL := has_l_some E old (snd z) a Ha Hq).
    assert (FD : find_l (eqL E) BB old = Some (snd z)) by (subst BB; exact (find_split _ Z z Z' PZ HL Hn)).
    assert (PD : Permutation (List.map snd Z') (del_l (eqL E) BB old)) by (subst BB; symmetry; exact (filter_del _ Z z Z' PZ HL Hn)).
    destruct (t_remove_entry_unique (lo E) LO (left_set m1) _
        (equivalent_key (eqL E) old) _ _ (rep_l_cons E _ _ _ _ _ _ H' Ha) Hq) as (tl & QT & PT).
    { intros x Hx. eapply key_l_other; eauto. }
    unfold repoint_r in RP. cbn [phash pid] in RP.
    destruct (op_get_right (snd z)) as [b|] eqn:Hb; cbn [option_map] in RP.
    - assert (QZ : snd z = SomeBoth a b) by (destruct (snd z); simpl in *; congruence).
      assert (PR := rep_r_cons E _ _ _ _ _ _ H' Hb). rewrite Ha in PR. cbn [option_map] in PR.
      destruct (get_mut_unique E OK (right_set m1) (hashR E s b) (hash_and_id (hashL E s old) (fst z)) _ _ PR) as (i & GM & AT).
      { unfold hash_and_id. cbn [pid phash opt_is]. rewrite Hh, !N.eqb_refl. auto. }
      { intros y Hy. apply hid_of_id. eapply id_r_other; eauto. apply (ids_other z Z' (rep_ids _ _ _ _ _ H')). }
      unfold right_assign, bind, getst, putst, unwrap, ret in RP. rewrite GM in RP. cbn [fst] in RP.
      inversion RP; subst m2. clear RP.
      assert (AT2 := t_modify_perm (right_set m1) i _ _ _ (set_hash (Some (hashL E s new))) (proj1 AT) (proj2 AT)).
      cbn [set_hash value pid] in AT2.
      destruct K as [->|(m3 & e & Q3 & t & SP & ->)].
      + destruct (N.eq_dec (hashL E s new) (hashL E s a)) as [EQ|NE].
        * left. eapply (repr_behaves E OK s c); [|exact BD].
          eapply (repr_tables E s c m1); try reflexivity; [exact HR|].
          cbn [set_right right_set]. rewrite EQ in *. rewrite AT2. symmetry. exact (proj2 AT).
        * right. exists (snd z). split; auto. left. exists a, b. split; auto. subst BB.
          exact (drift_l _ _ _ _ _ _ _ _ _ _ _ _ H1 PZ QZ NE AT (Permutation_refl _) BD).
      + right. exists (snd z). split; auto. right. rewrite Hb.
        unfold left_remove_entry, bind, getst, putst, ret in Q3. cbn [set_right left_set] in Q3.
        rewrite Hh, QT in Q3. inversion Q3; subst m3 e. clear Q3.
        pose proof (wc_orphan_r s c m1 z Z' a b new tl _ H' QZ PT AT2) as W.
        apply (spoilt_torn _ _ FO) in SP.
        destruct (lose_l _ _ _ _ _ _ k W SP BD) as (kept & lost & PP & NO & HW).
        exists kept, lost. split; [rewrite <- PD; auto|]. split; auto.
    - unfold ret in RP. inversion RP; subst m2. clear RP.
      destruct K as [->|(m3 & e & Q3 & t & SP & ->)]; [left; auto|].
      right. exists (snd z). split; auto. right. rewrite Hb.
      unfold left_remove_entry, bind, getst, putst, ret in Q3. rewrite Hh, QT in Q3. inversion Q3; subst m3 e. clear Q3.
      assert (W : Rep E s c (set_left tl m1) Z').
      { eapply (rep_tail E s c m1 _ [z]); [exact H'|auto|auto|exact PT|]. cbn [set_left right_set].
        rewrite (rep_r _ _ _ _ _ H'). cbn [flat_map]. rewrite (slotR_none E s z Hb). auto. }
      apply (spoilt_torn _ _ FO) in SP.
      destruct (lose_l _ _ _ _ _ _ k (rep_wc _ _ _ _ W) SP BD) as (kept & lost & PP & NO & HW).
      exists kept, lost. split; [rewrite <- PD; auto|]. split; auto.
  Qed.

  (* swap_right: as before the call; without the entry of new; with old without its partner, who
     is told to belong to new; or the old item gone, its partner alone, and the left table torn *)
  Definition swap_right_wreck (k : N) (m' : map) (P : list entry) (old new : R) : Prop :=
    behaves_as E k m' P \/
    let B := s_swap_right_base (eqR E) P old new in
    behaves_as E k m' B \/
    exists e, find_r (eqR E) B old = Some e /\
      ((exists a b, e = SomeBoth a b /\ adrift_r k m' B a b) \/
       exists kept lost, Permutation (del_r (eqR E) B old) (kept ++ lost) /\ none_only_l lost /\
         wrecked_l k m' kept (opt_list (op_get_left e) ++ lefts lost)).
  Lemma swap_right_wrecks : forall s c m P old new m' k, Repr E s c m P -> c + k < two64 ->
    P_swap_right E F old new m m' -> swap_right_wreck k m' P old new.
  Proof.
    intros s c m P old new m' k H BD [->|(m1 & o & Q1 & K)]; [left; eapply (repr_behaves E OK); eauto|].
    destruct (swap_right_eq_check_ok E OK s c m P old new H) as (m1' & Q1' & H1).
    rewrite (repr_hb E _ _ _ _ H) in Q1. rewrite Q1 in Q1'. inversion Q1'; subst m1' o. clear Q1'.
    right. unfold swap_right_wreck. set (BB := s_swap_right_base (eqR E) P old new) in *. clearbody BB.
    assert (HBB : behaves_as E k m1 BB) by (eapply (repr_behaves E OK); eauto).
    destruct K as [->|(lp & m2 & G & RP & K)]; [left; auto|].
    rewrite (repr_hb E _ _ _ _ H1), ?(repr_hb E _ _ _ _ H) in *. assert (HR := H1). destruct H1 as (Z & H1 & HZ).
    assert (HB := rep_hb _ _ _ _ _ H1).
    destruct (split_r E OK _ _ _ _ old H1) as [(z & Z' & b & PZ & H' & Hb & Hq & Hh & Hn)|Hn].
    2:{ exfalso. rewrite t_get_absent in G by (eapply right_absent; eauto). discriminate. }
    rewrite (right_get_found E OK _ _ _ _ _ _ _ H' Hb Hq Hn) in G. inversion G; subst lp. clear G.
    assert (HR2 := has_r_some E old (snd z) b Hb Hq).
    assert (FD : find_r (eqR E) BB old = Some (snd z)) by (subst BB; exact (find_split _ Z z Z' PZ HR2 Hn)).
    assert (PD : Permutation (List.map snd Z') (del_r (eqR E) BB old)) by (subst BB; symmetry; exact (filter_del _ Z z Z' PZ HR2 Hn)).
    destruct (t_remove_entry_unique (lo E) LO (right_set m1) _
        (equivalent_key (eqR E) old) _ _ (rep_r_cons E _ _ _ _ _ _ H' Hb) Hq) as (tr & QT & PT).
    { intros x Hx. eapply key_r_other; eauto. }
    unfold repoint_l in RP. cbn [phash pid] in RP.
    destruct (op_get_left (snd z)) as [a|] eqn:Ha; cbn [option_map] in RP.
    - assert (QZ : snd z = SomeBoth a b) by (destruct (snd z); simpl in *; congruence).
      assert (PL := rep_l_cons E _ _ _ _ _ _ H' Ha). rewrite Hb in PL. cbn [option_map] in PL.
      destruct (get_mut_unique E OK (left_set m1) (hashL E s a) (hash_and_id (hashR E s old) (fst z)) _ _ PL) as (i & GM & AT).
      { unfold hash_and_id. cbn [pid phash opt_is]. rewrite Hh, !N.eqb_refl. auto. }
      { intros y Hy. apply hid_of_id. eapply id_l_other; eauto. apply (ids_other z Z' (rep_ids _ _ _ _ _ H')). }
      unfold left_assign, bind, getst, putst, unwrap, ret in RP. rewrite GM in RP. cbn [fst] in RP.
      inversion RP; subst m2. clear RP.
      assert (AT2 := t_modify_perm (left_set m1) i _ _ _ (set_hash (Some (hashR E s new))) (proj1 AT) (proj2 AT)).
      cbn [set_hash value pid] in AT2.
      destruct K as [->|(m3 & e & Q3 & t & SP & ->)].
      + destruct (N.eq_dec (hashR E s new) (hashR E s b)) as [EQ|NE].
        * left. eapply (repr_behaves E OK s c); [|exact BD].
          eapply (repr_tables E s c m1); try reflexivity; [exact HR|].
          cbn [set_left left_set]. rewrite EQ in *. rewrite AT2. symmetry. exact (proj2 AT).
        * right. exists (snd z). split; auto. left. exists a, b. split; auto. subst BB.
          exact (drift_r _ _ _ _ _ _ _ _ _ _ _ _ H1 PZ QZ NE AT (Permutation_refl _) BD).
      + right. exists (snd z). split; auto. right. rewrite Ha.
        unfold right_remove_entry, bind, getst, putst, ret in Q3. cbn [set_left right_set] in Q3.
        rewrite Hh, QT in Q3. inversion Q3; subst m3 e. clear Q3.
        pose proof (wc_orphan_l s c m1 z Z' a b new tr _ H' QZ PT AT2) as W.
        apply (spoilt_torn _ _ FO) in SP.
        destruct (lose_r _ _ _ _ _ _ k W SP BD) as (kept & lost & PP & NO & HW).
        exists kept, lost. split; [rewrite <- PD; auto|]. split; auto.
    - unfold ret in RP. inversion RP; subst m2. clear RP.
      destruct K as [->|(m3 & e & Q3 & t & SP & ->)]; [left; auto|].
      right. exists (snd z). split; auto. right. rewrite Ha.
      unfold right_remove_entry, bind, getst, putst, ret in Q3. rewrite Hh, QT in Q3. inversion Q3; subst m3 e. clear Q3.
      assert (W : Rep E s c (set_right tr m1) Z').
      { eapply (rep_tail E s c m1 _ [z]); [exact H'|auto|auto| |exact PT]. cbn [set_right left_set].
        rewrite (rep_l _ _ _ _ _ H'). cbn [flat_map]. rewrite (slotL_none E s z Ha). auto. }
      apply (spoilt_torn _ _ FO) in SP.
      destruct (lose_r _ _ _ _ _ _ k (rep_wc _ _ _ _ W) SP BD) as (kept & lost & PP & NO & HW).
      exists kept, lost. split; [rewrite <- PD; auto|]. split; auto.
  Qed.


  Ltac go H m o w := apply (reachable_view E OK) in H as (s & c & P & V & H & B); exists P; split; auto;
    destruct (u_step_cases E F m o w) as [Q|(N & m' & Q & KK)]; [left; auto|right];
    split; auto; exists m'; split; auto; cbn [P_step] in KK.

  (* ---- C96 ---- *)
  Theorem C96_insert_partial : forall k m o e w, reachable E k m -> 1 <= k ->
    match o with
    | Insert l r => e = SomeBoth l r
    | InsertLeft l => e = SomeLeft l
    | InsertRight r => e = SomeRight r
    | _ => False
    end ->
    exists P, contents E m P /\
    (u_step E F m o w = step E m o \/
     (w <> None /\ exists m', u_step E F m o w = (m', OPanic) /\ insert_wreck (k - 1) m' P e)).
  Proof.
    intros k m o e w H K O. go H m o w. destruct o; try contradiction; subst e; cbn [P_step] in KK;
      [eapply insert_wrecks|eapply insert_left_wrecks|eapply insert_right_wrecks]; eauto; lia.
  Qed.
  Theorem C96_extend_partial : forall k m o es w, reachable E k m -> N.of_nat (length es) <= k ->
    o = Extend es \/ (exists xs, o = ExtendPairs xs /\ es = List.map (fun p => SomeBoth (fst p) (snd p)) xs) ->
    exists P, contents E m P /\
    (u_step E F m o w = step E m o \/
     (w <> None /\ exists m', u_step E F m o w = (m', OPanic) /\
        extend_wreck (k - N.of_nat (length es)) m' P es)).
  Proof.
    intros k m o es w H K O. go H m o w. destruct O as [->|(xs & -> & ->)]; cbn [P_step] in KK.
    - eapply extend_wrecks; eauto. lia.
    - rewrite map_length in *. eapply extend_pairs_wrecks; eauto. lia.
  Qed.

  (* ---- C97 ---- *)
  Theorem C97_swap_left_partial : forall k m o old new w, reachable E k m ->
    o = SwapLeft old new \/ (exists ex, o = SwapLeftChecked old ex new) ->
    exists P, contents E m P /\
    (u_step E F m o w = step E m o \/
     (w <> None /\ exists m', u_step E F m o w = (m', OPanic) /\ swap_left_wreck k m' P old new)).
  Proof.
    intros k m o old new w H O. go H m o w.
    destruct O as [->|(ex & ->)]; cbn [P_step] in KK; eapply swap_left_wrecks; eauto.
  Qed.
  Theorem C97_swap_right_partial : forall k m o old new w, reachable E k m ->
    o = SwapRight old new \/ (exists ex, o = SwapRightChecked old ex new) ->
    exists P, contents E m P /\
    (u_step E F m o w = step E m o \/
     (w <> None /\ exists m', u_step E F m o w = (m', OPanic) /\ swap_right_wreck k m' P old new)).
  Proof.
    intros k m o old new w H O. go H m o w.
    destruct O as [->|(ex & ->)]; cbn [P_step] in KK; eapply swap_right_wrecks; eauto.
  Qed.
  Theorem C97_swap_left_or_insert_partial : forall k m old new ti w, reachable E k m -> 1 <= k ->
    exists P, contents E m P /\
    (u_step E F m (SwapLeftOrInsert old new ti) w = step E m (SwapLeftOrInsert old new ti) \/
     (w <> None /\ exists m', u_step E F m (SwapLeftOrInsert old new ti) w = (m', OPanic) /\
        (swap_left_wreck (k - 1) m' P old new \/ insert_wreck (k - 1) m' P (SomeBoth new ti)))).
  Proof.
    intros k m old new ti w H K. go H m (SwapLeftOrInsert old new ti) w.
    destruct KK; [left; eapply swap_left_wrecks|right; eapply insert_wrecks]; eauto; lia.
  Qed.
  Theorem C97_swap_right_or_insert_partial : forall k m old new ti w, reachable E k m -> 1 <= k ->
    exists P, contents E m P /\
    (u_step E F m (SwapRightOrInsert old new ti) w = step E m (SwapRightOrInsert old new ti) \/
     (w <> None /\ exists m', u_step E F m (SwapRightOrInsert old new ti) w = (m', OPanic) /\
        (swap_right_wreck (k - 1) m' P old new \/ insert_wreck (k - 1) m' P (SomeBoth ti new)))).
  Proof.
    intros k m old new ti w H K. go H m (SwapRightOrInsert old new ti) w.
    destruct KK; [left; eapply swap_right_wrecks|right; eapply insert_wrecks]; eauto; lia.
  Qed.

  (* ---- C98 ---- *)
  Theorem C98_shrink : forall k m o w, reachable E k m ->
    o = ShrinkToFit \/ (exists n, o = ShrinkToLeft n) \/ (exists n, o = ShrinkToRight n) ->
    exists P, contents E m P /\ behaves_as E k (fst (u_step E F m o w)) P.
  Proof.
    intros k m o w H O. apply (reachable_view E OK) in H as (s & c & P & V & H & B). exists P. split; auto.
    destruct (u_step_cases E F m o w) as [->|(N & m' & -> & KK)].
    - destruct (step_ok E OK s c m P o H) as (P1 & c1 & S1 & H1 & C1).
      + destruct O as [->|[(n & ->)|(n & ->)]]; simpl; lia.
      + destruct O as [->|[(n & ->)|(n & ->)]]; exact I.
      + assert (P1 = P) by (destruct O as [->|[(n & ->)|(n & ->)]]; inversion S1; auto). subst P1.
        eapply repr_behaves; eauto. destruct O as [->|[(n & ->)|(n & ->)]]; simpl in C1; lia.
    - cbn [fst]. eapply (repr_behaves E OK s c); auto.
      destruct O as [->|[(n & ->)|(n & ->)]]; cbn [P_step] in KK.
      + destruct KK as [K|(m1 & Q & K)]; [eapply (shrink_l_panic E F); eauto|].
        destruct (resize_left_ok E OK s c m P (Shrink (N.of_nat (len_left m))) H) as (m1' & Q' & H1).
        rewrite Q in Q'. inversion Q'; subst m1'. eapply (shrink_r_panic E F); eauto.
      + eapply (shrink_l_panic E F); eauto.
      + eapply (shrink_r_panic E F); eauto.
  Qed.
  Theorem C98_reserve_left_partial : forall k m o n w, reachable E k m -> o = ReserveLeft n \/ o = TryReserveLeft n ->
    exists P, contents E m P /\
    (u_step E F m o w = step E m o \/
     (w <> None /\ exists m', u_step E F m o w = (m', OPanic) /\ reserve_left_wreck k m' P)).
  Proof.
    intros k m o n w H O. go H m o w. destruct O as [->| ->]; cbn [P_step] in KK; eapply reserve_left_wrecks; eauto.
  Qed.
  Theorem C98_reserve_right_partial : forall k m o n w, reachable E k m -> o = ReserveRight n \/ o = TryReserveRight n ->
    exists P, contents E m P /\
    (u_step E F m o w = step E m o \/
     (w <> None /\ exists m', u_step E F m o w = (m', OPanic) /\ reserve_right_wreck k m' P)).
  Proof.
    intros k m o n w H O. go H m o w. destruct O as [->| ->]; cbn [P_step] in KK; eapply reserve_right_wrecks; eauto.
  Qed.
End Wrecks.

(* ---- the claims without "partial" are false ---- *)
Lemma full_map_reachable : reachable env_room 5 full_map.
Proof.
  exists 0, 0, 0, [ReserveLeft 2; ReserveRight 2; Insert (it 1) (it 1); Insert (it 2) (it 2)].
  split; [reflexivity|]. split; [|reflexivity]. repeat (split; [exact I|]). exact I.
Qed.

(* insert: the left table has grown, the Hash of an old item panics while the right table
   grows.  No bucket is lost (f_move), yet the new left item counts as paired and has no
   partner, and iterating over the pairs panics. *)
Theorem C96_insert_refuted : exists (E : env item item N) F m l r w m',
  lawful E /\ fault_ok F /\ lossless F /\ reachable E 5 m /\
  u_step E F m (Insert l r) w = (m', OPanic) /\
  is_left_paired E m' l = true /\ get_right E m' l = None /\ contains_right E m' r = false /\
  paired_rest E m' (iter_paired m') = Panicked.
Proof.
  exists env_room, f_move, full_map, (it 9), (it 9), (Some 10%nat),
    (fst (u_step env_room f_move full_map (Insert (it 9) (it 9)) (Some 10%nat))).
  split; [exact env_room_ok|]. split; [exact f_move_ok|]. split; [exact f_move_lossless|].
  split; [exact full_map_reachable|]. run_all.
Qed.
(* swap_left: Eq panics while the entry of the old item is taken out; its partner no longer
   belongs to it.  Room in the tables does not help. *)
Theorem C97_swap_refuted : exists (E : env item item N) F m old new w m',
  lawful E /\ fault_ok F /\ lossless F /\ reachable E 5 m /\ room E 1 m /\
  u_step E F m (SwapLeft old new) w = (m', OPanic) /\
  is_left_paired E m' old = true /\ get_right E m' old = None /\ contains_left E m' new = false /\
  paired_rest E m' (iter_paired m') = Panicked.
Proof.
  exists env_room, f_move, fm, (it 2), (it 9), (Some 7%nat),
    (fst (u_step env_room f_move fm (SwapLeft (it 2) (it 9)) (Some 7%nat))).
  split; [exact env_room_ok|]. split; [exact f_move_ok|]. split; [exact f_move_lossless|].
  split; [exact fm_reachable|]. split; [exact fm_room|]. run_all.
Qed.
(* reserve_left: buckets of a table rehashed in place are lost *)
Theorem C98_reserve_refuted : exists (E : env item item N) F m n w m' l,
  lawful E /\ fault_ok F /\ reachable E 5 m /\ contains_left E m l = true /\
  u_step E F m (ReserveLeft n) w = (m', OPanic) /\ contains_left E m' l = false.
Proof.
  exists env_room, f_in_place, full_map, 1, (Some 1%nat),
    (fst (u_step env_room f_in_place full_map (ReserveLeft 1) (Some 1%nat))), (it 1).
  split; [exact env_room_ok|]. split; [exact f_in_place_ok|]. split; [exact full_map_reachable|]. run_all.
Qed.

(* ---- cases of the partial theorems ---- *)
Definition after (F : fault) (m : pmap item item N) (o : op item item) (w : nat) : pmap item item N :=
  fst (u_step env_room F m o (Some w)).
(* insert(9, 9), buckets lost in place: one pair is gone from the right table; both left items are
   stranded, and two removals mend the map *)
Example C96_case :
  let m := after f_in_place full_map (Insert (it 9) (it 9)) 11 in
  snd (u_step env_room f_in_place full_map (Insert (it 9) (it 9)) (Some 11%nat)) = OPanic /\
  List.map (is_left_paired env_room m) [it 9; it 1; it 2] = [true; true; true] /\
  List.map (get_right env_room m) [it 9; it 1; it 2] = [None; None; Some (it 2)] /\
  paired_rest env_room m (iter_paired m) = Panicked /\
  snd (run env_room m [RemoveViaLeft (it 9); RemoveViaLeft (it 1); IterPairedAll; Insert (it 9) (it 9)])
    = [OPanic; OPanic; OPairs [(it 2, it 2)]; OIns (Neither, Neither)].
Proof. run_all. Qed.
(* insert_left(9), the left table loses (1, 1)'s left item: the right one is stranded *)
Example C96_left_case :
  let m := after f_in_place full_map (InsertLeft (it 9)) 5 in
  snd (u_step env_room f_in_place full_map (InsertLeft (it 9)) (Some 5%nat)) = OPanic /\
  List.map (contains_left env_room m) [it 9; it 1; it 2] = [false; false; true] /\
  List.map (is_right_paired env_room m) [it 1; it 2] = [true; true] /\
  List.map (get_left env_room m) [it 1; it 2] = [None; Some (it 2)] /\
  snd (run env_room m [RemoveViaRight (it 1); IterPairedAll; ContainsRight (it 1)])
    = [OPanic; OPairs [(it 2, it 2)]; OBool false].
Proof. run_all. Qed.
(* the first entries fit, the last does not *)
Definition half_map : pmap item item N :=
  fst (run env_room (with_hasher 0 0 0) [ReserveLeft 2; ReserveRight 2; Insert (it 1) (it 1)]).
Example C96_extend_case :
  let o := Extend [SomeBoth (it 2) (it 2); SomeBoth (it 9) (it 9)] in
  let m := after f_move half_map o 17 in
  snd (u_step env_room f_move half_map o (Some 17%nat)) = OPanic /\
  List.map (get_right env_room m) [it 1; it 2; it 9] = [Some (it 1); Some (it 2); None] /\
  is_left_paired env_room m (it 9) = true /\ paired_rest env_room m (iter_paired m) = Panicked /\
  snd (run env_room m [RemoveViaLeft (it 9); IterPairedAll]) = [OPanic; OPairs [(it 2, it 2); (it 1, it 1)]].
Proof. run_all. Qed.
(* a torn swap of either side, mended by two removals *)
Example C97_case :
  let m := after f_move full_map (SwapLeft (it 2) (it 9)) 5 in
  let m2 := after f_move full_map (SwapRight (it 2) (it 9)) 5 in
  get_right env_room m (it 2) = None /\ get_left env_room m (it 2) = Some (it 2) /\
  get_right env_room m (it 1) = Some (it 1) /\
  snd (run env_room m [RemoveViaLeft (it 2); RemoveViaRight (it 2); IterPairedAll])
    = [OPanic; OPanic; OPairs [(it 1, it 1)]] /\
  get_left env_room m2 (it 2) = None /\ get_right env_room m2 (it 2) = Some (it 2) /\
  snd (run env_room m2 [RemoveViaRight (it 2); RemoveViaLeft (it 2); IterPairedAll])
    = [OPanic; OPanic; OPairs [(it 1, it 1)]].
Proof. run_all. Qed.
Example C98_case :
  let m := after f_in_place full_map (ReserveLeft 1) 1 in
  let m2 := after f_in_place full_map (ReserveRight 1) 1 in
  paired_rest env_room m (iter_paired m) = Done [(it 2, it 2)] /\ contains_right env_room m (it 1) = true /\
  snd (run env_room m [RemoveViaRight (it 1); IterPairedAll; ContainsRight (it 1)])
    = [OPanic; OPairs [(it 2, it 2)]; OBool false] /\
  paired_rest env_room m2 (iter_paired m2) = Panicked /\ contains_left env_room m2 (it 1) = true /\
  snd (run env_room m2 [RemoveViaLeft (it 1); IterPairedAll]) = [OPanic; OPairs [(it 2, it 2)]] /\
  (* shrink_to_fit keeps everything *)
  snd (u_step env_room f_in_place fm ShrinkToFit (Some 1%nat)) = OPanic /\
  iter_all env_room (after f_in_place fm ShrinkToFit 1) = iter_all env_room fm.
Proof. run_all. Qed.

Print Assumptions C96_insert_partial.
Print Assumptions C96_extend_partial.
Print Assumptions C96_insert_refuted.
Print Assumptions C97_swap_left_partial.
Print Assumptions C97_swap_right_partial.
Print Assumptions C97_swap_left_or_insert_partial.
Print Assumptions C97_swap_right_or_insert_partial.
Print Assumptions C97_swap_refuted.
Print Assumptions C98_shrink.
Print Assumptions C98_reserve_left_partial.
Print Assumptions C98_reserve_right_partial.
Print Assumptions C98_reserve_refuted.
