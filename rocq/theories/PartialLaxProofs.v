(* The model meets PartialLax along every history, part 1: calls on single items. *)
From Coq Require Import List NArith Lia Bool Permutation PeanoNat.
From Verif Require Import Closures Prelude RawTable Optionals PartialCycleMap ListFacts TableFacts
  PartialSpec PartialHistory PartialProofs PartialProofs2 PartialProofs3 PartialProofs4 PartialLax.
From Verif Require CycleMapLaxProofs.
Import ListNotations.
Open Scope N_scope.

Section LaxProofs.
  Context {L R S : Type} (E : env L R S) (OK : lax E).
  Notation pm := (pmap L R S).
  Notation entry := (optional_pair L R).
  Notation zent := (N * entry)%type.
  Notation slotL := (slotL E).
  Notation slotR := (slotR E).
  Let LO := CycleMapLax.lax_lo _ OK.
  Notation eL := (eqL E).
  Notation eR := (eqR E).

  (* Rep without the distinctness of the items *)
  Record WRep (s : S) (c : N) (m : pm) (Z : list zent) : Prop := {
    w_hb : hash_builder m = s;
    w_c : counter m = c;
    w_l : Permutation (slots (left_set m)) (flat_map (slotL s) Z);
    w_r : Permutation (slots (right_set m)) (flat_map (slotR s) Z);
    w_ids : NoDup (map fst Z);
    w_lt : forall z, In z Z -> fst z < c;
    w_nn : ~ In Neither (map snd Z)
  }.

  Lemma w_perm : forall s c m Z Z', Permutation Z Z' -> WRep s c m Z -> WRep s c m Z'.
  Proof.
    intros s c m Z Z' P H. destruct H. constructor; auto.
    - etransitivity; eauto. apply Permutation_flat_map; auto.
    - etransitivity; eauto. apply Permutation_flat_map; auto.
    - eapply NoDup_perm; [apply Permutation_map; exact P|auto].
    - intros. apply w_lt0. eapply Permutation_in; [symmetry|]; eauto.
    - intro I. apply w_nn0. eapply Permutation_in; [apply Permutation_map; symmetry; exact P|auto].
  Qed.

  Lemma w_rebuild : forall s c c' m m' old new Z,
    WRep s c m (old ++ Z) -> hash_builder m' = s -> counter m' = c' -> c <= c' ->
    Permutation (slots (left_set m')) (flat_map (slotL s) new ++ flat_map (slotL s) Z) ->
    Permutation (slots (right_set m')) (flat_map (slotR s) new ++ flat_map (slotR s) Z) ->
    NoDup (map fst new) ->
    (forall i, In i (map fst new) -> In i (map fst old) \/ (c <= i /\ i < c')) ->
    ~ In Neither (map snd new) ->
    WRep s c' m' (new ++ Z).
  Proof.
    intros s c c' m m' old new Z H Hs Hc Hcc Pl Pr NI FI NN.
    destruct H as [? ? _ _ IDS LT BN]. rewrite map_app in *.
    assert (IDZ : NoDup (map fst Z) /\ forall i, In i (map fst old) -> ~ In i (map fst Z)).
    { clear - IDS. induction old; simpl in *; [split; auto|]. inversion IDS; subst.
      apply IHold in H2 as [A B]. split; auto. intros i [<-|Hi]; auto.
      intro. apply H1, in_app_iff; auto. }
    destruct IDZ as [IDZ AP].
    constructor; auto.
    - rewrite flat_map_app; auto.
    - rewrite flat_map_app; auto.
    - rewrite map_app. clear - NI FI IDZ AP LT. induction (map fst new); simpl; auto.
      inversion NI; subst. constructor; auto.
      + rewrite in_app_iff. intros [I|I]; [auto|].
        destruct (FI a (or_introl eq_refl)) as [O|O]; [eapply AP; eauto|].
        apply in_map_iff in I as (z & <- & Hz).
        assert (fst z < c) by (apply LT, in_app_iff; auto). lia.
      + apply IHl; auto. intros i Hi. apply FI; right; auto.
    - intros z Hz. apply in_app_iff in Hz as [Hz|Hz].
      + destruct (FI (fst z)) as [O|O]; [apply in_map; auto| |lia].
        apply in_map_iff in O as (y & <- & Hy).
        assert (fst y < c) by (apply LT, in_app_iff; auto). lia.
      + assert (fst z < c) by (apply LT, in_app_iff; auto). lia.
    - rewrite map_app, in_app_iff. intros [I|I]; [auto|]. apply BN, in_app_iff; auto.
  Qed.
  Lemma w_tail : forall s c m m' old Z, WRep s c m (old ++ Z) ->
    hash_builder m' = hash_builder m -> counter m' = counter m ->
    Permutation (slots (left_set m')) (flat_map (slotL s) Z) ->
    Permutation (slots (right_set m')) (flat_map (slotR s) Z) ->
    WRep s c m' Z.
  Proof.
    intros s c m m' old Z H Hh Hc Pl Pr. assert (H0 := H). destruct H0.
    eapply (w_rebuild s c c m m' old []); try congruence; try lia; auto.
    - constructor.
    - intros i [].
  Qed.

  Lemma w_hashed_l : forall s c m Z, WRep s c m Z -> hashed (make_hasher_l E s) (slots (left_set m)).
  Proof.
    intros s c m Z H. eapply hashed_perm; [symmetry; apply (w_l _ _ _ _ H)|].
    intros x Hx. apply in_flat_map in Hx as (z & _ & Hz). unfold PartialProofs.slotL in Hz.
    destruct (op_get_left (snd z)); [destruct Hz as [<-|[]]; reflexivity|easy].
  Qed.
  Lemma w_hashed_r : forall s c m Z, WRep s c m Z -> hashed (make_hasher_r E s) (slots (right_set m)).
  Proof.
    intros s c m Z H. eapply hashed_perm; [symmetry; apply (w_r _ _ _ _ H)|].
    intros x Hx. apply in_flat_map in Hx as (z & _ & Hz). unfold PartialProofs.slotR in Hz.
    destruct (op_get_right (snd z)); [destruct Hz as [<-|[]]; reflexivity|easy].
  Qed.
  Lemma hash_slots_l : forall s t (Z : list zent), Permutation (slots t) (flat_map (slotL s) Z) ->
    hashed (make_hasher_l E s) (slots t).
  Proof.
    intros s t Z H. eapply hashed_perm; [symmetry; exact H|].
    intros x Hx. apply in_flat_map in Hx as (z & _ & Hz). unfold PartialProofs.slotL in Hz.
    destruct (op_get_left (snd z)); [destruct Hz as [<-|[]]; reflexivity|easy].
  Qed.
  Lemma hash_slots_r : forall s t (Z : list zent), Permutation (slots t) (flat_map (slotR s) Z) ->
    hashed (make_hasher_r E s) (slots t).
  Proof.
    intros s t Z H. eapply hashed_perm; [symmetry; exact H|].
    intros x Hx. apply in_flat_map in Hx as (z & _ & Hz). unfold PartialProofs.slotR in Hz.
    destruct (op_get_right (snd z)); [destruct Hz as [<-|[]]; reflexivity|easy].
  Qed.

  Lemma w_l_cons : forall s c m z Z a, WRep s c m (z :: Z) -> op_get_left (snd z) = Some a ->
    Permutation (slots (left_set m))
      ((hashL E s a, MP a (option_map (hashR E s) (op_get_right (snd z))) (fst z))
        :: flat_map (slotL s) Z).
  Proof.
    intros s c m z Z a H Ha. assert (P := w_l _ _ _ _ H). simpl in P.
    unfold PartialProofs.slotL in P at 1. rewrite Ha in P. exact P.
  Qed.
  Lemma w_r_cons : forall s c m z Z a, WRep s c m (z :: Z) -> op_get_right (snd z) = Some a ->
    Permutation (slots (right_set m))
      ((hashR E s a, MP a (option_map (hashL E s) (op_get_left (snd z))) (fst z))
        :: flat_map (slotR s) Z).
  Proof.
    intros s c m z Z a H Ha. assert (P := w_r _ _ _ _ H). simpl in P.
    unfold PartialProofs.slotR in P at 1. rewrite Ha in P. exact P.
  Qed.

  (* ---- every search is a get_mut ---- *)
  Lemma get_as_mut : forall {A} (t : table A) h p,
    t_get (lo E) t h p = option_map snd (t_get_mut E t h p).
  Proof.
    intros. unfold t_get, t_get_mut. destruct (t_find _ _ _ _) as [i|]; auto.
    destruct (t_entry t i); auto.
  Qed.
  Lemma remove_as_mut : forall {A} (t : table A) h p,
    t_remove_entry (lo E) t h p
    = option_map (fun ie => (snd ie, t_remove_at (lo E) t (fst ie))) (t_get_mut E t h p).
  Proof.
    intros. unfold t_remove_entry, t_get_mut. destruct (t_find _ _ _ _) as [i|]; auto.
    destruct (t_entry t i); auto.
  Qed.
  Lemma mut_unique : forall {A} (t : table A) h p e rest, Permutation (slots t) ((h, e) :: rest) ->
    p e = true -> (forall x, In x rest -> p (snd x) = false) ->
    exists i, t_get_mut E t h p = Some (i, e) /\ at_slot t i h e rest.
  Proof.
    intros A t h p e rest P He Hr.
    destruct (t_find_unique _ LO t h p e rest P He Hr) as (i & F & Hn).
    exists i. unfold t_get_mut, t_entry, at_slot. rewrite F, Hn. auto.
  Qed.
  Lemma at_remove : forall {A} (t : table A) i h e rest, at_slot t i h e rest ->
    Permutation (slots (t_remove_at (lo E) t i)) rest.
  Proof. intros A t i h e rest [H P]. eapply t_remove_at_perm; eauto. Qed.

  (* ---- lookups by an item ---- *)
  Definition at_l (q : L) (z : zent) : bool := has_l eL q (snd z).
  Definition at_r (q : R) (z : zent) : bool := has_r eR q (snd z).

  Definition hit_l s (m : pm) Z q i e : Prop := exists z Z' a, Permutation Z (z :: Z') /\
    op_get_left (snd z) = Some a /\ eL q a = true /\ hashL E s q = hashL E s a /\
    e = MP a (option_map (hashR E s) (op_get_right (snd z))) (fst z) /\
    at_slot (left_set m) i (hashL E s a) e (flat_map (slotL s) Z').
  Definition hit_r s (m : pm) Z q i e : Prop := exists z Z' a, Permutation Z (z :: Z') /\
    op_get_right (snd z) = Some a /\ eR q a = true /\ hashR E s q = hashR E s a /\
    e = MP a (option_map (hashL E s) (op_get_left (snd z))) (fst z) /\
    at_slot (right_set m) i (hashR E s a) e (flat_map (slotR s) Z').

  Lemma look_l : forall s c m Z q, WRep s c m Z ->
    match t_get_mut E (left_set m) (hashL E s q) (equivalent_key eL q) with
    | Some (i, e) => hit_l s m Z q i e
    | None => forall z, In z Z -> at_l q z = false
    end.
  Proof.
    intros s c m Z q H. unfold t_get_mut. destruct (t_find _ _ _ _) as [i|] eqn:F.
    - apply t_find_some in F as (h & e & Hn & He). unfold t_entry. rewrite Hn.
      assert (I := nth_error_In _ _ Hn). apply (Permutation_in _ (w_l _ _ _ _ H)) in I.
      apply in_flat_map in I as (z & Hz & Ez). destruct (perm_in_cons _ _ Hz) as (Z' & P).
      unfold PartialProofs.slotL in Ez. destruct (op_get_left (snd z)) as [a|] eqn:Ha; [|easy].
      destruct Ez as [Ez|[]]. injection Ez as <- <-. unfold equivalent_key in He. simpl in He.
      exists z, Z', a. repeat split; auto.
      + apply (CycleMapLax.lax_l _ OK); auto.
      + apply (w_l_cons s c); auto. eapply w_perm; eauto.
    - intros z Hz. unfold at_l, has_l. destruct (op_get_left (snd z)) as [a|] eqn:Ha; auto.
      destruct (eL q a) eqn:A; auto.
      assert (W := t_find_none (lo E) LO _ _ _ F
        (MP a (option_map (hashR E s) (op_get_right (snd z))) (fst z))).
      rewrite <- A. apply W. rewrite (CycleMapLax.lax_l _ OK s _ _ A).
      eapply Permutation_in; [symmetry; apply (w_l _ _ _ _ H)|].
      apply in_flat_map. exists z. split; auto. unfold PartialProofs.slotL. rewrite Ha. left; auto.
  Qed.
  Lemma look_r : forall s c m Z q, WRep s c m Z ->
    match t_get_mut E (right_set m) (hashR E s q) (equivalent_key eR q) with
    | Some (i, e) => hit_r s m Z q i e
    | None => forall z, In z Z -> at_r q z = false
    end.
  Proof.
    intros s c m Z q H. unfold t_get_mut. destruct (t_find _ _ _ _) as [i|] eqn:F.
    - apply t_find_some in F as (h & e & Hn & He). unfold t_entry. rewrite Hn.
      assert (I := nth_error_In _ _ Hn). apply (Permutation_in _ (w_r _ _ _ _ H)) in I.
      apply in_flat_map in I as (z & Hz & Ez). destruct (perm_in_cons _ _ Hz) as (Z' & P).
      unfold PartialProofs.slotR in Ez. destruct (op_get_right (snd z)) as [a|] eqn:Ha; [|easy].
      destruct Ez as [Ez|[]]. injection Ez as <- <-. unfold equivalent_key in He. simpl in He.
      exists z, Z', a. repeat split; auto.
      + apply (CycleMapLax.lax_r _ OK); auto.
      + apply (w_r_cons s c); auto. eapply w_perm; eauto.
    - intros z Hz. unfold at_r, has_r. destruct (op_get_right (snd z)) as [a|] eqn:Ha; auto.
      destruct (eR q a) eqn:A; auto.
      assert (W := t_find_none (lo E) LO _ _ _ F
        (MP a (option_map (hashL E s) (op_get_left (snd z))) (fst z))).
      rewrite <- A. apply W. rewrite (CycleMapLax.lax_r _ OK s _ _ A).
      eapply Permutation_in; [symmetry; apply (w_r _ _ _ _ H)|].
      apply in_flat_map. exists z. split; auto. unfold PartialProofs.slotR. rewrite Ha. left; auto.
  Qed.

  Lemma hit_takes_l : forall (q : L) (z : zent) (Z Z' : list zent) a, Permutation Z (z :: Z') ->
    op_get_left (snd z) = Some a -> eL q a = true -> takes (at_l q) Z (Some z) Z'.
  Proof. intros q z Z Z' a P Ha Hq. split; auto. unfold at_l, has_l. rewrite Ha; auto. Qed.
  Lemma hit_takes_r : forall (q : R) (z : zent) (Z Z' : list zent) a, Permutation Z (z :: Z') ->
    op_get_right (snd z) = Some a -> eR q a = true -> takes (at_r q) Z (Some z) Z'.
  Proof. intros q z Z Z' a P Ha Hq. split; auto. unfold at_r, has_r. rewrite Ha; auto. Qed.

  (* ---- the partner, by id ---- *)
  Definition by_id {T} (p : mapping_pair T -> bool) (i : N) (h : N) : Prop :=
    p = just_id i \/ p = hash_and_id h i.
  Lemma partner_r : forall s c m z Z a b p, WRep s c m (z :: Z) ->
    op_get_left (snd z) = Some a -> op_get_right (snd z) = Some b -> by_id p (fst z) (hashL E s a) ->
    exists j, t_get_mut E (right_set m) (hashR E s b) p = Some (j, MP b (Some (hashL E s a)) (fst z)) /\
      at_slot (right_set m) j (hashR E s b) (MP b (Some (hashL E s a)) (fst z)) (flat_map (slotR s) Z).
  Proof.
    intros s c m z Z a b p H Ha Hb Hp. assert (P := w_r_cons _ _ _ _ _ _ H Hb). rewrite Ha in P.
    apply mut_unique; auto.
    - destruct Hp as [->| ->]; [apply just_id_refl|apply hid_refl].
    - intros x Hx. assert (J : just_id (fst z) (snd x) = false).
      { eapply id_r_other; eauto. apply ids_other. apply (w_ids _ _ _ _ H). }
      destruct Hp as [->| ->]; auto. apply hid_of_id; auto.
  Qed.
  Lemma partner_l : forall s c m z Z a b p, WRep s c m (z :: Z) ->
    op_get_left (snd z) = Some a -> op_get_right (snd z) = Some b -> by_id p (fst z) (hashR E s b) ->
    exists j, t_get_mut E (left_set m) (hashL E s a) p = Some (j, MP a (Some (hashR E s b)) (fst z)) /\
      at_slot (left_set m) j (hashL E s a) (MP a (Some (hashR E s b)) (fst z)) (flat_map (slotL s) Z).
  Proof.
    intros s c m z Z a b p H Ha Hb Hp. assert (P := w_l_cons _ _ _ _ _ _ H Ha). rewrite Hb in P.
    apply mut_unique; auto.
    - destruct Hp as [->| ->]; [apply just_id_refl|apply hid_refl].
    - intros x Hx. assert (J : just_id (fst z) (snd x) = false).
      { eapply id_l_other; eauto. apply ids_other. apply (w_ids _ _ _ _ H). }
      destruct Hp as [->| ->]; auto. apply hid_of_id; auto.
  Qed.

  Lemma w_r_skip : forall s c m z Z, WRep s c m (z :: Z) -> op_get_right (snd z) = None ->
    Permutation (slots (right_set m)) (flat_map (slotR s) Z).
  Proof.
    intros s c m z Z H Hb. assert (P := w_r _ _ _ _ H). simpl in P.
    unfold PartialProofs.slotR in P at 1. rewrite Hb in P. exact P.
  Qed.
  Lemma w_l_skip : forall s c m z Z, WRep s c m (z :: Z) -> op_get_left (snd z) = None ->
    Permutation (slots (left_set m)) (flat_map (slotL s) Z).
  Proof.
    intros s c m z Z H Hb. assert (P := w_l _ _ _ _ H). simpl in P.
    unfold PartialProofs.slotL in P at 1. rewrite Hb in P. exact P.
  Qed.

  (* the fields of the map *)
  Ltac assigns := cbn [set_left set_right set_counter left_set right_set counter hash_builder
                       fst snd value phash pid set_hash set_id option_map] in *.

  (* the easy side conditions of w_rebuild *)
  Ltac sides H := assigns; try solve
    [ assumption | apply (w_hb _ _ _ _ H) | apply (w_c _ _ _ _ H) | lia | reflexivity
    | eapply at_remove; eassumption
    | apply (w_l _ _ _ _ H) | apply (w_r _ _ _ _ H)
    | constructor; auto; constructor
    | intros ? [<-|[]]; cbn; first [left; left; reflexivity | right; lia]
    | intros [|[]]; discriminate
    | etransitivity; [apply t_insert_perm; [exact LO|eapply w_hashed_l; eassumption]|];
      cbn; constructor; apply (w_l _ _ _ _ H)
    | etransitivity; [apply t_insert_perm; [exact LO|eapply w_hashed_r; eassumption]|];
      cbn; constructor; apply (w_r _ _ _ _ H) ].

  (* ---- removal ---- *)
  Lemma remove_via_left_w : forall s c m Z q, WRep s c m Z ->
    exists m' o Z', remove_via_left E q m = Ret m' (or_neither (option_map snd o)) /\
      WRep s c m' Z' /\ takes (at_l q) Z o Z'.
  Proof.
    intros s c m Z q H. unfold remove_via_left, left_remove_entry, right_remove_entry. mrun.
    rewrite (w_hb _ _ _ _ H), remove_as_mut.
    assert (K := look_l s c m Z q H). destruct (t_get_mut E _ _ _) as [[i e]|] eqn:F.
    - destruct K as (z & Z' & a & P & Ha & Hq & Hh & -> & At). assigns.
      assert (H' := w_perm _ _ _ _ _ P H). rewrite Hh.
      assert (T := hit_takes_l _ _ _ _ _ P Ha Hq).
      destruct (op_get_right (snd z)) as [b|] eqn:Hb; assigns.
      + rewrite remove_as_mut.
        destruct (partner_r s c m z Z' a b (hash_and_id (hashL E s a) (fst z)) H' Ha Hb)
          as (j & -> & Atj); [right; auto|]. assigns.
        eexists _, (Some z), Z'. split; [|split; [|exact T]].
        * f_equal. cbn [option_map or_neither value]. destruct (snd z); simpl in *; congruence.
        * eapply (w_tail s c m _ [z]); eauto; assigns; eapply at_remove; eauto.
      + eexists _, (Some z), Z'. split; [|split; [|exact T]].
        * f_equal. cbn [option_map or_neither value]. destruct (snd z); simpl in *; congruence.
        * eapply (w_tail s c m _ [z]); eauto; assigns; [eapply at_remove; eauto|].
          eapply w_r_skip; eauto.
    - exists m, None, Z. split; [reflexivity|]. split; auto. split; auto.
  Qed.
  Lemma remove_via_right_w : forall s c m Z q, WRep s c m Z ->
    exists m' o Z', remove_via_right E q m = Ret m' (or_neither (option_map snd o)) /\
      WRep s c m' Z' /\ takes (at_r q) Z o Z'.
  Proof.
    intros s c m Z q H. unfold remove_via_right, left_remove_entry, right_remove_entry. mrun.
    rewrite (w_hb _ _ _ _ H), remove_as_mut.
    assert (K := look_r s c m Z q H). destruct (t_get_mut E _ _ _) as [[i e]|] eqn:F.
    - destruct K as (z & Z' & a & P & Ha & Hq & Hh & -> & At). assigns.
      assert (H' := w_perm _ _ _ _ _ P H). rewrite Hh.
      assert (T := hit_takes_r _ _ _ _ _ P Ha Hq).
      destruct (op_get_left (snd z)) as [b|] eqn:Hb; assigns.
      + rewrite remove_as_mut.
        destruct (partner_l s c m z Z' b a (hash_and_id (hashR E s a) (fst z)) H' Hb Ha)
          as (j & -> & Atj); [right; auto|]. assigns.
        eexists _, (Some z), Z'. split; [|split; [|exact T]].
        * f_equal. cbn [option_map or_neither value]. destruct (snd z); simpl in *; congruence.
        * eapply (w_tail s c m _ [z]); eauto; assigns; eapply at_remove; eauto.
      + eexists _, (Some z), Z'. split; [|split; [|exact T]].
        * f_equal. cbn [option_map or_neither value]. destruct (snd z); simpl in *; congruence.
        * eapply (w_tail s c m _ [z]); eauto; assigns; [|eapply at_remove; eauto].
          eapply w_l_skip; eauto.
    - exists m, None, Z. split; [reflexivity|]. split; auto. split; auto.
  Qed.

  (* the entry keeps its id *)
  Definition rest_l (z : zent) : list zent := map (fun x => (fst z, x)) (without_left (snd z)).
  Definition rest_r (z : zent) : list zent := map (fun x => (fst z, x)) (without_right (snd z)).

  Lemma remove_left_w : forall s c m Z q, WRep s c m Z ->
    exists m' o Z', remove_left E q m = Ret m' (bind_opt (option_map snd o) op_get_left) /\
      takes (at_l q) Z o Z' /\
      WRep s c m' (match o with Some z => rest_l z | None => [] end ++ Z').
  Proof.
    intros s c m Z q H. unfold remove_left, left_remove_entry, right_assign. mrun.
    rewrite (w_hb _ _ _ _ H), remove_as_mut.
    assert (K := look_l s c m Z q H). destruct (t_get_mut E _ _ _) as [[i e]|] eqn:F.
    - destruct K as (z & Z' & a & P & Ha & Hq & Hh & -> & At). assigns.
      assert (H' := w_perm _ _ _ _ _ P H). assert (T := hit_takes_l _ _ _ _ _ P Ha Hq).
      assert (Lz := w_lt _ _ _ _ H' z (or_introl eq_refl)).
      destruct (op_get_right (snd z)) as [b|] eqn:Hb; assigns.
      + destruct (partner_r s c m z Z' a b (just_id (fst z)) H' Ha Hb)
          as (j & -> & Atj); [left; auto|]. assigns.
        eexists _, (Some z), Z'. cbn [option_map bind_opt]. rewrite Ha.
        split; [reflexivity|split; [exact T|]].
        apply (modify_at _ _ _ _ _ (set_hash None)) in Atj as [_ Atj]. assigns.
        unfold rest_l, without_left. rewrite Hb. cbn [map].
        eapply (w_rebuild s c c m _ [z] [_]); [exact H'| | | | | | | |]; sides H.
      + eexists _, (Some z), Z'. cbn [option_map bind_opt]. rewrite Ha.
        split; [reflexivity|split; [exact T|]].
        unfold rest_l, without_left. rewrite Hb. cbn [map app].
        eapply (w_tail s c m _ [z]); eauto; assigns; [eapply at_remove; eauto|].
        eapply w_r_skip; eauto.
    - exists m, None, Z. split; [reflexivity|]. split; [split; auto|auto].
  Qed.
  Lemma remove_right_w : forall s c m Z q, WRep s c m Z ->
    exists m' o Z', remove_right E q m = Ret m' (bind_opt (option_map snd o) op_get_right) /\
      takes (at_r q) Z o Z' /\
      WRep s c m' (match o with Some z => rest_r z | None => [] end ++ Z').
  Proof.
    intros s c m Z q H. unfold remove_right, right_remove_entry, left_assign. mrun.
    rewrite (w_hb _ _ _ _ H), remove_as_mut.
    assert (K := look_r s c m Z q H). destruct (t_get_mut E _ _ _) as [[i e]|] eqn:F.
    - destruct K as (z & Z' & a & P & Ha & Hq & Hh & -> & At). assigns.
      assert (H' := w_perm _ _ _ _ _ P H). assert (T := hit_takes_r _ _ _ _ _ P Ha Hq).
      assert (Lz := w_lt _ _ _ _ H' z (or_introl eq_refl)).
      destruct (op_get_left (snd z)) as [b|] eqn:Hb; assigns.
      + destruct (partner_l s c m z Z' b a (just_id (fst z)) H' Hb Ha)
          as (j & -> & Atj); [left; auto|]. assigns.
        eexists _, (Some z), Z'. cbn [option_map bind_opt]. rewrite Ha.
        split; [reflexivity|split; [exact T|]].
        apply (modify_at _ _ _ _ _ (set_hash None)) in Atj as [_ Atj]. assigns.
        unfold rest_r, without_right. rewrite Hb. cbn [map].
        eapply (w_rebuild s c c m _ [z] [_]); [exact H'| | | | | | | |]; sides H.
      + eexists _, (Some z), Z'. cbn [option_map bind_opt]. rewrite Ha.
        split; [reflexivity|split; [exact T|]].
        unfold rest_r, without_right. rewrite Hb. cbn [map app].
        eapply (w_tail s c m _ [z]); eauto; assigns; [|eapply at_remove; eauto].
        eapply w_l_skip; eauto.
    - exists m, None, Z. split; [reflexivity|]. split; [split; auto|auto].
  Qed.

  (* ---- insertion ---- *)
  Lemma insert_w : forall s c m Z l r, WRep s c m Z -> c + 1 < two64 ->
    exists m' a Z1 b Z2,
      insert E l r m = Ret m' (or_neither (option_map snd a), or_neither (option_map snd b)) /\
      WRep s (c + 1) m' ((c, SomeBoth l r) :: Z2) /\ takes (at_l l) Z a Z1 /\ takes (at_r r) Z1 b Z2.
  Proof.
    intros s c m Z l r H Hc. unfold insert.
    destruct (remove_via_left_w s c m Z l H) as (m1 & a & Z1 & E1 & H1 & T1).
    destruct (remove_via_right_w s c m1 Z1 r H1) as (m2 & b & Z2 & E2 & H2 & T2).
    unfold incr_counter, left_insert, right_insert. mrun. rewrite E1, E2.
    rewrite (w_c _ _ _ _ H2), (w_hb _ _ _ _ H2). rewrite u64_incr_ok by auto.
    eexists _, a, Z1, b, Z2; split; [reflexivity|]. split; [|split; auto].
    assigns. rewrite (w_hb _ _ _ _ H2).
    eapply (w_rebuild s c (c + 1) m2 _ [] [_]); [exact H2| | | | | | | |]; sides H2.
  Qed.
  Lemma insert_left_w : forall s c m Z l, WRep s c m Z -> c + 1 < two64 ->
    exists m' a Z1, insert_left E l m = Ret m' (or_neither (option_map snd a)) /\
      WRep s (c + 1) m' ((c, SomeLeft l) :: Z1) /\ takes (at_l l) Z a Z1.
  Proof.
    intros s c m Z l H Hc. unfold insert_left.
    destruct (remove_via_left_w s c m Z l H) as (m1 & a & Z1 & E1 & H2 & T1).
    unfold incr_counter, left_insert. mrun. rewrite E1.
    rewrite (w_c _ _ _ _ H2), (w_hb _ _ _ _ H2). rewrite u64_incr_ok by auto.
    eexists _, a, Z1; split; [reflexivity|]. split; [|auto].
    assigns. rewrite (w_hb _ _ _ _ H2).
    eapply (w_rebuild s c (c + 1) m1 _ [] [_]); [exact H2| | | | | | | |]; sides H2.
  Qed.
  Lemma insert_right_w : forall s c m Z r, WRep s c m Z -> c + 1 < two64 ->
    exists m' a Z1, insert_right E r m = Ret m' (or_neither (option_map snd a)) /\
      WRep s (c + 1) m' ((c, SomeRight r) :: Z1) /\ takes (at_r r) Z a Z1.
  Proof.
    intros s c m Z r H Hc. unfold insert_right.
    destruct (remove_via_right_w s c m Z r H) as (m1 & a & Z1 & E1 & H2 & T1).
    unfold incr_counter, right_insert. mrun. rewrite E1.
    rewrite (w_c _ _ _ _ H2), (w_hb _ _ _ _ H2). rewrite u64_incr_ok by auto.
    eexists _, a, Z1; split; [reflexivity|]. split; [|auto].
    assigns. rewrite (w_hb _ _ _ _ H2).
    eapply (w_rebuild s c (c + 1) m1 _ [] [_]); [exact H2| | | | | | | |]; sides H2.
  Qed.
End LaxProofs.
