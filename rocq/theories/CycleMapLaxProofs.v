(* The model meets CycleMapLax along every history. *)
From Coq Require Import List NArith Lia Bool Permutation PeanoNat.
From Verif Require Import Closures Prelude RawTable Optionals CycleMap ListFacts TableFacts CycleMapSpec
  CycleMapHistory CycleMapProofs CycleMapProofs2 CycleMapProofs3 CycleMapHistoryProofs CycleMapLax.
Import ListNotations.
Open Scope N_scope.

Lemma takes_map : forall {T U} (g : T -> U) (p : U -> bool) (q : T -> bool) Z o Z',
  (forall z, p (g z) = q z) -> takes q Z o Z' ->
  takes p (map g Z) (option_map g o) (map g Z').
Proof.
  intros T U g p q Z o Z' G H. destruct o as [z|]; simpl in *.
  - destruct H as [A B]. split; [rewrite G; auto|]. apply (Permutation_map g) in B. exact B.
  - destruct H as [A B]. split; [|apply Permutation_map; auto].
    intros y Hy. apply in_map_iff in Hy as (z & <- & Hz). rewrite G; auto.
Qed.

Lemma perm_swap_in : forall {T} (a : T) l l' l'', Permutation l (a :: l') ->
  Permutation l' l'' -> Permutation l (a :: l'').
Proof. intros. etransitivity; eauto. Qed.

Section LaxProofs.
  Context {L R S : Type} (E : env L R S) (OK : lax E).
  Notation cm := (cmap L R S).
  Notation trip := (N * L * R)%type.
  Let LO := lax_lo _ OK.
  Notation eL := (eqL E).
  Notation eR := (eqR E).

  (* Rep without the distinctness of the items *)
  Record WRep (s : S) (c : N) (m : cm) (Z : list trip) : Prop := {
    w_hb : hash_builder m = s;
    w_c : counter m = c;
    w_l : Permutation (slots (left_set m)) (map (slotL E s) Z);
    w_r : Permutation (slots (right_set m)) (map (slotR E s) Z);
    w_ids : NoDup (map zid Z);
    w_lt : forall z, In z Z -> zid z < c
  }.

  Lemma w_perm : forall s c m Z Z', Permutation Z Z' -> WRep s c m Z -> WRep s c m Z'.
  Proof.
    intros s c m Z Z' P H. destruct H. constructor; auto.
    - etransitivity; eauto. apply Permutation_map; auto.
    - etransitivity; eauto. apply Permutation_map; auto.
    - eapply NoDup_perm; [apply Permutation_map; exact P|auto].
    - intros. apply w_lt0. eapply Permutation_in; [symmetry|]; eauto.
  Qed.

  Lemma w_tail : forall s c m z Z tl tr, WRep s c m (z :: Z) ->
    Permutation (slots tl) (map (slotL E s) Z) -> Permutation (slots tr) (map (slotR E s) Z) ->
    WRep s c (CM (hash_builder m) (counter m) tl tr) Z.
  Proof.
    intros s c m z Z tl tr H Pl Pr. destruct H. constructor; simpl in *; auto.
    inversion w_ids0; auto.
  Qed.

  Lemma w_hashed_l : forall s c m Z, WRep s c m Z ->
    hashed (make_hasher_l E s) (slots (left_set m)).
  Proof.
    intros s c m Z H. eapply hashed_perm; [symmetry; apply (w_l _ _ _ _ H)|].
    intros x Hx. apply in_map_iff in Hx as (z & <- & _). reflexivity.
  Qed.
  Lemma w_hashed_r : forall s c m Z, WRep s c m Z ->
    hashed (make_hasher_r E s) (slots (right_set m)).
  Proof.
    intros s c m Z H. eapply hashed_perm; [symmetry; apply (w_r _ _ _ _ H)|].
    intros x Hx. apply in_map_iff in Hx as (z & <- & _). reflexivity.
  Qed.

  (* ---- lookups by an item ---- *)
  Definition at_l (q : L) (z : trip) : bool := eL q (zl z).
  Definition at_r (q : R) (z : trip) : bool := eR q (zr z).

  Lemma look_l : forall s c m Z q, WRep s c m Z ->
    match t_find (lo E) (left_set m) (hashL E s q) (equivalent_key eL q) with
    | Some i => exists z Z', Permutation Z (z :: Z') /\ at_l q z = true /\
                  hashL E s q = hashL E s (zl z) /\
                  nth_error (slots (left_set m)) i = Some (slotL E s z)
    | None => forall z, In z Z -> at_l q z = false
    end.
  Proof.
    intros s c m Z q H. destruct (t_find _ _ _ _) as [i|] eqn:F.
    - apply t_find_some in F as (h & e & Hn & He).
      assert (I := nth_error_In _ _ Hn). apply (Permutation_in _ (w_l _ _ _ _ H)) in I.
      apply in_map_iff in I as (z & Ez & Hz). destruct (perm_in_cons _ _ Hz) as (Z' & P).
      exists z, Z'. unfold slotL in Ez. injection Ez as <- <-. unfold equivalent_key in He. simpl in He.
      repeat split; auto. apply (lax_l _ OK); auto.
    - intros z Hz. destruct (at_l q z) eqn:A; auto.
      assert (W := t_find_none (lo E) LO _ _ _ F (snd (slotL E s z))).
      rewrite <- A. apply W. rewrite (lax_l _ OK s _ _ A).
      eapply Permutation_in; [symmetry; apply (w_l _ _ _ _ H)|].
      change (In (slotL E s z) (map (slotL E s) Z)). apply in_map; auto.
  Qed.
  Lemma look_r : forall s c m Z q, WRep s c m Z ->
    match t_find (lo E) (right_set m) (hashR E s q) (equivalent_key eR q) with
    | Some i => exists z Z', Permutation Z (z :: Z') /\ at_r q z = true /\
                  hashR E s q = hashR E s (zr z) /\
                  nth_error (slots (right_set m)) i = Some (slotR E s z)
    | None => forall z, In z Z -> at_r q z = false
    end.
  Proof.
    intros s c m Z q H. destruct (t_find _ _ _ _) as [i|] eqn:F.
    - apply t_find_some in F as (h & e & Hn & He).
      assert (I := nth_error_In _ _ Hn). apply (Permutation_in _ (w_r _ _ _ _ H)) in I.
      apply in_map_iff in I as (z & Ez & Hz). destruct (perm_in_cons _ _ Hz) as (Z' & P).
      exists z, Z'. unfold slotR in Ez. injection Ez as <- <-. unfold equivalent_key in He. simpl in He.
      repeat split; auto. apply (lax_r _ OK); auto.
    - intros z Hz. destruct (at_r q z) eqn:A; auto.
      assert (W := t_find_none (lo E) LO _ _ _ F (snd (slotR E s z))).
      rewrite <- A. apply W. rewrite (lax_r _ OK s _ _ A).
      eapply Permutation_in; [symmetry; apply (w_r _ _ _ _ H)|].
      change (In (slotR E s z) (map (slotR E s) Z)). apply in_map; auto.
  Qed.

  (* ---- the partner, by hash and id ---- *)
  Lemma partner_r : forall s c m z Z, WRep s c m (z :: Z) ->
    exists i, t_find (lo E) (right_set m) (hashR E s (zr z))
                (hash_and_id (hashL E s (zl z)) (zid z)) = Some i /\
              nth_error (slots (right_set m)) i = Some (slotR E s z).
  Proof.
    intros s c m z Z H. apply (t_find_unique (lo E) LO _ _ _ _ _ (w_r _ _ _ _ H)).
    - unfold hash_and_id; simpl. rewrite !N.eqb_refl; auto.
    - intros x Hx. eapply hid_r_other; eauto. apply (w_ids _ _ _ _ H).
  Qed.
  Lemma partner_l : forall s c m z Z, WRep s c m (z :: Z) ->
    exists i, t_find (lo E) (left_set m) (hashL E s (zl z))
                (hash_and_id (hashR E s (zr z)) (zid z)) = Some i /\
              nth_error (slots (left_set m)) i = Some (slotL E s z).
  Proof.
    intros s c m z Z H. apply (t_find_unique (lo E) LO _ _ _ _ _ (w_l _ _ _ _ H)).
    - unfold hash_and_id; simpl. rewrite !N.eqb_refl; auto.
    - intros x Hx. eapply hid_l_other; eauto. apply (w_ids _ _ _ _ H).
  Qed.
  Lemma partner_id : forall s c m z Z, WRep s c m (z :: Z) ->
    exists i, t_find (lo E) (right_set m) (hashR E s (zr z)) (just_id (zid z)) = Some i /\
              nth_error (slots (right_set m)) i = Some (slotR E s z).
  Proof.
    intros s c m z Z H. apply (t_find_unique (lo E) LO _ _ _ _ _ (w_r _ _ _ _ H)).
    - unfold just_id; simpl. rewrite !N.eqb_refl; auto.
    - intros x Hx. eapply id_r_other; eauto. apply (w_ids _ _ _ _ H).
  Qed.

  Lemma entry_slot : forall {A} (t : table A) i x, nth_error (slots t) i = Some x ->
    t_entry t i = Some (snd x).
  Proof. intros A t i [h e] H. unfold t_entry. rewrite H. auto. Qed.

  (* ---- removal ---- *)
  Lemma remove_via_left_w : forall s c m Z q, WRep s c m Z ->
    exists m' o Z', remove_via_left E q m = Ret m' (option_map zpair o) /\
      WRep s c m' Z' /\ takes (at_l q) Z o Z'.
  Proof.
    intros s c m Z q H. unfold remove_via_left, left_remove_entry, right_remove_entry. mrun.
    rewrite (w_hb _ _ _ _ H). unfold t_remove_entry.
    assert (K := look_l s c m Z q H). destruct (t_find _ _ _ _) as [i|] eqn:F.
    - destruct K as (z & Z' & P & A & Hh & Hn). rewrite (entry_slot _ _ _ Hn). simpl.
      assert (H' := w_perm _ _ _ _ _ P H). rewrite Hh.
      destruct (partner_r _ _ _ _ _ H') as (j & Fj & Nj). rewrite Fj, (entry_slot _ _ _ Nj). simpl.
      eexists _, (Some z), Z'. split; [reflexivity|]. split; [|split; auto].
      apply (w_tail s c m z); auto.
      + eapply (t_remove_at_perm (lo E)); [exact Hn|]. apply (w_l _ _ _ _ H').
      + eapply (t_remove_at_perm (lo E)); [exact Nj|]. apply (w_r _ _ _ _ H').
    - exists m, None, Z. split; [reflexivity|]. split; auto. split; auto.
  Qed.
  Lemma remove_via_right_w : forall s c m Z q, WRep s c m Z ->
    exists m' o Z', remove_via_right E q m = Ret m' (option_map zpair o) /\
      WRep s c m' Z' /\ takes (at_r q) Z o Z'.
  Proof.
    intros s c m Z q H. unfold remove_via_right, left_remove_entry, right_remove_entry. mrun.
    rewrite (w_hb _ _ _ _ H). unfold t_remove_entry.
    assert (K := look_r s c m Z q H). destruct (t_find _ _ _ _) as [i|] eqn:F.
    - destruct K as (z & Z' & P & A & Hh & Hn). rewrite (entry_slot _ _ _ Hn). simpl.
      assert (H' := w_perm _ _ _ _ _ P H). rewrite Hh.
      destruct (partner_l _ _ _ _ _ H') as (j & Fj & Nj). rewrite Fj, (entry_slot _ _ _ Nj). simpl.
      eexists _, (Some z), Z'. split; [reflexivity|]. split; [|split; auto].
      apply (w_tail s c m z); auto.
      + eapply (t_remove_at_perm (lo E)); [exact Nj|]. apply (w_l _ _ _ _ H').
      + eapply (t_remove_at_perm (lo E)); [exact Hn|]. apply (w_r _ _ _ _ H').
    - exists m, None, Z. split; [reflexivity|]. split; auto. split; auto.
  Qed.

  (* ---- insertion ---- *)
  Lemma w_add : forall s c m Z l r, WRep s c m Z ->
    WRep s (c + 1)
      (CM s (c + 1)
          (t_insert (lo E) (left_set m) (hashL E s l) (MP l (hashR E s r) c) (make_hasher_l E s))
          (t_insert (lo E) (right_set m) (hashR E s r) (MP r (hashL E s l) c) (make_hasher_r E s)))
      ((c, l, r) :: Z).
  Proof.
    intros s c m Z l r H. assert (HL := w_hashed_l _ _ _ _ H).
    assert (HR := w_hashed_r _ _ _ _ H). destruct H. constructor; auto; cbn [left_set right_set].
    - etransitivity; [apply t_insert_perm; auto|]. simpl. constructor; auto.
    - etransitivity; [apply t_insert_perm; auto|]. simpl. constructor; auto.
    - simpl. constructor; auto. intro I. apply in_map_iff in I as (z & Hz & Iz).
      apply w_lt0 in Iz. rewrite Hz in Iz. unfold zid in Iz; simpl in Iz. lia.
    - intros z [<-|Hz]; unfold zid; simpl; [lia|]. apply w_lt0 in Hz. unfold zid in Hz. lia.
  Qed.

  Lemma insert_w : forall s c m Z l r, WRep s c m Z -> c + 1 < two64 ->
    exists m' a Z1 b Z2, insert E l r m = Ret m' (op_from_pair (option_map zpair a, option_map zpair b)) /\
      WRep s (c + 1) m' ((c, l, r) :: Z2) /\ takes (at_l l) Z a Z1 /\ takes (at_r r) Z1 b Z2.
  Proof.
    intros s c m Z l r H Hc. unfold insert.
    destruct (remove_via_left_w s c m Z l H) as (m1 & a & Z1 & E1 & H1 & T1).
    destruct (remove_via_right_w s c m1 Z1 r H1) as (m2 & b & Z2 & E2 & H2 & T2).
    unfold incr_counter, left_insert, right_insert. mrun. rewrite E1, E2.
    rewrite (w_c _ _ _ _ H2), (w_hb _ _ _ _ H2). rewrite u64_incr_ok by auto.
    eexists _, a, Z1, b, Z2; split; [reflexivity|]. split; [|split; auto].
    unfold set_right, set_left, set_counter; cbn -[t_insert]. rewrite (w_hb _ _ _ _ H2).
    apply w_add; auto.
  Qed.

  (* ---- swaps ---- *)
  Lemma w_change_left : forall s c m z Z tl tr new, WRep s c m (z :: Z) ->
    Permutation (slots tl) (slotL E s (zid z, new, zr z) :: map (slotL E s) Z) ->
    Permutation (slots tr) (slotR E s (zid z, new, zr z) :: map (slotR E s) Z) ->
    WRep s c (CM (hash_builder m) (counter m) tl tr) ((zid z, new, zr z) :: Z).
  Proof.
    intros s c m z Z tl tr new H Pl Pr. destruct H. constructor; simpl in *; auto.
    intros x [<-|Hx]; [apply (w_lt0 z); auto|apply w_lt0; auto].
  Qed.
  Lemma w_change_right : forall s c m z Z tl tr new, WRep s c m (z :: Z) ->
    Permutation (slots tl) (slotL E s (zid z, zl z, new) :: map (slotL E s) Z) ->
    Permutation (slots tr) (slotR E s (zid z, zl z, new) :: map (slotR E s) Z) ->
    WRep s c (CM (hash_builder m) (counter m) tl tr) ((zid z, zl z, new) :: Z).
  Proof.
    intros s c m z Z tl tr new H Pl Pr. destruct H. constructor; simpl in *; auto.
    intros x [<-|Hx]; [apply (w_lt0 z); auto|apply w_lt0; auto].
  Qed.

  Lemma swap_left_eq_check_w : forall s c m Z old new, WRep s c m Z ->
    exists m' o Z', swap_left_eq_check E old new (hashL E s new) m = Ret m' (option_map zpair o) /\
      WRep s c m' Z' /\
      (if eL new old then o = None /\ Permutation Z Z' else takes (at_l new) Z o Z').
  Proof.
    intros s c m Z old new H. unfold swap_left_eq_check. mrun. unfold t_get.
    assert (K := look_l s c m Z new H). destruct (t_find _ _ _ _) as [i|] eqn:F.
    - destruct K as (z & Z' & P & A & Hh & Hn). rewrite (entry_slot _ _ _ Hn).
      destruct (eL new old); simpl.
      + exists m, None, Z. auto.
      + apply remove_via_left_w; auto.
    - exists m, None, Z. split; [reflexivity|]. split; auto.
      destruct (eL new old); auto. split; auto.
  Qed.
  Lemma swap_right_eq_check_w : forall s c m Z old new, WRep s c m Z ->
    exists m' o Z', swap_right_eq_check E old new (hashR E s new) m = Ret m' (option_map zpair o) /\
      WRep s c m' Z' /\
      (if eR new old then o = None /\ Permutation Z Z' else takes (at_r new) Z o Z').
  Proof.
    intros s c m Z old new H. unfold swap_right_eq_check. mrun. unfold t_get.
    assert (K := look_r s c m Z new H). destruct (t_find _ _ _ _) as [i|] eqn:F.
    - destruct K as (z & Z' & P & A & Hh & Hn). rewrite (entry_slot _ _ _ Hn).
      destruct (eR new old); simpl.
      + exists m, None, Z. auto.
      + apply remove_via_right_w; auto.
    - exists m, None, Z. split; [reflexivity|]. split; auto.
      destruct (eR new old); auto. split; auto.
  Qed.

  Lemma swap_left_w : forall s c m Z old new, WRep s c m Z ->
    exists m' a Z1 b Z2,
      (if eL new old then a = None /\ Permutation Z Z1 else takes (at_l new) Z a Z1) /\
      takes (at_l old) Z1 b Z2 /\
      match b with
      | Some z => swap_left E old new m = Ret m' (op_from_pair (Some (zl z), option_map zpair a)) /\
                  WRep s c m' ((zid z, new, zr z) :: Z2)
      | None => swap_left E old new m = Ret m' Neither /\ WRep s c m' Z2
      end.
  Proof.
    intros s c m Z old new H.
    destruct (swap_left_eq_check_w s c m Z old new H) as (m1 & a & Z1 & E1 & H1 & T1).
    unfold swap_left. mrun. rewrite (w_hb _ _ _ _ H), E1, (w_hb _ _ _ _ H1).
    unfold left_remove_entry, left_insert. mrun. unfold t_get, t_remove_entry, set_right; cbn [left_set].
    assert (K := look_l s c m1 Z1 old H1).
    destruct (t_find (lo E) (left_set m1) _ _) as [i|] eqn:F.
    - destruct K as (z & Z2 & P & A & Hh & Hn). assert (H' := w_perm _ _ _ _ _ P H1).
      rewrite (entry_slot _ _ _ Hn). cbn [snd slotL phash pid]. rewrite Hh.
      destruct (partner_r _ _ _ _ _ H') as (j & Fj & Nj). rewrite Fj.
      eexists _, a, Z1, (Some z), Z2. split; [exact T1|]. split; [split; auto|].
      split; [reflexivity|]. unfold set_left; cbn -[t_insert t_modify t_remove_at].
      apply w_change_left; auto.
      + assert (Pl := t_remove_at_perm (lo E) _ _ _ _ Hn (w_l _ _ _ _ H')).
        rewrite (w_hb _ _ _ _ H1).
        etransitivity; [apply t_insert_perm; auto|].
        * eapply hashed_perm; [symmetry; exact Pl|].
          intros x Hx. apply in_map_iff in Hx as (y & <- & _). reflexivity.
        * unfold slotL at 1; simpl. constructor. exact Pl.
      + etransitivity; [eapply t_modify_perm; [exact Nj|apply (w_r _ _ _ _ H')]|]. reflexivity.
    - exists m1, a, Z1, None, Z1. split; [exact T1|]. split; [split; auto|]. auto.
  Qed.

  Lemma swap_right_w : forall s c m Z old new, WRep s c m Z ->
    exists m' a Z1 b Z2,
      (if eR new old then a = None /\ Permutation Z Z1 else takes (at_r new) Z a Z1) /\
      takes (at_r old) Z1 b Z2 /\
      match b with
      | Some z => swap_right E old new m = Ret m' (op_from_pair (Some (zr z), option_map zpair a)) /\
                  WRep s c m' ((zid z, zl z, new) :: Z2)
      | None => swap_right E old new m = Ret m' Neither /\ WRep s c m' Z2
      end.
  Proof.
    intros s c m Z old new H.
    destruct (swap_right_eq_check_w s c m Z old new H) as (m1 & a & Z1 & E1 & H1 & T1).
    unfold swap_right. mrun. rewrite (w_hb _ _ _ _ H), E1, (w_hb _ _ _ _ H1).
    unfold right_remove_entry, right_insert. mrun. unfold t_get, t_remove_entry, set_left; cbn [right_set].
    assert (K := look_r s c m1 Z1 old H1).
    destruct (t_find (lo E) (right_set m1) _ _) as [i|] eqn:F.
    - destruct K as (z & Z2 & P & A & Hh & Hn). assert (H' := w_perm _ _ _ _ _ P H1).
      rewrite (entry_slot _ _ _ Hn). cbn [snd slotR phash pid]. rewrite Hh.
      destruct (partner_l _ _ _ _ _ H') as (j & Fj & Nj). rewrite Fj.
      eexists _, a, Z1, (Some z), Z2. split; [exact T1|]. split; [split; auto|].
      split; [reflexivity|]. unfold set_right; cbn -[t_insert t_modify t_remove_at].
      apply w_change_right; auto.
      + etransitivity; [eapply t_modify_perm; [exact Nj|apply (w_l _ _ _ _ H')]|]. reflexivity.
      + assert (Pr := t_remove_at_perm (lo E) _ _ _ _ Hn (w_r _ _ _ _ H')).
        rewrite (w_hb _ _ _ _ H1).
        etransitivity; [apply t_insert_perm; auto|].
        * eapply hashed_perm; [symmetry; exact Pr|].
          intros x Hx. apply in_map_iff in Hx as (y & <- & _). reflexivity.
        * unfold slotR at 1; simpl. constructor. exact Pr.
    - exists m1, a, Z1, None, Z1. split; [exact T1|]. split; [split; auto|]. auto.
  Qed.
End LaxProofs.
