(* Facts about the RawTable model that hold for every lawful layout. *)
From Coq Require Import List NArith Lia Bool Permutation.
From Verif Require Import Prelude RawTable ListFacts.
Import ListNotations.

Lemma remove_nth_perm : forall {A} (l : list A) i x, nth_error l i = Some x ->
  Permutation l (x :: remove_nth i l).
Proof.
  induction l; destruct i; simpl; intros x H; try discriminate.
  - inversion H; subst; auto.
  - apply IHl in H. etransitivity; [apply perm_skip, H|]. constructor.
Qed.

Lemma update_nth_perm : forall {A} (f : A -> A) (l : list A) i x, nth_error l i = Some x ->
  Permutation (update_nth i f l) (f x :: remove_nth i l).
Proof.
  induction l; destruct i; simpl; intros x H; try discriminate.
  - inversion H; subst; auto.
  - apply IHl in H. etransitivity; [apply perm_skip, H|]. constructor.
Qed.

Section TableFacts.
  Context (lo : layout) (OK : layout_ok lo) {A : Type}.
  Implicit Types (t : table A) (h : N) (p : A -> bool).

  Lemma t_find_some : forall t h p i, t_find lo t h p = Some i ->
    exists h' e, nth_error (slots t) i = Some (h', e) /\ p e = true.
  Proof.
    unfold t_find; intros t h p i H. apply find_some in H as [_ H].
    destruct (nth_error (slots t) i) as [[h' e]|]; [eauto|discriminate].
  Qed.

  Lemma t_find_none : forall t h p, t_find lo t h p = None ->
    forall e, In (h, e) (slots t) -> p e = false.
  Proof.
    unfold t_find; intros t h p H e He. apply In_nth_error in He as [i Hi].
    assert (Hh : nth_error (map fst (slots t)) i = Some h)
      by (rewrite nth_error_map, Hi; reflexivity).
    apply (probe_complete _ OK (lay t)) in Hh.
    eapply find_none in H; [|eauto]. rewrite Hi in H. auto.
  Qed.

  Lemma t_find_absent : forall t h p, (forall x, In x (slots t) -> p (snd x) = false) ->
    t_find lo t h p = None.
  Proof.
    intros t h p H. destruct (t_find lo t h p) eqn:F; auto.
    apply t_find_some in F as (h' & e & Hn & Hp).
    apply nth_error_In in Hn. specialize (H _ Hn). simpl in H. congruence.
  Qed.

  Lemma t_find_unique : forall t h p e rest, Permutation (slots t) ((h, e) :: rest) ->
    p e = true -> (forall x, In x rest -> p (snd x) = false) ->
    exists i, t_find lo t h p = Some i /\ nth_error (slots t) i = Some (h, e).
  Proof.
    intros t h p e rest P He Hr.
    destruct (t_find lo t h p) as [i|] eqn:F.
    - exists i; split; auto. apply t_find_some in F as (h' & e' & Hn & Hp).
      assert (I : In (h', e') ((h, e) :: rest))
        by (eapply Permutation_in; [exact P|]; eapply nth_error_In; eauto).
      destruct I as [I|I]; [congruence|]. apply Hr in I. simpl in I. congruence.
    - eapply t_find_none in F; [rewrite F in He; discriminate|].
      eapply Permutation_in; [symmetry; eauto|]; left; auto.
  Qed.

  Lemma t_get_absent : forall t h p, (forall x, In x (slots t) -> p (snd x) = false) ->
    t_get lo t h p = None.
  Proof. intros. unfold t_get. rewrite t_find_absent; auto. Qed.

  Lemma t_get_unique : forall t h p e rest, Permutation (slots t) ((h, e) :: rest) ->
    p e = true -> (forall x, In x rest -> p (snd x) = false) -> t_get lo t h p = Some e.
  Proof.
    intros t h p e rest P He Hr.
    destruct (t_find_unique t h p e rest P He Hr) as (i & F & Hn).
    unfold t_get, t_entry. rewrite F, Hn. auto.
  Qed.

  Lemma t_remove_at_perm : forall t i x rest, nth_error (slots t) i = Some x ->
    Permutation (slots t) (x :: rest) -> Permutation (slots (t_remove_at lo t i)) rest.
  Proof.
    intros t i x rest Hn P. simpl. apply Permutation_cons_inv with (a := x).
    etransitivity; [symmetry; apply remove_nth_perm; eauto|auto].
  Qed.

  Lemma t_modify_perm : forall t i h e rest f, nth_error (slots t) i = Some (h, e) ->
    Permutation (slots t) ((h, e) :: rest) ->
    Permutation (slots (t_modify t i f)) ((h, f e) :: rest).
  Proof.
    intros t i h e rest f Hn P. simpl.
    etransitivity; [apply update_nth_perm; eauto|]. simpl. constructor.
    apply Permutation_cons_inv with (a := (h, e)).
    etransitivity; [symmetry; apply remove_nth_perm; eauto|auto].
  Qed.

  Lemma t_remove_entry_absent : forall t h p, (forall x, In x (slots t) -> p (snd x) = false) ->
    t_remove_entry lo t h p = None.
  Proof. intros. unfold t_remove_entry. rewrite t_find_absent; auto. Qed.

  Lemma t_remove_entry_unique : forall t h p e rest, Permutation (slots t) ((h, e) :: rest) ->
    p e = true -> (forall x, In x rest -> p (snd x) = false) ->
    exists t', t_remove_entry lo t h p = Some (e, t') /\ Permutation (slots t') rest.
  Proof.
    intros t h p e rest P He Hr.
    destruct (t_find_unique t h p e rest P He Hr) as (i & F & Hn).
    unfold t_remove_entry, t_entry. rewrite F, Hn. eexists; split; [reflexivity|].
    eapply t_remove_at_perm; eauto.
  Qed.

  (* if every stored hash agrees with the hasher, rehashing changes nothing *)
  Definition hashed (hasher : A -> N) (s : list (N * A)) : Prop :=
    forall x, In x s -> fst x = hasher (snd x).

  Lemma t_rehash_id : forall l hasher s, hashed hasher s -> t_rehash lo l hasher s = s.
  Proof.
    unfold t_rehash; intros l hasher s H. destruct (hb_grow lo l); auto.
    rewrite <- (map_id s) at 2. apply map_ext_in. intros [h e] He.
    apply H in He. simpl in *. congruence.
  Qed.

  Lemma t_insert_perm : forall t h e hasher, hashed hasher (slots t) ->
    Permutation (slots (t_insert lo t h e hasher)) ((h, e) :: slots t).
  Proof.
    intros t h e hasher H. simpl. rewrite t_rehash_id by auto. apply (order_perm _ OK).
  Qed.

  Lemma t_resize_perm : forall t n hasher, hashed hasher (slots t) ->
    Permutation (slots (t_resize lo t n hasher)) (slots t).
  Proof.
    intros t n hasher H. simpl. rewrite t_rehash_id by auto. apply (order_perm _ OK).
  Qed.

  Lemma t_try_resize_perm : forall t n hasher, hashed hasher (slots t) ->
    Permutation (slots (snd (t_try_resize lo t n hasher))) (slots t).
  Proof.
    intros t n hasher H. unfold t_try_resize. destruct (hb_try lo _); simpl; auto.
    rewrite t_rehash_id by auto. apply (order_perm _ OK).
  Qed.

  Lemma hashed_perm : forall hasher s s', Permutation s s' -> hashed hasher s -> hashed hasher s'.
  Proof.
    intros hasher s s' P H x Hx. apply H. eapply Permutation_in; [symmetry|]; eauto.
  Qed.
End TableFacts.
