(* What every table keeps whatever calls are made (no restriction on histories): the values of
   the entries are pairwise non-equal, stored under their hash, and all have a property G
   (that of having been handed in by the caller); and a small program logic to show that
   functions keep this, also when they panic. *)
From Coq Require Import List NArith Lia Bool Permutation PeanoNat.
From Verif Require Import Prelude RawTable ListFacts TableFacts.
Import ListNotations.
Open Scope N_scope.

Section Sound.
  Variable lo : layout.
  Hypothesis OK : layout_ok lo.
  Context {A T : Type}.
  Variable v : A -> T.
  Variable e : T -> T -> bool.
  Hypothesis EQ : equivalence e.
  Variable h : T -> N.
  Hypothesis HH : forall a b, e a b = true -> h a = h b.
  Variable G : T -> Prop.

  Definition t_values (t : table A) : list T := map (fun x => v (snd x)) (slots t).
  Definition sound (t : table A) : Prop :=
    hashed (fun x => h (v x)) (slots t) /\ distinct e (t_values t) /\ Forall G (t_values t).
  Definition absent (k : T) (t : table A) : Prop := forall x, In x (t_values t) -> e k x = false.

  Lemma sound_nil : forall l, sound (Tbl [] l).
  Proof. split; [intros x []|split; constructor]. Qed.
  Lemma sound_perm : forall t t', Permutation (slots t) (slots t') -> sound t -> sound t'.
  Proof.
    intros t t' P (H1 & H2 & H3). split; [|split].
    - eapply hashed_perm; eauto.
    - eapply distinct_perm; [exact EQ|apply Permutation_map, P|exact H2].
    - eapply Permutation_Forall; [apply Permutation_map, P|exact H3].
  Qed.
  Lemma absent_perm : forall k t t', Permutation (slots t) (slots t') -> absent k t -> absent k t'.
  Proof.
    intros k t t' P H x Hx. apply H. unfold t_values in *.
    eapply Permutation_in; [apply Permutation_map; symmetry; exact P|exact Hx].
  Qed.
  Lemma remove_nth_In : forall {B} (l : list B) i x, In x (remove_nth i l) -> In x l.
  Proof. induction l; destruct i; simpl; intros; auto. destruct H; auto. right. eauto. Qed.
  Lemma sound_remove_at : forall t i, sound t -> sound (t_remove_at lo t i).
  Proof.
    intros [s ly] i (H1 & H2 & H3). split; [|split]; simpl in *.
    - intros x Hx. apply H1. eapply remove_nth_In; eauto.
    - clear H3. unfold t_values in *. simpl in *. clear H1. revert i. induction s as [|a s IH]; intros [|i]; simpl in *; auto.
      + apply distinct_cons in H2. tauto.
      + apply distinct_cons in H2 as [H2 H3]. apply distinct_cons. split; auto.
        intros y Hy. apply H2. apply in_map_iff in Hy as (z & <- & Hz). apply in_map_iff.
        exists z. split; auto. eapply remove_nth_In; eauto.
    - rewrite Forall_forall in *. intros x Hx. apply H3. unfold t_values in *. simpl in *.
      apply in_map_iff in Hx as (z & <- & Hz). apply in_map_iff. exists z. split; auto. eapply remove_nth_In; eauto.
  Qed.
  Lemma absent_remove_at : forall k t i, absent k t -> absent k (t_remove_at lo t i).
  Proof.
    intros k t i H x Hx. apply H. unfold t_values in *. simpl in Hx.
    apply in_map_iff in Hx as (z & <- & Hz). apply in_map_iff. exists z. split; auto. eapply remove_nth_In; eauto.
  Qed.
  Lemma remove_entry_at : forall (t : table A) hh p x t', t_remove_entry lo t hh p = Some (x, t') ->
    exists i h', t_find lo t hh p = Some i /\ nth_error (slots t) i = Some (h', x) /\ t' = t_remove_at lo t i.
  Proof.
    unfold t_remove_entry, t_entry. intros t hh p x t' H. destruct (t_find lo t hh p) as [i|]; [|discriminate].
    destruct (nth_error (slots t) i) as [[h' a]|] eqn:N; [|discriminate]. inversion H; subst. eauto.
  Qed.
  Lemma remove_entry_none : forall (t : table A) hh p, t_remove_entry lo t hh p = None -> t_find lo t hh p = None.
  Proof.
    unfold t_remove_entry, t_entry. intros t hh p H. destruct (t_find lo t hh p) as [i|] eqn:F; auto.
    apply t_find_some in F as (h' & a & N & _). rewrite N in H. discriminate.
  Qed.
  Lemma sound_remove_entry : forall t hh p x t', sound t -> t_remove_entry lo t hh p = Some (x, t') -> sound t'.
  Proof. intros t hh p x t' H R. apply remove_entry_at in R as (i & h' & _ & _ & ->). apply sound_remove_at; auto. Qed.
  Lemma absent_remove_entry : forall k t hh p x t', absent k t -> t_remove_entry lo t hh p = Some (x, t') -> absent k t'.
  Proof. intros k t hh p x t' H R. apply remove_entry_at in R as (i & h' & _ & _ & ->). apply absent_remove_at; auto. Qed.

  (* a search for a key with its own hash finds it iff it is there *)
  Lemma find_key_none : forall t k p, (forall x, p x = e k (v x)) -> sound t -> t_find lo t (h k) p = None -> absent k t.
  Proof.
    intros t k p HP (H1 & _) F x Hx. apply in_map_iff in Hx as ((h', a) & <- & Ha). simpl.
    destruct (e k (v a)) eqn:Q; auto. assert (X := H1 _ Ha). simpl in X. rewrite <- (HH _ _ Q) in X. subst h'.
    rewrite <- HP in Q. rewrite (t_find_none lo OK _ _ _ F _ Ha) in Q. discriminate.
  Qed.
  Lemma find_key_some : forall t k p i, (forall x, p x = e k (v x)) -> t_find lo t (h k) p = Some i ->
    exists h' a, nth_error (slots t) i = Some (h', a) /\ e k (v a) = true.
  Proof.
    intros t k p i HP F. apply t_find_some in F as (h' & a & N & Q). rewrite HP in Q. eauto.
  Qed.
  Lemma get_key : forall t k p, (forall x, p x = e k (v x)) -> sound t ->
    match t_get lo t (h k) p with
    | Some a => e k (v a) = true /\ In (v a) (t_values t)
    | None => absent k t
    end.
  Proof.
    intros t k p HP H. unfold t_get, t_entry. destruct (t_find lo t (h k) p) as [i|] eqn:F.
    - apply find_key_some in F as (h' & a & N & Q); auto. rewrite N. split; auto.
      apply in_map_iff. exists (h', a). split; auto. eapply nth_error_In; eauto.
    - eapply find_key_none; eauto.
  Qed.
  Lemma distinct_at : forall (s : list (N * A)) i x, distinct e (map (fun y => v (snd y)) s) ->
    nth_error s i = Some x -> forall y, In y (remove_nth i s) -> e (v (snd x)) (v (snd y)) = false.
  Proof.
    intros s i x D NX y Hy. assert (P := remove_nth_perm _ _ _ NX).
    apply (distinct_perm e EQ _ _ (Permutation_map (fun y => v (snd y)) P)) in D.
    simpl in D. apply distinct_cons in D as [D _]. apply D. apply in_map_iff. eauto.
  Qed.
  Lemma remove_key : forall t k p, (forall x, p x = e k (v x)) -> sound t ->
    match t_remove_entry lo t (h k) p with
    | Some (a, t') => sound t' /\ absent k t' /\ e k (v a) = true
    | None => absent k t
    end.
  Proof.
    intros t k p HP H. destruct (t_remove_entry lo t (h k) p) as [[a t']|] eqn:R.
    - split; [eapply sound_remove_entry; eauto|]. apply remove_entry_at in R as (i & h' & F & N & ->).
      apply find_key_some in F as (h2 & a2 & N2 & Q); auto. rewrite N in N2. inversion N2; subst. split; auto.
      intros x Hx. simpl in Hx. apply in_map_iff in Hx as (y & <- & Hy).
      rewrite (eqb_replace_l _ EQ _ _ _ Q). destruct H as (_ & D & _). apply (distinct_at _ _ _ D N _ Hy).
    - apply remove_entry_none in R. eapply find_key_none; eauto.
  Qed.
  Lemma t_values_modify : forall t i f, (forall x, v (f x) = v x) -> t_values (t_modify t i f) = t_values t.
  Proof.
    intros [s ly] i f H. unfold t_values. simpl. revert i. induction s as [|a s IH]; intros [|i]; simpl; auto.
    - rewrite H; auto.
    - rewrite IH; auto.
  Qed.
  Lemma sound_modify : forall t i f, (forall x, v (f x) = v x) -> sound t -> sound (t_modify t i f).
  Proof.
    intros t i f H (H1 & H2 & H3). split; [|rewrite t_values_modify; auto].
    destruct t as [s ly]. simpl in *. clear H2 H3. revert i. induction s as [|a s IH]; intros [|i]; simpl; auto.
    - intros x [<-|Hx]; simpl; [rewrite H; apply H1; left; auto|apply H1; right; auto].
    - intros x [<-|Hx]; [apply H1; left; auto|]. eapply IH; eauto. intros y Hy. apply H1; right; auto.
  Qed.
  Lemma absent_modify : forall k t i f, (forall x, v (f x) = v x) -> absent k t -> absent k (t_modify t i f).
  Proof. intros k t i f H A1. unfold absent. rewrite t_values_modify; auto. Qed.
  Lemma sound_insert : forall t x, sound t -> absent (v x) t -> G (v x) ->
    sound (t_insert lo t (h (v x)) x (fun x => h (v x))).
  Proof.
    intros t x (H1 & H2 & H3) AB GX. apply (sound_perm (Tbl ((h (v x), x) :: slots t) (lay t))).
    - symmetry. apply t_insert_perm; auto.
    - split; [|split]; simpl.
      + intros y [<-|Hy]; auto.
      + apply distinct_cons. split; auto.
      + constructor; auto.
  Qed.
  Lemma sound_resize : forall t n, sound t -> sound (t_resize lo t n (fun x => h (v x))).
  Proof. intros t n H. eapply sound_perm; [|exact H]. symmetry. apply t_resize_perm; auto. apply H. Qed.
  Lemma sound_try_resize : forall t n, sound t -> sound (snd (t_try_resize lo t n (fun x => h (v x)))).
  Proof. intros t n H. eapply sound_perm; [|exact H]. symmetry. apply t_try_resize_perm; auto. apply H. Qed.

  (* membership tests and iteration agree *)
  Lemma found_iff : forall t k p, (forall x, p x = e k (v x)) -> sound t ->
    ((exists a, t_get lo t (h k) p = Some a) <-> exists x, In x (t_values t) /\ e k x = true).
  Proof.
    intros t k p HP H. assert (GK := get_key t k p HP H). split.
    - intros [a Q]. rewrite Q in GK. exists (v a). tauto.
    - intros (x & I & Q). destruct (t_get lo t (h k) p); eauto. rewrite (GK _ I) in Q. discriminate.
  Qed.
  Lemma get_there : forall t k p h' a, (forall x, p x = e k (v x)) -> sound t -> In (h', a) (slots t) ->
    e k (v a) = true -> t_get lo t (h k) p = Some a.
  Proof.
    intros t k p h' a HP H Ia Q. destruct (perm_in_cons _ _ Ia) as [rest P]. pose proof H as (H1 & H2 & _).
    assert (X := H1 _ Ia). simpl in X. rewrite <- (HH _ _ Q) in X. subst h'.
    apply (t_get_unique lo OK t (h k) p a rest); auto; [rewrite HP; auto|].
    intros y Hy. rewrite HP, (eqb_replace_l _ EQ _ _ _ Q).
    apply (distinct_perm e EQ _ _ (Permutation_map (fun y => v (snd y)) P)) in H2. simpl in H2.
    apply distinct_cons in H2 as [H2 _]. apply H2. apply in_map_iff. eauto.
  Qed.
End Sound.

(* [hoare I P c Q]: from a state with I and P, c ends with I and Q, or panics with I. *)
Section Logic.
  Context {St : Type}.
  Variable I : St -> Prop.
  Definition hoare {A} (P : St -> Prop) (c : M St A) (Q : A -> St -> Prop) : Prop :=
    forall s, I s -> P s -> match c s with Ret s' a => I s' /\ Q a s' | Panic s' => I s' end.
  Definition any : St -> Prop := fun _ => True.
  Definition keeps {A} (c : M St A) : Prop := hoare any c (fun _ => any).

  Lemma h_ret : forall {A} (a : A) P, hoare P (ret a) (fun x s => x = a /\ P s).
  Proof. intros A a P s H1 H2. simpl. auto. Qed.
  Lemma h_bind : forall {A B} (c : M St A) (k : A -> M St B) P Q Q',
    hoare P c Q -> (forall a, hoare (Q a) (k a) Q') -> hoare P (bind c k) Q'.
  Proof.
    intros A B c k P Q Q' H1 H2 s Is Ps. unfold bind. specialize (H1 s Is Ps).
    destruct (c s) as [s' a|s']; auto. destruct H1. apply H2; auto.
  Qed.
  Lemma h_weaken : forall {A} (c : M St A) (P P' : St -> Prop) (Q Q' : A -> St -> Prop),
    hoare P c Q -> (forall s, I s -> P' s -> P s) -> (forall a s, I s -> Q a s -> Q' a s) -> hoare P' c Q'.
  Proof.
    intros A c P P' Q Q' H H1 H2 s Is Ps. specialize (H s Is (H1 s Is Ps)). destruct (c s); auto.
    destruct H. auto.
  Qed.
  Lemma h_keeps : forall {A} (c : M St A) P Q, hoare P c Q -> (forall s, I s -> P s) -> keeps c.
  Proof. intros. eapply h_weaken; eauto; unfold any; auto. Qed.
  Lemma h_unwrap : forall {A} (o : option A) P, hoare P (unwrap o) (fun a s => o = Some a /\ P s).
  Proof. intros A [a|] P s Is Ps; simpl; auto. Qed.
  Lemma h_get : forall P, hoare P getst (fun a s => a = s /\ I s /\ P s).
  Proof. intros P s Is Ps; simpl; auto. Qed.
  Lemma h_put : forall (s1 : St) P, I s1 -> hoare P (putst s1) (fun _ s => s = s1).
  Proof. intros s1 P H s Is Ps; simpl; auto. Qed.
  Lemma h_panic : forall {A} P Q, hoare P (@panic St A) Q.
  Proof. intros A P Q s Is Ps; simpl; auto. Qed.
  Lemma h_pre : forall {A} (c : M St A) (P : St -> Prop) Q,
    (forall s, I s -> P s -> hoare (fun s' => s' = s) c Q) -> hoare P c Q.
  Proof. intros A c P Q H s Is Ps. exact (H s Is Ps s Is eq_refl). Qed.
  Lemma h_conj : forall {A} (c : M St A) P P' Q Q', hoare P c Q -> hoare P' c Q' ->
    hoare (fun s => P s /\ P' s) c (fun a s => Q a s /\ Q' a s).
  Proof.
    intros A c P P' Q Q' H H' s Is [Ps Ps']. specialize (H s Is Ps). specialize (H' s Is Ps').
    destruct (c s); tauto.
  Qed.
  Lemma h_getst : forall {B} (k : St -> M St B) (P : St -> Prop) Q,
    (forall m, I m -> P m -> hoare (fun m' => m' = m /\ P m') (k m) Q) -> hoare P (bind getst k) Q.
  Proof. intros B k P Q H m I1 P1. unfold bind, getst. apply (H m I1 P1 m I1). auto. Qed.
  Lemma h_any : forall {A} (c : M St A) m (P : St -> Prop) Q,
    hoare P c Q -> hoare (fun m' => m' = m /\ P m') c Q.
  Proof. intros. eapply h_weaken; [exact H| |auto]. simpl. tauto. Qed.
  Lemma h_unwrap_then : forall {A B} (o : option A) (k : A -> M St B) P Q,
    (forall a, o = Some a -> hoare P (k a) Q) -> hoare P (bind (unwrap o) k) Q.
  Proof. intros A B [a|] k P Q H m I1 P1; simpl; auto. apply (H a eq_refl m I1 P1). Qed.
  Lemma h_then : forall {A B} (c : M St A) (k : A -> M St B) P Q Q',
    hoare P c (fun _ => Q) -> (forall a, hoare Q (k a) Q') -> hoare P (bind c k) Q'.
  Proof. intros. eapply h_bind; [exact H|]. auto. Qed.
  Lemma h_retx : forall {A} (a : A) (P Q : St -> Prop), (forall m, P m -> Q m) -> hoare P (ret a) (fun _ => Q).
  Proof. intros A a P Q H m I1 P1; simpl; auto. Qed.
  Lemma h_put_then : forall {B} (m1 : St) (k : unit -> M St B) (P P' : St -> Prop) Q, I m1 -> P' m1 ->
    hoare P' (k tt) Q -> hoare P (bind (putst m1) k) Q.
  Proof. intros B m1 k P P' Q H1 H2 H3 m I1 P1. apply H3; auto. Qed.
End Logic.
