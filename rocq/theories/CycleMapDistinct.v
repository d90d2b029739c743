(* CycleMap: extend and collect() with pairs that share no item (C158). *)
From Coq Require Import List NArith Lia Bool Permutation.
From Verif Require Import Closures Prelude RawTable Optionals CycleMap ListFacts CycleMapSpec CycleMapHistory CycleMapProofs
  CycleMapProofs2 CycleMapProofs3 CycleMapHistoryProofs Concrete CycleMapProps CycleMapProps2 CycleMapProps3.
Import ListNotations.
Open Scope N_scope.

Section Distinct.
  Context {L R S : Type} (E : env L R S) (OK : lawful E).
  Notation map := (cmap L R S).
  Let EL := eqL_equiv _ OK.
  Let ER := eqR_equiv _ OK.
  Implicit Types (P xs : list (L * R)) (x e : L * R).
  Notation apart xs := (bijective (eqL E) (eqR E) xs).

  (* no pair of xs holds an item of e *)
  Definition shares x e : bool := eqL E (fst x) (fst e) || eqR E (snd x) (snd e).
  Definition untouched xs e : bool := forallb (fun x => negb (shares x e)) xs.

  Lemma apart_perm : forall xs xs', Permutation xs xs' -> apart xs -> apart xs'.
  Proof.
    intros xs xs' P (A & B). split.
    - apply (distinct_perm _ EL (List.map fst xs)); auto. apply Permutation_map; auto.
    - apply (distinct_perm _ ER (List.map snd xs)); auto. apply Permutation_map; auto.
  Qed.
  Lemma apart_app : forall xs ys, apart (xs ++ ys) -> apart xs.
  Proof.
    intros xs ys (A & B). rewrite map_app in A, B.
    apply distinct_app in A as (A & _). apply distinct_app in B as (B & _). split; auto.
  Qed.
  Lemma apart_shares : forall xs x, apart (xs ++ [x]) -> forall e, In e xs -> shares x e = false.
  Proof.
    intros xs x (A & B) e He. rewrite map_app in A, B.
    apply distinct_app in A as (_ & _ & A). apply distinct_app in B as (_ & _ & B).
    unfold shares. apply orb_false_iff. split.
    - apply (eqb_false_sym _ EL). apply A; [apply in_map; auto|left; auto].
    - apply (eqb_false_sym _ ER). apply B; [apply in_map; auto|left; auto].
  Qed.
  Lemma insert_filter : forall P x,
    s_insert (eqL E) (eqR E) P (fst x) (snd x) = x :: filter (fun e => negb (shares x e)) P.
  Proof.
    intros P [l r]. unfold s_insert, del_r, del_l, shares. cbn [fst snd]. f_equal.
    induction P as [|e P IH]; auto. cbn [filter].
    destruct (eqL E l (fst e)); cbn [negb orb]; auto. cbn [filter].
    destruct (eqR E r (snd e)); cbn [negb]; auto. f_equal. auto.
  Qed.
  Lemma extend_filter : forall P xs, apart xs ->
    fold_left (fun P x => s_insert (eqL E) (eqR E) P (fst x) (snd x)) xs P = rev xs ++ filter (untouched xs) P.
  Proof.
    intros P. induction xs as [|x xs IH] using rev_ind; intros D.
    - cbn [fold_left rev app]. induction P as [|e P IH]; auto. cbn [filter untouched forallb]. f_equal. exact IH.
    - rewrite fold_left_app. cbn [fold_left]. rewrite (IH (apart_app _ _ D)).
      rewrite insert_filter, rev_app_distr. cbn [rev app]. f_equal. rewrite filter_app. f_equal.
      + assert (K : forall e, In e (rev xs) -> shares x e = false).
        { intros e He. apply (apart_shares _ _ D). apply in_rev. auto. }
        clear - K. induction (rev xs) as [|e t IH]; auto. cbn [filter]. rewrite (K e (or_introl eq_refl)). cbn [negb].
        f_equal. apply IH. intros; apply K; right; auto.
      + clear. unfold untouched. induction P as [|e P IH]; auto. cbn [filter]. rewrite forallb_app. cbn [forallb].
        rewrite andb_true_r. destruct (forallb (fun x => negb (shares x e)) xs); cbn [andb filter]; auto.
        destruct (negb (shares x e)); [f_equal|]; auto.
  Qed.
  Lemma untouched_perm : forall xs xs' e, Permutation xs xs' -> untouched xs e = untouched xs' e.
  Proof.
    intros xs xs' e P. apply eq_true_iff_eq. unfold untouched. rewrite !forallb_forall.
    split; intros H x I1; apply H; [apply (Permutation_in _ (Permutation_sym P))|apply (Permutation_in _ P)]; auto.
  Qed.

  (* the two maps hold the very same pairs: ==, lookups and len do not tell them apart *)
  Definition twins (m m' : map) : Prop :=
    map_eq E m m' = Done true /\ map_eq E m' m = Done true /\
    (forall l r, are_paired E m l r = are_paired E m' l r) /\
    (forall l, contains_left E m l = contains_left E m' l /\ get_right E m l = get_right E m' l) /\
    (forall r, contains_right E m r = contains_right E m' r /\ get_left E m r = get_left E m' r) /\
    len m = len m' /\
    exists P P', contents E m P /\ contents E m' P' /\ Permutation P P'.
  Lemma twins_intro : forall s c s' c' (m m' : map) P, Repr E s c m P -> Repr E s' c' m' P -> twins m m'.
  Proof.
    intros s c s' c' m m' P H H'.
    assert (T : Nat.eqb (length P) (length P) && forallb (fun p => s_are_paired (eqL E) (eqR E) P (fst p) (snd p)) P = true).
    { rewrite PeanoNat.Nat.eqb_refl. cbn [andb]. apply forallb_forall. intros p Hp. apply existsb_exists. exists p.
      split; auto. rewrite (equiv_refl _ EL), (equiv_refl _ ER). auto. }
    destruct (view_of E OK _ _ _ _ H) as (V & V1 & V2). destruct (view_of E OK _ _ _ _ H') as (V' & V1' & V2').
    split; [rewrite (map_eq_ok E OK _ _ _ _ _ _ _ _ H H'), T; auto|].
    split; [rewrite (map_eq_ok E OK _ _ _ _ _ _ _ _ H' H), T; auto|].
    split; [intros; rewrite (are_paired_spec E OK _ _ _ _ _ _ H), (are_paired_spec E OK _ _ _ _ _ _ H'); reflexivity|].
    split; [intros; rewrite (contains_left_spec E OK _ _ _ _ _ H), (contains_left_spec E OK _ _ _ _ _ H'),
      (get_right_spec E OK _ _ _ _ _ H), (get_right_spec E OK _ _ _ _ _ H'); auto|].
    split; [intros; rewrite (contains_right_spec E OK _ _ _ _ _ H), (contains_right_spec E OK _ _ _ _ _ H'),
      (get_left_spec E OK _ _ _ _ _ H), (get_left_spec E OK _ _ _ _ _ H'); auto|].
    rewrite (len_ok E _ _ _ _ H), (len_ok E _ _ _ _ H').
    split; auto. exists V, V'. split; auto. split; auto. rewrite V2, V2'. auto.
  Qed.

  Lemma extend_repr : forall room m P xs, reachable E (N.of_nat (length xs) + room) m -> contents E m P -> apart xs ->
    exists m' s c, extend E xs m = Ret m' tt /\ c + room < two64 /\ Repr E s c m' (xs ++ filter (untouched xs) P).
  Proof.
    intros room m P xs RE V D. destruct (reachable_view E OK _ _ RE) as (s & c & P0 & V0 & H & B).
    unfold contents in V. rewrite V in V0. injection V0 as <-.
    destruct (extend_ok E OK xs s c m P H) as (m' & X & H'); [lia|].
    exists m', s, (c + N.of_nat (length xs)). split; auto. split; [lia|].
    unfold s_extend in H'. rewrite extend_filter in H' by auto.
    eapply (repr_perm E OK); [|exact H']. apply Permutation_app_tail. symmetry. apply Permutation_rev.
  Qed.

  (* extending by pairs of which no two share an item gives exactly these pairs and the old ones
     that share no item with them *)
  Theorem C158_extend : forall room m P xs, reachable E (N.of_nat (length xs) + room) m -> contents E m P -> apart xs ->
    exists m' P', extend E xs m = Ret m' tt /\
      contents E m' P' /\ Permutation P' (xs ++ filter (untouched xs) P) /\
      behaves_as E room m' (xs ++ filter (untouched xs) P).
  Proof.
    intros room m P xs RE V D. destruct (extend_repr room m P xs RE V D) as (m' & s & c & X & B & H).
    destruct (view_of E OK _ _ _ _ H) as (P' & V' & PP). exists m', P'. repeat (split; [assumption|]).
    apply (repr_behaves E OK _ _ _ _ _ H). lia.
  Qed.
  (* so their order does not matter *)
  Theorem C158_extend_order : forall room m xs xs', reachable E (N.of_nat (length xs) + room) m -> apart xs ->
    Permutation xs xs' ->
    exists m1 m2, extend E xs m = Ret m1 tt /\ extend E xs' m = Ret m2 tt /\ twins m1 m2.
  Proof.
    intros room m xs xs' RE D PX. destruct (reachable_view E OK _ _ RE) as (s & c & P & V & _ & _).
    destruct (extend_repr room m P xs RE V D) as (m1 & s1 & c1 & X1 & _ & H1).
    destruct (extend_repr room m P xs') as (m2 & s2 & c2 & X2 & _ & H2); auto.
    { rewrite <- (Permutation_length PX). auto. }
    { apply (apart_perm _ _ PX D). }
    exists m1, m2. split; auto. split; auto. apply (twins_intro s1 c1 s2 c2 m1 m2 _ H1).
    eapply (repr_perm E OK); [|exact H2].
    rewrite (filter_ext _ _ (fun e => untouched_perm xs xs' e PX)). apply Permutation_app_tail. symmetry. auto.
  Qed.

  Lemma collect_repr : forall s ll lr xs, N.of_nat (length xs) < two64 -> apart xs ->
    exists m c, from_iter E s ll lr xs = Ret m tt /\ Repr E s c m xs /\ c < two64.
  Proof.
    intros s ll lr xs B D.
    destruct (extend_ok E OK xs s 0 (with_hasher s ll lr) [] (new_ok E s ll lr) B) as (m & X & H).
    exists m, (0 + N.of_nat (length xs)). split; [exact X|]. split; [|lia].
    unfold s_extend in H. rewrite extend_filter in H by auto. cbn [filter] in H. rewrite app_nil_r in H.
    eapply (repr_perm E OK); [|exact H]. symmetry. apply Permutation_rev.
  Qed.
  (* collecting such pairs succeeds and gives exactly them *)
  Theorem C158_collect : forall s ll lr xs, N.of_nat (length xs) < two64 -> apart xs ->
    exists m P, from_iter E s ll lr xs = Ret m tt /\
      contents E m P /\ Permutation P xs /\ len m = length xs /\ behaves_as E 0 m xs.
  Proof.
    intros s ll lr xs B D. destruct (collect_repr s ll lr xs B D) as (m & c & X & H & C).
    destruct (view_of E OK _ _ _ _ H) as (P & V & PP). exists m, P. repeat (split; [assumption|]).
    split; [apply (len_ok E _ _ _ _ H)|]. apply (repr_behaves E OK _ _ _ _ _ H). lia.
  Qed.
  (* their order, the hasher and the layouts do not matter *)
  Theorem C158_order : forall s ll lr s' ll' lr' xs xs', N.of_nat (length xs) < two64 -> apart xs ->
    Permutation xs xs' ->
    exists m m', from_iter E s ll lr xs = Ret m tt /\ from_iter E s' ll' lr' xs' = Ret m' tt /\ twins m m'.
  Proof.
    intros s ll lr s' ll' lr' xs xs' B D P. destruct (collect_repr s ll lr xs B D) as (m & c & X & H & _).
    destruct (collect_repr s' ll' lr' xs') as (m' & c' & X' & H' & _).
    { rewrite <- (Permutation_length P). auto. }
    { apply (apart_perm _ _ P D). }
    exists m, m'. split; auto. split; auto. apply (twins_intro s c s' c' m m' xs H).
    apply (repr_perm E OK _ _ _ xs'); auto. symmetry. auto.
  Qed.
  (* collecting what iter() lists, in any order, gives the map again *)
  Theorem C158_rebuild : forall room m P xs s ll lr, reachable E room m -> contents E m P -> Permutation P xs ->
    N.of_nat (length xs) < two64 ->
    exists m', from_iter E s ll lr xs = Ret m' tt /\ twins m m'.
  Proof.
    intros room m P xs s ll lr RE V PP B. destruct (reachable_view E OK _ _ RE) as (s0 & c & P0 & V0 & H & _).
    unfold contents in V. rewrite V in V0. injection V0 as <-. assert (D := repr_bij E _ _ _ _ H).
    destruct (collect_repr s ll lr xs B (apart_perm _ _ PP D)) as (m' & c' & X & H' & _).
    exists m'. split; auto. apply (twins_intro s0 c s c' m m' P H).
    apply (repr_perm E OK _ _ _ xs); auto. symmetry. auto.
  Qed.
End Distinct.

(* four pairs; then three pairs of which one breaks two old ones, one breaks one and one is new *)
Definition xs158 : list (item * item) := [(it 1, it 20); (it 4, it 30); (it 2, it 10); (it 5, it 50)].
Definition more158 : list (item * item) := [(it 2, it 20); (it 9, it 50); (it 7, it 70)].
Example C158_case : bijective (eqL env_collide) (eqR env_collide) xs158 /\
  bijective (eqL env_collide) (eqR env_collide) more158 /\
  match from_iter env_collide 7 0 0 xs158, from_iter env_collide 8 3 1 (rev xs158) with
  | Ret m _, Ret m' _ => map_eq env_collide m m' = Done true /\ len m = 4%nat /\
      match extend env_collide more158 m, extend env_collide (rev more158) m with
      | Ret m1 _, Ret m2 _ => map_eq env_collide m1 m2 = Done true /\ len m1 = 4%nat /\
          get_left env_collide m1 (it 20) = Some (it 2) /\ contains_right env_collide m2 (it 10) = false /\
          are_paired env_collide m2 (it 4) (it 30) = true
      | _, _ => False
      end
  | _, _ => False
  end.
Proof.
  split; [|split; [|vm_compute; repeat split; reflexivity]].
  all: split; unfold xs158, more158; cbn [List.map fst snd]; repeat (apply distinct_cons; split;
      [intros y Hy; repeat (destruct Hy as [<-|Hy]; [vm_compute; reflexivity|]); destruct Hy|]); constructor.
Qed.
(* with a shared item the order matters *)
Example C158_shared_case :
  match from_iter env_collide 7 0 0 [(it 1, it 10); (it 1, it 20)], from_iter env_collide 7 0 0 [(it 1, it 20); (it 1, it 10)] with
  | Ret m _, Ret m' _ => contains_right env_collide m (it 10) = false /\ contains_right env_collide m' (it 10) = true
  | _, _ => False
  end.
Proof. vm_compute. auto. Qed.

Print Assumptions C158_extend.
Print Assumptions C158_extend_order.
Print Assumptions C158_collect.
Print Assumptions C158_order.
Print Assumptions C158_rebuild.
