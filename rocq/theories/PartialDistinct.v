(* PartialCycleMap: collect() of entries that share no item (C156). *)
From Coq Require Import List NArith Lia Bool Permutation.
From Verif Require Import Closures Prelude RawTable Optionals PartialCycleMap ListFacts PartialSpec PartialHistory PartialProofs
  PartialProofs2 PartialProofs3 PartialProofs4 PartialProofs5 PartialProofs6 PartialProofs7 PartialProofs8
  PartialHistoryProofs Concrete PartialProps PartialProps2 PartialProps3.
Import ListNotations.
Open Scope N_scope.

Section Distinct.
  Context {L R S : Type} (E : env L R S) (OK : lawful E).
  Notation map := (pmap L R S).
  Notation entry := (optional_pair L R).
  Let EL := eqL_equiv _ OK.
  Let ER := eqR_equiv _ OK.
  Implicit Types (P xs : list entry).
  Notation apart xs := (partial_bijection (eqL E) (eqR E) xs).

  Lemma apart_perm : forall xs xs', Permutation xs xs' -> apart xs -> apart xs'.
  Proof.
    intros xs xs' P (A & B & C). split; [|split].
    - apply (distinct_perm _ EL (lefts xs)); auto. apply Permutation_flat_map; auto.
    - apply (distinct_perm _ ER (rights xs)); auto. apply Permutation_flat_map; auto.
    - intros H. apply C. exact (Permutation_in _ (Permutation_sym P) H).
  Qed.
  Lemma apart_app : forall xs ys, apart (xs ++ ys) -> apart xs.
  Proof.
    intros xs ys (A & B & C). unfold lefts, rights in *. rewrite flat_map_app in A, B.
    apply distinct_app in A as (A & _). apply distinct_app in B as (B & _). split; [|split]; auto.
    intros H. apply C, in_or_app. auto.
  Qed.
  Lemma keep_l : forall P l, (forall a, In a (lefts P) -> eqL E l a = false) -> del_l (eqL E) P l = P.
  Proof.
    intros P l H. unfold del_l. induction P as [|x P IH]; auto. cbn [filter].
    assert (N : has_l (eqL E) l x = false).
    { unfold has_l. destruct (op_get_left x) as [a|] eqn:Q; auto. apply H. unfold lefts. cbn [flat_map]. rewrite Q. left. auto. }
    rewrite N. cbn [negb]. f_equal. apply IH. intros a Ha. apply H. unfold lefts. cbn [flat_map]. apply in_or_app. auto.
  Qed.
  Lemma keep_r : forall P r, (forall b, In b (rights P) -> eqR E r b = false) -> del_r (eqR E) P r = P.
  Proof.
    intros P r H. unfold del_r. induction P as [|x P IH]; auto. cbn [filter].
    assert (N : has_r (eqR E) r x = false).
    { unfold has_r. destruct (op_get_right x) as [a|] eqn:Q; auto. apply H. unfold rights. cbn [flat_map]. rewrite Q. left. auto. }
    rewrite N. cbn [negb]. f_equal. apply IH. intros a Ha. apply H. unfold rights. cbn [flat_map]. apply in_or_app. auto.
  Qed.
  Lemma insert_apart : forall P x, apart (x :: P) -> s_insert_entry (eqL E) (eqR E) P x = x :: P.
  Proof.
    intros P x (A & B & C). destruct x as [|l|r|l r]; cbn [s_insert_entry].
    - exfalso. apply C. left. auto.
    - unfold s_insert_left. rewrite keep_l; auto. cbn in A. apply distinct_cons in A. apply A.
    - unfold s_insert_right. rewrite keep_r; auto. cbn in B. apply distinct_cons in B. apply B.
    - unfold s_insert. cbn in A, B. apply distinct_cons in A, B. rewrite keep_l by apply A. rewrite keep_r; auto. apply B.
  Qed.
  Lemma extend_apart : forall xs, apart xs -> fold_left (s_insert_entry (eqL E) (eqR E)) xs [] = rev xs.
  Proof.
    induction xs as [|x xs IH] using rev_ind; intros D; auto.
    rewrite fold_left_app. cbn [fold_left]. rewrite (IH (apart_app _ _ D)), rev_app_distr. cbn [rev app].
    apply insert_apart. apply (apart_perm (xs ++ [x])); auto.
    rewrite <- Permutation_cons_append. apply perm_skip, Permutation_rev.
  Qed.

  Lemma collect_repr : forall s ll lr xs, N.of_nat (length xs) < two64 -> apart xs ->
    exists m c, from_iter E s ll lr xs = Ret m tt /\ reachable E 0 m /\ Repr E s c m xs /\ c < two64.
  Proof.
    intros s ll lr xs B D.
    destruct (extend_ok E OK xs s 0 (with_hasher s ll lr) [] (new_ok E s ll lr) B) as (m & c & X & C & H).
    exists m, c. split; [exact X|]. split; [|split; [|lia]].
    - exists s, ll, lr, [Extend xs]. cbn [budget ids]. split; [lia|]. split; [cbn; auto|].
      cbn [run step fst]. rewrite X. reflexivity.
    - unfold s_extend in H. rewrite extend_apart in H by auto.
      eapply (repr_perm E OK); [|exact H]. symmetry. apply Permutation_rev.
  Qed.

  (* collecting entries of which no two share an item succeeds and gives exactly these entries *)
  Theorem C156_collect : forall s ll lr xs, N.of_nat (length xs) < two64 -> apart xs ->
    exists m P, from_iter E s ll lr xs = Ret m tt /\ reachable E 0 m /\
      contents E m P /\ Permutation P xs /\ behaves_as E 0 m xs.
  Proof.
    intros s ll lr xs B D. destruct (collect_repr s ll lr xs B D) as (m & c & X & RE & H & C).
    destruct (view E OK _ _ _ _ H) as (P & V & PP). exists m, P. repeat (split; [assumption|]).
    apply (repr_behaves E OK _ _ _ _ _ H). lia.
  Qed.

  (* the two maps hold the very same entries: ==, lookups and lengths do not tell them apart *)
  Definition twins (m m' : map) : Prop :=
    map_eq E m m' = Done true /\ map_eq E m' m = Done true /\
    (forall l r, are_paired E m l r = are_paired E m' l r) /\
    (forall l, contains_left E m l = contains_left E m' l /\ get_right E m l = get_right E m' l) /\
    (forall r, contains_right E m r = contains_right E m' r /\ get_left E m r = get_left E m' r) /\
    len_left m = len_left m' /\ len_right m = len_right m' /\
    exists P P', contents E m P /\ contents E m' P' /\ Permutation P P'.
  Lemma twins_intro : forall room s c s' c' (m m' : map) P, reachable E room m -> Repr E s c m P -> Repr E s' c' m' P ->
    twins m m'.
  Proof.
    intros room s c s' c' m m' P RE H H'. assert (Q := C42_reflexive E OK _ _ RE).
    rewrite (map_eq_ok E OK _ _ _ _ _ _ _ _ H H) in Q.
    destruct (view E OK _ _ _ _ H) as (V & V1 & V2). destruct (view E OK _ _ _ _ H') as (V' & V1' & V2').
    split; [rewrite (map_eq_ok E OK _ _ _ _ _ _ _ _ H H'); exact Q|].
    split; [rewrite (map_eq_ok E OK _ _ _ _ _ _ _ _ H' H); exact Q|].
    split; [intros; rewrite (are_paired_spec E OK _ _ _ _ _ _ H), (are_paired_spec E OK _ _ _ _ _ _ H'); reflexivity|].
    split; [intros; rewrite (contains_left_spec E OK _ _ _ _ _ H), (contains_left_spec E OK _ _ _ _ _ H'),
      (get_right_spec E OK _ _ _ _ _ H), (get_right_spec E OK _ _ _ _ _ H'); auto|].
    split; [intros; rewrite (contains_right_spec E OK _ _ _ _ _ H), (contains_right_spec E OK _ _ _ _ _ H'),
      (get_left_spec E OK _ _ _ _ _ H), (get_left_spec E OK _ _ _ _ _ H'); auto|].
    rewrite (len_left_ok E _ _ _ _ H), (len_left_ok E _ _ _ _ H'), (len_right_ok E _ _ _ _ H), (len_right_ok E _ _ _ _ H').
    split; auto. split; auto. exists V, V'. split; auto. split; auto. rewrite V2, V2'. auto.
  Qed.

  (* their order, the hasher and the layouts do not matter *)
  Theorem C156_order : forall s ll lr s' ll' lr' xs xs', N.of_nat (length xs) < two64 -> apart xs ->
    Permutation xs xs' ->
    exists m m', from_iter E s ll lr xs = Ret m tt /\ from_iter E s' ll' lr' xs' = Ret m' tt /\ twins m m'.
  Proof.
    intros s ll lr s' ll' lr' xs xs' B D P. destruct (collect_repr s ll lr xs B D) as (m & c & X & RE & H & _).
    destruct (collect_repr s' ll' lr' xs') as (m' & c' & X' & _ & H' & _).
    { rewrite <- (Permutation_length P). auto. }
    { apply (apart_perm _ _ P D). }
    exists m, m'. split; auto. split; auto. apply (twins_intro 0 s c s' c' m m' xs RE H).
    apply (repr_perm E OK _ _ _ xs'); auto. symmetry. auto.
  Qed.

  (* collecting what iter_paired() and iter_unpaired() list, in any order, gives the map again *)
  Theorem C156_rebuild : forall room m P xs s ll lr, reachable E room m -> contents E m P -> Permutation P xs ->
    N.of_nat (length xs) < two64 ->
    exists m', from_iter E s ll lr xs = Ret m' tt /\ twins m m'.
  Proof.
    intros room m P xs s ll lr RE V PP B. destruct (reachable_view E OK _ _ RE) as (s0 & c & P0 & V0 & H & _).
    assert (Q : P0 = P).
    { destruct V as (A1 & A2 & V1 & V2 & ->), V0 as (A1' & A2' & V1' & V2' & ->).
      rewrite V1 in V1'. rewrite V2 in V2'. injection V1' as ->. injection V2' as ->. auto. }
    subst P0. assert (D := repr_bij E _ _ _ _ H).
    destruct (collect_repr s ll lr xs B (apart_perm _ _ PP D)) as (m' & c' & X & _ & H' & _).
    exists m'. split; auto. apply (twins_intro room s0 c s c' m m' P RE H).
    apply (repr_perm E OK _ _ _ xs); auto. symmetry. auto.
  Qed.
  (* iter() alone will do if no right item is unpaired (it shows none of those, C37) *)
  Theorem C156_iter : forall room m P xs s ll lr, reachable E room m -> contents E m P ->
    (forall r, ~ In (SomeRight r) P) -> iter_all E m = Done xs -> N.of_nat (length xs) < two64 ->
    exists m', from_iter E s ll lr xs = Ret m' tt /\ twins m m'.
  Proof.
    intros room m P xs s ll lr RE V NR IT B. destruct (C37_iter_all_lefts E OK room m RE) as (P0 & Q & V0 & I0 & PQ).
    rewrite IT in I0. injection I0 as <-. apply (C156_rebuild room m P0); auto.
    symmetry. apply PQ.
    destruct V as (A1 & A2 & V1 & V2 & ->), V0 as (A1' & A2' & V1' & V2' & ->).
    rewrite V1 in V1'. rewrite V2 in V2'. injection V1' as <-. injection V2' as <-. auto.
  Qed.
End Distinct.

(* three pairs, two unpaired left items and an unpaired right item *)
Definition xs156 : list (optional_pair item item) :=
  [SomeBoth (it 1) (it 20); SomeLeft (it 4); SomeRight (it 30); SomeBoth (it 2) (it 10); SomeBoth (it 5) (it 50);
   SomeLeft (it 6)].
Example C156_case : partial_bijection (eqL env_collide) (eqR env_collide) xs156 /\ Permutation xs156 (rev xs156) /\
  match from_iter env_collide 7 0 0 xs156, from_iter env_collide 8 3 1 (rev xs156) with
  | Ret m _, Ret m' _ => map_eq env_collide m m' = Done true /\ len_left m = 5%nat /\ len_right m = 4%nat /\
      get_right env_collide m' (it 2) = Some (it 10) /\ is_right_paired env_collide m (it 30) = false
  | _, _ => False
  end.
Proof.
  split; [|split; [apply Permutation_rev|vm_compute; repeat split; reflexivity]].
  split; [|split].
  - unfold xs156, lefts. cbn [flat_map op_get_left opt_list app]. repeat (apply distinct_cons; split;
      [intros y Hy; repeat (destruct Hy as [<-|Hy]; [vm_compute; reflexivity|]); destruct Hy|]). constructor.
  - unfold xs156, rights. cbn [flat_map op_get_right opt_list app]. repeat (apply distinct_cons; split;
      [intros y Hy; repeat (destruct Hy as [<-|Hy]; [vm_compute; reflexivity|]); destruct Hy|]). constructor.
  - intros H. repeat (destruct H as [H|H]; [discriminate H|]). destruct H.
Qed.
(* with a shared item the order matters *)
Example C156_shared_case :
  match from_iter env_collide 7 0 0 [SomeBoth (it 1) (it 10); SomeLeft (it 1)],
        from_iter env_collide 7 0 0 [SomeLeft (it 1); SomeBoth (it 1) (it 10)] with
  | Ret m _, Ret m' _ => contains_right env_collide m (it 10) = false /\ contains_right env_collide m' (it 10) = true
  | _, _ => False
  end.
Proof. vm_compute. auto. Qed.
(* a map whose right items are all paired, for C156_iter *)
Example C156_iter_case :
  match from_iter env_collide 7 0 0 [SomeBoth (it 1) (it 20); SomeLeft (it 4); SomeBoth (it 2) (it 10)] with
  | Ret m _ =>
      match iter_all env_collide m with
      | Done xs => length xs = 3%nat /\
          match from_iter env_collide 8 1 2 xs with
          | Ret m' _ => map_eq env_collide m' m = Done true
          | _ => False
          end
      | _ => False
      end
  | _ => False
  end.
Proof. vm_compute. auto. Qed.

Print Assumptions C156_collect.
Print Assumptions C156_order.
Print Assumptions C156_rebuild.
Print Assumptions C156_iter.
