(* PartialCycleMap: extend with entries that share no item (C156), on any map. *)
From Coq Require Import List NArith Lia Bool Permutation.
From Verif Require Import Closures Prelude RawTable Optionals PartialCycleMap ListFacts PartialSpec PartialHistory PartialProofs
  PartialProofs2 PartialProofs3 PartialProofs4 PartialProofs5 PartialProofs6 PartialProofs7 PartialProofs8
  PartialHistoryProofs Concrete PartialProps PartialProps2 PartialProps3 PartialDistinct.
Import ListNotations.
Open Scope N_scope.

Section Extend.
  Context {L R S : Type} (E : env L R S) (OK : lawful E).
  Notation map := (pmap L R S).
  Notation entry := (optional_pair L R).
  Let EL := eqL_equiv _ OK.
  Let ER := eqR_equiv _ OK.
  Implicit Types (P xs : list entry) (x e : entry).
  Notation apart xs := (partial_bijection (eqL E) (eqR E) xs).

  Definition same_left x e : bool :=
    match op_get_left x, op_get_left e with Some a, Some b => eqL E a b | _, _ => false end.
  Definition same_right x e : bool :=
    match op_get_right x, op_get_right e with Some a, Some b => eqR E a b | _, _ => false end.
  (* no entry of xs holds the left or the right item of e *)
  Definition untouched xs e : bool := forallb (fun x => negb (same_left x e || same_right x e)) xs.

  Lemma insert_entry_filter : forall P x, x <> Neither ->
    s_insert_entry (eqL E) (eqR E) P x = x :: filter (fun e => negb (same_left x e || same_right x e)) P.
  Proof.
    intros P x N. destruct x as [|l|r|l r]; [congruence| | |]; cbn [s_insert_entry];
      unfold s_insert_left, s_insert_right, s_insert; f_equal.
    - apply filter_ext. intros e. unfold same_left, same_right, has_l. cbn [op_get_left op_get_right].
      rewrite orb_false_r. reflexivity.
    - unfold del_r, del_l. induction P as [|e P IH]; auto. cbn [filter].
      unfold same_left, same_right, has_l at 1. cbn [op_get_left op_get_right]. unfold same_left, same_right in IH. cbn [op_get_left op_get_right] in IH.
      destruct (match op_get_left e with Some b => eqL E l b | None => false end); cbn [negb orb]; auto.
      cbn [filter]. unfold has_r at 1.
      destruct (match op_get_right e with Some b => eqR E r b | None => false end); cbn [negb]; auto. f_equal. auto.
  Qed.
  Lemma apart_share : forall xs x, apart (xs ++ [x]) -> forall e, In e xs -> same_left x e || same_right x e = false.
  Proof.
    intros xs x (A & B & _) e He. unfold lefts, rights in *. rewrite flat_map_app in A, B.
    apply distinct_app in A as (_ & _ & A). apply distinct_app in B as (_ & _ & B).
    unfold same_left, same_right. apply orb_false_iff. split.
    - destruct (op_get_left x) as [a|] eqn:Q1; auto. destruct (op_get_left e) as [b|] eqn:Q2; auto.
      apply (eqb_false_sym _ EL). apply A; [apply in_flat_map; exists e; rewrite Q2; cbn; auto|cbn; rewrite Q1; cbn; auto].
    - destruct (op_get_right x) as [a|] eqn:Q1; auto. destruct (op_get_right e) as [b|] eqn:Q2; auto.
      apply (eqb_false_sym _ ER). apply B; [apply in_flat_map; exists e; rewrite Q2; cbn; auto|cbn; rewrite Q1; cbn; auto].
  Qed.
  Lemma extend_filter : forall P xs, apart xs ->
    fold_left (s_insert_entry (eqL E) (eqR E)) xs P = rev xs ++ filter (untouched xs) P.
  Proof.
    intros P. induction xs as [|x xs IH] using rev_ind; intros D.
    - cbn [fold_left rev app]. induction P as [|e P IH]; auto. cbn [filter untouched forallb]. f_equal. exact IH.
    - rewrite fold_left_app. cbn [fold_left]. rewrite (IH (apart_app E _ _ D)).
      assert (N : x <> Neither). { intros ->. destruct D as (_ & _ & C). apply C, in_elt. }
      rewrite insert_entry_filter, rev_app_distr by auto. cbn [rev app]. f_equal. rewrite filter_app. f_equal.
      + assert (K : forall e, In e (rev xs) -> same_left x e || same_right x e = false).
        { intros e He. apply (apart_share _ _ D). apply in_rev. auto. }
        clear - K. induction (rev xs) as [|e t IH]; auto. cbn [filter]. rewrite (K e (or_introl eq_refl)). cbn [negb].
        f_equal. apply IH. intros; apply K; right; auto.
      + clear. unfold untouched. induction P as [|e P IH]; auto. cbn [filter]. rewrite forallb_app. cbn [forallb].
        rewrite andb_true_r. destruct (forallb (fun x => negb (same_left x e || same_right x e)) xs); cbn [andb filter].
        * destruct (negb (same_left x e || same_right x e)); [f_equal|]; auto.
        * auto.
  Qed.
  Lemma untouched_perm : forall xs xs' e, Permutation xs xs' -> untouched xs e = untouched xs' e.
  Proof.
    intros xs xs' e P. apply eq_true_iff_eq. unfold untouched. rewrite !forallb_forall.
    split; intros H x I1; apply H; [apply (Permutation_in _ (Permutation_sym P))|apply (Permutation_in _ P)]; auto.
  Qed.

  Lemma extend_repr : forall room m P xs, reachable E (N.of_nat (length xs) + room) m -> contents E m P -> apart xs ->
    exists m' s c, extend E xs m = Ret m' tt /\ reachable E room m' /\ c + room < two64 /\
      Repr E s c m' (xs ++ filter (untouched xs) P).
  Proof.
    intros room m P xs RE V D. destruct (reachable_view E OK _ _ RE) as (s & c & P0 & V0 & H & B).
    assert (Q : P0 = P).
    { destruct V as (A1 & A2 & V1 & V2 & ->), V0 as (A1' & A2' & V1' & V2' & ->).
      rewrite V1 in V1'. rewrite V2 in V2'. injection V1' as ->. injection V2' as ->. auto. }
    subst P0. destruct (extend_ok E OK xs s c m P H) as (m' & c' & X & C & H'); [lia|].
    exists m', s, c'. split; auto. split; [|split; [lia|]].
    - destruct RE as (s0 & ll & lr & ops & B0 & G & Q). exists s0, ll, lr, (ops ++ [Extend xs]).
      assert (K : forall ops (m0 : map), guarded E m0 ops ->
        guarded E m0 (ops ++ [Extend xs]) /\
        fst (run E m0 (ops ++ [Extend xs])) = fst (step E (fst (run E m0 ops)) (Extend xs)) /\
        budget (ops ++ [Extend xs]) = budget ops + N.of_nat (length xs)).
      { clear. induction ops as [|o ops IH]; intros m0 G; cbn [app guarded budget run] in *.
        - cbn [fst]. split; [split; exact I|]. split; [destruct (step E m0 (Extend xs)); reflexivity|]. cbn [ids]. lia.
        - destruct G as [G1 G2]. destruct (IH _ G2) as (K1 & K2 & K3). split; auto. split; [|lia].
          destruct (step E m0 o) as [m1 w]. cbn [fst] in *. destruct (run E m1 (ops ++ [Extend xs])), (run E m1 ops). exact K2. }
      destruct (K ops _ G) as (K1 & K2 & K3). split; [rewrite K3; lia|]. split; auto.
      rewrite K2, <- Q. cbn [step]. rewrite X. reflexivity.
    - unfold s_extend in H'. rewrite extend_filter in H' by auto.
      eapply (repr_perm E OK); [|exact H']. apply Permutation_app_tail. symmetry. apply Permutation_rev.
  Qed.

  (* extending any reachable map by entries of which no two share an item gives exactly these
     entries and the old ones that share no item with them *)
  Theorem C156_extend : forall room m P xs, reachable E (N.of_nat (length xs) + room) m -> contents E m P -> apart xs ->
    exists m' P', extend E xs m = Ret m' tt /\ reachable E room m' /\
      contents E m' P' /\ Permutation P' (xs ++ filter (untouched xs) P) /\
      behaves_as E room m' (xs ++ filter (untouched xs) P).
  Proof.
    intros room m P xs RE V D. destruct (extend_repr room m P xs RE V D) as (m' & s & c & X & RE' & B & H).
    destruct (view E OK _ _ _ _ H) as (P' & V' & PP). exists m', P'. repeat (split; [assumption|]).
    apply (repr_behaves E OK _ _ _ _ _ H). lia.
  Qed.

  (* so their order does not matter *)
  Theorem C156_extend_order : forall room m xs xs', reachable E (N.of_nat (length xs) + room) m -> apart xs ->
    Permutation xs xs' ->
    exists m1 m2, extend E xs m = Ret m1 tt /\ extend E xs' m = Ret m2 tt /\ twins E m1 m2.
  Proof.
    intros room m xs xs' RE D PX. destruct (reachable_view E OK _ _ RE) as (s & c & P & V & _ & _).
    destruct (extend_repr room m P xs RE V D) as (m1 & s1 & c1 & X1 & RE1 & _ & H1).
    destruct (extend_repr room m P xs') as (m2 & s2 & c2 & X2 & _ & _ & H2); auto.
    { rewrite <- (Permutation_length PX). auto. }
    { apply (apart_perm E OK _ _ PX D). }
    exists m1, m2. split; auto. split; auto. apply (twins_intro E OK room s1 c1 s2 c2 m1 m2 _ RE1 H1).
    eapply (repr_perm E OK); [|exact H2].
    rewrite (filter_ext _ _ (fun e => untouched_perm xs xs' e PX)). apply Permutation_app_tail. symmetry. auto.
  Qed.
End Extend.

(* a map of six entries, extended by a pair breaking two entries, an unpaired item of a pair, a fresh pair *)
Definition more156 : list (optional_pair item item) :=
  [SomeBoth (it 2) (it 20); SomeRight (it 50); SomeLeft (it 9); SomeBoth (it 7) (it 70)].
Example C156_extend_case : partial_bijection (eqL env_collide) (eqR env_collide) more156 /\
  match from_iter env_collide 7 0 0 xs156 with
  | Ret m _ =>
      match extend env_collide more156 m, extend env_collide (rev more156) m with
      | Ret m1 _, Ret m2 _ => map_eq env_collide m1 m2 = Done true /\ len_left m1 = 5%nat /\ len_right m1 = 4%nat /\
          contains_left env_collide m1 (it 1) = false /\ contains_left env_collide m2 (it 5) = false /\
          are_paired env_collide m2 (it 2) (it 20) = true
      | _, _ => False
      end
  | _ => False
  end.
Proof.
  split; [|vm_compute; repeat split; reflexivity]. split; [|split].
  - unfold more156, lefts. cbn [flat_map op_get_left opt_list app]. repeat (apply distinct_cons; split;
      [intros y Hy; repeat (destruct Hy as [<-|Hy]; [vm_compute; reflexivity|]); destruct Hy|]). constructor.
  - unfold more156, rights. cbn [flat_map op_get_right opt_list app]. repeat (apply distinct_cons; split;
      [intros y Hy; repeat (destruct Hy as [<-|Hy]; [vm_compute; reflexivity|]); destruct Hy|]). constructor.
  - intros H. repeat (destruct H as [H|H]; [discriminate H|]). destruct H.
Qed.

Print Assumptions C156_extend.
Print Assumptions C156_extend_order.
