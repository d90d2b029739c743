(* CycleMap: property C24, serialization. *)
From Coq Require Import List NArith Lia Bool Permutation PeanoNat.
From Verif Require Import Prelude RawTable Optionals CycleMap ListFacts TableFacts CycleMapSpec
  CycleMapHistory CycleMapProofs CycleMapProofs2 CycleMapProofs3 CycleMapHistoryProofs Concrete
  CycleMapProps CycleMapProps2 CycleMapProps3 CycleMapHashFree Serde.
Import ListNotations.
Open Scope N_scope.

(* what a serializer makes of a sequence of elements *)
Fixpoint elements {T W Doc} (sz : seq_serializer T W Doc) (w : W) (l : list T) : option W :=
  match l with
  | [] => Some w
  | a :: t => match serialize_element sz w a with None => None | Some w' => elements sz w' t end
  end.

Section Props.
  Context {L R S : Type}.
  Variable E : env L R S.
  Hypothesis OK : lawful E.
  Implicit Types (m : cmap L R S) (P : list (L * R)).
  Ltac start H :=
    let s := fresh "s" in let c := fresh "c" in let P := fresh "P" in
    apply (reachable_view E OK) in H as (s & c & P & ?V & H & ?B).

  Lemma serialize_loop_collect : forall {W Doc} (sz : seq_serializer (L * R) W Doc) m fuel it w P,
    collect (iter_next E m) fuel it = Done P ->
    serialize_loop E sz m fuel it w = Done (elements sz w P).
  Proof.
    induction fuel; simpl; intros it w P H.
    - destruct (iter_next E m it) as [[[p|] it']|]; try discriminate.
      injection H as <-. auto.
    - destruct (iter_next E m it) as [[[p|] it']|]; try discriminate.
      + destruct (collect (iter_next E m) fuel it') as [P'|] eqn:C; [|discriminate].
        simpl in H. injection H as <-. simpl. destruct (serialize_element sz w p); auto.
      + injection H as <-. auto.
  Qed.

  (* The document is begun with the exact number of elements and receives each pair once, in
     iteration order; serializer errors are passed on; no panic. *)
  Theorem C24_serialize : forall {W Doc} (sz : seq_serializer (L * R) W Doc) room m,
    reachable E room m ->
    exists P, contents E m P /\ len m = length P /\
      serialize E sz m =
        Done (match serialize_seq sz (Some (length P)) with
              | None => None
              | Some w => match elements sz w P with None => None | Some w' => ser_end sz w' end
              end).
  Proof.
    intros W Doc sz room m H. start H. exists P. split; auto.
    assert (LN := len_ok E _ _ _ _ H). split; auto.
    unfold serialize. rewrite LN. destruct (serialize_seq sz (Some (length P))); auto.
    rewrite (serialize_loop_collect sz m _ _ w P V). destruct (elements sz w P); auto.
  Qed.

  (* Deserializing a sequence inserts its elements in order; one malformed element makes it an
     error. *)
  Theorem C24_deserialize : forall s ll lr acc, N.of_nat (length acc) < two64 ->
    (forall xs, acc = map Some xs ->
       exists m, visit_seq E s ll lr acc = Done (Some m) /\ from_iter E s ll lr xs = Ret m tt /\
                 behaves_as E 0 m (s_insert_all (eqL E) (eqR E) [] xs)) /\
    (In None acc -> visit_seq E s ll lr acc = Done None).
  Proof.
    intros s ll lr acc B. split.
    - intros xs ->. rewrite map_length in B.
      destruct (extend_ok E OK xs s 0 (with_hasher s ll lr) [] (new_ok E s ll lr)) as (m & X & H); [lia|].
      exists m. repeat split; auto.
      + unfold visit_seq.
        assert (G : forall xs m0, visit_loop E (map Some xs) m0 =
                  match extend E xs m0 with Ret m _ => Ret m true | Panic m => Panic m end).
        { clear. induction xs as [|[a b] xs IH]; simpl; intros m0; auto.
          unfold bind. destruct (insert E a b m0); auto. }
        rewrite G, X. auto.
      + eapply iter_all_ok; eauto.
      + intros ops HB. eapply (repr_behaves E OK); [exact H| |exact HB]. lia.
    - intros I. unfold visit_seq.
      assert (G : forall acc s c m P, Repr E s c m P -> c + N.of_nat (length acc) < two64 ->
                  In None acc -> exists m', visit_loop E acc m = Ret m' false).
      { clear - OK. induction acc as [|[[a b]|] acc IH]; simpl; intros s c m P H B I.
        - destruct I.
        - unfold bind. destruct (insert_ok E OK s c m P a b H) as (m1 & -> & H1); [lia|].
          eapply IH; [exact H1|lia|]. destruct I; [discriminate|auto].
        - eexists. reflexivity. }
      destruct (G acc s 0 _ _ (new_ok E s ll lr)) as (m' & ->); auto.
  Qed.

  Lemma ids_bound : forall l c, NoDup l -> (forall i, In i l -> i < c) -> N.of_nat (length l) <= c.
  Proof.
    intros l c ND LT.
    assert (X : (length (map N.to_nat l) <= length (seq 0 (N.to_nat c)))%nat).
    { apply NoDup_incl_length.
      - apply NoDup_map_inj; auto. intros x y _ _ H. apply N2Nat.inj; auto.
      - intros n Hn. apply in_map_iff in Hn as (i & <- & Hi). apply in_seq. specialize (LT _ Hi). lia. }
    rewrite map_length, seq_length in X. lia.
  Qed.
  Lemma repr_small : forall s c m P, Repr E s c m P -> N.of_nat (length P) <= c.
  Proof.
    intros s c m P (Z & H & ->). rewrite map_length.
    rewrite <- (map_length zid Z). apply ids_bound; [apply (rep_ids _ _ _ _ _ H)|].
    intros i Hi. apply in_map_iff in Hi as (z & <- & Hz). apply (rep_lt _ _ _ _ _ H); auto.
  Qed.

  (* inserting pairs that are already pairwise distinct just collects them *)
  Lemma insert_all_fresh : forall xs P, bijective (eqL E) (eqR E) (P ++ xs) ->
    Permutation (s_insert_all (eqL E) (eqR E) P xs) (P ++ xs).
  Proof.
    induction xs as [|[a b] xs IH]; intros P D; simpl.
    - rewrite app_nil_r. auto.
    - assert (EL := eqL_equiv _ OK). assert (ER := eqR_equiv _ OK).
      assert (PM : Permutation (P ++ (a, b) :: xs) (((a, b) :: P) ++ xs))
        by (simpl; symmetry; apply Permutation_middle).
      assert (X : s_insert (eqL E) (eqR E) P a b = (a, b) :: P).
      { unfold s_insert, del_l, del_r. f_equal.
        apply (bij_perm (eqL E) (eqR E) EL ER _ _ PM) in D. destruct D as [D1 D2]. simpl in D1, D2.
        rewrite map_app in D1, D2.
        apply distinct_cons in D1 as [D1 _]. apply distinct_cons in D2 as [D2 _].
        rewrite filter_filter. apply filter_all_true. intros p Hp.
        rewrite D1 by (apply in_or_app; left; apply in_map; auto).
        rewrite D2 by (apply in_or_app; left; apply in_map; auto). auto. }
      unfold s_insert_all in *. cbn [fold_left fst snd]. rewrite X. rewrite IH.
      + symmetry. auto.
      + apply (bij_perm (eqL E) (eqR E) EL ER _ _ PM); auto.
  Qed.

  Lemma bij_match : forall P P', bijective (eqL E) (eqR E) P ->
    Forall2 (fun p q => eqL E (fst p) (fst q) = true /\ eqR E (snd p) (snd q) = true) P P' ->
    bijective (eqL E) (eqR E) P'.
  Proof.
    assert (EL := eqL_equiv _ OK). assert (ER := eqR_equiv _ OK).
    intros P P' D F. induction F as [|p q P P' [X Y] F IH]; auto.
    destruct D as [D1 D2]. simpl in D1, D2.
    apply distinct_cons in D1 as [D1 D1']. apply distinct_cons in D2 as [D2 D2'].
    destruct IH as [I1 I2]; [split; auto|].
    split; simpl; apply distinct_cons; split; auto; intros y Hy; apply in_map_iff in Hy as (z & <- & Hz).
    - clear - EL X D1 F Hz. induction F as [|u v P P' [A B] F IH]; [destruct Hz|].
      rewrite <- (eqb_replace_l _ EL _ _ _ X). destruct Hz as [->|Hz].
      + rewrite <- (eqb_replace_r _ EL _ _ _ A). apply D1; left; auto.
      + rewrite (eqb_replace_l _ EL _ _ _ X). apply IH; auto. intros w Hw; apply D1; right; auto.
    - clear - ER Y D2 F Hz. induction F as [|u v P P' [A B] F IH]; [destruct Hz|].
      rewrite <- (eqb_replace_l _ ER _ _ _ Y). destruct Hz as [->|Hz].
      + rewrite <- (eqb_replace_r _ ER _ _ _ B). apply D2; left; auto.
      + rewrite (eqb_replace_l _ ER _ _ _ Y). apply IH; auto. intros w Hw; apply D2; right; auto.
  Qed.

  (* Round trip.  [decode] may return an item that is only Eq to the encoded one. *)
  Theorem C24_round_trip :
    forall {Tok} (encode : L * R -> Tok) (decode : Tok -> option (L * R)) room m s' ll lr,
    (forall p, exists q, decode (encode p) = Some q /\
                         eqL E (fst p) (fst q) = true /\ eqR E (snd p) (snd q) = true) ->
    reachable E room m ->
    let document := Ser (L * R) (list Tok) (list Tok) (fun _ => Some [])
                        (fun w p => Some (w ++ [encode p])) (fun w => Some w) in
    exists toks m', serialize E document m = Done (Some toks) /\
      visit_seq E s' ll lr (map decode toks) = Done (Some m') /\
      map_eq E m m' = Done true /\ map_eq E m' m = Done true.
  Proof.
    intros Tok encode decode room m s' ll lr CD H document. assert (HR := H).
    destruct (C24_serialize document room m H) as (P & V & LN & SZ).
    assert (EM : forall Q w, elements document w Q = Some (w ++ map encode Q)).
    { induction Q; simpl; intros w; [rewrite app_nil_r; auto|].
      rewrite IHQ, <- app_assoc. auto. }
    simpl in SZ. rewrite EM in SZ. simpl in SZ.
    start H. unfold contents in V. rewrite V in V0. injection V0 as <-.
    assert (XS : exists xs, map decode (map encode P) = map Some xs /\
       Forall2 (fun p q => eqL E (fst p) (fst q) = true /\ eqR E (snd p) (snd q) = true) P xs).
    { clear - CD. induction P as [|p P IH]; simpl; [exists []; auto|].
      destruct IH as (xs & E1 & E2). destruct (CD p) as (q & -> & Q). exists (q :: xs).
      simpl. rewrite E1. auto. }
    destruct XS as (xs & EX & F).
    assert (LX : length P = length xs) by (clear - F; induction F; simpl; auto).
    assert (SM := repr_small _ _ _ _ H).
    destruct (extend_ok E OK xs s' 0 (with_hasher s' ll lr) [] (new_ok E s' ll lr)) as (m' & X & H'); [lia|].
    destruct (C24_deserialize s' ll lr (map decode (map encode P))) as [DS _].
    { rewrite !map_length. lia. }
    destruct (DS xs EX) as (m2 & VS & FI & _).
    assert (m2 = m') as -> by (unfold from_iter in FI; congruence).
    assert (BX := bij_match P xs (repr_bij _ _ _ _ _ H) F).
    assert (PX := insert_all_fresh xs [] BX). simpl in PX.
    assert (H2 : Repr E s' (0 + N.of_nat (length xs)) m' xs).
    { eapply (repr_perm E OK); [exact PX|]. exact H'. }
    exists (map encode P), m'. split; auto. split; auto.
    rewrite (map_eq_ok E OK _ _ _ _ _ _ _ _ H H2), (map_eq_ok E OK _ _ _ _ _ _ _ _ H2 H).
    assert (EL := eqL_equiv _ OK). assert (ER := eqR_equiv _ OK).
    assert (SP : same_pairs (eqL E) (eqR E) P xs).
    { clear - F. split.
      - induction F as [|p q P xs [A B] F IH]; simpl; [easy|].
        intros u [<-|Hu]; [eauto|]. destruct (IH u Hu) as (v & Hv & AB). eauto.
      - induction F as [|p q P xs [A B] F IH]; simpl; [easy|].
        intros u [<-|Hu]; [eauto|]. destruct (IH u Hu) as (v & Hv & AB). eauto. }
    assert (SP' : same_pairs (eqL E) (eqR E) xs P).
    { destruct SP as [A B0]. split; intros u Hu.
      - destruct (B0 u Hu) as (v & Hv & Q1 & Q2). exists v. split; auto.
        split; [apply (equiv_sym _ EL)|apply (equiv_sym _ ER)]; auto.
      - destruct (A u Hu) as (v & Hv & Q1 & Q2). exists v. split; auto.
        split; [apply (equiv_sym _ EL)|apply (equiv_sym _ ER)]; auto. }
    split; f_equal; apply (eq_spec E OK); auto; eapply repr_bij; eauto.
  Qed.
End Props.

(* ---- concrete case: elements written as numbers, tags are lost (Eq ignores them) ---- *)
Definition enc (p : item * item) : N * N := (fst (fst p), fst (snd p)).
Definition dec (t : N * N) : option (item * item) := Some ((fst t, 7), (snd t, 7)).
Example C24_case :
  (forall p, exists q, dec (enc p) = Some q /\ eqL env_collide (fst p) (fst q) = true /\
                       eqR env_collide (snd p) (snd q) = true) /\
  exists m', visit_seq env_collide 9 1 2 (map dec [(4, 30); (1, 20); (5, 50)]) = Done (Some m') /\
             map_eq env_collide m1 m' = Done true.
Proof.
  split.
  - intros [[a b] [c d]]. exists ((a, 7), (c, 7)). simpl. unfold item_eq. simpl.
    rewrite !N.eqb_refl. auto.
  - eexists. split; vm_compute; reflexivity.
Qed.
Example C24_bad_element :
  visit_seq env_collide 9 1 2 [Some (it 1, it 2); None; Some (it 3, it 4)] = Done None.
Proof. vm_compute. reflexivity. Qed.
Print Assumptions C24_serialize.
Print Assumptions C24_deserialize.
Print Assumptions C24_round_trip.
