(* CycleMap: properties C19-C23, C25, C26. *)
From Coq Require Import List NArith Lia Bool Permutation PeanoNat.
From Verif Require Import Prelude RawTable Optionals CycleMap ListFacts TableFacts CycleMapSpec
  CycleMapHistory CycleMapProofs CycleMapProofs2 CycleMapProofs3 CycleMapHistoryProofs Concrete
  CycleMapProps CycleMapProps2.
Import ListNotations.
Open Scope N_scope.

Lemma NoDup_map_inj : forall {A B} (f : A -> B) l,
  (forall x y, In x l -> In y l -> f x = f y -> x = y) -> NoDup l -> NoDup (map f l).
Proof.
  induction l; simpl; intros I D; [constructor|]. inversion D; subst. constructor.
  - rewrite in_map_iff. intros (y & Hy & HI). apply I in Hy; auto. subst; auto.
  - apply IHl; auto.
Qed.

Section Props3.
  Context {L R S : Type}.
  Variable E : env L R S.
  Hypothesis OK : lawful E.
  Implicit Types (m : cmap L R S) (l : L) (r : R) (P : list (L * R)).

  Notation "a =L b" := (eqL E a b = true) (at level 70).
  Notation "a =R b" := (eqR E a b = true) (at level 70).
  Notation same := (same_pairs (eqL E) (eqR E)).
  Ltac start H :=
    let s := fresh "s" in let c := fresh "c" in let P := fresh "P" in
    apply (reachable_view E OK) in H as (s & c & P & ?V & H & ?B).
  Let EL := eqL_equiv _ OK.
  Let ER := eqR_equiv _ OK.

  Lemma bij_NoDup : forall P, bijective (eqL E) (eqR E) P -> NoDup P.
  Proof.
    intros P [D _]. apply NoDup_map_inv with (f := fst). exact (distinct_NoDup _ EL _ D).
  Qed.

  (* the pair of P' matching p *)
  Definition match_in P' (p : L * R) : L * R :=
    match find (fun q => eqL E (fst p) (fst q) && eqR E (snd p) (snd q)) P' with
    | Some q => q | None => p end.
  Lemma match_in_spec : forall P' p,
    (exists q, In q P' /\ fst p =L fst q /\ snd p =R snd q) ->
    In (match_in P' p) P' /\ fst p =L fst (match_in P' p) /\ snd p =R snd (match_in P' p).
  Proof.
    intros P' p (q & Hq & X & Y). unfold match_in.
    destruct (find _ P') eqn:F.
    - apply find_some in F as [F1 F2]. apply andb_true_iff in F2 as [F2 F3]. auto.
    - eapply find_none in F; [|exact Hq]. simpl in F. rewrite X, Y in F. discriminate.
  Qed.

  Lemma match_incl : forall P P', bijective (eqL E) (eqR E) P ->
    (forall p, In p P -> exists q, In q P' /\ fst p =L fst q /\ snd p =R snd q) ->
    NoDup (map (match_in P') P) /\ incl (map (match_in P') P) P'.
  Proof.
    intros P P' D A. split.
    - apply NoDup_map_inj; [|apply bij_NoDup; auto]. intros x y Hx Hy EQ.
      destruct (match_in_spec P' x (A x Hx)) as (_ & X & _).
      destruct (match_in_spec P' y (A y Hy)) as (_ & Y & _).
      rewrite <- EQ in Y. eapply distinct_pairs_l; eauto.
      eapply (equiv_trans _ EL); [exact X|]. apply (equiv_sym _ EL); auto.
    - intros q Hq. apply in_map_iff in Hq as (p & <- & Hp). apply match_in_spec; auto.
  Qed.

  Lemma eq_spec : forall P P', bijective (eqL E) (eqR E) P -> bijective (eqL E) (eqR E) P' ->
    (Nat.eqb (length P) (length P') &&
     forallb (fun p => s_are_paired (eqL E) (eqR E) P' (fst p) (snd p)) P = true <-> same P P').
  Proof.
    intros P P' D D'. rewrite andb_true_iff, Nat.eqb_eq, forallb_forall.
    assert (AP : forall p, s_are_paired (eqL E) (eqR E) P' (fst p) (snd p) = true <->
                           exists q, In q P' /\ fst p =L fst q /\ snd p =R snd q).
    { intros p. symmetry. apply paired_dec. }
    split.
    - intros [LN A]. assert (A' : forall p, In p P -> exists q, In q P' /\ fst p =L fst q /\ snd p =R snd q).
      { intros p Hp. apply AP; auto. }
      split; auto. intros q Hq.
      destruct (match_incl P P' D A') as [ND IN].
      assert (IN' := NoDup_length_incl ND (l' := P')).
      rewrite map_length in IN'. specialize (IN' ltac:(lia) IN q Hq).
      apply in_map_iff in IN' as (p & <- & Hp). exists p. split; auto.
      apply match_in_spec; auto.
    - intros [A A']. split.
      + assert (X := match_incl P P' D A). destruct X as [ND IN].
        assert (X' : forall q, In q P' -> exists p, In p P /\ fst q =L fst p /\ snd q =R snd p).
        { intros q Hq. destruct (A' q Hq) as (p & Hp & X & Y). exists p. split; auto.
          split; [apply (equiv_sym _ EL)|apply (equiv_sym _ ER)]; auto. }
        apply match_incl in X'; auto. destruct X' as [ND' IN'].
        apply NoDup_incl_length in IN; auto. apply NoDup_incl_length in IN'; auto.
        rewrite map_length in IN, IN'. lia.
      + intros p Hp. apply AP; auto.
  Qed.

  (* ---- C19 ---- *)
  Theorem C19_equality : forall room room' m m', reachable E room m -> reachable E room' m' ->
    exists P P' b, contents E m P /\ contents E m' P' /\ map_eq E m m' = Done b /\
      (b = true <-> same_pairs (eqL E) (eqR E) P P').
  Proof.
    intros room room' m m' H H'. start H. start H'. exists P, P0.
    eexists. split; auto. split; auto. split; [eapply map_eq_ok; eauto|].
    apply eq_spec; eapply repr_bij; eauto.
  Qed.
  Theorem C19_equivalence :
    (forall room m, reachable E room m -> map_eq E m m = Done true) /\
    (forall room room' m m', reachable E room m -> reachable E room' m' ->
       map_eq E m m' = Done true -> map_eq E m' m = Done true) /\
    (forall room room' room'' m m' m'', reachable E room m -> reachable E room' m' ->
       reachable E room'' m'' ->
       map_eq E m m' = Done true -> map_eq E m' m'' = Done true -> map_eq E m m'' = Done true).
  Proof.
    assert (K : forall room room' m m', reachable E room m -> reachable E room' m' ->
      forall P P', contents E m P -> contents E m' P' -> (map_eq E m m' = Done true <-> same P P')).
    { intros room room' m m' H H' P P' V V'.
      destruct (C19_equality room room' m m' H H') as (Q & Q' & b & VQ & VQ' & -> & X).
      unfold contents in *. rewrite V in VQ; rewrite V' in VQ'.
      injection VQ as <-. injection VQ' as <-. rewrite <- X.
      split; [intros Y; injection Y; auto|intros ->; auto]. }
    assert (VW : forall room m, reachable E room m -> exists P, contents E m P).
    { intros room m H. start H. eauto. }
    repeat split.
    - intros room m H. destruct (VW _ _ H) as (P & V). apply (K _ _ _ _ H H P P V V).
      split; intros p Hp; exists p; repeat split; auto; try apply (equiv_refl _ EL); apply (equiv_refl _ ER).
    - intros room room' m m' H H' X. destruct (VW _ _ H) as (P & V), (VW _ _ H') as (P' & V').
      apply (K _ _ _ _ H H' P P' V V') in X. apply (K _ _ _ _ H' H P' P V' V).
      destruct X as [X Y]. split; intros p Hp.
      + destruct (Y p Hp) as (q & Hq & A & B). exists q. split; auto.
        split; [apply (equiv_sym _ EL)|apply (equiv_sym _ ER)]; auto.
      + destruct (X p Hp) as (q & Hq & A & B). exists q. split; auto.
        split; [apply (equiv_sym _ EL)|apply (equiv_sym _ ER)]; auto.
    - intros room room' room'' m m' m'' H H' H'' X X'.
      destruct (VW _ _ H) as (P & V), (VW _ _ H') as (P' & V'), (VW _ _ H'') as (P'' & V'').
      apply (K _ _ _ _ H H' P P' V V') in X. apply (K _ _ _ _ H' H'' P' P'' V' V'') in X'.
      apply (K _ _ _ _ H H'' P P'' V V''). destruct X as [X Y], X' as [X' Y'].
      split; intros p Hp.
      + destruct (X p Hp) as (q & Hq & A & B). destruct (X' q Hq) as (q' & Hq' & A' & B').
        exists q'. split; auto.
        split; [eapply (equiv_trans _ EL)|eapply (equiv_trans _ ER)]; eauto.
      + destruct (Y' p Hp) as (q & Hq & A & B). destruct (Y q Hq) as (q' & Hq' & A' & B').
        exists q'. split; auto.
        split; [eapply (equiv_trans _ EL)|eapply (equiv_trans _ ER)]; eauto.
  Qed.

  (* ---- C20 ---- *)
  Theorem C20_extend : forall xs m, reachable E (N.of_nat (length xs)) m ->
    exists P m', contents E m P /\ extend E xs m = Ret m' tt /\
      behaves_as E 0 m' (fold_left (fun P x => s_insert (eqL E) (eqR E) P (fst x) (snd x)) xs P) /\
      (* the same map as inserting one by one *)
      m' = fst (run E m (map (fun x => Insert (fst x) (snd x)) xs)).
  Proof.
    intros xs m H. start H.
    destruct (extend_ok E OK xs s c m P H B) as (m' & X & H').
    exists P, m'. repeat split; auto.
    - eapply iter_all_ok; eauto.
    - intros. eapply (repr_behaves E OK); [exact H'| |exact H0]. lia.
    - clear H' V. revert c m P m' H B X.
      induction xs as [|[a b] xs IH]; simpl; intros c m P m' H B X.
      + injection X as ->. auto.
      + unfold bind in X. destruct (insert_ok E OK s c m P a b H) as (m1 & HI & H1); [lia|].
        rewrite HI in X. simpl in X. rewrite HI. simpl.
        apply (IH _ _ _ _ H1) in X; [|lia].
        destruct (run E m1 _); simpl in *; auto.
  Qed.
  Lemma s_contains_cons : forall P l r, s_are_paired (eqL E) (eqR E) ((l, r) :: P) l r = true.
  Proof.
    intros. simpl. rewrite (equiv_refl _ EL), (equiv_refl _ ER). auto.
  Qed.
  Theorem C20_last_wins : forall s ll lr xs l r, N.of_nat (length xs) + 1 < two64 ->
    exists m, from_iter E s ll lr (xs ++ [(l, r)]) = Ret m tt /\ are_paired E m l r = true /\
              get_right E m l = Some r /\ get_left E m r = Some l.
  Proof.
    intros s ll lr xs l r B.
    destruct (extend_ok E OK (xs ++ [(l, r)]) s 0 (with_hasher s ll lr) [] (new_ok E s ll lr))
      as (m' & X & H').
    { rewrite app_length; simpl. lia. }
    exists m'. split; auto. unfold s_extend in H'. rewrite fold_left_app in H'. cbn -[s_insert] in H'.
    rewrite (are_paired_spec E OK _ _ _ _ _ _ H'), (get_right_spec E OK _ _ _ _ _ H'),
      (get_left_spec E OK _ _ _ _ _ H').
    unfold s_insert at 1. rewrite s_contains_cons. split; auto.
    unfold s_get_right, s_get_left, find_l, find_r, s_insert. simpl.
    rewrite (equiv_refl _ EL), (equiv_refl _ ER). auto.
  Qed.

  (* ---- C21 ---- (values are immutable in the model, so the clone cannot alias the
     original; what is shown is that it is equal and indistinguishable) *)
  Theorem C21_clone : forall room m, reachable E room m ->
    map_eq E m (clone m) = Done true /\ map_eq E (clone m) m = Done true /\
    (forall ops, snd (run E (clone m) ops) = snd (run E m ops)) /\
    reachable E room (clone m).
  Proof.
    intros room m H. assert (X : clone m = m) by (destruct m; auto). rewrite X.
    destruct C19_equivalence as (RF & _). repeat split; eauto.
  Qed.

  (* ---- C22 ---- *)
  Definition capacity_op (o : op L R) : bool :=
    match o with ShrinkTo _ | ShrinkToFit | Reserve _ | TryReserve _ => true | _ => false end.
  Theorem C22_capacity : forall o room m, capacity_op o = true -> reachable E room m ->
    let m' := fst (step E m o) in
    ~ panicked (snd (step E m o)) /\
    (exists P P', contents E m P /\ contents E m' P' /\ Permutation P' P) /\
    (forall l, get_right E m' l = get_right E m l /\ contains_left E m' l = contains_left E m l) /\
    (forall r, get_left E m' r = get_left E m r /\ contains_right E m' r = contains_right E m r) /\
    (forall l r, are_paired E m' l r = are_paired E m l r) /\
    len m' = len m.
  Proof.
    intros o room m CO H. start H.
    destruct (step_ok E OK s c m P o H) as (P' & c' & ST & H' & _).
    { destruct o; try discriminate; simpl; lia. }
    destruct (step E m o) as [m' w]. simpl in *.
    assert (P' = P /\ ~ panicked w) as [-> NP].
    { destruct o; try discriminate; simpl in ST; destruct ST as [-> ST]; try subst w; simpl; auto.
      destruct ST as [b ->]; simpl; auto. }
    split; auto.
    destruct (iter_all_ok E OK s c' m' P H') as (P' & V' & PP).
    split; [exists P, P'; auto|].
    rewrite (len_ok E s c' m' P H'), (len_ok E s c m P H).
    repeat split; intros.
    - rewrite (get_right_spec E OK _ _ _ _ _ H'), (get_right_spec E OK _ _ _ _ _ H); auto.
    - rewrite (contains_left_spec E OK _ _ _ _ _ H'), (contains_left_spec E OK _ _ _ _ _ H); auto.
    - rewrite (get_left_spec E OK _ _ _ _ _ H'), (get_left_spec E OK _ _ _ _ _ H); auto.
    - rewrite (contains_right_spec E OK _ _ _ _ _ H'), (contains_right_spec E OK _ _ _ _ _ H); auto.
    - rewrite (are_paired_spec E OK _ _ _ _ _ _ H'), (are_paired_spec E OK _ _ _ _ _ _ H); auto.
  Qed.

  (* ---- C23 ---- *)
  Theorem C23_clear : forall room m, reachable E room m ->
    exists m', clear E m = Ret m' tt /\ len m' = 0%nat /\ is_empty m' = true /\
      (forall l, contains_left E m' l = false /\ get_right E m' l = None) /\
      (forall r, contains_right E m' r = false /\ get_left E m' r = None) /\
      behaves_as E room m' [].
  Proof.
    intros room m H. start H. destruct (clear_ok E s c m P H) as (m' & X & H').
    exists m'. split; auto. unfold is_empty. rewrite (len_ok E _ _ _ _ H').
    split; auto. split; auto. repeat split; intros.
    - rewrite (contains_left_spec E OK _ _ _ _ _ H'); auto.
    - rewrite (get_right_spec E OK _ _ _ _ _ H'); auto.
    - rewrite (contains_right_spec E OK _ _ _ _ _ H'); auto.
    - rewrite (get_left_spec E OK _ _ _ _ _ H'); auto.
    - eapply iter_all_ok; eauto.
    - eapply (repr_behaves E OK); [exact H'| |exact H0]. lia.
  Qed.

  (* ---- C25 ---- *)
  (* the same environment with overflow checks switched on or off *)
  Definition with_ovf (b : bool) : env L R S :=
    Env _ _ _ (eqL E) (eqR E) (hashL E) (hashR E) (hashP E) (lo E) b.

  Lemma insert_ovf : forall b s c m P l r, Repr E s c m P -> c + 1 < two64 ->
    insert (with_ovf b) l r m = insert E l r m.
  Proof.
    intros b s c m P l r H B. unfold insert, bind.
    change (remove_via_left (with_ovf b)) with (remove_via_left E).
    change (remove_via_right (with_ovf b)) with (remove_via_right E).
    destruct (remove_via_left_ok E OK s c m P l H) as (m1 & -> & H1).
    destruct (remove_via_right_ok E OK s c m1 _ r H1) as (m2 & -> & H2).
    unfold getst, incr_counter, bind, getst. destruct H2 as (Z & RZ & _).
    rewrite (rep_c _ _ _ _ _ RZ). unfold u64_incr.
    destruct (N.ltb_spec (c + 1) two64); [|lia]. reflexivity.
  Qed.
  Lemma extend_ovf : forall b xs s c m P, Repr E s c m P -> c + N.of_nat (length xs) < two64 ->
    extend (with_ovf b) xs m = extend E xs m.
  Proof.
    induction xs as [|[a d] xs IH]; simpl; intros s c m P H B; auto.
    unfold bind. rewrite (insert_ovf b s c m P) by (auto; lia).
    destruct (insert_ok E OK s c m P a d H) as (m1 & -> & H1); [lia|].
    eapply IH; [exact H1|]. lia.
  Qed.
  Lemma step_ovf : forall b o s c m P, Repr E s c m P -> c + ids o < two64 ->
    step (with_ovf b) m o = step E m o.
  Proof.
    intros b o s c m P H B. destruct o; try reflexivity; simpl in B; simpl step.
    - rewrite (insert_ovf b s c m P) by (auto; lia). auto.
    - unfold swap_left_or_insert, bind, getst.
      change (swap_left (with_ovf b)) with (swap_left E).
      change (eqL (with_ovf b)) with (eqL E). change (lo (with_ovf b)) with (lo E).
      change (hashL (with_ovf b)) with (hashL E).
      destruct (t_get _ _ _ _); [reflexivity|]. cbv beta.
      rewrite (insert_ovf b s c m P) by (auto; lia). auto.
    - unfold swap_right_or_insert, bind, getst.
      change (swap_right (with_ovf b)) with (swap_right E).
      change (eqR (with_ovf b)) with (eqR E). change (lo (with_ovf b)) with (lo E).
      change (hashR (with_ovf b)) with (hashR E).
      destruct (t_get _ _ _ _); [reflexivity|]. cbv beta.
      rewrite (insert_ovf b s c m P) by (auto; lia). auto.
    - rewrite (extend_ovf b xs s c m P) by (auto; lia). auto.
  Qed.
  Lemma run_ovf : forall b ops s c m P, Repr E s c m P -> c + budget ops < two64 ->
    run (with_ovf b) m ops = run E m ops.
  Proof.
    induction ops as [|o ops IH]; simpl; intros s c m P H B; auto.
    rewrite (step_ovf b o s c m P) by (auto; lia).
    destruct (step_ok E OK s c m P o H) as (P1 & c1 & S1 & H1 & C1); [lia|].
    destruct (step E m o) as [m1 w]. simpl in *.
    rewrite (IH s c1 m1 P1); auto. lia.
  Qed.

  (* Debug and release builds agree on every history taking fewer than 2^64 ids; the ids in
     use are distinct, smaller than the counter, and the same on both sides. *)
  Theorem C25_ids : forall s ll lr ops b, budget ops < two64 ->
    let m := fst (run E (with_hasher s ll lr) ops) in
    run (with_ovf b) (with_hasher s ll lr) ops = run E (with_hasher s ll lr) ops /\
    counter m <= budget ops /\
    NoDup (map (fun x => pid (snd x)) (slots (left_set m))) /\
    NoDup (map (fun x => pid (snd x)) (slots (right_set m))) /\
    (forall x, In x (slots (left_set m)) -> pid (snd x) < counter m) /\
    (forall i, In i (map (fun x => pid (snd x)) (slots (left_set m))) <->
               In i (map (fun x => pid (snd x)) (slots (right_set m)))).
  Proof.
    intros s ll lr ops b B m.
    split; [eapply run_ovf; [apply new_ok|lia]|].
    destruct (run_ok E OK ops s 0 _ [] (new_ok E s ll lr)) as (P & c & _ & (Z & H & _) & C); [lia|].
    fold m in H. assert (PL := rep_l _ _ _ _ _ H). assert (PR := rep_r _ _ _ _ _ H).
    assert (ML : map (fun x => pid (snd x)) (map (slotL E s) Z) = map zid Z)
      by (rewrite map_map; reflexivity).
    assert (MR : map (fun x => pid (snd x)) (map (slotR E s) Z) = map zid Z)
      by (rewrite map_map; reflexivity).
    apply (Permutation_map (fun x => pid (snd x))) in PL as PL'.
    apply (Permutation_map (fun x => pid (snd x))) in PR as PR'.
    rewrite ML in PL'. rewrite MR in PR'.
    assert (ND := rep_ids _ _ _ _ _ H). assert (LT := rep_lt _ _ _ _ _ H).
    rewrite (rep_c _ _ _ _ _ H).
    repeat split.
    - lia.
    - eapply Permutation_NoDup; [symmetry; exact PL'|auto].
    - eapply Permutation_NoDup; [symmetry; exact PR'|auto].
    - intros x Hx. eapply Permutation_in in Hx; [|exact PL].
      apply in_map_iff in Hx as (z & <- & Hz). apply LT in Hz. auto.
    - intros I. eapply Permutation_in; [symmetry; exact PR'|]. eapply Permutation_in; [exact PL'|auto].
    - intros I. eapply Permutation_in; [symmetry; exact PL'|]. eapply Permutation_in; [exact PR'|auto].
  Qed.

  (* ---- C26 ---- [borrow_ok]: Borrow's contract for a query type Q: what q compares equal to
     has q's hash; the comparison respects Eq and matches at most one item up to Eq. *)
  Theorem C26_borrowed : forall room m, reachable E room m ->
    exists P, contents E m P /\
    (forall Q (qhash : S -> Q -> N) (qeq : Q -> L -> bool),
       borrow_ok qhash qeq (hashL E) (eqL E) ->
       forall q, get_right_q E qhash qeq m q = option_map snd (find (fun p => qeq q (fst p)) P) /\
         forall k, (forall l, qeq q l = eqL E k l) -> get_right_q E qhash qeq m q = get_right E m k) /\
    (forall Q (qhash : S -> Q -> N) (qeq : Q -> R -> bool),
       borrow_ok qhash qeq (hashR E) (eqR E) ->
       forall q, get_left_q E qhash qeq m q = option_map fst (find (fun p => qeq q (snd p)) P) /\
         forall k, (forall r, qeq q r = eqR E k r) -> get_left_q E qhash qeq m q = get_left E m k).
  Proof.
    intros room m H. start H. exists P. split; auto. split; intros Q qhash qeq BO q.
    - rewrite (get_right_q_spec E OK qhash qeq _ _ _ _ q BO H). split; auto.
      intros k HK. rewrite (get_right_spec E OK _ _ _ _ _ H). unfold s_get_right, find_l.
      f_equal. clear - HK. induction P; simpl; auto. rewrite HK. destruct (eqL E k (fst a)); auto.
    - rewrite (get_left_q_spec E OK qhash qeq _ _ _ _ q BO H). split; auto.
      intros k HK. rewrite (get_left_spec E OK _ _ _ _ _ H). unfold s_get_left, find_r.
      f_equal. clear - HK. induction P; simpl; auto. rewrite HK. destruct (eqR E k (snd a)); auto.
  Qed.
End Props3.

(* ---- concrete cases ---- *)
(* the same pairs as m1, other history, other hasher *)
Definition m3 : cmap item item N :=
  fst (run env_collide (with_hasher 8 3 4)
         [Extend [(it' 5, it' 50); (it 1, it 20); (it 4, it 70)]; SwapRight (it 70) (it' 30);
          Reserve 100]).
Example C19_case : map_eq env_collide m1 m3 = Done true /\ map_eq env_collide m3 m1 = Done true /\
  map_eq env_collide m1 (res_state (insert env_collide (it 4) (it 20) m1)) = Done false.
Proof. vm_compute. auto. Qed.
Example C20_case : exists m, from_iter env_spread 3 0 0
    [(it 1, it 10); (it 2, it 20); (it 1, it 20)] = Ret m tt /\
  contents env_spread m [(it 1, it 20)].
Proof. eexists. split; vm_compute; reflexivity. Qed.
Example C21_case : map_eq env_collide m1 (clone m1) = Done true.
Proof. vm_compute. auto. Qed.
(* a reservation that fails half way: the left table has been rebuilt, the right one not *)
Example C22_case : exists m m',
  try_reserve env_collide 1 m3 = Ret m false /\
  lay (left_set m) <> lay (left_set m3) /\ lay (right_set m) = lay (right_set m3) /\
  len m = 3%nat /\
  try_reserve env_collide 2 m1 = Ret m' true /\ len m' = 3%nat.
Proof.
  do 2 eexists. split; [vm_compute; reflexivity|]. split; [vm_compute; discriminate|].
  split; [vm_compute; reflexivity|]. split; [vm_compute; reflexivity|].
  split; vm_compute; reflexivity.
Qed.
Example C23_case : exists m, clear env_collide m1 = Ret m tt /\ contents env_collide m [] /\
  res_value (insert env_collide (it 4) (it 30) m) = Some Neither.
Proof. eexists. split; [vm_compute; reflexivity|]. split; vm_compute; reflexivity. Qed.
Example C25_case : budget hist1 < two64 /\ counter m1 = 5 /\
  map (fun x => pid (snd x)) (slots (left_set m1)) = [2; 3; 4].
Proof. vm_compute. auto. Qed.
(* querying by the key alone, as str for String *)
Definition key_eq (k : N) (a : item) : bool := k =? fst a.
Example C26_case : borrow_ok (fun s k => 3 * s + k) key_eq (hashL env_spread) (eqL env_spread) /\
  get_right_q env_spread (fun s k => 3 * s + k) key_eq
    (fst (run env_spread (with_hasher 7 0 0) [Insert (it 1) (it 10); Insert (it 129) (it 20)])) 129
  = Some (it 20).
Proof.
  split; [|vm_compute; reflexivity]. unfold key_eq. split; [|split].
  - intros s q t H. apply N.eqb_eq in H. subst. reflexivity.
  - intros q t t' H. apply item_eq_key in H. rewrite H. auto.
  - intros q t t' H H'. apply N.eqb_eq in H, H'. simpl. unfold item_eq. apply N.eqb_eq. congruence.
Qed.

Print Assumptions C19_equality.
Print Assumptions C19_equivalence.
Print Assumptions C20_extend.
Print Assumptions C20_last_wins.
Print Assumptions C21_clone.
Print Assumptions C22_capacity.
Print Assumptions C23_clear.
Print Assumptions C25_ids.
Print Assumptions C26_borrowed.
