(* GroupMap: properties C47-C53.

   Vocabulary used by the statements:
   - [lawful E]: Eq is an equivalence, Hash respects it, hashbrown keeps its contract.
     Nothing is assumed about how well hashes separate items.
   - [reachable E room m]: m results from some constructor and some calm history of public
     calls (GroupHistory.v), with at least [room] ids left in the u64 counters.  Calm histories
     avoid the calls that break the map: insert of a pair that is already there (C48),
     swap_right and swap_right_remove of a right item that has left items or to a right item
     that is already there (C50, C51), retain_paired with a closure that drops items (C56).
   - [holds E m rs ps]: for loops over m.iter_right() and m.iter_paired() yield rs and ps.
   - [answers E m rs ps]: every function except those that follow the right id stored in a
     left item (get_right, iter, iter_paired) answers as the right items rs and the pairs ps
     demand; [follows]: so does get_right. *)
From Coq Require Import List NArith Lia Bool Permutation PeanoNat.
From Verif Require Import Closures Prelude RawTable GroupMap ListFacts TableFacts GroupSpec GroupHistory
  IterFacts GroupProofs GroupProofs2 GroupProofs3 GroupProofs4 GroupProofs5 GroupProofs6
  GroupHistoryProofs Concrete.
Import ListNotations.
Open Scope N_scope.

Section Vocabulary.
  Context {L R S : Type} (E : env L R S).
  Notation "a =L b" := (eqL E a b = true) (at level 70).
  Notation "a =R b" := (eqR E a b = true) (at level 70).

  Definition holds (m : gmap L R S) (rs : list R) (ps : list (L * R)) : Prop :=
    right_rest (iter_right m) = Done rs /\ paired_rest E m (iter_paired m) = Done ps.

  (* the left items paired with r *)
  Definition lefts_of (ps : list (L * R)) (r : R) : list L :=
    map fst (filter (fun p => eqR E r (snd p)) ps).
  (* the right items without left items *)
  Definition lonely (rs : list R) (ps : list (L * R)) : list R :=
    filter (fun r => match lefts_of ps r with [] => true | _ => false end) rs.

  Record answers (m : gmap L R S) (rs : list R) (ps : list (L * R)) : Prop := {
    an_right : exists Q, right_rest (iter_right m) = Done Q /\ Permutation Q rs;
    an_left : exists Q, left_rest (iter_left m) = Done Q /\ Permutation Q (map fst ps);
    an_unpaired : exists Q, unpaired_rest (iter_unpaired m) = Done Q /\ Permutation Q (lonely rs ps);
    an_len_left : len_left m = length ps;
    an_len_right : len_right m = length rs;
    an_are_paired : forall l r,
      are_paired E m l r = true <-> exists a b, In (a, b) ps /\ l =L a /\ r =R b;
    an_contains_left : forall l, contains_left E m l = true <-> exists a b, In (a, b) ps /\ l =L a;
    an_contains_right : forall r, contains_right E m r = true <-> exists b, In b rs /\ r =R b;
    an_is_right_paired : forall r,
      is_right_paired E m r = true <-> exists a b, In (a, b) ps /\ r =R b;
    an_get_left_iter : forall r,
      match get_left_iter E m r with
      | Some it => (exists b, In b rs /\ r =R b) /\
                   exists Q, pair_rest E m it = Done Q /\ Permutation Q (lefts_of ps r)
      | None => forall b, In b rs -> eqR E r b = false
      end
  }.
  Definition follows (m : gmap L R S) (ps : list (L * R)) : Prop :=
    forall l r, get_right E m l = Some r <-> exists a, In (a, r) ps /\ l =L a.
End Vocabulary.

Lemma find_map_snd : forall {L R} (p : L -> bool) (ps : list (L * R)) r,
  option_map snd (find (fun x => p (fst x)) ps) = Some r -> exists a, In (a, r) ps /\ p a = true.
Proof.
  intros L R p ps r H. destruct (find _ ps) as [[a b]|] eqn:F; inversion H; subst.
  apply find_some in F as [F1 F2]. simpl in *. eauto.
Qed.

Section Props.
  Context {L R S : Type} (E : env L R S) (OK : lawful E).
  Notation "a =L b" := (eqL E a b = true) (at level 70).
  Notation "a =R b" := (eqR E a b = true) (at level 70).
  Notation Repr := (Repr E).
  Notation isl l := (fun p => eqL E l (fst p)).
  Notation isr r := (fun p => eqR E r (snd p)).
  Notation notl l := (fun p => negb (eqL E l (fst p))).
  Notation notr r := (fun p => negb (eqR E r (snd p))).
  Let EL := eqL_equiv _ OK.
  Let ER := eqR_equiv _ OK.

  Lemma view : forall d s lc rc m G, Repr (d, true) s lc rc m G ->
    exists rs ps, holds E m rs ps /\ Permutation rs (g_rights G) /\ Permutation ps (g_pairs G) /\
      Repr (d, true) s lc rc m (GC rs ps).
  Proof.
    intros d s lc rc m G H. assert (LK := tame_all_linked E OK _ _ _ _ _ _ H).
    destruct (iter_right_ok E _ _ _ _ _ _ H) as (rs & _ & R1 & _ & R2).
    destruct (iter_paired_ok E OK _ _ _ _ _ _ H LK) as (ps & _ & P1 & _ & P2).
    exists rs, ps. split; [split; auto|]. split; [auto|]. split; [auto|].
    eapply (repr_same E OK); [|exact H]. split; simpl; symmetry; auto.
  Qed.

  Ltac start H :=
    let s := fresh "s" in let lc := fresh "lc" in let rc := fresh "rc" in let G := fresh "G" in
    let H' := fresh "H" in let B1 := fresh "B1" in let B2 := fresh "B2" in
    let rs := fresh "rs" in let ps := fresh "ps" in let V := fresh "V" in
    apply (reachable_repr E OK) in H as (s & lc & rc & G & H' & B1 & B2);
    apply view in H' as (rs & ps & V & _ & _ & H); clear G.

  Lemma pairs_unique : forall rs ps p q, grouping (eqL E) (eqR E) (GC rs ps) -> In p ps -> In q ps ->
    eqL E (fst p) (fst q) = true -> p = q.
  Proof.
    intros rs ps p q (D & _) Hp Hq X. simpl in D.
    exact (distinct_map_inj (eqL E) EL fst ps p q D Hp Hq X).
  Qed.
  Lemma find_in : forall rs ps l p, grouping (eqL E) (eqR E) (GC rs ps) -> In p ps ->
    l =L fst p -> find (isl l) ps = Some p.
  Proof.
    intros rs ps l p G Hp X. destruct (find (isl l) ps) as [q|] eqn:F.
    - apply find_some in F as [F1 F2]. f_equal. symmetry. eapply pairs_unique; eauto.
      rewrite <- (eqb_replace_l _ EL _ _ _ X). auto.
    - rewrite (find_none _ _ F p Hp) in X. discriminate.
  Qed.
  Lemma s_get_right_iff : forall rs ps l r, grouping (eqL E) (eqR E) (GC rs ps) ->
    (s_get_right (eqL E) (GC rs ps) l = Some r <-> exists a, In (a, r) ps /\ l =L a).
  Proof.
    intros rs ps l r G. unfold s_get_right, find_l, is_l. simpl. split.
    - apply (find_map_snd (eqL E l)).
    - intros (a & HI & X). rewrite (find_in rs ps l (a, r)); auto.
  Qed.

  Lemma lonely_unpaired : forall rs ps, s_unpaired (eqR E) (GC rs ps) = lonely E rs ps.
  Proof.
    intros. unfold s_unpaired, lonely, s_is_right_paired, lefts_of, is_r. simpl.
    apply filter_ext. intros r. induction ps as [|p ps IH]; auto. simpl. destruct (eqR E r (snd p)); auto.
  Qed.

  Lemma answers_repr : forall d s lc rc m rs ps, Repr (true, d) s lc rc m (GC rs ps) -> answers E m rs ps.
  Proof.
    intros d s lc rc m rs ps H. assert (CL := tame_all_clean E OK _ _ _ _ _ _ H).
    constructor.
    - destruct (iter_right_ok E _ _ _ _ _ _ H) as (l & _ & R1 & _ & R2). eauto.
    - destruct (iter_left_ok E _ _ _ _ _ _ H) as (l & _ & R1 & _ & R2). eauto.
    - destruct (iter_unpaired_ok E OK _ _ _ _ _ _ H CL) as (l & _ & R1 & R2). exists l. split; auto.
      rewrite R2, lonely_unpaired. auto.
    - apply (len_left_ok E _ _ _ _ _ _ H).
    - apply (len_right_ok E _ _ _ _ _ _ H).
    - intros l r. rewrite (are_paired_ok E OK _ _ _ _ _ _ l r H). unfold s_are_paired, is_l, is_r. simpl.
      rewrite existsb_exists. split.
      + intros ([a b] & HI & X). apply andb_true_iff in X as [X Y]. exists a, b. auto.
      + intros (a & b & HI & X & Y). exists (a, b). simpl. rewrite X, Y. auto.
    - intros l. rewrite (contains_left_ok E OK _ _ _ _ _ _ l H). unfold s_contains_left, is_l. simpl.
      rewrite existsb_exists. split.
      + intros ([a b] & HI & X). exists a, b. auto.
      + intros (a & b & HI & X). exists (a, b). auto.
    - intros r. rewrite (contains_right_ok E OK _ _ _ _ _ _ r H). unfold s_contains_right. simpl.
      rewrite existsb_exists. reflexivity.
    - intros r. rewrite (is_right_paired_ok E OK _ _ _ _ _ _ r H (CL r)).
      unfold s_is_right_paired, is_r. simpl. rewrite existsb_exists. split.
      + intros ([a b] & HI & X). exists a, b. auto.
      + intros (a & b & HI & X). exists (a, b). auto.
    - intros r. assert (GI := get_left_iter_ok E OK _ _ _ _ _ _ r H (CL r)).
      destruct (get_left_iter E m r) as [it|].
      + destruct GI as (ls & g & P1 & _ & P2 & P3). unfold s_get_left_iter in P2.
        destruct (find_r (eqR E) (GC rs ps) r) as [b|] eqn:F; inversion P2; subst g.
        split; [exists b; apply find_some; exact F|]. exists ls. auto.
      + unfold s_get_left_iter in GI. destruct (find_r (eqR E) (GC rs ps) r) as [b|] eqn:F; [discriminate|].
        intros b Hb. apply (find_none _ _ F b Hb).
  Qed.
  Lemma follows_repr : forall d s lc rc m rs ps, Repr (d, true) s lc rc m (GC rs ps) -> follows E m ps.
  Proof.
    intros d s lc rc m rs ps H l r. assert (LK := tame_all_linked E OK _ _ _ _ _ _ H).
    rewrite (get_right_ok E OK _ _ _ _ _ _ l H (LK l)).
    apply s_get_right_iff. apply (repr_grouping E _ _ _ _ _ _ H).
  Qed.

  (* ---- C47 ---- *)
  (* what the map holds: no left item twice, no right item twice, every left item in one
     group; and every lookup answers about that *)
  Theorem C47_single_copy : forall room m, reachable E room m ->
    exists rs ps, holds E m rs ps /\
      distinct (eqL E) (map fst ps) /\ distinct (eqR E) rs /\ (forall p, In p ps -> In (snd p) rs) /\
      answers E m rs ps /\ follows E m ps.
  Proof.
    intros room m H. start H. exists rs, ps. split; [auto|].
    destruct (repr_grouping E _ _ _ _ _ _ H) as (D1 & D2 & D3). split; [auto|]. split; [auto|].
    split; [auto|]. split; [eapply answers_repr; eauto|eapply follows_repr; eauto].
  Qed.

  (* the lookups agree with each other *)
  Theorem C47_groups : forall room m, reachable E room m ->
    (forall l r, are_paired E m l r = true <-> exists r', get_right E m l = Some r' /\ r =R r') /\
    (forall l r, are_paired E m l r = true <->
       exists it ls l', get_left_iter E m r = Some it /\ pair_rest E m it = Done ls /\ In l' ls /\ l =L l') /\
    (* every left item has exactly one right item *)
    (forall l, contains_left E m l = true <-> exists r, get_right E m l = Some r) /\
    (forall l r r', are_paired E m l r = true -> are_paired E m l r' = true -> r =R r') /\
    (forall r, contains_right E m r = true <-> exists it, get_left_iter E m r = Some it) /\
    (forall l r, get_right E m l = Some r -> contains_right E m r = true) /\
    (forall r, is_right_paired E m r = true <->
       exists it l ls, get_left_iter E m r = Some it /\ pair_rest E m it = Done (l :: ls)) /\
    (forall r, is_right_paired E m r = true <-> exists l, are_paired E m l r = true).
  Proof.
    intros room m H. destruct (C47_single_copy room m H) as (rs & ps & V & D1 & D2 & D3 & A & F).
    assert (G : grouping (eqL E) (eqR E) (GC rs ps)) by (split; [|split]; auto).
    assert (AP := an_are_paired _ _ _ _ A). assert (CL := an_contains_left _ _ _ _ A).
    assert (CR := an_contains_right _ _ _ _ A). assert (RP := an_is_right_paired _ _ _ _ A).
    assert (GI := an_get_left_iter _ _ _ _ A).
    assert (IN : forall r l, In l (lefts_of E ps r) <-> exists b, In (l, b) ps /\ r =R b).
    { intros r l. unfold lefts_of. rewrite in_map_iff. split.
      - intros ([a b] & <- & X). apply filter_In in X. exists b. auto.
      - intros (b & HI & X). exists (l, b). split; auto. apply filter_In. auto. }
    refine (conj _ (conj _ (conj _ (conj _ (conj _ (conj _ (conj _ _))))))).
    - intros l r. rewrite AP. split.
      + intros (a & b & HI & X & Y). exists b. split; auto. apply F. eauto.
      + intros (r' & X & Y). apply F in X as (a & HI & X). eauto.
    - intros l r. rewrite AP. specialize (GI r). split.
      + intros (a & b & HI & X & Y). destruct (get_left_iter E m r) as [it|] eqn:GL.
        * destruct GI as (_ & Q & P1 & P2). exists it, Q, a. repeat split; auto.
          eapply Permutation_in; [symmetry; exact P2|]. apply IN. eauto.
        * rewrite (GI b) in Y; [discriminate|]. apply (D3 (a, b)); auto.
      + intros (it & ls & l' & X & P1 & HI & Y). rewrite X in GI. destruct GI as (_ & Q & P2 & P3).
        rewrite P1 in P2. inversion P2; subst Q. apply (Permutation_in _ P3) in HI.
        apply IN in HI as (b & HI & Z). eauto.
    - intros l. rewrite CL. split.
      + intros (a & b & HI & X). exists b. apply F. eauto.
      + intros (r & X). apply F in X as (a & HI & X). eauto.
    - intros l r r' X Y. apply AP in X as (a & b & HI & X1 & X2), Y as (a' & b' & HI' & Y1 & Y2).
      assert (Q : (a, b) = (a', b')).
      { eapply pairs_unique; eauto. simpl. rewrite <- (eqb_replace_l _ EL _ _ _ X1). auto. }
      inversion Q; subst. eapply (equiv_trans _ ER); [eauto|]. apply (equiv_sym _ ER); auto.
    - intros r. specialize (GI r). rewrite CR. destruct (get_left_iter E m r) as [it|].
      + split; eauto. intros _. apply GI.
      + split; [|intros [it X]; discriminate]. intros (b & HI & X). rewrite (GI b HI) in X. discriminate.
    - intros l r X. apply F in X as (a & HI & X). apply CR. exists r. split; [apply (D3 (a, r)); auto|].
      apply (equiv_refl _ ER).
    - intros r. rewrite RP. specialize (GI r). split.
      + intros (a & b & HI & X). destruct (get_left_iter E m r) as [it|] eqn:GL.
        * destruct GI as (_ & Q & P1 & P2).
          assert (HA : In a (lefts_of E ps r)) by (apply IN; eauto).
          apply (Permutation_in _ (Permutation_sym P2)) in HA. destruct Q as [|l ls]; [contradiction|].
          exists it, l, ls. auto.
        * rewrite (GI b) in X; [discriminate|]. apply (D3 (a, b)); auto.
      + intros (it & l & ls & X & P1). rewrite X in GI. destruct GI as (_ & Q & P2 & P3).
        rewrite P1 in P2. inversion P2; subst Q.
        assert (HI := Permutation_in l P3 (or_introl eq_refl)). apply IN in HI as (b & HI & Y). eauto.
    - intros r. rewrite RP. split.
      + intros (a & b & HI & X). exists a. apply AP. exists a, b. repeat split; auto.
        apply (equiv_refl _ EL).
      + intros (l & X). apply AP in X as (a & b & HI & X & Y). eauto.
  Qed.

  (* ---- C48 ---- *)
  (* Partial: for l and r that are not paired together already.  [C48_insert_refuted] shows
     what happens if they are. *)
  Theorem C48_insert_partial : forall m l r, reachable E 1 m -> are_paired E m l r = false ->
    exists rs ps m' rs' ps' l0 r0, holds E m rs ps /\ insert E l r m = Ret m' tt /\
      holds E m' rs' ps' /\
      (* stored items equal to the arguments are kept *)
      l0 = match find (isl l) ps with Some p => fst p | None => l end /\
      r0 = match find (eqR E r) rs with Some b => b | None => r end /\
      (* l moves to r's group, every other pair stays, no right item disappears *)
      Permutation ps' ((l0, r0) :: filter (notl l) ps) /\
      Permutation rs' (if existsb (eqR E r) rs then rs else r :: rs) /\
      are_paired E m' l r = true.
  Proof.
    intros m l r H AP. start H.
    destruct (insert_ok E OK _ _ _ _ _ _ l r H) as (m' & lc' & rc' & HI & H' & _ & _); auto; try lia.
    { apply (tame_all_linked E OK _ _ _ _ _ _ H). }
    apply view in H' as (rs' & ps' & V' & P1 & P2 & H').
    exists rs, ps, m', rs', ps'. do 2 eexists.
    refine (conj V (conj HI (conj V' (conj eq_refl (conj eq_refl (conj _ (conj _ _))))))); auto.
    apply (an_are_paired _ _ _ _ (answers_repr _ _ _ _ _ _ _ H')).
    exists (stored_l (eqL E) (GC rs ps) l), (stored_r (eqR E) (GC rs ps) r). split; [|split].
    - eapply Permutation_in; [symmetry; exact P2|]. left. auto.
    - unfold stored_l, find_l, is_l. simpl. destruct (find (isl l) ps) eqn:F; [|apply (equiv_refl _ EL)].
      apply find_some in F. tauto.
    - unfold stored_r, find_r. simpl. destruct (find (eqR E r) rs) eqn:F; [|apply (equiv_refl _ ER)].
      apply find_some in F. tauto.
  Qed.

  (* ---- C49 ---- ([same_group]: equal up to the order of the returned HashSet) *)
  Theorem C49_insert_remove : forall m l r, reachable E 1 m ->
    exists rs ps m' g rs' ps', holds E m rs ps /\
      insert_remove E l r m = Ret m' (option_map fst (find (isl l) ps), g) /\
      same_group g (option_map (fun b => (lefts_of E (filter (notl l) ps) r, b)) (find (eqR E r) rs)) /\
      holds E m' rs' ps' /\
      Permutation rs' (r :: filter (fun b => negb (eqR E r b)) rs) /\
      Permutation ps' ((l, r) :: filter (fun p => negb (eqL E l (fst p)) && negb (eqR E r (snd p))) ps).
  Proof.
    intros m l r H. start H. assert (CL := tame_all_clean E OK _ _ _ _ _ _ H).
    destruct (insert_remove_ok E OK _ _ _ _ _ _ l r H) as (m' & w & HI & SG & H'); auto; try lia.
    apply view in H' as (rs' & ps' & V' & P1 & P2 & H').
    exists rs, ps, m', w, rs', ps'. refine (conj V (conj HI (conj SG (conj V' (conj P1 _))))).
    rewrite P2. simpl. unfold del_l, is_l, is_r. simpl. rewrite filter_filter. auto.
  Qed.
  Theorem C49_insert_left : forall m l r, reachable E 1 m ->
    exists rs ps m' rs' ps', holds E m rs ps /\ holds E m' rs' ps' /\ Permutation rs' rs /\
      match find (eqR E r) rs with
      | Some b => insert_left E l r m = Ret m' (option_map fst (find (isl l) ps)) /\
                  Permutation ps' ((l, b) :: filter (notl l) ps)
      | None => insert_left E l r m = Ret m' None /\ Permutation ps' ps
      end.
  Proof.
    intros m l r H. start H.
    destruct (insert_left_ok E OK _ _ _ _ _ _ l r H) as (m' & lc' & HI & H' & _); auto; try lia.
    apply view in H' as (rs' & ps' & V' & P1 & P2 & H').
    exists rs, ps, m', rs', ps'. unfold s_insert_left, s_insert_left_out, find_r in *. simpl in *.
    destruct (find (eqR E r) rs) as [b|]; auto 6.
  Qed.
  Theorem C49_insert_right : forall m r, reachable E 1 m ->
    exists rs ps m' g rs' ps', holds E m rs ps /\ insert_right E r m = Ret m' g /\
      same_group g (option_map (fun b => (lefts_of E ps r, b)) (find (eqR E r) rs)) /\
      holds E m' rs' ps' /\
      Permutation rs' (r :: filter (fun b => negb (eqR E r b)) rs) /\
      Permutation ps' (filter (notr r) ps).
  Proof.
    intros m r H. start H. assert (CL := tame_all_clean E OK _ _ _ _ _ _ H).
    destruct (insert_right_ok E OK _ _ _ _ _ _ r H) as (m' & w & HI & SG & H'); auto; try lia.
    apply view in H' as (rs' & ps' & V' & P1 & P2 & H').
    exists rs, ps, m', w, rs', ps'. exact (conj V (conj HI (conj SG (conj V' (conj P1 P2))))).
  Qed.

  (* ---- C50, C51 ---- *)
  (* the pairs of old now belong to new *)
  Definition move_to (old new : R) (ps : list (L * R)) : list (L * R) :=
    map (fun p => if eqR E old (snd p) then (fst p, new) else p) ps.

  Lemma get_right_repaired : forall rs ps old new l,
    s_are_paired (eqL E) (eqR E) (GC rs ps) l old = false ->
    forall G, g_pairs G = repaired (eqR E) (GC rs ps) old new ->
    s_get_right (eqL E) G l = s_get_right (eqL E) (GC rs ps) l.
  Proof.
    intros rs ps old new l. unfold s_get_right, find_l, repaired, s_are_paired, is_l, is_r. simpl.
    intros AP G ->. induction ps as [|[a b] ps IH]; auto. simpl in *.
    apply orb_false_iff in AP as [A1 A2]. destruct (eqR E old b) eqn:X; simpl;
      destruct (eqL E l a) eqn:Y; simpl; auto. discriminate.
  Qed.

  (* Partial: if old is present then new must not be, and then get_right is only claimed for
     left items that were not paired with old ([C50_swap_right_refuted]). *)
  Theorem C50_swap_right_partial : forall m old new, reachable E 1 m ->
    exists rs ps, holds E m rs ps /\
    if existsb (eqR E old) rs then
      existsb (eqR E new) rs = false ->
      exists m', swap_right E old new m = Ret m' tt /\
        answers E m' (new :: rs) (move_to old new ps) /\
        (forall l, are_paired E m l old = false -> get_right E m' l = get_right E m l) /\
        (is_right_paired E m old = false -> exists rs' ps', holds E m' rs' ps' /\
           Permutation rs' (new :: rs) /\ Permutation ps' ps)
    else
      exists m' rs' ps', swap_right E old new m = Ret m' tt /\ holds E m' rs' ps' /\
        Permutation rs' (new :: filter (fun b => negb (eqR E new b)) rs) /\
        Permutation ps' (filter (notr new) ps).
  Proof.
    intros m old new H. start H. assert (CL := tame_all_clean E OK _ _ _ _ _ _ H).
    assert (LK := tame_all_linked E OK _ _ _ _ _ _ H).
    assert (CO := contains_right_ok E OK _ _ _ _ _ _ old H).
    assert (CN := contains_right_ok E OK _ _ _ _ _ _ new H).
    unfold s_contains_right in CO, CN. simpl in CO, CN.
    exists rs, ps. split; [auto|]. destruct (existsb (eqR E old) rs) eqn:XO.
    - intros XN. destruct (swap_right_ok E OK _ _ _ _ _ _ old new H) as (m' & HI & H' & KL); [lia| |].
      { rewrite CO. split; auto. rewrite CN; auto. }
      assert (F : exists b, find_r (eqR E) (GC rs ps) old = Some b).
      { apply existsb_exists in XO as (b & Hb & X). unfold find_r. simpl.
        destruct (find (eqR E old) rs) eqn:F; eauto. rewrite (find_none _ _ F b Hb) in X. discriminate. }
      destruct F as (b & F). unfold s_swap_right in H'. rewrite F in H'.
      exists m'. split; auto. split; [|split].
      + eapply answers_repr. exact H'.
      + intros l AP. rewrite (get_right_ok E OK _ _ _ _ _ _ l H (LK l)).
        rewrite (get_right_ok E OK _ _ _ _ _ _ l H').
        * eapply get_right_repaired; [|reflexivity]. rewrite <- (are_paired_ok E OK _ _ _ _ _ _ l old H); auto.
        * apply KL; auto.
      + intros RP. rewrite (is_right_paired_ok E OK _ _ _ _ _ _ old H (CL old)) in RP.
        unfold still in H'. rewrite RP in H'. simpl in H'.
        apply view in H' as (rs' & ps' & V' & P1 & P2 & H'). exists rs', ps'. split; auto. split; auto.
        rewrite P2. simpl. unfold repaired. simpl. rewrite map_ext_in with (g := fun p => p).
        * rewrite map_id. auto.
        * intros p Hp. unfold s_is_right_paired in RP. simpl in RP. rewrite existsb_false in RP.
          rewrite (RP p Hp). auto.
    - destruct (swap_right_ok E OK _ _ _ _ _ _ old new H) as (m' & HI & H' & _); [lia| |].
      { rewrite CO. auto. }
      assert (F : find_r (eqR E) (GC rs ps) old = None).
      { apply find_all_false. apply existsb_false. auto. }
      unfold s_swap_right in H'. rewrite F in H'.
      assert (RP : s_is_right_paired (eqR E) (GC rs ps) old = false).
      { eapply (absent_unpaired E); eauto. }
      unfold still in H'. rewrite RP in H'. simpl in H'.
      apply view in H' as (rs' & ps' & V' & P1 & P2 & H'). exists m', rs', ps'. auto.
  Qed.

  (* Partial: as C50; new may also be old's equal. *)
  Theorem C51_swap_right_remove_partial : forall m old new, reachable E 1 m ->
    exists rs ps, holds E m rs ps /\
    match find (eqR E old) rs with
    | Some b =>
      existsb (eqR E new) rs = false \/ old =R new ->
      exists m', swap_right_remove E old new m = Ret m' (Some b) /\
        answers E m' (new :: filter (fun b => negb (eqR E old b)) rs) (move_to old new ps) /\
        (forall l, are_paired E m l old = false -> get_right E m' l = get_right E m l) /\
        (is_right_paired E m old = false -> exists rs' ps', holds E m' rs' ps' /\
           Permutation rs' (new :: filter (fun b => negb (eqR E old b)) rs) /\ Permutation ps' ps)
    | None =>
      exists m' rs' ps', swap_right_remove E old new m = Ret m' None /\ holds E m' rs' ps' /\
        Permutation rs' (new :: filter (fun b => negb (eqR E new b)) rs) /\
        Permutation ps' (filter (notr new) ps)
    end.
  Proof.
    intros m old new H. start H. assert (CL := tame_all_clean E OK _ _ _ _ _ _ H).
    assert (LK := tame_all_linked E OK _ _ _ _ _ _ H).
    assert (CO := contains_right_ok E OK _ _ _ _ _ _ old H).
    assert (CN := contains_right_ok E OK _ _ _ _ _ _ new H).
    rewrite (contains_r_find E) in CO. unfold s_contains_right in CN. simpl in CN.
    exists rs, ps. split; [auto|]. destruct (find (eqR E old) rs) as [b|] eqn:F.
    - change (find (eqR E old) rs) with (find_r (eqR E) (GC rs ps) old) in F. rewrite F in CO.
      intros XN. destruct (swap_right_remove_ok E OK _ _ _ _ _ _ old new H) as (m' & HI & H' & KL); [lia| |].
      { rewrite CO. split; auto. rewrite CN; auto. }
      unfold s_swap_right_remove in H'. rewrite F in HI, H'.
      exists m'. split; auto. split; [|split].
      + eapply answers_repr. exact H'.
      + intros l AP. rewrite (get_right_ok E OK _ _ _ _ _ _ l H (LK l)).
        rewrite (get_right_ok E OK _ _ _ _ _ _ l H').
        * eapply get_right_repaired; [|reflexivity]. rewrite <- (are_paired_ok E OK _ _ _ _ _ _ l old H); auto.
        * apply KL; auto.
      + intros RP. rewrite (is_right_paired_ok E OK _ _ _ _ _ _ old H (CL old)) in RP.
        unfold still in H'. rewrite RP in H'. simpl in H'.
        apply view in H' as (rs' & ps' & V' & P1 & P2 & H'). exists rs', ps'. split; auto. split; auto.
        rewrite P2. simpl. unfold repaired. simpl. rewrite map_ext_in with (g := fun p => p).
        * rewrite map_id. auto.
        * intros p Hp. unfold s_is_right_paired in RP. simpl in RP. rewrite existsb_false in RP.
          rewrite (RP p Hp). auto.
    - change (find (eqR E old) rs) with (find_r (eqR E) (GC rs ps) old) in F. rewrite F in CO. simpl in CO.
      destruct (swap_right_remove_ok E OK _ _ _ _ _ _ old new H) as (m' & HI & H' & _); [lia| |].
      { rewrite CO. auto. }
      unfold s_swap_right_remove in H'. rewrite F in HI, H'.
      assert (RP : s_is_right_paired (eqR E) (GC rs ps) old = false).
      { eapply (absent_unpaired E); eauto. rewrite (contains_r_find E), F. auto. }
      unfold still in H'. rewrite RP in H'. simpl in H'.
      apply view in H' as (rs' & ps' & V' & P1 & P2 & H'). exists m', rs', ps'. auto.
  Qed.

  (* ---- C52 ---- *)
  Theorem C52_pair : forall room m l r, reachable E room m ->
    exists rs ps m' ok rs' ps', holds E m rs ps /\ pair E l r m = Ret m' ok /\ holds E m' rs' ps' /\
      Permutation rs' rs /\
      (ok = true <-> contains_left E m l = true /\ contains_right E m r = true) /\
      match find (isl l) ps, find (eqR E r) rs with
      | Some p, Some b => Permutation ps' ((fst p, b) :: filter (notl l) ps) /\ are_paired E m' l r = true
      | _, _ => Permutation ps' ps
      end.
  Proof.
    intros room m l r H. start H.
    destruct (pair_ok E OK _ _ _ _ _ _ l r H) as (m' & HI & H').
    { intros _. apply (tame_all_linked E OK _ _ _ _ _ _ H). }
    apply view in H' as (rs' & ps' & V' & P1 & P2 & H').
    exists rs, ps, m'. eexists. exists rs', ps'. refine (conj V (conj HI (conj V' _))).
    rewrite (contains_left_ok E OK _ _ _ _ _ _ l H), (contains_right_ok E OK _ _ _ _ _ _ r H).
    split; [|split].
    - unfold s_pair in P1. destruct (find_l (eqL E) (GC rs ps) l), (find_r (eqR E) (GC rs ps) r); auto.
    - apply andb_true_iff.
    - unfold s_pair, find_l, find_r, is_l in P2. simpl in P2.
      destruct (find (isl l) ps) as [p|] eqn:F1; auto. destruct (find (eqR E r) rs) as [b|] eqn:F2; auto.
      split; auto. apply find_some in F1 as [_ F1], F2 as [_ F2].
      apply (an_are_paired _ _ _ _ (answers_repr _ _ _ _ _ _ _ H')).
      exists (fst p), b. split; auto. eapply Permutation_in; [symmetry; exact P2|]. left; auto.
  Qed.

  (* ---- C53 ---- *)
  Theorem C53_remove_left : forall room m l, reachable E room m ->
    exists rs ps m' rs' ps', holds E m rs ps /\
      remove_left E l m = Ret m' (option_map fst (find (isl l) ps)) /\ holds E m' rs' ps' /\
      Permutation rs' rs /\ Permutation ps' (filter (notl l) ps).
  Proof.
    intros room m l H. start H.
    destruct (remove_left_ok E OK _ _ _ _ _ _ l H) as (m' & HI & H').
    apply view in H' as (rs' & ps' & V' & P1 & P2 & H').
    exists rs, ps, m', rs', ps'. exact (conj V (conj HI (conj V' (conj P1 P2)))).
  Qed.
  Theorem C53_remove_right : forall room m r, reachable E room m ->
    exists rs ps m' g rs' ps', holds E m rs ps /\ remove_right E r m = Ret m' g /\
      same_group g (option_map (fun b => (lefts_of E ps r, b)) (find (eqR E r) rs)) /\
      holds E m' rs' ps' /\
      Permutation rs' (filter (fun b => negb (eqR E r b)) rs) /\ Permutation ps' (filter (notr r) ps).
  Proof.
    intros room m r H. start H. assert (CL := tame_all_clean E OK _ _ _ _ _ _ H).
    destruct (remove_right_ok E OK _ _ _ _ _ _ r H (CL r)) as (m' & w & HI & SG & H').
    apply view in H' as (rs' & ps' & V' & P1 & P2 & H').
    exists rs, ps, m', w, rs', ps'. exact (conj V (conj HI (conj SG (conj V' (conj P1 P2))))).
  Qed.
  Theorem C53_remove : forall room m l r, reachable E room m ->
    exists rs ps m' g rs' ps', holds E m rs ps /\ remove E l r m = Ret m' g /\ holds E m' rs' ps' /\
      if existsb (fun p => eqL E l (fst p) && eqR E r (snd p)) ps
      then same_group g (option_map (fun b => (lefts_of E ps r, b)) (find (eqR E r) rs)) /\
           g <> None /\
           Permutation rs' (filter (fun b => negb (eqR E r b)) rs) /\ Permutation ps' (filter (notr r) ps)
      else g = None /\ Permutation rs' rs /\ Permutation ps' ps.
  Proof.
    intros room m l r H. start H. assert (CL := tame_all_clean E OK _ _ _ _ _ _ H).
    destruct (remove_ok E OK _ _ _ _ _ _ l r H) as (m' & w & HI & SG & H'); auto.
    apply view in H' as (rs' & ps' & V' & P1 & P2 & H').
    exists rs, ps, m', w, rs', ps'. refine (conj V (conj HI (conj V' _))).
    unfold s_remove_out, s_remove, s_are_paired, is_l, is_r in *. simpl in *.
    destruct (existsb _ ps) eqn:X.
    - split; [exact SG|]. split; [|auto]. intros ->. destruct (repr_grouping E _ _ _ _ _ _ H) as (_ & _ & D3).
      apply existsb_exists in X as (p & Hp & X). apply andb_true_iff in X as [_ X].
      unfold s_remove_right_out, find_r in SG. simpl in SG.
      destruct (find (eqR E r) rs) eqn:F; [contradiction|].
      rewrite (find_none _ _ F (snd p)) in X; [discriminate|]. apply (D3 p); auto.
    - split; auto. destruct w as [[? ?]|]; auto. contradiction.
  Qed.
End Props.

(* ---- a concrete reachable map, in worlds with and without collisions ---- *)
Definition g_hist1 : list (op item item) :=
  [Insert (it 1) (it 10); Insert (it 2) (it 10); Insert (it 3) (it 30); InsertRight (it 40);
   InsertRemove (it 4) (it 50); InsertLeft (it 5) (it 30); Insert (it 6) (it 60);
   Pair (it 6) (it 30); Insert (it 2) (it 30); Remove (it 1) (it 30); RemoveLeft (it 3);
   Extend [(Some (it 7), it 10); (None, it 70); (Some (it 8), it 10)]; SwapRight (it 70) (it 80);
   RemoveRight (it 50); SwapRightRemove (it 80) (it 90); CloneSelf; IterAll;
   RetainUnpaired unit (fun _ r => (tt, Some (fst r =? 60))) tt;
   RetainPaired unit (fun _ _ => (tt, Some false)) tt].
Definition gm1 (E : env item item N) : gmap item item N := fst (run E (with_hasher 7 0 0) g_hist1).

Lemma gm1_reachable : forall E room, In E [env_collide; env_spread; env_parity] -> room < 1000 ->
  lawful E /\ reachable E room (gm1 E).
Proof.
  intros E room HE B. split.
  { destruct HE as [<-|[<-|[<-|[]]]]; [apply env_collide_ok|apply env_spread_ok|apply env_parity_ok]. }
  exists 7, 0, 0, g_hist1. split; [|split; [|reflexivity]].
  - assert (X : budget g_hist1 = 13) by reflexivity. rewrite X. unfold two64. lia.
  - unfold g_hist1. cbn [guarded].
    destruct HE as [<-|[<-|[<-|[]]]];
    repeat (split; [first [exact I | vm_compute; reflexivity | vm_compute; auto; fail
                          | vm_compute; repeat split; auto; fail
                          | intros _; vm_compute; auto; fail | intros ? ? ? _ _; discriminate]|]); exact I.
Qed.
Definition gmc := gm1 env_collide.
Definition gms := gm1 env_spread.
Example gmc_holds : holds env_collide gmc
  [it 40; it 10; it 30; it 70; it 90]
  [(it 7, it 10); (it 5, it 30); (it 1, it 10); (it 2, it 30); (it 6, it 30); (it 8, it 10)].
Proof. split; vm_compute; reflexivity. Qed.
Example C47_case : reachable env_collide 1 gmc /\
  get_right env_collide gmc (it' 1) = Some (it 10) /\ are_paired env_collide gmc (it' 1) (it' 10) = true /\
  are_paired env_collide gmc (it 1) (it 30) = false /\ is_right_paired env_collide gmc (it' 40) = false /\
  (exists i, get_left_iter env_collide gmc (it' 10) = Some i /\
             pair_rest env_collide gmc i = Done [it 7; it 1; it 8]) /\
  (exists i, get_left_iter env_collide gmc (it' 40) = Some i /\ pair_rest env_collide gmc i = Done []).
Proof.
  split; [apply gm1_reachable; [simpl; auto|reflexivity]|].
  repeat (split; [vm_compute; reflexivity|]). split; eexists; split; vm_compute; reflexivity.
Qed.
(* both sides present / only the right / only the left / none *)
Example C48_case : reachable env_collide 1 gmc /\
  forallb (fun p => negb (are_paired env_collide gmc (fst p) (snd p)) &&
                    match insert env_collide (fst p) (snd p) gmc with
                    | Ret m' _ => are_paired env_collide m' (fst p) (snd p)
                    | Panic _ => false
                    end)
    [(it' 1, it' 30); (it 9, it' 40); (it' 1, it 99); (it 9, it 99)] = true.
Proof. split; [apply gm1_reachable; [simpl; auto|reflexivity]|vm_compute; reflexivity]. Qed.
Example C49_case :
  res_value (insert_remove env_collide (it' 1) (it' 30) gmc)
    = Some (Some (it 1), Some ([it 6; it 5; it 2], it 30)) /\
  res_value (insert_remove env_collide (it' 1) (it' 10) gmc)
    = Some (Some (it 1), Some ([it 7; it 8], it 10)) /\
  res_value (insert_left env_collide (it' 1) (it' 40) gmc) = Some (Some (it 1)) /\
  res_value (insert_left env_collide (it' 1) (it' 99) gmc) = Some None /\
  res_value (insert_right env_collide (it' 10) gmc) = Some (Some ([it 7; it 1; it 8], it 10)).
Proof. repeat (split; [vm_compute; reflexivity|]). vm_compute; reflexivity. Qed.
(* old in use and new absent; old unused; old absent and new present *)
Example C50_case :
  existsb (eqR env_collide (it' 10)) [it 40; it 10; it 30; it 70; it 90] = true /\
  existsb (eqR env_collide (it 99)) [it 40; it 10; it 30; it 70; it 90] = false /\
  is_right_paired env_collide gmc (it' 10) = true /\ is_right_paired env_collide gmc (it' 40) = false /\
  match swap_right env_collide (it' 10) (it 99) gmc with
  | Ret m' _ => are_paired env_collide m' (it 7) (it 99) = true /\ are_paired env_collide m' (it 7) (it 10) = false
                /\ len_right m' = 6%nat /\ get_right env_collide m' (it 5) = Some (it 30)
  | Panic _ => False
  end /\
  res_value (swap_right env_collide (it' 99) (it 10) gmc) = Some tt.
Proof. repeat (split; [vm_compute; reflexivity|]). vm_compute. repeat split; auto. Qed.
Example C51_case :
  match swap_right_remove env_collide (it' 10) (it 99) gmc with
  | Ret m' w => w = Some (it 10) /\ are_paired env_collide m' (it 7) (it 99) = true /\
                contains_right env_collide m' (it 10) = false /\ len_right m' = 5%nat /\
                get_right env_collide m' (it 5) = Some (it 30)
  | Panic _ => False
  end /\
  res_value (swap_right_remove env_collide (it 10) (it' 10) gmc) = Some (Some (it 10)) /\
  res_value (swap_right_remove env_collide (it 99) (it' 10) gmc) = Some None.
Proof. vm_compute. repeat split; auto. Qed.
Example C52_case :
  res_value (pair env_collide (it' 1) (it' 40) gmc) = Some true /\
  res_value (pair env_collide (it' 1) (it' 10) gmc) = Some true /\
  res_value (pair env_collide (it' 1) (it' 99) gmc) = Some false /\
  res_value (pair env_collide (it' 9) (it' 40) gmc) = Some false.
Proof. vm_compute. auto. Qed.
Example C53_case :
  res_value (remove_left env_collide (it' 1) gmc) = Some (Some (it 1)) /\
  res_value (remove_right env_collide (it' 10) gmc) = Some (Some ([it 7; it 1; it 8], it 10)) /\
  res_value (remove_right env_collide (it' 40) gmc) = Some (Some ([], it 40)) /\
  res_value (remove env_collide (it' 1) (it' 10) gmc) = Some (Some ([it 7; it 1; it 8], it 10)) /\
  res_value (remove env_collide (it' 1) (it' 30) gmc) = Some None.
Proof. vm_compute. auto 6. Qed.

(* C48 as stated is false, with and without hash collisions: inserting a pair that is already
   there takes it apart.  get_right still says 10, and removing 1 panics. *)
Theorem C48_insert_refuted : forall E, In E [env_collide; env_spread; env_parity] ->
  exists m l r m', lawful E /\ reachable E 1 m /\ are_paired E m l r = true /\
  insert E l r m = Ret m' tt /\ are_paired E m' l r = false /\ get_right E m' l = Some (it 10) /\
  (exists m'', remove_left E l m' = Panic m'').
Proof.
  intros E HE. destruct (gm1_reachable E 1 HE eq_refl) as [OK RE]. exists (gm1 E), (it 1), (it 10).
  destruct HE as [<-|[<-|[<-|[]]]]; eexists; (split; [exact OK|]); (split; [exact RE|]);
    (repeat (split; [vm_compute; reflexivity|]); eexists; vm_compute; reflexivity).
Qed.

(* C50 as stated is false.  Without collisions: 1 is moved from 10 to 99, but get_right(1) is
   None and iter_paired panics. *)
Theorem C50_swap_right_refuted : exists (E : env item item N) m l old new m',
  lawful E /\ reachable E 1 m /\ are_paired E m l old = true /\ contains_right E m new = false /\
  swap_right E old new m = Ret m' tt /\
  are_paired E m' l new = true /\ get_right E m' l = None /\
  paired_rest E m' (iter_paired m') = Panicked /\ iter_rest E m' (iter m') = Panicked.
Proof.
  exists env_spread, gms, (it 1), (it 10), (it 99). eexists.
  split; [exact env_spread_ok|]. split; [apply gm1_reachable; [simpl; auto|reflexivity]|].
  repeat (split; [vm_compute; reflexivity|]). vm_compute; reflexivity.
Qed.
(* With collisions: get_right(1) is still the old right item. *)
Theorem C50_swap_right_collision_refuted : exists (E : env item item N) m l old new m',
  lawful E /\ reachable E 1 m /\ are_paired E m l old = true /\ contains_right E m new = false /\
  swap_right E old new m = Ret m' tt /\
  are_paired E m' l new = true /\ get_right E m' l = Some old /\ are_paired E m' l old = false.
Proof.
  exists env_collide, gmc, (it 1), (it 10), (it 99). eexists.
  split; [exact env_collide_ok|]. split; [apply gm1_reachable; [simpl; auto|reflexivity]|].
  repeat (split; [vm_compute; reflexivity|]). vm_compute; reflexivity.
Qed.
(* If new is present already there are two equal right items afterwards. *)
Theorem C50_swap_right_duplicate_refuted : exists (E : env item item N) m old new m' rs,
  lawful E /\ reachable E 1 m /\ contains_right E m old = true /\ contains_right E m new = true /\
  swap_right E old new m = Ret m' tt /\
  right_rest (iter_right m') = Done rs /\ ~ distinct (eqR E) rs.
Proof.
  exists env_spread, gms, (it 40), (it 30). do 2 eexists.
  split; [exact env_spread_ok|]. split; [apply gm1_reachable; [simpl; auto|reflexivity]|].
  repeat (split; [vm_compute; reflexivity|]). intros D.
  inversion D as [|a l F _]; subst. rewrite Forall_forall in F.
  specialize (F (it 30)). vm_compute in F. discriminate F. auto 10.
Qed.
Theorem C51_swap_right_remove_refuted : exists (E : env item item N) m l old new m',
  lawful E /\ reachable E 1 m /\ are_paired E m l old = true /\ contains_right E m new = false /\
  swap_right_remove E old new m = Ret m' (Some old) /\
  are_paired E m' l new = true /\ get_right E m' l = None /\
  paired_rest E m' (iter_paired m') = Panicked /\ iter_rest E m' (iter m') = Panicked.
Proof.
  exists env_collide, gmc, (it 1), (it 10), (it 99). eexists.
  split; [exact env_collide_ok|]. split; [apply gm1_reachable; [simpl; auto|reflexivity]|].
  repeat (split; [vm_compute; reflexivity|]). vm_compute; reflexivity.
Qed.

Print Assumptions C47_single_copy.
Print Assumptions C47_groups.
Print Assumptions C48_insert_partial.
Print Assumptions C48_insert_refuted.
Print Assumptions C49_insert_remove.
Print Assumptions C49_insert_left.
Print Assumptions C49_insert_right.
Print Assumptions C50_swap_right_partial.
Print Assumptions C50_swap_right_refuted.
Print Assumptions C50_swap_right_collision_refuted.
Print Assumptions C50_swap_right_duplicate_refuted.
Print Assumptions C51_swap_right_remove_partial.
Print Assumptions C51_swap_right_remove_refuted.
Print Assumptions C52_pair.
Print Assumptions C53_remove_left.
Print Assumptions C53_remove_right.
Print Assumptions C53_remove.
