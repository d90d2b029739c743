(* CycleMap: the two sides are mirror images (C125).

   A CycleMap<R, L> holding the pairs of a CycleMap<L, R> turned round is called with the
   mirrored calls (left for right, right for left).  Hash functions, hasher states, layouts and
   histories of the two maps need not have anything to do with each other. *)
From Coq Require Import List NArith Lia Bool Permutation PeanoNat.
From Verif Require Import Closures Prelude RawTable Optionals CycleMap ListFacts TableFacts CycleMapSpec
  CycleMapHistory CycleMapProofs CycleMapProofs2 CycleMapProofs3 CycleMapHistoryProofs Concrete
  CycleMapProps CycleMapProps2 CycleMapHashFree CycleMapProps3 CycleMapLaws.
Import ListNotations.
Open Scope N_scope.

Definition turn {A B} (p : A * B) : B * A := (snd p, fst p).
Definition turned {A B} (ps : list (A * B)) : list (B * A) := map turn ps.

Section Mirror.
  Context {L R : Type} (eL : L -> L -> bool) (eR : R -> R -> bool).

  (* the call for the other side *)
  Definition mirror (o : op L R) : op R L :=
    match o with
    | Insert l r => Insert r l
    | Remove l r => Remove r l
    | RemoveViaLeft l => RemoveViaRight l
    | RemoveViaRight r => RemoveViaLeft r
    | SwapLeft old new => SwapRight old new
    | SwapLeftChecked old ex new => SwapRightChecked old ex new
    | SwapLeftOrInsert old new ti => SwapRightOrInsert old new ti
    | SwapRight old new => SwapLeft old new
    | SwapRightChecked old ex new => SwapLeftChecked old ex new
    | SwapRightOrInsert old new ti => SwapLeftOrInsert old new ti
    | ArePaired l r => ArePaired r l
    | ContainsLeft l => ContainsRight l
    | ContainsRight r => ContainsLeft r
    | GetLeft r => GetRight r
    | GetRight l => GetLeft l
    | Len => Len
    | IsEmpty => IsEmpty
    | IterAll => IterAll
    | IterLeftAll => IterRightAll
    | IterRightAll => IterLeftAll
    | Extend xs => Extend (turned xs)
    | Retain X f x => Retain X (fun x r l => f x l r) x
    | DrainAll => DrainAll
    | DrainFilter X f x n leak => DrainFilter X (fun x r l => f x l r) x n leak
    | Clear => Clear
    | CloneSelf => CloneSelf
    | ShrinkTo n => ShrinkTo n
    | ShrinkToFit => ShrinkToFit
    | Reserve n => Reserve n
    | TryReserve n => TryReserve n
    end.

  (* what insert(l, r) reports, turned round.  Only if l and r were paired with each other the
     report stays on the left: that pair is found through the item given first. *)
  Definition turn_report (l : L) (r : R) (d : insert_optional L R) : insert_optional R L :=
    match d with
    | Neither => Neither
    | SomeLeft p => if eL l (fst p) && eR r (snd p) then SomeLeft (turn p) else SomeRight (turn p)
    | SomeRight p => SomeLeft (turn p)
    | SomeBoth p q => SomeBoth (turn q) (turn p)
    end.
  Definition turn_swap {A} (d : optional_pair A (L * R)) : optional_pair A (R * L) :=
    match d with
    | Neither => Neither
    | SomeLeft a => SomeLeft a
    | SomeRight p => SomeRight (turn p)
    | SomeBoth a p => SomeBoth a (turn p)
    end.

  (* the results of a call and of the mirrored call; nothing is said about the results of
     swap_*_or_insert (see C125_or_insert) and about what try_reserve answers *)
  Definition mirrored (o : op L R) (w : out L R) (w' : out R L) : Prop :=
    match o with
    | Insert l r => exists d, w = OIns d /\ w' = OIns (turn_report l r d)
    | Remove _ _ | RemoveViaLeft _ | RemoveViaRight _ =>
        exists p, w = OPair p /\ w' = OPair (option_map turn p)
    | SwapLeft _ _ | SwapLeftChecked _ _ _ => exists d, w = OSwapL d /\ w' = OSwapR (turn_swap d)
    | SwapRight _ _ | SwapRightChecked _ _ _ => exists d, w = OSwapR d /\ w' = OSwapL (turn_swap d)
    | SwapLeftOrInsert _ _ _ | SwapRightOrInsert _ _ _ => True
    | ArePaired _ _ | ContainsLeft _ | ContainsRight _ | IsEmpty => exists b, w = OBool b /\ w' = OBool b
    | GetLeft _ => exists x, w = OL x /\ w' = OR x
    | GetRight _ => exists x, w = OR x /\ w' = OL x
    | Len => exists n, w = ONat n /\ w' = ONat n
    | IterAll => exists ps ps', w = OPairs ps /\ w' = OPairs ps' /\ Permutation ps' (turned ps)
    | IterLeftAll => exists xs ys, w = OLs xs /\ w' = ORs ys /\ Permutation ys xs
    | IterRightAll => exists xs ys, w = ORs xs /\ w' = OLs ys /\ Permutation ys xs
    | DrainAll => exists ps ps', w = OItems (map Some ps ++ [None]) false /\
        w' = OItems (map Some ps' ++ [None]) false /\ Permutation ps' (turned ps)
    | DrainFilter _ _ _ n _ => exists ps ps', w = OItems ps false /\ w' = OItems ps' false /\
        length ps = n /\ length ps' = n /\
        (In None ps -> Permutation ps' (map (option_map turn) ps))
    | TryReserve _ => exists b b', w = OBool b /\ w' = OBool b'
    | _ => w = OUnit /\ w' = OUnit
    end.
  (* closures answer from the pair alone (the order of the visits differs between the two maps);
     no drain_filter leaked half way *)
  Definition even (o : op L R) : Prop :=
    match o with
    | Retain X f _ => exists p, forall x l r, snd (f x l r) = Some (p l r)
    | DrainFilter X f _ _ leak => leak = false /\ exists p, forall x l r, snd (f x l r) = Some (p l r)
    | _ => True
    end.
End Mirror.

Section Turned.
  Context {L R : Type}.
  Variables (eL : L -> L -> bool) (eR : R -> R -> bool).
  Hypothesis EL : equivalence eL.
  Hypothesis ER : equivalence eR.
  Notation bij := (bijective eL eR).
  Implicit Types (P Q : list (L * R)).

  Lemma turned_turned : forall P, turned (turned P) = P.
  Proof. intros P. unfold turned. induction P as [|[a b] P IH]; cbn; f_equal; auto. Qed.
  Lemma find_l_turned : forall P r, find_l eR (turned P) r = option_map turn (find_r eR P r).
  Proof. intros P r. unfold find_l, find_r. induction P as [|x P IH]; simpl; auto. destruct (eR r (snd x)); auto. Qed.
  Lemma find_r_turned : forall P l, find_r eL (turned P) l = option_map turn (find_l eL P l).
  Proof. intros P l. unfold find_l, find_r. induction P as [|x P IH]; simpl; auto. destruct (eL l (fst x)); auto. Qed.
  Lemma del_l_turned : forall P r, del_l eR (turned P) r = turned (del_r eR P r).
  Proof. intros P r. unfold del_l, del_r, turned. induction P as [|x P IH]; simpl; auto. destruct (eR r (snd x)); simpl; rewrite ?IH; auto. Qed.
  Lemma del_r_turned : forall P l, del_r eL (turned P) l = turned (del_l eL P l).
  Proof. intros P l. unfold del_l, del_r, turned. induction P as [|x P IH]; simpl; auto. destruct (eL l (fst x)); simpl; rewrite ?IH; auto. Qed.
  Lemma paired_turned : forall P l r, s_are_paired eR eL (turned P) r l = s_are_paired eL eR P l r.
  Proof. intros P l r. unfold s_are_paired. induction P as [|x P IH]; simpl; auto. rewrite IH, andb_comm. auto. Qed.
  Lemma has_l_turned : forall P r, s_contains_left eR (turned P) r = s_contains_right eR P r.
  Proof. intros P r. unfold s_contains_left, s_contains_right. induction P as [|x P IH]; simpl; auto. rewrite IH. auto. Qed.
  Lemma has_r_turned : forall P l, s_contains_right eL (turned P) l = s_contains_left eL P l.
  Proof. intros P l. unfold s_contains_left, s_contains_right. induction P as [|x P IH]; simpl; auto. rewrite IH. auto. Qed.
  Lemma del_comm : forall P l r, del_r eR (del_l eL P l) r = del_l eL (del_r eR P r) l.
  Proof.
    intros P l r. unfold del_l, del_r. induction P as [|x P IH]; simpl; auto.
    destruct (eL l (fst x)) eqn:A, (eR r (snd x)) eqn:B; simpl; rewrite ?A, ?B; simpl; rewrite ?IH; auto.
  Qed.
  Lemma insert_turned : forall P l r, s_insert eR eL (turned P) r l = turned (s_insert eL eR P l r).
  Proof. intros. unfold s_insert. rewrite del_l_turned, del_r_turned, <- del_comm. auto. Qed.
  Lemma insert_all_turned : forall xs P, s_insert_all eR eL (turned P) (turned xs) = turned (s_insert_all eL eR P xs).
  Proof.
    unfold s_insert_all. induction xs as [|x xs IH]; intros P; simpl; auto.
    rewrite insert_turned. apply IH.
  Qed.
  Lemma filter_turned : forall (f : R * L -> bool) P, filter f (turned P) = turned (filter (fun p => f (turn p)) P).
  Proof. intros f P. unfold turned. induction P as [|x P IH]; simpl; auto. destruct (f (turn x)); simpl; rewrite IH; auto. Qed.
  Lemma swap_l_turned : forall P old new, s_swap_left eR (turned P) old new = turned (s_swap_right eR P old new).
  Proof.
    intros. unfold s_swap_left, s_swap_right, s_swap_left_base, s_swap_right_base. rewrite find_l_turned.
    destruct (find_r eR P old) as [[a b]|]; simpl; destruct (eR new old); simpl; rewrite ?del_l_turned; auto.
  Qed.
  Lemma swap_r_turned : forall P old new, s_swap_right eL (turned P) old new = turned (s_swap_left eL P old new).
  Proof.
    intros. unfold s_swap_left, s_swap_right, s_swap_left_base, s_swap_right_base. rewrite find_r_turned.
    destruct (find_l eL P old) as [[a b]|]; simpl; destruct (eL new old); simpl; rewrite ?del_r_turned; auto.
  Qed.
  Lemma swap_l_out_turned : forall P old new,
    s_swap_left_out eR (turned P) old new = turn_swap (s_swap_right_out eR P old new).
  Proof.
    intros. unfold s_swap_left_out, s_swap_right_out, s_swap_left_evict, s_swap_right_evict.
    rewrite !find_l_turned. destruct (find_r eR P old) as [[a b]|]; simpl; auto.
    destruct (eR new old); simpl; auto. destruct (find_r eR P new); simpl; auto.
  Qed.
  Lemma swap_r_out_turned : forall P old new,
    s_swap_right_out eL (turned P) old new = turn_swap (s_swap_left_out eL P old new).
  Proof.
    intros. unfold s_swap_left_out, s_swap_right_out, s_swap_left_evict, s_swap_right_evict.
    rewrite !find_r_turned. destruct (find_l eL P old) as [[a b]|]; simpl; auto.
    destruct (eL new old); simpl; auto. destruct (find_l eL P new); simpl; auto.
  Qed.

  (* the pair of r, looked for among the pairs without l *)
  Lemma find_r_del : forall P l r, bij P ->
    find_r eR (del_l eL P l) r = match find_r eR P r with
                                 | Some p => if eL l (fst p) then None else Some p
                                 | None => None
                                 end.
  Proof.
    intros P l r [_ D]. unfold find_r, del_l. induction P as [|x P IH]; simpl; auto.
    simpl in D. apply distinct_cons in D as [A D]. destruct (eL l (fst x)) eqn:X; simpl.
    - rewrite IH by auto. destruct (eR r (snd x)) eqn:Y; auto. rewrite X.
      destruct (find _ P) as [q|] eqn:F; auto. exfalso. apply find_some in F as [I F].
      rewrite (eqb_replace_l eR ER r (snd x)) in F by auto. rewrite (A (snd q)) in F; [discriminate|].
      apply in_map; auto.
    - destruct (eR r (snd x)); auto. rewrite X. auto.
  Qed.
  Lemma find_l_del : forall P l r, bij P ->
    find_l eL (del_r eR P r) l = match find_l eL P l with
                                 | Some p => if eR r (snd p) then None else Some p
                                 | None => None
                                 end.
  Proof.
    intros P l r [D _]. unfold find_l, del_r. induction P as [|x P IH]; simpl; auto.
    simpl in D. apply distinct_cons in D as [A D]. destruct (eR r (snd x)) eqn:X; simpl.
    - rewrite IH by auto. destruct (eL l (fst x)) eqn:Y; auto. rewrite X.
      destruct (find _ P) as [q|] eqn:F; auto. exfalso. apply find_some in F as [I F].
      rewrite (eqb_replace_l eL EL l (fst x)) in F by auto. rewrite (A (fst q)) in F; [discriminate|].
      apply in_map; auto.
    - destruct (eL l (fst x)); auto. rewrite X. auto.
  Qed.
  Lemma insert_out_turned : forall P l r, bij P ->
    s_insert_out eR eL (turned P) r l = turn_report eL eR l r (s_insert_out eL eR P l r).
  Proof.
    intros P l r B. unfold s_insert_out. rewrite find_l_turned, del_l_turned, find_r_turned.
    rewrite find_r_del, find_l_del by auto.
    destruct (find_l eL P l) as [p|] eqn:F, (find_r eR P r) as [q|] eqn:G; cbn.
    - apply find_some in F as [I F], G as [J G].
      destruct (eL l (fst q)) eqn:X, (eR r (snd p)) eqn:Y; cbn; rewrite ?F, ?Y; auto.
      + assert (p = q) as <-; auto. apply (bij_eq_l eL eR EL P); auto.
        rewrite <- (eqb_replace_l eL EL l (fst p)); auto.
      + assert (p = q) as <-; [|congruence]. apply (bij_eq_l eL eR EL P); auto.
        rewrite <- (eqb_replace_l eL EL l (fst p)); auto.
      + assert (p = q) as <-; [|congruence]. apply (bij_eq_r eL eR ER P); auto.
        rewrite <- (eqb_replace_l eR ER r (snd p)); auto.
    - apply find_some in F as [I F]. destruct (eR r (snd p)) eqn:Y; cbn; rewrite ?F, ?Y; auto.
      exfalso. assert (Z := find_none _ _ G _ I). simpl in Z. congruence.
    - apply find_some in G as [J G]. destruct (eL l (fst q)) eqn:X; cbn; auto.
      exfalso. assert (Z := find_none _ _ F _ J). simpl in Z. congruence.
    - auto.
  Qed.

  (* one call *)
  Lemma step_mirror : forall o P P1 (P2 : list (R * L)) w w', bij P -> even o ->
    s_step eL eR P o P1 w -> s_step eR eL (turned P) (mirror o) P2 w' ->
    Permutation P2 (turned P1) /\ mirrored eL eR o w w'.
  Proof.
    intros o P P1 P2 w w' B T S1 S2. destruct o; cbn [s_step mirror mirrored even] in *.
    - destruct S1 as [-> ->], S2 as [-> ->]. rewrite insert_turned, insert_out_turned by auto. eauto.
    - destruct S1 as [-> ->], S2 as [-> ->]. unfold s_remove, s_remove_out. rewrite paired_turned.
      destruct (s_are_paired eL eR P l r) eqn:X; [|split; eauto; exists None; auto].
      rewrite del_l_turned, find_l_turned.
      assert (K : forall p, In p P -> eL l (fst p) = eR r (snd p)).
      { intros p I. apply (rel_one eL eR EL ER P); auto. apply (rel_stored _ _ EL ER); auto. }
      replace (del_r eR P r) with (del_l eL P l) by (apply filter_ext_in; intros p I; rewrite (K p I); auto).
      replace (find_r eR P r) with (find_l eL P l); [eauto|].
      unfold find_l, find_r. clear B X. induction P as [|x P IH]; simpl; auto.
      rewrite (K x) by (left; auto). rewrite IH; auto. intros p I. apply K. right; auto.
    - destruct S1 as [-> ->], S2 as [-> ->]. rewrite del_r_turned, find_r_turned. eauto.
    - destruct S1 as [-> ->], S2 as [-> ->]. rewrite del_l_turned, find_l_turned. eauto.
    - destruct S1 as [-> ->], S2 as [-> ->]. rewrite swap_r_turned, swap_r_out_turned. eauto.
    - rewrite paired_turned in S2. destruct (s_are_paired eL eR P old expected);
        destruct S1 as [-> ->], S2 as [-> ->]; [rewrite swap_r_turned, swap_r_out_turned; eauto|].
      split; auto. exists Neither; auto.
    - rewrite has_r_turned in S2. split; auto. destruct (s_contains_left eL P old);
        destruct S1 as [-> _], S2 as [-> _]; rewrite ?swap_r_turned, ?insert_turned; auto.
    - destruct S1 as [-> ->], S2 as [-> ->]. rewrite swap_l_turned, swap_l_out_turned. eauto.
    - rewrite paired_turned in S2. destruct (s_are_paired eL eR P expected old);
        destruct S1 as [-> ->], S2 as [-> ->]; [rewrite swap_l_turned, swap_l_out_turned; eauto|].
      split; auto. exists Neither; auto.
    - rewrite has_l_turned in S2. split; auto. destruct (s_contains_right eR P old);
        destruct S1 as [-> _], S2 as [-> _]; rewrite ?swap_l_turned, ?insert_turned; auto.
    - destruct S1 as [-> ->], S2 as [-> ->]. rewrite paired_turned. eauto.
    - destruct S1 as [-> ->], S2 as [-> ->]. rewrite has_r_turned. eauto.
    - destruct S1 as [-> ->], S2 as [-> ->]. rewrite has_l_turned. eauto.
    - destruct S1 as [-> ->], S2 as [-> ->]. unfold s_get_left, s_get_right. rewrite find_l_turned.
      split; auto. destruct (find_r eR P r); simpl; eauto.
    - destruct S1 as [-> ->], S2 as [-> ->]. unfold s_get_left, s_get_right. rewrite find_r_turned.
      split; auto. destruct (find_l eL P l); simpl; eauto.
    - destruct S1 as [-> ->], S2 as [-> ->]. unfold turned. rewrite map_length. eauto.
    - destruct S1 as [-> ->], S2 as [-> ->]. split; auto. destruct P; simpl; eauto.
    - destruct S1 as (-> & Q & PQ & ->), S2 as (-> & Q' & PQ' & ->). split; auto.
      exists Q, Q'. repeat split; auto. rewrite PQ'. apply Permutation_map. symmetry; auto.
    - destruct S1 as (-> & Q & PQ & ->), S2 as (-> & Q' & PQ' & ->). split; auto.
      exists (map fst Q), (map snd Q'). repeat split; auto. rewrite PQ', PQ. unfold turned. rewrite map_map. auto.
    - destruct S1 as (-> & Q & PQ & ->), S2 as (-> & Q' & PQ' & ->). split; auto.
      exists (map snd Q), (map fst Q'). repeat split; auto. rewrite PQ', PQ. unfold turned. rewrite map_map. auto.
    - destruct S1 as [-> ->], S2 as [-> ->]. rewrite insert_all_turned. auto.
    - destruct S1 as (Q & PQ & S1), S2 as (Q' & PQ' & S2), T as (p & Hp).
      destruct (s_filter_pure f p Hp Q x) as (x1 & F1).
      destruct (s_filter_pure (fun x r l => f x l r) (fun r l => p l r) (fun x r l => Hp x l r) Q' x) as (x2 & F2).
      rewrite F1 in S1. rewrite F2 in S2. destruct S1 as [-> ->], S2 as [-> ->]. split; auto.
      rewrite (filter_perm _ _ _ PQ'), filter_turned. apply Permutation_map. symmetry.
      apply filter_perm; auto.
    - destruct S1 as (-> & Q & PQ & ->), S2 as (-> & Q' & PQ' & ->). split; auto.
      exists Q, Q'. repeat split; auto. rewrite PQ'. apply Permutation_map. symmetry; auto.
    - destruct S1 as (Q & PQ & S1), S2 as (Q' & PQ' & S2), T as (-> & p & Hp).
      destruct (s_filter_pure f p Hp Q x) as (x1 & F1).
      destruct (s_filter_pure (fun x r l => f x l r) (fun r l => p l r) (fun x r l => Hp x l r) Q' x) as (x2 & F2).
      rewrite F1 in S1. rewrite F2 in S2. cbn [andb] in *. destruct S1 as [-> ->], S2 as [-> ->].
      set (p1 := fun q : L * R => p (fst q) (snd q)) in *.
      set (p2 := fun q : R * L => p (snd q) (fst q)) in *.
      assert (K : Permutation (filter p2 Q') (turned (filter p1 Q))).
      { rewrite (filter_perm _ _ _ PQ'), filter_turned. apply Permutation_map. symmetry. apply filter_perm; auto. }
      assert (LE : length (filter p2 Q') = length (filter p1 Q)).
      { rewrite (Permutation_length K). apply map_length. }
      split.
      { rewrite (filter_perm _ _ _ PQ'), filter_turned. apply Permutation_map. symmetry. apply filter_perm; auto. }
      do 2 eexists. repeat split; try (rewrite app_length, firstn_length, map_length, repeat_length; lia).
      intros I. assert (LT : (length (filter p1 Q) < n)%nat).
      { apply in_app_or in I as [I|I].
        - assert (J : In None (map Some (filter p1 Q))).
          { rewrite <- (firstn_skipn n). apply in_or_app; auto. }
          clear I; rename J into I. apply in_map_iff in I as (z & Z & _). discriminate.
        - destruct (Nat.lt_ge_cases (length (filter p1 Q)) n) as [|G]; auto. exfalso.
          replace (n - length (filter p1 Q))%nat with 0%nat in I by lia. destruct I. }
      rewrite !firstn_all2 by (rewrite map_length; lia). rewrite map_app, LE. apply Permutation_app.
      + rewrite map_map. rewrite K. unfold turned. rewrite map_map. auto.
      + clear. induction (n - length (filter p1 Q))%nat; simpl; auto.
    - destruct S1 as [-> ->], S2 as [-> ->]. auto.
    - destruct S1 as [-> ->], S2 as [-> ->]. auto.
    - destruct S1 as [-> ->], S2 as [-> ->]. auto.
    - destruct S1 as [-> ->], S2 as [-> ->]. auto.
    - destruct S1 as [-> ->], S2 as [-> ->]. auto.
    - destruct S1 as (-> & b & ->), S2 as (-> & b' & ->). eauto.
  Qed.
End Turned.

(* ---- C125 ---- *)
Section Theorems.
  Context {L R S S' : Type}.
  Variables (E : env L R S) (E' : env R L S').
  Hypothesis OK : lawful E.
  Hypothesis OK' : lawful E'.
  (* the items are compared in the same way *)
  Hypothesis QL : eqL E' = eqR E.
  Hypothesis QR : eqR E' = eqL E.
  Let EL := eqL_equiv _ OK.
  Let ER := eqR_equiv _ OK.

  (* iter() yields the same pairs, turned round, in any order *)
  Definition images (m : cmap L R S) (m' : cmap R L S') : Prop :=
    exists P P', contents E m P /\ contents E' m' P' /\ Permutation P' (turned P).

  Lemma images_repr : forall room room' m m', reachable E room m -> reachable E' room' m' -> images m m' ->
    exists s c s' c' P, Repr E s c m P /\ c + room < two64 /\ Repr E' s' c' m' (turned P) /\ c' + room' < two64.
  Proof.
    intros room room' m m' H H' (P & P' & V & V' & PM).
    apply (reachable_view E OK) in H as (s & c & Q & W & H & C).
    apply (reachable_view E' OK') in H' as (s' & c' & Q' & W' & H' & C').
    unfold contents in *. rewrite W in V. injection V as ->. rewrite W' in V'. injection V' as ->.
    exists s, c, s', c', P. repeat split; auto. eapply (repr_perm E' OK'); eauto.
  Qed.
  Lemma repr_images : forall s c m P s' c' m', Repr E s c m P -> Repr E' s' c' m' (turned P) -> images m m'.
  Proof.
    intros s c m P s' c' m' H H'. destruct (iter_all_ok E OK _ _ _ _ H) as (Q & V & PQ).
    destruct (iter_all_ok E' OK' _ _ _ _ H') as (Q' & V' & PQ'). exists Q, Q'. repeat split; auto.
    rewrite PQ'. apply Permutation_map. symmetry; auto.
  Qed.

  (* the mirrored calls on a mirror image leave a mirror image and give the mirrored results *)
  Theorem C125_mirror : forall ops room room' m m', reachable E room m -> reachable E' room' m' -> images m m' ->
    Forall even ops -> budget ops <= room -> budget ops <= room' ->
    images (fst (run E m ops)) (fst (run E' m' (map mirror ops))) /\
    Forall2 (fun o ww => mirrored (eqL E) (eqR E) o (fst ww) (snd ww)) ops
            (combine (snd (run E m ops)) (snd (run E' m' (map mirror ops)))).
  Proof.
    intros ops room room' m m' H H' I T B B'.
    destruct (images_repr _ _ _ _ H H' I) as (s & c & s' & c' & P & K & C & K' & C'). clear H H' I.
    assert (D : c + budget ops < two64) by lia. assert (D' : c' + budget ops < two64) by lia.
    clear B B' C C'. revert c c' m m' P K K' D D'.
    induction T as [|o ops To T IH]; intros c c' m m' P K K' D D'.
    - cbn. split; [|constructor]. eapply repr_images; eauto.
    - cbn [run budget map] in *.
      assert (MI : ids (mirror o) = ids o).
      { destruct o; auto. cbn. unfold turned. rewrite map_length. auto. }
      destruct (step_ok E OK s c m P o K) as (P1 & c1 & S1 & H1 & C1); [lia|].
      destruct (step_ok E' OK' s' c' m' (turned P) (mirror o) K') as (P2 & c2 & S2 & H2 & C2); [lia|].
      rewrite QL, QR in S2.
      destruct (step_mirror _ _ EL ER o P P1 P2 _ _ (repr_bij _ _ _ _ _ K) To S1 S2) as [PM W].
      apply (repr_perm E' OK' _ _ _ _ _ PM) in H2.
      destruct (step E m o) as [m1 w], (step E' m' (mirror o)) as [m2 w']. cbn [fst snd] in *.
      destruct (IH c1 c2 m1 m2 P1 H1 H2) as [X Y]; [lia|lia|].
      destruct (run E m1 ops) as [n1 ws], (run E' m2 (map mirror ops)) as [n2 ws']. cbn [fst snd combine] in *.
      split; auto.
  Qed.

  (* swap_left_or_insert and swap_right_or_insert: the results are mirrored exactly if old is
     there, or neither of the other two items is *)
  Theorem C125_or_insert : forall m m' old new to_insert, reachable E 1 m -> reachable E' 1 m' -> images m m' ->
    ((exists d, snd (step E m (SwapLeftOrInsert old new to_insert)) = OSwapL d /\
                snd (step E' m' (SwapRightOrInsert old new to_insert)) = OSwapR (turn_swap d)) <->
     contains_left E m old = true \/
     contains_left E m new = false /\ contains_right E m to_insert = false).
  Proof.
    intros m m' old new ti H H' I.
    destruct (images_repr _ _ _ _ H H' I) as (s & c & s' & c' & P & K & C & K' & C'). clear H H' I.
    destruct (step_ok E OK s c m P (SwapLeftOrInsert old new ti) K) as (P1 & c1 & S1 & _); [cbn [ids]; lia|].
    destruct (step_ok E' OK' s' c' m' (turned P) (SwapRightOrInsert old new ti) K') as (P2 & c2 & S2 & _); [cbn [ids]; lia|].
    rewrite (contains_left_spec E OK _ _ _ _ _ K), (contains_left_spec E OK _ _ _ _ _ K),
      (contains_right_spec E OK _ _ _ _ _ K).
    rewrite QL, QR in S2. cbn [s_step] in *. rewrite has_r_turned in S2.
    assert (B := repr_bij _ _ _ _ _ K).
    destruct (s_contains_left (eqL E) P old) eqn:O.
    - destruct S1 as [_ ->], S2 as [_ ->]. rewrite swap_r_out_turned. split; eauto.
    - destruct S1 as [_ ->], S2 as [_ ->]. rewrite has_l_turned, find_r_turned.
      unfold s_insert_out. rewrite (find_r_del _ _ ER) by auto.
      assert (FL : s_contains_left (eqL E) P new = match find_l (eqL E) P new with Some _ => true | None => false end).
      { unfold s_contains_left, find_l. clear. induction P as [|x P IH]; simpl; auto. destruct (eqL E new (fst x)); auto. }
      assert (FR : s_contains_right (eqR E) P ti = match find_r (eqR E) P ti with Some _ => true | None => false end).
      { unfold s_contains_right, find_r. clear. induction P as [|x P IH]; simpl; auto. destruct (eqR E ti (snd x)); auto. }
      rewrite FL, FR. destruct (find_l (eqL E) P new) as [p|] eqn:F, (find_r (eqR E) P ti) as [q|] eqn:G; cbn.
      + split; [intros (d & _ & X); discriminate|intros [X|[X _]]; discriminate].
      + split; [intros (d & X & Y)|intros [X|[X _]]; discriminate].
        injection X as <-. discriminate.
      + split; [intros (d & _ & X); discriminate|intros [X|[_ X]]; discriminate].
      + split; [intros _; right; auto|intros _; exists Neither; auto].
  Qed.
End Theorems.

(* m1 (all hashes collide: 4-30, 1-20, 5-50) and an image of it made with another hash function,
   another hasher state and another history *)
Definition m1_image : cmap item item N :=
  fst (run env_spread (with_hasher 3 1 2)
         [Insert (it 20) (it 7); Insert (it 50) (it 5); Insert (it 30) (it 4); SwapRight (it 7) (it 1)]).
Example C125_case :
  let E := env_collide in let E' := env_spread in
  lawful E /\ lawful E' /\ eqL E' = eqR E /\ eqR E' = eqL E /\
  reachable E 8 m1 /\ reachable E' 8 m1_image /\ images E E' m1 m1_image /\
  let ops := [Insert (it 9) (it 50); Insert (1, 8) (20, 8); SwapLeft (it 4) (it 1); RemoveViaRight (it 50);
              Extend [(it 6, it 60); (it 7, it 60)]; keep (fun l _ => N.ltb (fst l) 7); GetLeft (30, 9)] in
  Forall even ops /\
  snd (run E m1 ops) =
    [OIns (SomeRight (it 5, it 50)); OIns (SomeLeft (it 1, it 20)); OSwapL (SomeBoth (it 4) ((1, 8), (20, 8)));
     OPair (Some (it 9, it 50)); OUnit; OUnit; OL (Some (it 1))] /\
  snd (run E' m1_image (map mirror ops)) =
    [OIns (SomeLeft (it 50, it 5)); OIns (SomeLeft (it 20, it 1)); OSwapR (SomeBoth (it 4) ((20, 8), (1, 8)));
     OPair (Some (it 50, it 9)); OUnit; OUnit; OR (Some (it 1))] /\
  iter_all E (fst (run E m1 ops)) = Done [(it 1, it 30)] /\
  iter_all E' (fst (run E' m1_image (map mirror ops))) = Done [(it 30, it 1)] /\
  (* swap_*_or_insert, old absent, one of the other items present *)
  snd (step E m1 (SwapLeftOrInsert (it 9) (it 4) (it 90))) = OSwapL (SomeLeft (it 4)) /\
  snd (step E' m1_image (SwapRightOrInsert (it 9) (it 4) (it 90))) = OSwapR (SomeRight (it 30, it 4)) /\
  snd (step E m1 (SwapLeftOrInsert (it 9) (it 8) (it 50))) = OSwapL (SomeRight (it 5, it 50)) /\
  snd (step E' m1_image (SwapRightOrInsert (it 9) (it 8) (it 50))) = OPanic.
Proof.
  split; [apply env_collide_ok|]. split; [apply env_spread_ok|].
  split; [reflexivity|]. split; [reflexivity|].
  split; [exists 7, 0, 0, hist1; split; [vm_compute; reflexivity|reflexivity]|].
  split; [do 4 eexists; split; [|reflexivity]; vm_compute; reflexivity|].
  split.
  { do 2 eexists. split; [vm_compute; reflexivity|]. split; [vm_compute; reflexivity|].
    cbn. apply perm_skip, perm_swap. }
  split; [repeat constructor; eexists; intros; reflexivity|].
  vm_compute. auto 12.
Qed.

Print Assumptions C125_mirror.
Print Assumptions C125_or_insert.
