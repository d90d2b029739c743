(* CycleMap and PartialCycleMap: the calls they share do the same (C127).

   A PartialCycleMap without unpaired items that holds the pairs of a CycleMap is called with the
   calls of the same name.  Hash functions, hasher states, layouts and histories of the two maps
   need not have anything to do with each other.  The names of CycleMap's side are qualified. *)
From Coq Require Import List NArith Lia Bool Permutation PeanoNat.
From Verif Require CycleMap CycleMapSpec CycleMapHistory CycleMapProofs CycleMapProofs2 CycleMapHistoryProofs CycleMapProps.
From Verif Require Import Closures Prelude RawTable Optionals PartialCycleMap ListFacts TableFacts PartialSpec
  PartialHistory PartialProofs PartialProofs2 PartialProofs5 PartialProofs6 PartialHistoryProofs Concrete PartialProps.
Import ListNotations.
Open Scope N_scope.

(* a pair as an entry *)
Definition up {A B} (p : A * B) : optional_pair A B := SomeBoth (fst p) (snd p).
Definition ups {A B} (ps : list (A * B)) : list (optional_pair A B) := map up ps.
(* an entry reported, or Neither *)
Definition up_opt {A B} (o : option (A * B)) : optional_pair A B :=
  match o with Some p => up p | None => Neither end.

Section Same.
  Context {L R : Type}.

  (* PartialCycleMap's call of the same name; retain is given the opposite answers, since
     PartialCycleMap's removes what the closure accepts (C41).  [None]: calls not compared
     (drain: C15, C39; drain_filter, which shows paired items twice: C40). *)
  Definition same_call (o : CycleMapHistory.op L R) : option (op L R) :=
    match o with
    | CycleMapHistory.Insert l r => Some (Insert l r)
    | CycleMapHistory.Remove l r => Some (Remove l r)
    | CycleMapHistory.RemoveViaLeft l => Some (RemoveViaLeft l)
    | CycleMapHistory.RemoveViaRight r => Some (RemoveViaRight r)
    | CycleMapHistory.SwapLeft old new => Some (SwapLeft old new)
    | CycleMapHistory.SwapLeftChecked old ex new => Some (SwapLeftChecked old ex new)
    | CycleMapHistory.SwapLeftOrInsert old new ti => Some (SwapLeftOrInsert old new ti)
    | CycleMapHistory.SwapRight old new => Some (SwapRight old new)
    | CycleMapHistory.SwapRightChecked old ex new => Some (SwapRightChecked old ex new)
    | CycleMapHistory.SwapRightOrInsert old new ti => Some (SwapRightOrInsert old new ti)
    | CycleMapHistory.ArePaired l r => Some (ArePaired l r)
    | CycleMapHistory.ContainsLeft l => Some (ContainsLeft l)
    | CycleMapHistory.ContainsRight r => Some (ContainsRight r)
    | CycleMapHistory.GetLeft r => Some (GetLeft r)
    | CycleMapHistory.GetRight l => Some (GetRight l)
    | CycleMapHistory.Len => Some LenLeft
    | CycleMapHistory.IsEmpty => Some IsEmpty
    | CycleMapHistory.IterAll => Some IterAll
    | CycleMapHistory.IterLeftAll => Some IterLeftAll
    | CycleMapHistory.IterRightAll => Some IterRightAll
    | CycleMapHistory.Extend xs => Some (ExtendPairs xs)
    | CycleMapHistory.Retain X f x =>
        Some (RetainPaired X (fun x p => let '(x', b) := f x (fst p) (snd p) in (x', option_map negb b)) x)
    | CycleMapHistory.DrainAll | CycleMapHistory.DrainFilter _ _ _ _ _ => None
    | CycleMapHistory.Clear => Some Clear
    | CycleMapHistory.CloneSelf => Some CloneSelf
    | CycleMapHistory.ShrinkTo n => Some (ShrinkToLeft n)
    | CycleMapHistory.ShrinkToFit => Some ShrinkToFit
    | CycleMapHistory.Reserve n => Some (ReserveLeft n)
    | CycleMapHistory.TryReserve n => Some (TryReserveLeft n)
    end.

  (* what insert reports: one entry for either item *)
  Definition up_report (d : insert_optional L R) : optional_pair L R * optional_pair L R :=
    match d with
    | Neither => (Neither, Neither)
    | SomeLeft p => (up p, Neither)
    | SomeRight q => (Neither, up q)
    | SomeBoth p q => (up p, up q)
    end.
  Definition up_swap {A} (d : optional_pair A (L * R)) : optional_pair A (optional_pair L R) :=
    match d with
    | Neither => Neither
    | SomeLeft a => SomeLeft a
    | SomeRight p => SomeRight (up p)
    | SomeBoth a p => SomeBoth a (up p)
    end.

  (* the results of the two calls; nothing is said about swap_*_or_insert (see C127_or_insert)
     and about what try_reserve answers *)
  Definition agree (o : CycleMapHistory.op L R) (w : CycleMapHistory.out L R) (w' : out L R) : Prop :=
    match o with
    | CycleMapHistory.Insert _ _ => exists d, w = CycleMapHistory.OIns d /\ w' = OIns (up_report d)
    | CycleMapHistory.Remove _ _ => exists p, w = CycleMapHistory.OPair p /\ w' = OPair p
    | CycleMapHistory.RemoveViaLeft _ | CycleMapHistory.RemoveViaRight _ => exists p, w = CycleMapHistory.OPair p /\ w' = OEntry (up_opt p)
    | CycleMapHistory.SwapLeft _ _ | CycleMapHistory.SwapLeftChecked _ _ _ => exists d, w = CycleMapHistory.OSwapL d /\ w' = OSwapL (up_swap d)
    | CycleMapHistory.SwapRight _ _ | CycleMapHistory.SwapRightChecked _ _ _ => exists d, w = CycleMapHistory.OSwapR d /\ w' = OSwapR (up_swap d)
    | CycleMapHistory.ArePaired _ _ | CycleMapHistory.ContainsLeft _ | CycleMapHistory.ContainsRight _ | CycleMapHistory.IsEmpty =>
        exists b, w = CycleMapHistory.OBool b /\ w' = OBool b
    | CycleMapHistory.GetLeft _ => exists x, w = CycleMapHistory.OL x /\ w' = OL x
    | CycleMapHistory.GetRight _ => exists x, w = CycleMapHistory.OR x /\ w' = OR x
    | CycleMapHistory.Len => exists n, w = CycleMapHistory.ONat n /\ w' = ONat n
    | CycleMapHistory.IterAll => exists ps es, w = CycleMapHistory.OPairs ps /\ w' = OEntries es /\ Permutation es (ups ps)
    | CycleMapHistory.IterLeftAll => exists xs ys, w = CycleMapHistory.OLs xs /\ w' = OLs ys /\ Permutation ys xs
    | CycleMapHistory.IterRightAll => exists xs ys, w = CycleMapHistory.ORs xs /\ w' = ORs ys /\ Permutation ys xs
    | CycleMapHistory.TryReserve _ => exists b b', w = CycleMapHistory.OBool b /\ w' = OBool b'
    | CycleMapHistory.SwapLeftOrInsert _ _ _ | CycleMapHistory.SwapRightOrInsert _ _ _ => True
    | CycleMapHistory.DrainAll | CycleMapHistory.DrainFilter _ _ _ _ _ => False
    | _ => w = CycleMapHistory.OUnit /\ w' = OUnit
    end.

  (* closures answer from the pair alone: the order of the visits differs between the two maps *)
  Definition plain (o : CycleMapHistory.op L R) : Prop :=
    match o with
    | CycleMapHistory.Retain X f _ => exists p, forall x l r, snd (f x l r) = Some (p l r)
    | _ => True
    end.

  Variables (eL : L -> L -> bool) (eR : R -> R -> bool).
  Implicit Types (P : list (L * R)) (l : L) (r : R).

  Lemma find_map : forall {A B} (g : A -> B) (f : B -> bool) (zs : list A),
    find f (map g zs) = option_map g (find (fun z => f (g z)) zs).
  Proof. induction zs as [|z zs IH]; simpl; auto. destruct (f (g z)); auto. Qed.
  Lemma filter_map : forall {A B} (g : A -> B) (f : B -> bool) (zs : list A),
    filter f (map g zs) = map g (filter (fun z => f (g z)) zs).
  Proof. induction zs as [|z zs IH]; simpl; auto. rewrite IH. destruct (f (g z)); auto. Qed.
  Lemma existsb_map : forall {A B} (g : A -> B) (f : B -> bool) (zs : list A),
    existsb f (map g zs) = existsb (fun z => f (g z)) zs.
  Proof. induction zs as [|z zs IH]; simpl; auto. rewrite IH. auto. Qed.

  Lemma find_l_up : forall P l, find_l eL (ups P) l = option_map up (CycleMapSpec.find_l eL P l).
  Proof. intros. apply (find_map up (has_l eL l)). Qed.
  Lemma find_r_up : forall P r, find_r eR (ups P) r = option_map up (CycleMapSpec.find_r eR P r).
  Proof. intros. apply (find_map up (has_r eR r)). Qed.
  Lemma del_l_up : forall P l, del_l eL (ups P) l = ups (CycleMapSpec.del_l eL P l).
  Proof. intros. apply (filter_map up (fun x => negb (has_l eL l x))). Qed.
  Lemma del_r_up : forall P r, del_r eR (ups P) r = ups (CycleMapSpec.del_r eR P r).
  Proof. intros. apply (filter_map up (fun x => negb (has_r eR r x))). Qed.
  Lemma cl_up : forall P l, s_contains_left eL (ups P) l = CycleMapSpec.s_contains_left eL P l.
  Proof. intros. apply (existsb_map up (has_l eL l)). Qed.
  Lemma cr_up : forall P r, s_contains_right eR (ups P) r = CycleMapSpec.s_contains_right eR P r.
  Proof. intros. apply (existsb_map up (has_r eR r)). Qed.
  Lemma paired_up : forall P l r, s_are_paired eL eR (ups P) l r = CycleMapSpec.s_are_paired eL eR P l r.
  Proof. intros. apply (existsb_map up (fun x => has_l eL l x && has_r eR r x)). Qed.
  Lemma or_up : forall o : option (L * R), or_neither (option_map up o) = up_opt o.
  Proof. destruct o; auto. Qed.
  Lemma insert_up : forall P l r, s_insert eL eR (ups P) l r = ups (CycleMapSpec.s_insert eL eR P l r).
  Proof. intros. unfold s_insert. rewrite del_l_up, del_r_up. auto. Qed.
  Lemma insert_out_up : forall P l r,
    s_insert_out eL eR (ups P) l r = up_report (CycleMapSpec.s_insert_out eL eR P l r).
  Proof.
    intros. unfold s_insert_out, CycleMapSpec.s_insert_out. rewrite del_l_up, find_l_up, find_r_up, !or_up.
    destruct (CycleMapSpec.find_l eL P l), (CycleMapSpec.find_r eR (CycleMapSpec.del_l eL P l) r); auto.
  Qed.
  Lemma remove_up : forall P l r, s_remove eL eR (ups P) l r = ups (CycleMapSpec.s_remove eL eR P l r).
  Proof. intros. unfold s_remove, CycleMapSpec.s_remove. rewrite paired_up, del_l_up. destruct (CycleMapSpec.s_are_paired _ _ _ _ _); auto. Qed.
  Lemma remove_out_up : forall P l r, s_remove_out eL eR (ups P) l r = CycleMapSpec.s_remove_out eL eR P l r.
  Proof.
    intros. unfold s_remove_out, CycleMapSpec.s_remove_out. rewrite paired_up, find_l_up.
    destruct (CycleMapSpec.s_are_paired _ _ _ _ _), (CycleMapSpec.find_l eL P l) as [[]|]; auto.
  Qed.
  Lemma swap_l_up : forall P (old new : L), s_swap_left eL (ups P) old new = ups (CycleMapSpec.s_swap_left eL P old new) /\
    s_swap_left_out eL (ups P) old new = up_swap (CycleMapSpec.s_swap_left_out eL P old new).
  Proof.
    intros. unfold s_swap_left, CycleMapSpec.s_swap_left, s_swap_left_base, CycleMapSpec.s_swap_left_base, s_swap_left_out,
      CycleMapSpec.s_swap_left_out, CycleMapSpec.s_swap_left_evict. rewrite !find_l_up.
    destruct (CycleMapSpec.find_l eL P old) as [[a b]|]; cbn [option_map].
    - split; [destruct (eL new old); rewrite ?del_l_up; auto|].
      destruct (eL new old); auto. destruct (CycleMapSpec.find_l eL P new); auto.
    - split; auto. destruct (eL new old); rewrite ?del_l_up; auto.
  Qed.
  Lemma swap_r_up : forall P (old new : R), s_swap_right eR (ups P) old new = ups (CycleMapSpec.s_swap_right eR P old new) /\
    s_swap_right_out eR (ups P) old new = up_swap (CycleMapSpec.s_swap_right_out eR P old new).
  Proof.
    intros. unfold s_swap_right, CycleMapSpec.s_swap_right, s_swap_right_base, CycleMapSpec.s_swap_right_base, s_swap_right_out,
      CycleMapSpec.s_swap_right_out, CycleMapSpec.s_swap_right_evict. rewrite !find_r_up.
    destruct (CycleMapSpec.find_r eR P old) as [[a b]|]; cbn [option_map].
    - split; [destruct (eR new old); rewrite ?del_r_up; auto|].
      destruct (eR new old); auto. destruct (CycleMapSpec.find_r eR P new); auto.
    - split; auto. destruct (eR new old); rewrite ?del_r_up; auto.
  Qed.
  Lemma lefts_up : forall P, lefts (ups P) = map fst P.
  Proof. induction P as [|p P IH]; simpl; auto. f_equal; auto. Qed.
  Lemma rights_up : forall P, rights (ups P) = map snd P.
  Proof. induction P as [|p P IH]; simpl; auto. f_equal; auto. Qed.
  Lemma pairs_up : forall P, s_pairs (ups P) = P.
  Proof. induction P as [|[a b] P IH]; simpl; auto. f_equal; auto. Qed.
  Lemma unpaired_up : forall P, s_unpaired (ups P) = [].
  Proof. induction P as [|p P IH]; simpl; auto. Qed.
  Lemma left_up : forall P, filter has_left_item (ups P) = ups P.
  Proof. induction P as [|p P IH]; simpl; auto. f_equal; auto. Qed.
  Lemma pure_filter : forall {T X} (f : X -> T -> X * verdict) (p : T -> bool),
    (forall x q, snd (f x q) = Some (p q)) -> forall (zs : list T) x, exists x',
    s_filter f x zs = (x', filter p zs, filter (fun z => negb (p z)) zs, false).
  Proof.
    intros T X f p Hp. induction zs as [|z zs IH]; intros x; [eexists; reflexivity|].
    simpl. assert (Hz := Hp x z). destruct (f x z) as [x1 [b|]]; simpl in Hz; [|discriminate].
    injection Hz as ->. destruct (IH x1) as (x2 & ->). exists x2. destruct (p z); auto.
  Qed.

  Lemma contains_del : equivalence eR -> forall P l r, CycleMapSpec.bijective eL eR P ->
    CycleMapSpec.s_contains_right eR (CycleMapSpec.del_l eL P l) r =
    CycleMapSpec.s_contains_right eR P r && negb (CycleMapSpec.s_are_paired eL eR P l r).
  Proof.
    intros ER P l r [_ D]. unfold CycleMapSpec.s_contains_right, CycleMapSpec.del_l, CycleMapSpec.s_are_paired.
    induction P as [|x P IH]; simpl; auto.
    simpl in D. apply distinct_cons in D as [A D].
    assert (N : eR r (snd x) = true -> existsb (fun p => eR r (snd p)) P = false).
    { intros Y. apply existsb_false. intros q I. rewrite (eqb_replace_l eR ER r (snd x)) by auto.
      apply A, in_map; auto. }
    assert (N' : eR r (snd x) = true -> existsb (fun p => eL l (fst p) && eR r (snd p)) P = false).
    { intros Y. apply existsb_false. intros q I. rewrite (eqb_replace_l eR ER r (snd x)), (A (snd q)) by (auto using in_map).
      apply andb_false_r. }
    destruct (eL l (fst x)) eqn:X, (eR r (snd x)) eqn:Y; simpl; rewrite ?Y, ?IH; auto.
    - rewrite N; auto.
    - rewrite N'; auto.
  Qed.

  (* one call *)
  Lemma step_same : forall o o' P P1 (P2 : list (optional_pair L R)) w w', plain o -> same_call o = Some o' ->
    CycleMapHistory.s_step eL eR P o P1 w -> s_step eL eR (ups P) o' P2 w' ->
    Permutation P2 (ups P1) /\ agree o w w'.
  Proof.
    intros o o' P P1 P2 w w' T O S1 S2.
    destruct o; cbn [same_call] in O; try discriminate; injection O as <-;
      cbn [CycleMapHistory.s_step s_step agree plain] in *.
    - destruct S1 as [-> ->], S2 as [-> ->]. rewrite insert_up, insert_out_up. eauto.
    - destruct S1 as [-> ->], S2 as [-> ->]. rewrite remove_up, remove_out_up. eauto.
    - destruct S1 as [-> ->], S2 as [-> ->]. rewrite del_l_up, find_l_up, or_up. eauto.
    - destruct S1 as [-> ->], S2 as [-> ->]. rewrite del_r_up, find_r_up, or_up. eauto.
    - destruct S1 as [-> ->], S2 as [-> ->]. destruct (swap_l_up P old new) as [-> ->]. eauto.
    - rewrite paired_up in S2. destruct (CycleMapSpec.s_are_paired eL eR P old expected);
        destruct S1 as [-> ->], S2 as [-> ->]; [destruct (swap_l_up P old new) as [-> ->]; eauto|].
      split; auto. exists Neither; auto.
    - rewrite cl_up in S2. split; auto. destruct (CycleMapSpec.s_contains_left eL P old);
        destruct S1 as [-> _], S2 as [-> _]; [destruct (swap_l_up P old new) as [-> _]|rewrite insert_up]; auto.
    - destruct S1 as [-> ->], S2 as [-> ->]. destruct (swap_r_up P old new) as [-> ->]. eauto.
    - rewrite paired_up in S2. destruct (CycleMapSpec.s_are_paired eL eR P expected old);
        destruct S1 as [-> ->], S2 as [-> ->]; [destruct (swap_r_up P old new) as [-> ->]; eauto|].
      split; auto. exists Neither; auto.
    - rewrite cr_up in S2. split; auto. destruct (CycleMapSpec.s_contains_right eR P old);
        destruct S1 as [-> _], S2 as [-> _]; [destruct (swap_r_up P old new) as [-> _]|rewrite insert_up]; auto.
    - destruct S1 as [-> ->], S2 as [-> ->]. rewrite paired_up. eauto.
    - destruct S1 as [-> ->], S2 as [-> ->]. rewrite cl_up. eauto.
    - destruct S1 as [-> ->], S2 as [-> ->]. rewrite cr_up. eauto.
    - destruct S1 as [-> ->], S2 as [-> ->]. unfold s_get_left, CycleMapSpec.s_get_left. rewrite find_r_up.
      split; auto. destruct (CycleMapSpec.find_r eR P r); cbn; eauto.
    - destruct S1 as [-> ->], S2 as [-> ->]. unfold s_get_right, CycleMapSpec.s_get_right. rewrite find_l_up.
      split; auto. destruct (CycleMapSpec.find_l eL P l); cbn; eauto.
    - destruct S1 as [-> ->], S2 as [-> ->]. rewrite lefts_up, map_length. eauto.
    - destruct S1 as [-> ->], S2 as [-> ->]. split; auto. destruct P; simpl; eauto.
    - destruct S1 as (-> & Q & PQ & ->), S2 as (-> & Q' & PQ' & ->). split; auto.
      exists Q, Q'. repeat split; auto. rewrite PQ', left_up. apply Permutation_map. symmetry; auto.
    - destruct S1 as (-> & Q & PQ & ->), S2 as (-> & Q' & PQ' & ->). split; auto.
      eexists _, Q'. repeat split; auto. rewrite PQ', lefts_up. apply Permutation_map. symmetry; auto.
    - destruct S1 as (-> & Q & PQ & ->), S2 as (-> & Q' & PQ' & ->). split; auto.
      eexists _, Q'. repeat split; auto. rewrite PQ', rights_up. apply Permutation_map. symmetry; auto.
    - destruct S1 as [-> ->], S2 as [-> ->]. split; auto. revert P.
      induction xs as [|z xs IH]; intros P; simpl; auto. rewrite insert_up. apply IH.
    - destruct S1 as (Q & PQ & S1), S2 as (Q' & PQ' & S2). destruct T as [p Hp].
      destruct (pure_filter (CycleMapHistory.uncurried f) (fun q => p (fst q) (snd q)) (fun x q => Hp x (fst q) (snd q)) Q x) as (x1 & F1).
      rewrite F1 in S1.
      match type of S2 with context [s_filter ?g _ _] =>
        destruct (pure_filter g (fun q => negb (p (fst q) (snd q)))) with (zs := Q') (x := x) as (x2 & F2) end.
      { intros y q. assert (Hy := Hp y (fst q) (snd q)). destruct (f y (fst q) (snd q)) as [y' b].
        cbn in Hy. subst b. auto. }
      rewrite F2 in S2. destruct S1 as [-> ->], S2 as [-> ->]. split; auto.
      rewrite unpaired_up, app_nil_r. rewrite pairs_up in PQ'. apply Permutation_map.
      erewrite filter_ext; [|intros q; apply negb_involutive].
      apply filter_perm. rewrite PQ'. symmetry; auto.
    - destruct S1 as [-> ->], S2 as [-> ->]. auto.
    - destruct S1 as [-> ->], S2 as [-> ->]. auto.
    - destruct S1 as [-> ->], S2 as [-> ->]. auto.
    - destruct S1 as [-> ->], S2 as [-> ->]. auto.
    - destruct S1 as [-> ->], S2 as [-> ->]. auto.
    - destruct S1 as (-> & b & ->), S2 as (-> & b' & ->). eauto.
  Qed.
End Same.

Section Theorems.
  Context {L R S S' : Type}.
  (* the environments of the CycleMap and of the PartialCycleMap *)
  Variables (E : env L R S) (E' : env L R S').
  Hypothesis OK : lawful E.
  Hypothesis OK' : lawful E'.
  (* the items are compared in the same way *)
  Hypothesis QL : eqL E' = eqL E.
  Hypothesis QR : eqR E' = eqR E.
  Let EL := eqL_equiv _ OK.
  Let ER := eqR_equiv _ OK.

  (* CycleMap's iter() yields the pairs that PartialCycleMap's iter_paired() yields, whose
     iter_unpaired() yields nothing *)
  Definition same_pairs (m : CycleMap.cmap L R S) (m' : pmap L R S') : Prop :=
    exists P P', CycleMap.iter_all E m = Done P /\ paired_rest E' m' (iter_paired m') = Done P' /\
      unpaired_rest (iter_unpaired m') = Done [] /\ Permutation P' P.

  Lemma same_repr : forall room room' m m', CycleMapHistory.reachable E room m -> reachable E' room' m' ->
    same_pairs m m' ->
    exists s c s' c' P, CycleMapProofs.Repr E s c m P /\ c + room < two64 /\
      Repr E' s' c' m' (ups P) /\ c' + room' < two64.
  Proof.
    intros room room' m m' H H' (P & P' & V & V1 & V2 & PM).
    apply (CycleMapHistoryProofs.reachable_view E OK) in H as (s & c & Q & W & H & C).
    apply (reachable_view E' OK') in H' as (s' & c' & Q' & (a' & b' & W1' & W2' & ->) & H' & C').
    rewrite W in V. injection V as ->.
    rewrite W1' in V1. rewrite W2' in V2. injection V1 as ->. injection V2 as ->.
    rewrite app_nil_r in H'. exists s, c, s', c', P. repeat split; auto.
    eapply (repr_perm E' OK'); [|exact H']. apply Permutation_map; auto.
  Qed.
  Lemma repr_same : forall s c m P s' c' m', CycleMapProofs.Repr E s c m P -> Repr E' s' c' m' (ups P) ->
    same_pairs m m'.
  Proof.
    intros s c m P s' c' m' H H'. destruct (CycleMapProofs2.iter_all_ok E OK _ _ _ _ H) as (Q & V & PQ).
    destruct (paired_all_ok E' OK' _ _ _ _ H') as (Q' & HQ & PQ').
    destruct (unpaired_all_ok E' _ _ _ _ H') as (U1 & U2 & HU & _ & _ & PU).
    exists Q, Q'. rewrite unpaired_up in PU. symmetry in PU. apply Permutation_nil in PU. rewrite PU in HU.
    repeat split; auto. rewrite PQ', pairs_up. symmetry; auto.
  Qed.

  (* the calls of the same name do the same *)
  Theorem C127_same : forall ops ops' room room' m m',
    CycleMapHistory.reachable E room m -> reachable E' room' m' -> same_pairs m m' ->
    Forall2 (fun o o' => plain o /\ same_call o = Some o') ops ops' ->
    CycleMapHistory.budget ops <= room -> CycleMapHistory.budget ops <= room' ->
    let (m1, ws) := CycleMapHistory.run E m ops in
    let (m2, ws') := run E' m' ops' in
    same_pairs m1 m2 /\ Forall2 (fun o ww => agree o (fst ww) (snd ww)) ops (combine ws ws').
  Proof.
    intros ops ops' room room' m m' H H' I T B B'.
    destruct (same_repr _ _ _ _ H H' I) as (s & c & s' & c' & P & K & C & K' & C'). clear H H' I.
    assert (D : c + CycleMapHistory.budget ops < two64) by lia.
    assert (D' : c' + CycleMapHistory.budget ops < two64) by lia.
    clear B B' C C'. revert c c' m m' P K K' D D'.
    induction T as [|o o' ops ops' [To Ho] T IH]; intros c c' m m' P K K' D D'.
    - cbn. split; [|constructor]. eapply repr_same; eauto.
    - cbn [CycleMapHistory.run run CycleMapHistory.budget] in *.
      assert (MI : ids o' = CycleMapHistory.ids o).
      { destruct o; try discriminate; injection Ho as <-; auto. }
      destruct (CycleMapHistoryProofs.step_ok E OK s c m P o K) as (P1 & c1 & S1 & H1 & C1); [lia|].
      destruct (step_ok E' OK' s' c' m' (ups P) o' K') as (P2 & c2 & S2 & H2 & C2); [lia| |].
      { destruct o; try discriminate; injection Ho as <-; exact I. }
      rewrite QL, QR in S2.
      destruct (step_same _ _ o o' P P1 P2 _ _ To Ho S1 S2) as [PM W].
      apply (repr_perm E' OK' _ _ _ _ _ PM) in H2.
      destruct (CycleMapHistory.step E m o) as [m1 w], (step E' m' o') as [m2 w']. cbn [fst snd] in *.
      specialize (IH c1 c2 m1 m2 P1 H1 H2).
      destruct (CycleMapHistory.run E m1 ops) as [n1 ws], (run E' m2 ops') as [n2 ws'].
      destruct IH as [X Y]; [lia|lia|]. cbn [combine]. split; auto.
  Qed.

  (* swap_*_or_insert: exactly when the two maps report the same *)
  Theorem C127_or_insert : forall m m', CycleMapHistory.reachable E 1 m -> reachable E' 1 m' -> same_pairs m m' ->
    (forall old new to_insert,
       let w := snd (CycleMapHistory.step E m (CycleMapHistory.SwapLeftOrInsert old new to_insert)) in
       let w' := snd (step E' m' (SwapLeftOrInsert old new to_insert)) in
       (exists d, w = CycleMapHistory.OSwapL d /\ w' = OSwapL (up_swap d)) <->
       contains_left E' m' old = true \/ contains_left E' m' new = false) /\
    (forall old new to_insert,
       let w := snd (CycleMapHistory.step E m (CycleMapHistory.SwapRightOrInsert old new to_insert)) in
       let w' := snd (step E' m' (SwapRightOrInsert old new to_insert)) in
       (w = CycleMapHistory.OPanic /\ w' = OPanic \/
        exists d, w = CycleMapHistory.OSwapR d /\ w' = OSwapR (up_swap d)) <->
       contains_right E' m' old = true \/
       contains_left E' m' to_insert = contains_right E' m' new /\ are_paired E' m' to_insert new = false).
  Proof.
    intros m m' H H' I.
    destruct (same_repr _ _ _ _ H H' I) as (s & c & s' & c' & P & K & C & K' & C'). clear H H' I.
    assert (FL : forall Q l, CycleMapSpec.s_contains_left (eqL E) Q l = is_some (CycleMapSpec.find_l (R := R) (eqL E) Q l)).
    { clear. unfold CycleMapSpec.s_contains_left, CycleMapSpec.find_l. induction Q as [|x Q IH]; intros; simpl; auto.
      destruct (eqL E l (fst x)); simpl; auto. }
    assert (FR : forall Q r, CycleMapSpec.s_contains_right (eqR E) Q r = is_some (CycleMapSpec.find_r (L := L) (eqR E) Q r)).
    { clear. unfold CycleMapSpec.s_contains_right, CycleMapSpec.find_r. induction Q as [|x Q IH]; intros; simpl; auto.
      destruct (eqR E r (snd x)); simpl; auto. }
    split; intros old new ti; cbv zeta.
    - destruct (CycleMapHistoryProofs.step_ok E OK s c m P (CycleMapHistory.SwapLeftOrInsert old new ti) K)
        as (P1 & c1 & S1 & _); [cbn [CycleMapHistory.ids]; lia|].
      destruct (step_ok E' OK' s' c' m' (ups P) (SwapLeftOrInsert old new ti) K') as (P2 & c2 & S2 & _);
        [cbn [ids]; lia|exact I|].
      rewrite !(contains_left_spec E' OK' _ _ _ _ _ K'). rewrite QL, QR in *.
      cbn [CycleMapHistory.s_step s_step] in *. rewrite !cl_up in *.
      destruct (CycleMapSpec.s_contains_left (eqL E) P old) eqn:O.
      + destruct S1 as [_ ->], S2 as [_ ->]. destruct (swap_l_up (eqL E) P old new) as [_ ->]. split; eauto.
      + destruct S1 as [_ ->], S2 as [_ ->]. rewrite find_r_up. unfold CycleMapSpec.s_insert_out. rewrite FL.
        destruct (CycleMapSpec.find_l (eqL E) P new) as [p|] eqn:F; cbn [is_some].
        * split; [intros (d & _ & X); discriminate|intros [X|X]; discriminate].
        * split; [auto|intros _].
          assert (D : CycleMapSpec.del_l (eqL E) P new = P).
          { apply (CycleMapProofs2.del_l_absent E); auto. }
          rewrite D. destruct (CycleMapSpec.find_r (eqR E) P ti); cbn; eauto.
    - destruct (CycleMapHistoryProofs.step_ok E OK s c m P (CycleMapHistory.SwapRightOrInsert old new ti) K)
        as (P1 & c1 & S1 & _); [cbn [CycleMapHistory.ids]; lia|].
      destruct (step_ok E' OK' s' c' m' (ups P) (SwapRightOrInsert old new ti) K') as (P2 & c2 & S2 & _);
        [cbn [ids]; lia|exact I|].
      rewrite !(contains_right_spec E' OK' _ _ _ _ _ K'), (contains_left_spec E' OK' _ _ _ _ _ K'),
        (are_paired_spec E' OK' _ _ _ _ _ _ K'). rewrite QL, QR in *.
      cbn [CycleMapHistory.s_step s_step] in *. rewrite !del_l_up, !cr_up in *. rewrite cl_up, paired_up.
      assert (B := CycleMapProofs.repr_bij _ _ _ _ _ K).
      destruct (CycleMapSpec.s_contains_right (eqR E) P old) eqn:O.
      + destruct S1 as [_ ->], S2 as [_ ->]. destruct (swap_r_up (eqR E) P old new) as [_ ->]. split; eauto.
      + destruct S1 as [_ ->], S2 as [_ ->]. rewrite find_l_up.
        rewrite (contains_del _ _ ER) by auto. rewrite FL, FR.
        assert (X : CycleMapSpec.s_are_paired (eqL E) (eqR E) P ti new = true ->
                    is_some (CycleMapSpec.find_l (eqL E) P ti) = true /\ is_some (CycleMapSpec.find_r (eqR E) P new) = true).
        { rewrite <- FL, <- FR. intros X. apply existsb_exists in X as (q & I & X). apply andb_true_iff in X as [X Y].
          split; apply existsb_exists; eauto. }
        destruct (CycleMapSpec.s_are_paired (eqL E) (eqR E) P ti new);
          [destruct (X eq_refl) as [X1 X2]; clear X|clear X].
        * rewrite X1, X2. cbn [andb negb].
          split; [intros [[_ Y]|(d & Y & _)]; discriminate|intros [Y|[_ Y]]; discriminate].
        * rewrite andb_true_r.
          destruct (CycleMapSpec.find_l (eqL E) P ti) as [p|], (CycleMapSpec.find_r (eqR E) P new) as [q|]; cbn.
          -- split; auto.
          -- split; [intros [[_ Y]|(d & Y & _)]; discriminate|intros [Y|[Y _]]; discriminate].
          -- split; [intros [[Y _]|(d & _ & Y)]; discriminate|intros [Y|[Y _]]; discriminate].
          -- split; auto. intros _. right. exists Neither. auto.
  Qed.
End Theorems.

(* CycleMap m1 (all hashes collide: 4-30, 1-20, 5-50) and a PartialCycleMap with the same pairs, made with
   another hash function, another hasher state, and calls CycleMap does not have *)
Definition pm_hist : list (op item item) :=
  [InsertLeft (it 1); InsertRight (it 20); InsertRight (it 30); Pair (it 1) (it 30); Insert (it 4) (it 40);
   PairForced (it 1) (it 20); PairForced (it 4) (it 30); Insert (it 5) (it 50); RemoveViaRight (it 40)].
Definition pm_same : pmap item item N := fst (run env_spread (with_hasher 3 1 2) pm_hist).
Definition shared_ops : list (CycleMapHistory.op item item) :=
  [CycleMapHistory.Insert (it 9) (it 50); CycleMapHistory.Insert (1, 8) (20, 8);
   CycleMapHistory.SwapLeft (it 4) (it 1); CycleMapHistory.RemoveViaRight (it 50);
   CycleMapHistory.Extend [(it 6, it 60); (it 7, it 60)];
   CycleMapHistory.Retain unit (fun _ l _ => (tt, Some (fst l <? 7))) tt; CycleMapHistory.GetLeft (30, 9)].
Definition shared_ops' : list (op item item) :=
  [Insert (it 9) (it 50); Insert (1, 8) (20, 8); SwapLeft (it 4) (it 1); RemoveViaRight (it 50);
   ExtendPairs [(it 6, it 60); (it 7, it 60)];
   RetainPaired unit (fun _ p => (tt, Some (negb (fst (fst p) <? 7)))) tt; GetLeft (30, 9)].
Example C127_case :
  let E := env_collide in let E' := env_spread in let m := CycleMapProps.m1 in
  lawful E /\ lawful E' /\ eqL E' = eqL E /\ eqR E' = eqR E /\
  CycleMapHistory.reachable E 8 m /\ reachable E' 8 pm_same /\ same_pairs E E' m pm_same /\
  Forall2 (fun o o' => plain o /\ same_call o = Some o') shared_ops shared_ops' /\
  snd (CycleMapHistory.run E m shared_ops) =
    [CycleMapHistory.OIns (SomeRight (it 5, it 50)); CycleMapHistory.OIns (SomeLeft (it 1, it 20));
     CycleMapHistory.OSwapL (SomeBoth (it 4) ((1, 8), (20, 8))); CycleMapHistory.OPair (Some (it 9, it 50));
     CycleMapHistory.OUnit; CycleMapHistory.OUnit; CycleMapHistory.OL (Some (it 1))] /\
  snd (run E' pm_same shared_ops') =
    [OIns (Neither, SomeBoth (it 5) (it 50)); OIns (SomeBoth (it 1) (it 20), Neither);
     OSwapL (SomeBoth (it 4) (SomeBoth (1, 8) (20, 8))); OEntry (SomeBoth (it 9) (it 50));
     OUnit; OUnit; OL (Some (it 1))] /\
  CycleMap.iter_all E (fst (CycleMapHistory.run E m shared_ops)) = Done [(it 1, it 30)] /\
  contents E' (fst (run E' pm_same shared_ops')) [SomeBoth (it 1) (it 30)] /\
  (* swap_*_or_insert, old absent *)
  snd (CycleMapHistory.step E m (CycleMapHistory.SwapLeftOrInsert (it 9) (it 4) (it 50)))
    = CycleMapHistory.OSwapL (SomeBoth (it 4) (it 5, it 50)) /\
  snd (step E' pm_same (SwapLeftOrInsert (it 9) (it 4) (it 50))) = OPanic /\
  snd (CycleMapHistory.step E m (CycleMapHistory.SwapRightOrInsert (it 90) (it 50) (it 8)))
    = CycleMapHistory.OSwapR (SomeRight (it 5, it 50)) /\
  snd (step E' pm_same (SwapRightOrInsert (it 90) (it 50) (it 8))) = OPanic.
Proof.
  cbv zeta.
  split; [apply env_collide_ok|]. split; [apply env_spread_ok|].
  split; [reflexivity|]. split; [reflexivity|].
  split; [exists 7, 0, 0, CycleMapProps.hist1; split; [vm_compute; reflexivity|reflexivity]|].
  split; [exists 3, 1, 2, pm_hist; split; [vm_compute; reflexivity|];
          split; [cbn [guarded guard pm_hist]; repeat split|reflexivity]|].
  split.
  { do 2 eexists. split; [vm_compute; reflexivity|]. split; [vm_compute; reflexivity|].
    split; [vm_compute; reflexivity|]. symmetry. apply Permutation_sym, (Permutation_cons_append [_; _]). }
  split; [repeat constructor; try (eexists; intros; reflexivity)|].
  repeat match goal with |- _ /\ _ => split end; try (vm_compute; reflexivity).
  do 2 eexists; split; [vm_compute; reflexivity|]; split; [vm_compute; reflexivity|reflexivity].
Qed.

Print Assumptions C127_same.
Print Assumptions C127_or_insert.
