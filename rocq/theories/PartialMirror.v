(* PartialCycleMap: the two sides are mirror images (C126).

   A PartialCycleMap<R, L> holding the entries of a PartialCycleMap<L, R> turned round is called
   with the mirrored calls (left for right, right for left).  Hash functions, hasher states,
   layouts and histories of the two maps need not have anything to do with each other. *)
From Coq Require Import List NArith Lia Bool Permutation PeanoNat.
From Verif Require Import Closures Prelude RawTable Optionals PartialCycleMap ListFacts TableFacts PartialSpec
  PartialHistory PartialProofs PartialProofs2 PartialProofs5 PartialHistoryProofs Concrete PartialProps PartialLaws.
Import ListNotations.
Open Scope N_scope.

Definition turn {A B} (p : A * B) : B * A := (snd p, fst p).
(* an entry turned round *)
Definition turn_e {A B} (x : optional_pair A B) : optional_pair B A :=
  match x with
  | Neither => Neither
  | SomeLeft a => SomeRight a
  | SomeRight b => SomeLeft b
  | SomeBoth a b => SomeBoth b a
  end.
Definition turned {A B} (es : list (optional_pair A B)) : list (optional_pair B A) := map turn_e es.

Section Mirror.
  Context {L R : Type} (eL : L -> L -> bool) (eR : R -> R -> bool).
  Notation entry := (optional_pair L R).

  (* the call for the other side *)
  Definition mirror (o : op L R) : op R L :=
    match o with
    | Insert l r => Insert r l
    | InsertLeft l => InsertRight l
    | InsertRight r => InsertLeft r
    | Pair l r => Pair r l
    | PairForced l r => PairForced r l
    | PairForcedRemove l r => PairForcedRemove r l
    | Unpair l r => Unpair r l
    | Remove l r => Remove r l
    | RemoveLeft l => RemoveRight l
    | RemoveRight r => RemoveLeft r
    | RemoveViaLeft l => RemoveViaRight l
    | RemoveViaRight r => RemoveViaLeft r
    | SwapLeft old new => SwapRight old new
    | SwapLeftChecked old ex new => SwapRightChecked old ex new
    | SwapLeftOrInsert old new ti => SwapRightOrInsert old new ti
    | SwapRight old new => SwapLeft old new
    | SwapRightChecked old ex new => SwapLeftChecked old ex new
    | SwapRightOrInsert old new ti => SwapLeftOrInsert old new ti
    | ArePaired l r => ArePaired r l
    | IsLeftPaired l => IsRightPaired l
    | IsRightPaired r => IsLeftPaired r
    | ContainsLeft l => ContainsRight l
    | ContainsRight r => ContainsLeft r
    | GetLeft r => GetRight r
    | GetRight l => GetLeft l
    | LenLeft => LenRight
    | LenRight => LenLeft
    | IsEmpty => IsEmpty
    | IterAll => IterAll
    | IterPairedAll => IterPairedAll
    | IterUnpairedAll => IterUnpairedAll
    | IterLeftAll => IterRightAll
    | IterRightAll => IterLeftAll
    | ExtendPairs xs => ExtendPairs (map turn xs)
    | Extend xs => Extend (turned xs)
    | Retain X f x => Retain X (fun x e => f x (turn_e e)) x
    | RetainPaired X f x => RetainPaired X (fun x p => f x (turn p)) x
    | RetainUnpaired X f x => RetainUnpaired X (fun x e => f x (turn_e e)) x
    | DrainN n => DrainN n
    | DrainFilter X f x n leak => DrainFilter X (fun x e => f x (turn_e e)) x n leak
    | Clear => Clear
    | CloneSelf => CloneSelf
    | ShrinkToLeft n => ShrinkToRight n
    | ShrinkToRight n => ShrinkToLeft n
    | ShrinkToFit => ShrinkToFit
    | ReserveLeft n => ReserveRight n
    | ReserveRight n => ReserveLeft n
    | TryReserveLeft n => TryReserveRight n
    | TryReserveRight n => TryReserveLeft n
    end.

  (* what insert(l, r) reports, turned round.  If l and r were paired with each other, the pair is
     reported first on either side: it is found through the item given first. *)
  Definition turn_report (l : L) (r : R) (d : entry * entry)
      : optional_pair R L * optional_pair R L :=
    if has_l eL l (fst d) && has_r eR r (fst d) then (turn_e (fst d), turn_e (snd d))
    else (turn_e (snd d), turn_e (fst d)).
  Definition turn_swap {A} (d : optional_pair A entry) : optional_pair A (optional_pair R L) :=
    match d with
    | Neither => Neither
    | SomeLeft a => SomeLeft a
    | SomeRight x => SomeRight (turn_e x)
    | SomeBoth a x => SomeBoth a (turn_e x)
    end.

  (* the results of a call and of the mirrored call; nothing is said about the results of
     swap_*_or_insert (see C126_or_insert), iter and drain (which show only some of the right
     items, C37, C39) and about what try_reserve answers *)
  Definition mirrored (o : op L R) (w : out L R) (w' : out R L) : Prop :=
    match o with
    | Insert l r => exists d, w = OIns d /\ w' = OIns (turn_report l r d)
    | InsertLeft _ | InsertRight _ | PairForced _ _ | PairForcedRemove _ _
    | RemoveViaLeft _ | RemoveViaRight _ => exists e, w = OEntry e /\ w' = OEntry (turn_e e)
    | Remove _ _ => exists p, w = OPair p /\ w' = OPair (option_map turn p)
    | RemoveLeft _ | GetLeft _ => exists x, w = OL x /\ w' = OR x
    | RemoveRight _ | GetRight _ => exists x, w = OR x /\ w' = OL x
    | SwapLeft _ _ | SwapLeftChecked _ _ _ => exists d, w = OSwapL d /\ w' = OSwapR (turn_swap d)
    | SwapRight _ _ | SwapRightChecked _ _ _ => exists d, w = OSwapR d /\ w' = OSwapL (turn_swap d)
    | Pair _ _ | Unpair _ _ | ArePaired _ _ | IsLeftPaired _ | IsRightPaired _
    | ContainsLeft _ | ContainsRight _ | IsEmpty => exists b, w = OBool b /\ w' = OBool b
    | LenLeft | LenRight => exists n, w = ONat n /\ w' = ONat n
    | IterPairedAll => exists ps ps', w = OPairs ps /\ w' = OPairs ps' /\ Permutation ps' (map turn ps)
    | IterUnpairedAll => exists es es', w = OEntries es /\ w' = OEntries es' /\ Permutation es' (turned es)
    | IterLeftAll => exists xs ys, w = OLs xs /\ w' = ORs ys /\ Permutation ys xs
    | IterRightAll => exists xs ys, w = ORs xs /\ w' = OLs ys /\ Permutation ys xs
    | TryReserveLeft _ | TryReserveRight _ => exists b b', w = OBool b /\ w' = OBool b'
    | SwapLeftOrInsert _ _ _ | SwapRightOrInsert _ _ _ | IterAll | DrainN _
    | Retain _ _ _ | DrainFilter _ _ _ _ _ => True
    | _ => w = OUnit /\ w' = OUnit
    end.
  (* closures answer from the items alone (the order of the visits differs between the two maps);
     no retain and no drain_filter, which treat unpaired left and right items differently (C40, C41) *)
  Definition even (o : op L R) : Prop :=
    match o with
    | Retain _ _ _ | DrainFilter _ _ _ _ _ => False
    | RetainPaired X f _ => exists p, forall x q, snd (f x q) = Some (p q)
    | RetainUnpaired X f _ => exists p, forall x e, snd (f x e) = Some (p e)
    | _ => True
    end.
End Mirror.

Section Turned.
  Context {L R : Type}.
  Variables (eL : L -> L -> bool) (eR : R -> R -> bool).
  Hypothesis EL : equivalence eL.
  Hypothesis ER : equivalence eR.
  Notation entry := (optional_pair L R).
  Notation pb := (partial_bijection eL eR).
  Implicit Types (P Q : list entry) (l : L) (r : R) (x y : entry).

  Lemma find_map : forall {A B} (g : A -> B) (f : B -> bool) (zs : list A),
    find f (map g zs) = option_map g (find (fun z => f (g z)) zs).
  Proof. induction zs as [|z zs IH]; simpl; auto. destruct (f (g z)); auto. Qed.
  Lemma filter_map : forall {A B} (g : A -> B) (f : B -> bool) (zs : list A),
    filter f (map g zs) = map g (filter (fun z => f (g z)) zs).
  Proof. induction zs as [|z zs IH]; simpl; auto. destruct (f (g z)); simpl; rewrite IH; auto. Qed.
  Lemma existsb_map : forall {A B} (g : A -> B) (f : B -> bool) (zs : list A),
    existsb f (map g zs) = existsb (fun z => f (g z)) zs.
  Proof. induction zs as [|z zs IH]; simpl; auto. rewrite IH; auto. Qed.
  Lemma find_ext : forall {A} (f g : A -> bool) (zs : list A), (forall z, In z zs -> f z = g z) -> find f zs = find g zs.
  Proof.
    induction zs as [|z zs IH]; simpl; intros H; auto. rewrite (H z) by auto. rewrite IH; auto.
  Qed.
  Lemma turn_get_l : forall x, op_get_left (turn_e x) = op_get_right x.
  Proof. destruct x; auto. Qed.
  Lemma turn_get_r : forall x, op_get_right (turn_e x) = op_get_left x.
  Proof. destruct x; auto. Qed.
  Lemma turn_has_l : forall r x, has_l eR r (turn_e x) = has_r eR r x.
  Proof. intros. unfold has_l, has_r. rewrite turn_get_l. auto. Qed.
  Lemma turn_has_r : forall l x, has_r eL l (turn_e x) = has_l eL l x.
  Proof. intros. unfold has_l, has_r. rewrite turn_get_r. auto. Qed.
  Lemma find_l_turned : forall P r, find_l eR (turned P) r = option_map turn_e (find_r eR P r).
  Proof.
    intros. unfold find_l, find_r, turned. rewrite find_map. f_equal. apply find_ext.
    intros. apply turn_has_l.
  Qed.
  Lemma find_r_turned : forall P l, find_r eL (turned P) l = option_map turn_e (find_l eL P l).
  Proof.
    intros. unfold find_l, find_r, turned. rewrite find_map. f_equal. apply find_ext.
    intros. apply turn_has_r.
  Qed.
  Lemma del_l_turned : forall P r, del_l eR (turned P) r = turned (del_r eR P r).
  Proof.
    intros. unfold del_l, del_r, turned. rewrite filter_map. f_equal. apply filter_ext.
    intros. rewrite turn_has_l. auto.
  Qed.
  Lemma del_r_turned : forall P l, del_r eL (turned P) l = turned (del_l eL P l).
  Proof.
    intros. unfold del_l, del_r, turned. rewrite filter_map. f_equal. apply filter_ext.
    intros. rewrite turn_has_r. auto.
  Qed.
  Lemma paired_turned : forall P l r, s_are_paired eR eL (turned P) r l = s_are_paired eL eR P l r.
  Proof.
    intros. unfold s_are_paired, turned. rewrite existsb_map. apply existsb_ext'. intros z.
    rewrite turn_has_l, turn_has_r. apply andb_comm.
  Qed.
  Lemma cl_turned : forall P r, s_contains_left eR (turned P) r = s_contains_right eR P r.
  Proof. intros. unfold s_contains_left, turned. rewrite existsb_map. apply existsb_ext'. apply turn_has_l. Qed.
  Lemma cr_turned : forall P l, s_contains_right eL (turned P) l = s_contains_left eL P l.
  Proof. intros. unfold s_contains_right, turned. rewrite existsb_map. apply existsb_ext'. apply turn_has_r. Qed.
  Lemma both_turned : forall x, is_both (turn_e x) = is_both x.
  Proof. destruct x; auto. Qed.
  Lemma lp_turned : forall P r, s_is_left_paired eR (turned P) r = s_is_right_paired eR P r.
  Proof.
    intros. unfold s_is_left_paired, turned. rewrite existsb_map. apply existsb_ext'. intros z.
    rewrite turn_has_l, both_turned. auto.
  Qed.
  Lemma rp_turned : forall P l, s_is_right_paired eL (turned P) l = s_is_left_paired eL P l.
  Proof.
    intros. unfold s_is_right_paired, turned. rewrite existsb_map. apply existsb_ext'. intros z.
    rewrite turn_has_r, both_turned. auto.
  Qed.
  Lemma del_comm : forall P l r, del_r eR (del_l eL P l) r = del_l eL (del_r eR P r) l.
  Proof.
    intros P l r. unfold del_l, del_r. induction P as [|x P IH]; simpl; auto.
    destruct (has_l eL l x) eqn:A, (has_r eR r x) eqn:B; simpl; rewrite ?A, ?B; simpl; rewrite ?IH; auto.
  Qed.
  Lemma lefts_turned : forall P, lefts (turned P) = rights P.
  Proof. induction P as [|x P IH]; auto. unfold lefts, rights, turned in *. cbn. rewrite turn_get_l, IH. auto. Qed.
  Lemma rights_turned : forall P, rights (turned P) = lefts P.
  Proof. induction P as [|x P IH]; auto. unfold lefts, rights, turned in *. cbn. rewrite turn_get_r, IH. auto. Qed.
  Lemma pairs_turned : forall P, s_pairs (turned P) = map turn (s_pairs P).
  Proof.
    induction P as [|x P IH]; auto. unfold s_pairs, turned in *. cbn. rewrite map_app, IH. destruct x; auto.
  Qed.
  Lemma unpaired_turned : forall P, s_unpaired (turned P) = turned (s_unpaired P).
  Proof. intros. unfold s_unpaired, turned. rewrite filter_map. f_equal. apply filter_ext. intros. rewrite both_turned. auto. Qed.

  Lemma insert_turned : forall P l r, s_insert eR eL (turned P) r l = turned (s_insert eL eR P l r).
  Proof. intros. unfold s_insert. rewrite del_l_turned, del_r_turned, <- del_comm. auto. Qed.
  Lemma insert_l_turned : forall P r, s_insert_left eR (turned P) r = turned (s_insert_right eR P r).
  Proof. intros. unfold s_insert_left. rewrite del_l_turned. auto. Qed.
  Lemma insert_r_turned : forall P l, s_insert_right eL (turned P) l = turned (s_insert_left eL P l).
  Proof. intros. unfold s_insert_right. rewrite del_r_turned. auto. Qed.
  Lemma entry_turned : forall P x, s_insert_entry eR eL (turned P) (turn_e x) = turned (s_insert_entry eL eR P x).
  Proof. destruct x; cbn [turn_e s_insert_entry]; auto using insert_turned, insert_l_turned, insert_r_turned. Qed.
  Lemma or_turned : forall o : option entry, or_neither (option_map turn_e o) = turn_e (or_neither o).
  Proof. destruct o; auto. Qed.

  (* found from either side, it is the same entry *)
  Lemma same_entry : forall P l r, pb P -> s_are_paired eL eR P l r = true ->
    exists x, find_l eL P l = Some x /\ find_r eR P r = Some x /\ del_l eL P l = del_r eR P r /\
      has_l eL l x = true /\ has_r eR r x = true.
  Proof.
    intros P l r B X.
    assert (K : forall z, In z P -> has_l eL l z = has_r eR r z).
    { apply existsb_exists in X as (x & I & X). apply andb_true_iff in X as [X Y].
      intros z J. destruct (has_l eL l z) eqn:A, (has_r eR r z) eqn:C; auto.
      - assert (x = z) as <- by (eapply (unique_l eL eR); eauto). congruence.
      - assert (x = z) as <- by (eapply (unique_r eL eR); eauto). congruence. }
    destruct (find_l eL P l) as [x|] eqn:F.
    - destruct (of_l eL eR EL ER P l x B F) as (I & H & _). exists x. split; auto. split.
      + rewrite <- F. apply find_ext. intros. symmetry. auto.
      + split; [|split; auto; rewrite <- K; auto]. apply filter_ext_in. intros z J. rewrite (K z J). auto.
    - apply none_l in F. rewrite (absent_l eL eR) in X; [discriminate|auto].
  Qed.
  Lemma two_entries : forall P l r x y, pb P -> s_are_paired eL eR P l r = false ->
    find_l eL P l = Some x -> find_r eR P r = Some y -> has_r eR r x = false /\ has_l eL l y = false.
  Proof.
    intros P l r x y B X F G.
    destruct (of_l eL eR EL ER P l x B F) as (_ & _ & _ & K), (of_r eL eR EL ER P r y B G) as (_ & _ & _ & K').
    rewrite <- K, <- K'. auto.
  Qed.
  Lemma find_r_del : forall P l r, pb P ->
    find_r eR (del_l eL P l) r = if s_are_paired eL eR P l r then None else find_r eR P r.
  Proof.
    intros P l r B. destruct (s_are_paired eL eR P l r) eqn:X.
    - destruct (same_entry P l r B X) as (x & _ & _ & -> & _).
      unfold find_r, del_r. apply find_all_false. intros z I. apply filter_In in I as [_ I]. apply negb_true_iff; auto.
    - unfold find_r, del_l. unfold s_are_paired in X. clear B. induction P as [|x P IH]; simpl; auto.
      simpl in X. apply orb_false_iff in X as [X Y].
      destruct (has_l eL l x) eqn:A; simpl in *; [rewrite X; auto|].
      destruct (has_r eR r x); auto.
  Qed.
  Lemma find_l_del : forall P l r, pb P ->
    find_l eL (del_r eR P r) l = if s_are_paired eL eR P l r then None else find_l eL P l.
  Proof.
    intros P l r B. destruct (s_are_paired eL eR P l r) eqn:X.
    - destruct (same_entry P l r B X) as (x & _ & _ & <- & _).
      unfold find_l, del_l. apply find_all_false. intros z I. apply filter_In in I as [_ I]. apply negb_true_iff; auto.
    - unfold find_l, del_r. unfold s_are_paired in X. clear B. induction P as [|x P IH]; simpl; auto.
      simpl in X. apply orb_false_iff in X as [X Y]. rewrite andb_comm in X.
      destruct (has_r eR r x) eqn:A; simpl in *; [rewrite X; auto|].
      destruct (has_l eL l x); auto.
  Qed.
  Lemma insert_out_turned : forall P l r, pb P ->
    s_insert_out eR eL (turned P) r l = turn_report eL eR l r (s_insert_out eL eR P l r).
  Proof.
    intros P l r B. unfold s_insert_out, turn_report. cbn [fst snd].
    rewrite find_l_turned, del_l_turned, find_r_turned, find_r_del, find_l_del by auto.
    rewrite !or_turned. destruct (s_are_paired eL eR P l r) eqn:X.
    - destruct (same_entry P l r B X) as (x & -> & -> & _ & H & H'). simpl. rewrite H, H'. auto.
    - destruct (find_l eL P l) as [x|] eqn:F; auto. simpl.
      destruct (of_l eL eR EL ER P l x B F) as (_ & H & _ & K). rewrite H, <- K, X. auto.
  Qed.

  Lemma wl_turned : forall x, without_left (turn_e x) = turned (without_right x).
  Proof. destruct x; auto. Qed.
  Lemma wr_turned : forall x, without_right (turn_e x) = turned (without_left x).
  Proof. destruct x; auto. Qed.
  Lemma join_turned : forall x y, join (turn_e y) (turn_e x) = turned (join x y).
  Proof. destruct x, y; auto. Qed.
  Lemma turned_app : forall P Q, turned (P ++ Q) = turned P ++ turned Q.
  Proof. intros. apply map_app. Qed.

  Lemma pair_turned : forall P l r, s_pair eR eL (turned P) r l = turned (s_pair eL eR P l r).
  Proof.
    intros. unfold s_pair. rewrite find_l_turned, find_r_turned.
    destruct (find_l eL P l) as [[]|], (find_r eR P r) as [[]|]; cbn; auto.
    rewrite del_l_turned, del_r_turned, <- del_comm. auto.
  Qed.
  Lemma pair_out_turned : forall P l r, s_pair_out eR eL (turned P) r l = s_pair_out eL eR P l r.
  Proof.
    intros. unfold s_pair_out. rewrite find_l_turned, find_r_turned.
    destruct (find_l eL P l) as [[]|], (find_r eR P r) as [[]|]; cbn; auto.
  Qed.
  Lemma forced_turned : forall P l r, pb P ->
    Permutation (s_pair_forced eR eL (turned P) r l) (turned (s_pair_forced eL eR P l r)) /\
    s_pair_forced_remove eR eL (turned P) r l = turned (s_pair_forced_remove eL eR P l r) /\
    s_pair_forced_out eR eL (turned P) r l = turn_e (s_pair_forced_out eL eR P l r).
  Proof.
    intros P l r B. unfold s_pair_forced, s_pair_forced_remove, s_pair_forced_out.
    rewrite find_l_turned, find_r_turned.
    destruct (find_l eL P l) as [x|] eqn:F, (find_r eR P r) as [y|] eqn:G; cbn [option_map]; auto.
    rewrite turn_has_r.
    destruct (of_l eL eR EL ER P l x B F) as (_ & _ & _ & K), (of_r eL eR EL ER P r y B G) as (_ & _ & _ & K').
    rewrite <- K, <- K'. destruct (s_are_paired eL eR P l r); auto.
    rewrite join_turned, wl_turned, wr_turned, del_l_turned, del_r_turned, del_comm, !turned_app.
    split; [|split; auto].
    - apply Permutation_app_head. rewrite !app_assoc. apply Permutation_app_tail. apply Permutation_app_comm.
    - destruct x, y; auto.
  Qed.
  Lemma unpair_turned : forall P l r, pb P ->
    Permutation (s_unpair eR eL (turned P) r l) (turned (s_unpair eL eR P l r)).
  Proof.
    intros P l r B. unfold s_unpair. rewrite find_l_turned. destruct (s_are_paired eL eR P l r) eqn:X.
    - destruct (same_entry P l r B X) as (x & -> & -> & D & H & H'). cbn [option_map].
      rewrite turn_has_r, H, H', wl_turned, wr_turned, del_l_turned, <- D, !turned_app, !app_assoc.
      apply Permutation_app_tail, Permutation_app_comm.
    - destruct (find_l eL P l) as [x|] eqn:F, (find_r eR P r) as [y|] eqn:G; cbn [option_map]; auto.
      + destruct (two_entries P l r x y B X F G) as [-> Y]. rewrite turn_has_r, Y. auto.
      + destruct (of_l eL eR EL ER P l x B F) as (_ & _ & _ & K). rewrite <- K, X. auto.
      + destruct (of_r eL eR EL ER P r y B G) as (_ & _ & _ & K). rewrite turn_has_r, <- K, X. auto.
  Qed.
  Lemma remove_turned : forall P l r, pb P ->
    s_remove eR eL (turned P) r l = turned (s_remove eL eR P l r) /\
    s_remove_out eR eL (turned P) r l = option_map turn (s_remove_out eL eR P l r).
  Proof.
    intros P l r B. unfold s_remove, s_remove_out. rewrite paired_turned.
    destruct (s_are_paired eL eR P l r) eqn:X; auto.
    destruct (same_entry P l r B X) as (x & F & G & D & _). rewrite find_l_turned, del_l_turned, F, G, D.
    split; auto. destruct x; auto.
  Qed.
  Lemma remove_l_turned : forall P r,
    s_remove_left eR (turned P) r = turned (s_remove_right eR P r) /\
    s_remove_left_out eR (turned P) r = s_remove_right_out eR P r.
  Proof.
    intros. unfold s_remove_left, s_remove_right, s_remove_left_out, s_remove_right_out.
    rewrite find_l_turned, del_l_turned. destruct (find_r eR P r) as [x|]; cbn; auto.
    rewrite wl_turned, turned_app, turn_get_l. auto.
  Qed.
  Lemma remove_r_turned : forall P l,
    s_remove_right eL (turned P) l = turned (s_remove_left eL P l) /\
    s_remove_right_out eL (turned P) l = s_remove_left_out eL P l.
  Proof.
    intros. unfold s_remove_left, s_remove_right, s_remove_left_out, s_remove_right_out.
    rewrite find_r_turned, del_r_turned. destruct (find_l eL P l) as [x|]; cbn; auto.
    rewrite wr_turned, turned_app, turn_get_r. auto.
  Qed.
  Lemma swap_l_turned : forall P (old new : R),
    s_swap_left eR (turned P) old new = turned (s_swap_right eR P old new) /\
    s_swap_left_out eR (turned P) old new = turn_swap (s_swap_right_out eR P old new).
  Proof.
    intros. unfold s_swap_left, s_swap_right, s_swap_left_base, s_swap_right_base, s_swap_left_out, s_swap_right_out.
    rewrite !find_l_turned. destruct (find_r eR P old) as [x|]; cbn [option_map].
    - split.
      + destruct (eR new old); rewrite ?del_l_turned; cbn; f_equal; destruct x; auto.
      + rewrite turn_get_l. destruct (eR new old); destruct (op_get_right x); cbn; auto;
          destruct (find_r eR P new); auto.
    - split; auto. destruct (eR new old); rewrite ?del_l_turned; auto.
  Qed.
  Lemma swap_r_turned : forall P (old new : L),
    s_swap_right eL (turned P) old new = turned (s_swap_left eL P old new) /\
    s_swap_right_out eL (turned P) old new = turn_swap (s_swap_left_out eL P old new).
  Proof.
    intros. unfold s_swap_left, s_swap_right, s_swap_left_base, s_swap_right_base, s_swap_left_out, s_swap_right_out.
    rewrite !find_r_turned. destruct (find_l eL P old) as [x|]; cbn [option_map].
    - split.
      + destruct (eL new old); rewrite ?del_r_turned; cbn; f_equal; destruct x; auto.
      + rewrite turn_get_r. destruct (eL new old); destruct (op_get_left x); cbn; auto;
          destruct (find_l eL P new); auto.
    - split; auto. destruct (eL new old); rewrite ?del_r_turned; auto.
  Qed.
  Lemma pure_filter : forall {T X} (f : X -> T -> X * verdict) (p : T -> bool),
    (forall (x : X) (q : T), snd (f x q) = Some (p q)) -> forall (zs : list T) (x : X), exists x' : X,
    s_filter f x zs = (x', filter p zs, filter (fun z => negb (p z)) zs, false).
  Proof.
    intros T X f p H. induction zs as [|z zs IH]; intros x; [eexists; reflexivity|].
    simpl. assert (Hz := H x z). destruct (f x z) as [x1 [b|]]; simpl in Hz; [|discriminate].
    injection Hz as ->. destruct (IH x1) as (x2 & ->). exists x2. destruct (p z); auto.
  Qed.

  (* one call *)
  Lemma step_mirror : forall o P P1 (P2 : list (optional_pair R L)) w w', pb P -> even o ->
    s_step eL eR P o P1 w -> s_step eR eL (turned P) (mirror o) P2 w' ->
    Permutation P2 (turned P1) /\ mirrored eL eR o w w'.
  Proof.
    intros o P P1 P2 w w' B T S1 S2.
    destruct o; cbn [s_step mirror mirrored even] in *; try destruct T.
    - destruct S1 as [-> ->], S2 as [-> ->]. rewrite insert_turned, insert_out_turned by auto. eauto.
    - destruct S1 as [-> ->], S2 as [-> ->]. rewrite insert_r_turned, find_r_turned, or_turned by auto. eauto.
    - destruct S1 as [-> ->], S2 as [-> ->]. rewrite insert_l_turned, find_l_turned, or_turned by auto. eauto.
    - destruct S1 as [-> ->], S2 as [-> ->]. rewrite pair_turned, pair_out_turned by auto. eauto.
    - destruct S1 as [-> ->], S2 as [-> ->]. destruct (forced_turned P l r B) as (X & Y & Z). rewrite Z. eauto.
    - destruct S1 as [-> ->], S2 as [-> ->]. destruct (forced_turned P l r B) as (X & Y & Z). rewrite Y, Z. eauto.
    - destruct S1 as [-> ->], S2 as [-> ->]. rewrite paired_turned. split; eauto using unpair_turned.
    - destruct S1 as [-> ->], S2 as [-> ->]. destruct (remove_turned P l r B) as [-> ->]. eauto.
    - destruct S1 as [-> ->], S2 as [-> ->]. destruct (remove_r_turned P l) as [-> ->]. eauto.
    - destruct S1 as [-> ->], S2 as [-> ->]. destruct (remove_l_turned P r) as [-> ->]. eauto.
    - destruct S1 as [-> ->], S2 as [-> ->]. rewrite del_r_turned, find_r_turned, or_turned. eauto.
    - destruct S1 as [-> ->], S2 as [-> ->]. rewrite del_l_turned, find_l_turned, or_turned. eauto.
    - destruct S1 as [-> ->], S2 as [-> ->]. destruct (swap_r_turned P old new) as [-> ->]. eauto.
    - rewrite paired_turned in S2. destruct (s_are_paired eL eR P old expected);
        destruct S1 as [-> ->], S2 as [-> ->]; [destruct (swap_r_turned P old new) as [-> ->]; eauto|].
      split; auto. exists Neither; auto.
    - rewrite cr_turned in S2. split; auto. destruct (s_contains_left eL P old);
        destruct S1 as [-> _], S2 as [-> _]; [destruct (swap_r_turned P old new) as [-> _]|rewrite insert_turned]; auto.
    - destruct S1 as [-> ->], S2 as [-> ->]. destruct (swap_l_turned P old new) as [-> ->]. eauto.
    - rewrite paired_turned in S2. destruct (s_are_paired eL eR P expected old);
        destruct S1 as [-> ->], S2 as [-> ->]; [destruct (swap_l_turned P old new) as [-> ->]; eauto|].
      split; auto. exists Neither; auto.
    - rewrite cl_turned in S2. split; auto. destruct (s_contains_right eR P old);
        destruct S1 as [-> _], S2 as [-> _]; [destruct (swap_l_turned P old new) as [-> _]|rewrite insert_turned]; auto.
    - destruct S1 as [-> ->], S2 as [-> ->]. rewrite paired_turned. eauto.
    - destruct S1 as [-> ->], S2 as [-> ->]. rewrite rp_turned. eauto.
    - destruct S1 as [-> ->], S2 as [-> ->]. rewrite lp_turned. eauto.
    - destruct S1 as [-> ->], S2 as [-> ->]. rewrite cr_turned. eauto.
    - destruct S1 as [-> ->], S2 as [-> ->]. rewrite cl_turned. eauto.
    - destruct S1 as [-> ->], S2 as [-> ->]. unfold s_get_left, s_get_right. rewrite find_l_turned.
      split; auto. destruct (find_r eR P r) as [x|]; cbn; rewrite ?turn_get_r; eauto.
    - destruct S1 as [-> ->], S2 as [-> ->]. unfold s_get_left, s_get_right. rewrite find_r_turned.
      split; auto. destruct (find_l eL P l) as [x|]; cbn; rewrite ?turn_get_l; eauto.
    - destruct S1 as [-> ->], S2 as [-> ->]. rewrite rights_turned. eauto.
    - destruct S1 as [-> ->], S2 as [-> ->]. rewrite lefts_turned. eauto.
    - destruct S1 as [-> ->], S2 as [-> ->]. split; auto. destruct P; simpl; eauto.
    - destruct S1 as [-> _], S2 as [-> _]. auto.
    - destruct S1 as (-> & Q & PQ & ->), S2 as (-> & Q' & PQ' & ->). split; auto.
      exists Q, Q'. repeat split; auto. rewrite PQ', pairs_turned. apply Permutation_map. symmetry; auto.
    - destruct S1 as (-> & Q & PQ & ->), S2 as (-> & Q' & PQ' & ->). split; auto.
      exists Q, Q'. repeat split; auto. rewrite PQ', unpaired_turned. apply Permutation_map. symmetry; auto.
    - destruct S1 as (-> & Q & PQ & ->), S2 as (-> & Q' & PQ' & ->). split; auto.
      exists Q, Q'. repeat split; auto. rewrite PQ', PQ, rights_turned. auto.
    - destruct S1 as (-> & Q & PQ & ->), S2 as (-> & Q' & PQ' & ->). split; auto.
      exists Q, Q'. repeat split; auto. rewrite PQ', PQ, lefts_turned. auto.
    - destruct S1 as [-> ->], S2 as [-> ->]. split; auto. clear B. revert P.
      induction xs as [|z xs IH]; intros P; simpl; auto. rewrite insert_turned. apply IH.
    - destruct S1 as [-> ->], S2 as [-> ->]. split; auto. clear B. revert P.
      induction xs as [|z xs IH]; intros P; simpl; auto. rewrite entry_turned. apply IH.
    - destruct S1 as (Q & PQ & S1), S2 as (Q' & PQ' & S2). rename x0 into p, H into Hp.
      destruct (pure_filter f p Hp Q x) as (x1 & F1).
      destruct (pure_filter (fun (x : X) q => f x (turn q)) (fun q => p (turn q)) (fun (x : X) q => Hp x (turn q)) Q' x) as (x2 & F2).
      rewrite F1 in S1. rewrite F2 in S2. destruct S1 as [-> ->], S2 as [-> ->]. split; auto.
      rewrite unpaired_turned, turned_app. apply Permutation_app_tail.
      rewrite pairs_turned in PQ'.
      etransitivity; [apply Permutation_map, filter_perm, PQ'|]. symmetry. unfold turned.
      etransitivity; [apply Permutation_map, Permutation_map, filter_perm, PQ|].
      rewrite filter_map, !map_map. erewrite filter_ext; [reflexivity|]. intros []; auto.
    - destruct S1 as (Q & PQ & S1), S2 as (Q' & PQ' & S2). rename x0 into p, H into Hp.
      destruct (pure_filter f p Hp Q x) as (x1 & F1).
      destruct (pure_filter (fun (x : X) q => f x (turn_e q)) (fun q => p (turn_e q)) (fun (x : X) q => Hp x (turn_e q)) Q' x) as (x2 & F2).
      rewrite F1 in S1. rewrite F2 in S2. destruct S1 as [-> ->], S2 as [-> ->]. split; auto.
      rewrite turned_app. rewrite unpaired_turned in PQ'.
      apply Permutation_app; symmetry; unfold turned;
        [etransitivity; [apply Permutation_map, filter_perm, PQ|]; symmetry;
         etransitivity; [apply filter_perm, PQ'|]; unfold turned|]; rewrite filter_map.
      + erewrite filter_ext; [reflexivity|]. intros []; auto.
      + erewrite filter_ext; [reflexivity|]. intros []; auto.
    - destruct S1 as [-> _], S2 as [-> _]. auto.
    - destruct S1 as [-> ->], S2 as [-> ->]. auto.
    - destruct S1 as [-> ->], S2 as [-> ->]. auto.
    - destruct S1 as [-> ->], S2 as [-> ->]. auto.
    - destruct S1 as [-> ->], S2 as [-> ->]. auto.
    - destruct S1 as [-> ->], S2 as [-> ->]. auto.
    - destruct S1 as [-> ->], S2 as [-> ->]. auto.
    - destruct S1 as [-> ->], S2 as [-> ->]. auto.
    - destruct S1 as (-> & b & ->), S2 as (-> & b' & ->). eauto.
    - destruct S1 as (-> & b & ->), S2 as (-> & b' & ->). eauto.
  Qed.
End Turned.

Section Theorems.
  Context {L R S S' : Type}.
  Variables (E : env L R S) (E' : env R L S').
  Hypothesis OK : lawful E.
  Hypothesis OK' : lawful E'.
  (* the items are compared in the same way *)
  Hypothesis QL : eqL E' = eqR E.
  Hypothesis QR : eqR E' = eqL E.
  Let EL := eqL_equiv _ OK.
  Let ER := eqR_equiv _ OK.

  (* iter_paired() and iter_unpaired() yield the same entries, turned round, in any order *)
  Definition images (m : pmap L R S) (m' : pmap R L S') : Prop :=
    exists P P', contents E m P /\ contents E' m' P' /\ Permutation P' (turned P).

  Lemma images_repr : forall room room' m m', reachable E room m -> reachable E' room' m' -> images m m' ->
    exists s c s' c' P, Repr E s c m P /\ c + room < two64 /\ Repr E' s' c' m' (turned P) /\ c' + room' < two64.
  Proof.
    intros room room' m m' H H' (P & P' & (q & u & V1 & V2 & ->) & (q' & u' & V1' & V2' & ->) & PM).
    apply (reachable_view E OK) in H as (s & c & Q & (a & b & W1 & W2 & ->) & H & C).
    apply (reachable_view E' OK') in H' as (s' & c' & Q' & (a' & b' & W1' & W2' & ->) & H' & C').
    rewrite W1 in V1. rewrite W2 in V2. rewrite W1' in V1'. rewrite W2' in V2'.
    injection V1 as <-. injection V2 as <-. injection V1' as <-. injection V2' as <-.
    do 5 eexists. split; [eassumption|]. split; [auto|]. split; [|eauto]. eapply (repr_perm E' OK'); eauto.
  Qed.
  Lemma repr_images : forall s c m P s' c' m', Repr E s c m P -> Repr E' s' c' m' (turned P) -> images m m'.
  Proof.
    intros s c m P s' c' m' H H'. destruct (view E OK _ _ _ _ H) as (Q & V & PQ).
    destruct (view E' OK' _ _ _ _ H') as (Q' & V' & PQ'). exists Q, Q'. repeat split; auto.
    rewrite PQ'. apply Permutation_map. symmetry; auto.
  Qed.

  (* the mirrored calls on a mirror image leave a mirror image and give the mirrored results *)
  Theorem C126_mirror : forall ops room room' m m', reachable E room m -> reachable E' room' m' -> images m m' ->
    Forall even ops -> guarded E m ops -> guarded E' m' (map mirror ops) ->
    budget ops <= room -> budget ops <= room' ->
    images (fst (run E m ops)) (fst (run E' m' (map mirror ops))) /\
    Forall2 (fun o ww => mirrored (eqL E) (eqR E) o (fst ww) (snd ww)) ops
            (combine (snd (run E m ops)) (snd (run E' m' (map mirror ops)))).
  Proof.
    intros ops room room' m m' H H' I T G G' B B'.
    destruct (images_repr _ _ _ _ H H' I) as (s & c & s' & c' & P & K & C & K' & C'). clear H H' I.
    assert (D : c + budget ops < two64) by lia. assert (D' : c' + budget ops < two64) by lia.
    clear B B' C C'. revert c c' m m' P K K' D D' G G'.
    induction T as [|o ops To T IH]; intros c c' m m' P K K' D D' G G'.
    - cbn. split; [|constructor]. eapply repr_images; eauto.
    - cbn [run budget map guarded] in *. destruct G as [G1 G2], G' as [G1' G2'].
      assert (MI : ids (mirror o) = ids o).
      { destruct o; auto; cbn; unfold turned; rewrite map_length; auto. }
      destruct (step_ok E OK s c m P o K) as (P1 & c1 & S1 & H1 & C1); [lia|auto|].
      destruct (step_ok E' OK' s' c' m' (turned P) (mirror o) K') as (P2 & c2 & S2 & H2 & C2); [lia|auto|].
      rewrite QL, QR in S2.
      destruct (step_mirror _ _ EL ER o P P1 P2 _ _ (repr_bij _ _ _ _ _ K) To S1 S2) as [PM W].
      apply (repr_perm E' OK' _ _ _ _ _ PM) in H2.
      destruct (step E m o) as [m1 w], (step E' m' (mirror o)) as [m2 w']. cbn [fst snd] in *.
      destruct (IH c1 c2 m1 m2 P1 H1 H2) as [X Y]; [lia|lia|auto|auto|].
      destruct (run E m1 ops) as [n1 ws], (run E' m2 (map mirror ops)) as [n2 ws']. cbn [fst snd combine] in *.
      split; auto.
  Qed.

  (* swap_left_or_insert and swap_right_or_insert: the results are mirrored (or both panic) exactly
     unless old is absent and the other two items are paired with each other *)
  Theorem C126_or_insert : forall m m' old new to_insert, reachable E 1 m -> reachable E' 1 m' -> images m m' ->
    let w := snd (step E m (SwapLeftOrInsert old new to_insert)) in
    let w' := snd (step E' m' (SwapRightOrInsert old new to_insert)) in
    (w = OPanic /\ w' = OPanic \/ exists d, w = OSwapL d /\ w' = OSwapR (turn_swap d)) <->
    contains_left E m old = true \/ are_paired E m new to_insert = false.
  Proof.
    intros m m' old new ti H H' I.
    destruct (images_repr _ _ _ _ H H' I) as (s & c & s' & c' & P & K & C & K' & C'). clear H H' I.
    destruct (step_ok E OK s c m P (SwapLeftOrInsert old new ti) K) as (P1 & c1 & S1 & _); [cbn [ids]; lia|exact I|].
    destruct (step_ok E' OK' s' c' m' (turned P) (SwapRightOrInsert old new ti) K') as (P2 & c2 & S2 & _);
      [cbn [ids]; lia|exact I|].
    rewrite (contains_left_spec E OK _ _ _ _ _ K), (are_paired_spec E OK _ _ _ _ _ _ K).
    rewrite QL, QR in S2. cbn [s_step] in *. rewrite cr_turned in S2.
    assert (B := repr_bij _ _ _ _ _ K). cbv zeta.
    destruct (s_contains_left (eqL E) P old) eqn:O.
    - destruct S1 as [_ ->], S2 as [_ ->]. destruct (swap_r_turned (eqL E) P old new) as [_ ->].
      split; eauto.
    - destruct S1 as [_ ->], S2 as [_ ->]. rewrite del_l_turned, cr_turned, find_l_turned.
      rewrite !(contains_find_l E), (find_l_del _ _ EL ER) by auto.
      assert (D : op_from_pair (@None L, option_map turn_e (find_r (eqR E) P ti))
                  = turn_swap (op_from_pair (None, find_r (eqR E) P ti))) by (destruct (find_r (eqR E) P ti); auto).
      rewrite D. destruct (s_are_paired (eqL E) (eqR E) P new ti) eqn:X.
      + destruct (same_entry _ _ EL ER P new ti B X) as (x & -> & _). cbn [is_some].
        split; [intros [[_ Y]|(d & Y & _)]; discriminate|intros [Y|Y]; discriminate].
      + split; [intros _; right; auto|intros _].
        destruct (is_some (find_l (eqL E) P new)); eauto.
  Qed.
End Theorems.

(* pm1 (all hashes collide) and an image of it made with another hash function, another hasher
   state and another history *)
Definition pm1_image_hist : list (op item item) :=
  [Insert (it 50) (it 5); InsertLeft (it 60); Insert (it 20) (it 7); InsertRight (it 4); InsertRight (it 2);
   SwapRight (it 7) (it 1); PairForced (it 30) (it 3); Insert (it 30) (it 3); InsertLeft (it 40); Insert (it 10) (it 8);
   RemoveRight (it 8)].
Definition pm1_image : pmap item item N := fst (run env_spread (with_hasher 3 1 2) pm1_image_hist).
Ltac perm :=
  match goal with
  | |- Permutation [] [] => constructor
  | |- Permutation (?a :: _) (?b :: _) => unify a b; apply perm_skip; perm
  | |- Permutation _ (_ :: _) => eapply perm_trans; [|apply Permutation_sym, Permutation_cons_append]; cbn [app]; perm
  end.
Example C126_case :
  let E := env_collide in let E' := env_spread in
  lawful E /\ lawful E' /\ eqL E' = eqR E /\ eqR E' = eqL E /\
  reachable E 8 pm1 /\ reachable E' 8 pm1_image /\ images E E' pm1 pm1_image /\
  let ops := [Insert (it 3) (it 50); Insert (1, 8) (20, 8); PairForced (it 2) (it 20); SwapLeft (it 2) (it 4);
              RemoveLeft (it 4); Extend [SomeBoth (it 6) (it 60); SomeRight (it 70)];
              RetainPaired unit (fun _ p => (tt, Some (5 <? fst (fst p)))) tt; InsertRight (60, 7); GetLeft (50, 9)] in
  Forall even ops /\ guarded E pm1 ops /\ guarded E' pm1_image (map mirror ops) /\
  snd (run E pm1 ops) =
    [OIns (SomeBoth (it 3) (it 30), SomeBoth (it 5) (it 50)); OIns (SomeBoth (it 1) (it 20), Neither);
     OEntry (SomeLeft (1, 8)); OSwapL (SomeBoth (it 2) (SomeLeft (it 4))); OL (Some (it 4)); OUnit; OUnit;
     OEntry Neither; OL (Some (it 3))] /\
  snd (run E' pm1_image (map mirror ops)) =
    [OIns (SomeBoth (it 50) (it 5), SomeBoth (it 30) (it 3)); OIns (SomeBoth (it 20) (it 1), Neither);
     OEntry (SomeRight (1, 8)); OSwapR (SomeBoth (it 2) (SomeRight (it 4))); OR (Some (it 4)); OUnit; OUnit;
     OEntry Neither; OR (Some (it 3))] /\
  contents E (fst (run E pm1 ops))
    [SomeBoth (it 3) (it 50); SomeLeft (1, 8); SomeRight (it 70); SomeRight (20, 8);
     SomeRight (it 40); SomeRight (it 10); SomeRight (60, 7)] /\
  contents E' (fst (run E' pm1_image (map mirror ops)))
    [SomeBoth (it 50) (it 3); SomeLeft (60, 7); SomeLeft (it 70); SomeLeft (20, 8);
     SomeLeft (it 10); SomeLeft (it 40); SomeRight (1, 8)] /\
  (* swap_*_or_insert, old absent, the other items a pair *)
  snd (step E pm1 (SwapLeftOrInsert (it 9) (it 3) (it 30))) = OPanic /\
  snd (step E' pm1_image (SwapRightOrInsert (it 9) (it 3) (it 30))) = OSwapR (SomeRight (SomeBoth (it 30) (it 3))) /\
  (* iter is not even: it shows unpaired left items and no unpaired right ones *)
  snd (step E pm1 IterAll) = OEntries
    [SomeBoth (it 5) (it 50); SomeBoth (it 3) (it 30); SomeBoth (it 1) (it 20); SomeLeft (it 2); SomeLeft (it 4)] /\
  snd (step E' pm1_image IterAll) = OEntries
    [SomeLeft (it 10); SomeLeft (it 40); SomeBoth (it 30) (it 3); SomeBoth (it 20) (it 1); SomeLeft (it 60);
     SomeBoth (it 50) (it 5)].
Proof.
  cbv zeta.
  split; [apply env_collide_ok|]. split; [apply env_spread_ok|].
  split; [reflexivity|]. split; [reflexivity|].
  split; [apply pm1_reachable; reflexivity|].
  split; [exists 3, 1, 2, pm1_image_hist; split; [vm_compute; reflexivity|];
          split; [cbn [guarded guard pm1_image_hist]; repeat split|reflexivity]|].
  split.
  { unfold images, contents. do 2 eexists. split; [do 2 eexists; split; [vm_compute; reflexivity|]; split; [vm_compute; reflexivity|reflexivity]|].
    split; [do 2 eexists; split; [vm_compute; reflexivity|]; split; [vm_compute; reflexivity|reflexivity]|].
    vm_compute. perm. }
  split; [repeat constructor; eexists; intros; reflexivity|].
  split; [cbn [guarded guard]; repeat split|].
  split; [cbn [guarded guard map mirror]; repeat split|].
  repeat match goal with |- _ /\ _ => split end; try (vm_compute; reflexivity);
    (do 2 eexists; split; [vm_compute; reflexivity|]; split; [vm_compute; reflexivity|reflexivity]).
Qed.

Print Assumptions C126_mirror.
Print Assumptions C126_or_insert.
