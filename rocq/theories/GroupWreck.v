(* GroupMap: what is left of a map when user code panics half way through a call.  A wrecked map
   holds contents of GroupSpec.v and besides left items that are stranded: in the left table,
   but listed by no right item. *)
From Coq Require Import List NArith Lia Bool Permutation PeanoNat.
From Verif Require Import Prelude RawTable GroupMap ListFacts TableFacts GroupSpec GroupHistory
  GroupProofs GroupProofs2 GroupProofs3 GroupHistoryProofs Capacity GroupCapacity
  Faults FaultTables GroupFault GroupFaultProofs.
Import ListNotations.
Open Scope N_scope.

(* ---- the damage, on the plain lists ---- *)
Section WreckSpec.
  Context {L R : Type} (eL : L -> L -> bool) (eR : R -> R -> bool).
  Notation contents := (contents L R).
  Implicit Types G : contents.

  (* A hash function panics while the left table is rehashed: left items may get lost.
     [full]: the table has to be rehashed; [keep]: nothing gets lost in a rehash. *)
  Definition loses_l (full keep : Prop) G G' : Prop :=
    full /\ exists lost kept, Permutation (lost ++ kept) (map fst (g_pairs G)) /\ (keep -> lost = []) /\
      G' = fold_left (s_remove_left eL) lost G.
  (* the same in the right table: right items may get lost, which strands their left items;
     xs: the left items stranded before *)
  Definition loses_r (full keep : Prop) G (xs : list L) G' (xs' : list L) : Prop :=
    full /\ exists lost kept, Permutation (lost ++ kept) (g_rights G) /\ (keep -> lost = []) /\
      G' = fold_left (s_remove_right eR) lost G /\ xs' = flat_map (group eR G) lost ++ xs.

  (* r is gone, and some of its left items; the others are stranded *)
  Definition s_half_remove G r G' (xs : list L) : Prop :=
    s_contains_right eR G r = true /\ G' = s_remove_right eR G r /\
    exists gone, gone <> [] /\ Permutation (gone ++ xs) (group eR G r).
  (* r without its left items *)
  Definition s_cut G r : contents := GC (g_rights G) (filter (fun p => negb (is_r eR r p)) (g_pairs G)).

  (* [s_half_insert fl fr keep G l r G' xs pd]: fl, fr: the left (right) table has to be
     rehashed; [pd = Some (l, r)]: r lists the id of an entry for l that was not made *)
  Definition s_half_insert (fl fr keep : Prop) G l r G' (xs : list L) (pd : option (L * R)) : Prop :=
    match find_l eL G l, find_r eR G r with
    | None, None =>
        (loses_l fl keep G G' /\ xs = [] /\ pd = None) \/ (loses_r fr keep G [l] G' xs /\ pd = None)
    | Some p, None => loses_r fr keep (s_remove_left eL G l) [fst p] G' xs /\ pd = None
    | None, Some _ => loses_l fl keep G G' /\ xs = [] /\ pd = Some (l, r)
    | Some _, Some _ => False
    end.
  Definition s_half_insert_right (fr keep : Prop) G r G' (xs : list L) : Prop :=
    s_half_remove G r G' xs \/
    (G' = s_remove_right eR G r /\ xs = []) \/ loses_r fr keep (s_remove_right eR G r) [] G' xs.
  Definition s_half_insert_remove (fl fr keep : Prop) G l r G' (xs : list L) : Prop :=
    let G1 := s_remove_left eL G l in
    let G2 := s_remove_right eR G1 r in
    (G' = G1 /\ xs = []) \/ s_half_remove G1 r G' xs \/ (G' = G2 /\ xs = []) \/
    (loses_l fl keep G2 G' /\ xs = []) \/ loses_r fr keep G2 [l] G' xs.
  Definition s_half_insert_left (fl keep : Prop) G l r G' (xs : list L) (pd : option (L * R)) : Prop :=
    s_contains_right eR G r = true /\ xs = [] /\
    ((G' = G /\ pd = Some (l, r)) \/ (loses_l fl keep (s_remove_left eL G l) G' /\ pd = None)).
  Definition s_half_swap (fr keep : Prop) G G1 old G' (xs : list L) : Prop :=
    s_contains_right eR G old = true /\
    ((G' = G1 /\ xs = group eR G old) \/ loses_r fr keep G1 (group eR G old) G' xs).
  Definition s_half_pair G l r G' (xs : list L) : Prop :=
    s_contains_right eR G r = true /\ exists p, find_l eL G l = Some p /\ G' = s_remove_left eL G l /\ xs = [fst p].

  (* what a panic of user code in the call o may leave of the contents G *)
  Definition unharmed G G' (xs : list L) (pd : option (L * R)) : Prop := G' = G /\ xs = [] /\ pd = None.
  Definition s_half_item (fl fr keep : Prop) G (x : option L * R) G' xs pd : Prop :=
    unharmed G G' xs pd \/
    match fst x with
    | Some l => s_half_insert fl fr keep G l (snd x) G' xs pd
    | None => s_half_insert_right fr keep G (snd x) G' xs /\ pd = None
    end.
  Definition s_half_extend (fl fr keep : Prop) G items G' xs pd : Prop :=
    exists done_ x todo, items = done_ ++ x :: todo /\
      s_half_item fl fr keep (fold_left (s_insert_item eL eR) done_ G) x G' xs pd.
  Definition s_wrecked (fl fr keep : Prop) G (o : op L R) G' (xs : list L) (pd : option (L * R)) : Prop :=
    unharmed G G' xs pd \/
    match o with
    | Insert l r => s_half_insert fl fr keep G l r G' xs pd
    | InsertRemove l r => s_half_insert_remove fl fr keep G l r G' xs /\ pd = None
    | InsertLeft l r => s_half_insert_left fl keep G l r G' xs pd
    | InsertRight r => s_half_insert_right fr keep G r G' xs /\ pd = None
    | SwapRight old new =>
        (if s_contains_right eR G old then s_half_swap fr keep G (s_cut G old) old G' xs
         else s_half_insert_right fr keep G new G' xs) /\ pd = None
    | SwapRightRemove old new =>
        (if s_contains_right eR G old then s_half_swap fr keep G (s_remove_right eR G old) old G' xs
         else s_half_insert_right fr keep G new G' xs) /\ pd = None
    | Pair l r => s_half_pair G l r G' xs /\ pd = None
    | Remove l r => s_are_paired eL eR G l r = true /\ s_half_remove G r G' xs /\ pd = None
    | RemoveRight r => s_half_remove G r G' xs /\ pd = None
    | ExtendPairs items => s_half_extend fl fr keep G (map (fun p => (Some (fst p), snd p)) items) G' xs pd
    | Extend items => s_half_extend fl fr keep G items G' xs pd
    | _ => False
    end.

  (* less may go wrong in a smaller part of the call *)
  Lemma loses_l_mono : forall (f f' keep : Prop) G G', (f -> f') -> loses_l f keep G G' -> loses_l f' keep G G'.
  Proof. intros f f' keep G G' I [H1 H2]. split; auto. Qed.
  Lemma loses_r_mono : forall (f f' keep : Prop) G xs G' xs', (f -> f') -> loses_r f keep G xs G' xs' ->
    loses_r f' keep G xs G' xs'.
  Proof. intros f f' keep G xs G' xs' I [H1 H2]. split; auto. Qed.
  Lemma half_item_mono : forall (fl fr fl' fr' keep : Prop) G x G' xs pd, (fl -> fl') -> (fr -> fr') ->
    s_half_item fl fr keep G x G' xs pd -> s_half_item fl' fr' keep G x G' xs pd.
  Proof.
    intros fl fr fl' fr' keep G [[l|] r] G' xs pd I1 I2 [H|H]; [left; auto|right|left; auto|right]; simpl in *.
    - unfold s_half_insert in *. destruct (find_l eL G l), (find_r eR G r); auto.
      + destruct H as [H1 H2]. split; auto. eapply loses_r_mono; eauto.
      + destruct H as [H1 H2]. split; auto. eapply loses_l_mono; eauto.
      + destruct H as [[H1 H2]|[H1 H2]]; [left|right]; split; auto; [eapply loses_l_mono|eapply loses_r_mono]; eauto.
    - destruct H as [H ->]. split; auto. destruct H as [H|[H|H]]; [left; auto|right; left; auto|right; right].
      eapply loses_r_mono; eauto.
  Qed.

  Hypothesis ER : equivalence eR.
  Lemma same_remove_right : forall G G' r, same G G' -> same (s_remove_right eR G r) (s_remove_right eR G' r).
  Proof. intros G G' r [H1 H2]. split; simpl; apply filter_perm; auto. Qed.
  Lemma same_remove_left : forall G G' l, same G G' -> same (s_remove_left eL G l) (s_remove_left eL G' l).
  Proof. intros G G' r [H1 H2]. split; simpl; auto. apply filter_perm; auto. Qed.
  Lemma same_fold : forall {T} (f : contents -> T -> contents) ts G G',
    (forall G G' t, same G G' -> same (f G t) (f G' t)) -> same G G' -> same (fold_left f ts G) (fold_left f ts G').
  Proof. intros T f ts. induction ts as [|t ts IH]; intros G G' H HG; simpl; auto. Qed.
  Lemma same_group_of : forall G G' r, same G G' -> Permutation (group eR G r) (group eR G' r).
  Proof. intros G G' r [_ H]. apply Permutation_map, filter_perm; auto. Qed.
  Lemma same_flat : forall G G' rs, same G G' -> Permutation (flat_map (group eR G) rs) (flat_map (group eR G') rs).
  Proof. intros G G' rs H. induction rs; simpl; auto. apply Permutation_app; auto. apply same_group_of; auto. Qed.
  Lemma same_refl : forall G, same G G.
  Proof. intros G. split; auto. Qed.
  Lemma same_sym : forall G G', same G G' -> same G' G.
  Proof. intros G G' [H1 H2]. split; symmetry; auto. Qed.
  Lemma same_trans : forall G G' G'', same G G' -> same G' G'' -> same G G''.
  Proof. intros G G' G'' [H1 H2] [H3 H4]. split; etransitivity; eauto. Qed.
  Lemma group_other : forall G r r', eR r r' = false -> group eR (s_remove_right eR G r) r' = group eR G r'.
  Proof.
    intros [gr gp] r r' N. unfold group, s_remove_right. simpl. f_equal.
    induction gp as [|p t IH]; simpl; auto. unfold is_r in *. destruct (eR r' (snd p)) eqn:Q.
    - replace (eR r (snd p)) with false; simpl; [rewrite Q, IH; auto|].
      symmetry. destruct (eR r (snd p)) eqn:X; auto. exfalso.
      assert (Y : eR r r' = true); [|congruence].
      eapply (equiv_trans _ ER); [exact X|]. apply (equiv_sym _ ER). exact Q.
    - destruct (eR r (snd p)); simpl; rewrite ?Q; auto.
  Qed.
End WreckSpec.

Section Wrecks.
  Context {L R S : Type} (E : env L R S) (OK : lawful E).
  Notation map' := (gmap L R S).
  Notation zl := (zleft L R).
  Notation zr := (zright R).
  Notation contents := (contents L R).
  Notation slotL := (slotL E).
  Notation slotR := (slotR E).
  Notation pkey := (pkey E).
  Notation Core := (Core E).
  Notation Rep := (Rep E).
  Notation Repr := (Repr E).
  Notation lhash m l := (hashL E (hash_builder m) l).
  Notation rhash m r := (hashR E (hash_builder m) r).
  Notation eqkl l := (equivalent_key_left (eqL E) l).
  Notation eqkr r := (equivalent_key_right (eqR E) r).

  Let EL := eqL_equiv _ OK.
  Let ER := eqR_equiv _ OK.
  Let LO := lo_ok _ OK.

  (* A, D, B as in GroupProofs.Rep; X: the stranded left items *)
  Record Wreck (s : S) (lc rc : N) (m : map') (A X D : list zl) (B : list zr) : Prop := {
    w_hb : hash_builder m = s;
    w_l : Permutation (slots (left_set m)) (map (slotL s) (A ++ X));
    w_r : Permutation (slots (right_set m)) (map (slotR s) B);
    w_core : Core s lc rc A D B;
    w_eql : distinct (eqL E) (map z_l (A ++ X));
    w_ids : forall x, In x X -> ~ In (z_id x) (map z_id (A ++ D))
  }.
  Definition WRepr (b : bool * bool) (s : S) (lc rc : N) (m : map') (G : contents) (xs : list L) : Prop :=
    exists A X D B, Wreck s lc rc m A X D B /\ G = GroupProofs.view A B /\ xs = map z_l X /\ tame b A D /\
      left_counter m = lc /\ right_counter m = rc.

  Lemma rep_wreck : forall s lc rc m A D B, Rep s lc rc m A D B -> Wreck s lc rc m A [] D B.
  Proof.
    intros s lc rc m A D B H. constructor; rewrite ?app_nil_r; try apply H; try (intros x []).
    eapply rep_core; eauto.
  Qed.
  Lemma wreck_rep : forall s lc rc m A D B, Wreck s lc rc m A [] D B -> Rep s lc rc m A D B.
  Proof. intros s lc rc m A D B []. rewrite app_nil_r in *. apply core_rep; auto. Qed.
  Lemma repr_wrepr : forall b s lc rc m G, Repr b s lc rc m G -> WRepr b s lc rc m G [].
  Proof.
    intros b s lc rc m G (A & D & B & H & -> & T & C). exists A, [], D, B.
    split; [apply rep_wreck; auto|auto].
  Qed.
  Lemma wrepr_repr : forall b s lc rc m G, WRepr b s lc rc m G [] -> Repr b s lc rc m G.
  Proof.
    intros b s lc rc m G (A & X & D & B & H & -> & Q & T & C). destruct X; [|discriminate].
    exists A, D, B. split; [apply wreck_rep; auto|auto].
  Qed.
  Lemma wreck_perm : forall s lc rc m A X D B A' X' B', Permutation A A' -> Permutation X X' -> Permutation B B' ->
    Wreck s lc rc m A X D B -> Wreck s lc rc m A' X' D B'.
  Proof.
    intros s lc rc m A X D B A' X' B' PA PX PB [].
    assert (P : Permutation (A ++ X) (A' ++ X')) by (apply Permutation_app; auto).
    constructor; auto.
    - rewrite w_l0. apply Permutation_map; auto.
    - rewrite w_r0. apply Permutation_map; auto.
    - eapply (core_perm E OK); [| | |exact w_core0]; auto. apply Permutation_app_tail; auto.
    - eapply distinct_perm; [exact EL|apply Permutation_map; exact P|auto].
    - intros x Hx I. apply (w_ids0 x); [eapply Permutation_in; [symmetry|]; eauto|].
      eapply Permutation_in; [|exact I]. apply Permutation_map, Permutation_app_tail. symmetry; auto.
  Qed.
  Lemma wrepr_same : forall b s lc rc m G G' xs xs', same G G' -> Permutation xs xs' ->
    WRepr b s lc rc m G xs -> WRepr b s lc rc m G' xs'.
  Proof.
    intros b s lc rc m [gr gp] [gr' gp'] xs xs' [PR PP] PX (A & X & D & B & H & HG & -> & T & C). simpl in *.
    inversion HG; subst gr gp. symmetry in PR, PP, PX.
    apply Permutation_map_inv in PR as (B' & -> & PB).
    apply Permutation_map_inv in PP as (A' & -> & PA).
    apply Permutation_map_inv in PX as (X' & -> & PX).
    exists A', X', D, B'. split; [eapply wreck_perm; eauto|]. split; [auto|split; [auto|split; [|auto]]].
    eapply tame_perm; [exact PA|auto].
  Qed.

  (* ---- losing right items ---- *)
  Lemma core_synth : forall s lc rc A D B, Core s lc rc A D B ->
    Rep s lc rc (GM s 0 0 (Tbl (map (slotL s) A) 0) (Tbl (map (slotR s) B) 0)) A D B.
  Proof. intros. apply core_rep; auto. Qed.
  Lemma core_lose_one : forall s lc rc A D y B, Core s lc rc A D (y :: B) ->
    Core s lc rc (filter (fun z => negb (in_group (y_id y) z)) A) D B /\
    GroupProofs.view (filter (fun z => negb (in_group (y_id y) z)) A) B =
      s_remove_right (eqR E) (GroupProofs.view A (y :: B)) (y_r y) /\
    map z_l (filter (in_group (y_id y)) A) = group (eqR E) (GroupProofs.view A (y :: B)) (y_r y).
  Proof.
    intros s lc rc A D y B H. assert (H1 := core_synth _ _ _ _ _ _ H).
    assert (RF : eqR E (y_r y) (y_r y) = true) by apply (equiv_refl _ ER).
    split; [|split].
    - eapply (core_remove_group E) with (zs := filter (in_group (y_id y)) A); [| |].
      + eapply (core_perm E OK); [| | |exact H]; auto.
        * apply Permutation_app_tail. apply split_group.
        * apply split_group.
      + intros z Hz. apply filter_In in Hz as [_ Hz]. apply N.eqb_eq; auto.
      + intros z Hz. apply filter_In in Hz as [_ Hz]. apply negb_true_iff, N.eqb_neq in Hz. auto.
    - unfold GroupProofs.view at 1, s_remove_right. f_equal.
      + simpl. rewrite RF. simpl. symmetry. apply filter_all_true. intros b Hb.
        apply in_map_iff in Hb as (x & <- & Hx). apply negb_true_iff.
        assert (D2 := c_eqr _ _ _ _ _ _ _ H). simpl in D2. apply distinct_cons in D2 as [D2 _].
        apply D2, in_map; auto.
      + simpl. symmetry. apply (others_z E OK _ _ _ _ _ _ _ y (y_r y) H1); simpl; auto.
    - symmetry. apply (group_z E OK _ _ _ _ _ _ _ y (y_r y) H1); simpl; auto.
  Qed.
  Lemma core_lose : forall s lc rc D B1 B2 A, Core s lc rc A D (B2 ++ B1) ->
    exists A1 A2, Permutation A (A2 ++ A1) /\ Core s lc rc A1 D B1 /\
      GroupProofs.view A1 B1 = fold_left (s_remove_right (eqR E)) (map y_r B2) (GroupProofs.view A (B2 ++ B1)) /\
      map z_l A2 = flat_map (group (eqR E) (GroupProofs.view A (B2 ++ B1))) (map y_r B2).
  Proof.
    intros s lc rc D B1. induction B2 as [|y B2 IH]; intros A H; cbn [app map fold_left flat_map] in *.
    - exists A, []. auto.
    - destruct (core_lose_one _ _ _ _ _ _ _ H) as (H1 & V1 & G1).
      destruct (IH _ H1) as (A1 & A2 & P & H2 & V2 & G2).
      exists A1, (filter (in_group (y_id y)) A ++ A2). split; [|split; [auto|split]].
      + rewrite <- app_assoc, <- P. apply split_group.
      + rewrite V2, V1. reflexivity.
      + rewrite map_app, G1, G2, V1. f_equal.
        assert (DR := c_eqr _ _ _ _ _ _ _ H). simpl in DR. apply distinct_cons in DR as [DR _].
        rewrite map_app in DR.
        assert (X : forall rs, incl rs (map y_r B2) ->
          flat_map (group (eqR E) (s_remove_right (eqR E) (GroupProofs.view A (y :: B2 ++ B1)) (y_r y))) rs =
          flat_map (group (eqR E) (GroupProofs.view A (y :: B2 ++ B1))) rs).
        { induction rs as [|r rs IHr]; intros I; auto. cbn [flat_map].
          rewrite (group_other (eqR E) ER) by (apply DR, in_or_app; left; apply I; left; auto).
          f_equal. apply IHr. intros x Hx; apply I; right; auto. }
        apply X. intros x Hx; auto.
  Qed.
  Lemma split_torn : forall {T U} (f : T -> U) Z a b, Permutation (a ++ b) (map f Z) ->
    exists Z1 Z2, Permutation Z (Z2 ++ Z1) /\ a = map f Z1 /\ b = map f Z2.
  Proof.
    intros T U f Z a b P. apply Permutation_map_inv in P as (Z' & Q & P). symmetry in Q.
    apply map_eq_app in Q as (Z1 & Z2 & -> & <- & <-). exists Z1, Z2. split; auto.
    rewrite P. apply Permutation_app_comm.
  Qed.
  Lemma nodup_apart : forall {T U} (f : T -> U) (a b : list T), NoDup (map f (a ++ b)) ->
    forall x, In x a -> ~ In (f x) (map f b).
  Proof.
    intros T U f a b ND x Hx I. apply in_split in Hx as (a1 & a2 & ->). rewrite <- app_assoc in ND.
    rewrite map_app in ND. simpl in ND. apply NoDup_remove_2 in ND. apply ND.
    rewrite map_app, !in_app_iff. auto.
  Qed.
  Lemma wreck_lose_r : forall s lc rc m A X D B t lost, Wreck s lc rc m A X D B ->
    Permutation (slots t ++ lost) (slots (right_set m)) ->
    exists A1 A2 B1 B2, Permutation A (A2 ++ A1) /\ Permutation B (B2 ++ B1) /\ lost = map (slotR s) B2 /\
      Wreck s lc rc (set_right t m) A1 (A2 ++ X) D B1 /\
      GroupProofs.view A1 B1 = fold_left (s_remove_right (eqR E)) (map y_r B2) (GroupProofs.view A (B2 ++ B1)) /\
      map z_l A2 = flat_map (group (eqR E) (GroupProofs.view A (B2 ++ B1))) (map y_r B2).
  Proof.
    intros s lc rc m A X D B t lost H P. rewrite (w_r _ _ _ _ _ _ _ _ H) in P.
    apply split_torn in P as (B1 & B2 & PB & Q1 & Q2).
    assert (HC : Core s lc rc A D (B2 ++ B1)).
    { eapply (core_perm E OK); [| | |apply (w_core _ _ _ _ _ _ _ _ H)]; auto. }
    destruct (core_lose _ _ _ _ _ _ _ HC) as (A1 & A2 & PA & HC1 & V & GR).
    exists A1, A2, B1, B2. split; [auto|split; [auto|split; [auto|split; [|auto]]]]. destruct H.
    assert (P2 : Permutation (A ++ X) (A1 ++ A2 ++ X)).
    { rewrite app_assoc. apply Permutation_app_tail. rewrite PA. apply Permutation_app_comm. }
    constructor; auto.
    - simpl. rewrite w_l0. apply Permutation_map; auto.
    - simpl. rewrite Q1. auto.
    - eapply distinct_perm; [exact EL|apply Permutation_map; exact P2|auto].
    - intros x Hx. apply in_app_or in Hx as [Hx|Hx].
      + assert (ND := c_lids _ _ _ _ _ _ _ w_core0).
        assert (PD : Permutation (A ++ D) (A2 ++ A1 ++ D)).
        { rewrite app_assoc. apply Permutation_app_tail; auto. }
        apply (NoDup_perm _ _ (Permutation_map z_id PD)) in ND. eapply nodup_apart; eauto.
      + intros I. apply (w_ids0 x Hx). eapply Permutation_in; [apply Permutation_map; symmetry; apply Permutation_app_tail; exact PA|].
        rewrite <- app_assoc, map_app. apply in_or_app; auto.
  Qed.
  Lemma tame_less : forall b A A1 A2 D, Permutation A (A2 ++ A1) -> tame b A D -> tame (L:=L) (R:=R) b A1 D.
  Proof.
    intros b A A1 A2 D P [T1 T2]. split; auto. intros Hb z Hz. apply T2; auto.
    eapply Permutation_in; [symmetry; exact P|]. apply in_or_app; auto.
  Qed.
  Lemma wrepr_lose_r : forall b s lc rc m G xs t lost, WRepr b s lc rc m G xs ->
    Permutation (slots t ++ lost) (slots (right_set m)) ->
    exists rs kept, Permutation (rs ++ kept) (g_rights G) /\ (lost = [] -> rs = []) /\
      WRepr b s lc rc (set_right t m) (fold_left (s_remove_right (eqR E)) rs G) (flat_map (group (eqR E) G) rs ++ xs).
  Proof.
    intros b s lc rc m G xs t lost (A & X & D & B & H & -> & -> & T & C) P.
    destruct (wreck_lose_r _ _ _ _ _ _ _ _ _ _ H P) as (A1 & A2 & B1 & B2 & PA & PB & Q & H1 & V & GR).
    exists (map y_r B2), (map y_r B1). split; [|split].
    - rewrite <- map_app. simpl. symmetry. apply Permutation_map; auto.
    - intros ->. destruct B2; [auto|discriminate].
    - assert (SM : same (GroupProofs.view A (B2 ++ B1)) (GroupProofs.view A B)).
      { split; simpl; auto. symmetry. apply Permutation_map; auto. }
      apply (wrepr_same b s lc rc _ (GroupProofs.view A1 B1) _ (map z_l (A2 ++ X))).
      + rewrite V. apply same_fold; auto. intros; apply same_remove_right; auto.
      + rewrite map_app, GR. apply Permutation_app_tail. apply same_flat; auto.
      + exists A1, (A2 ++ X), D, B1. split; auto. split; auto. split; auto. split; [|auto].
        eapply tame_less; eauto.
  Qed.

  (* ---- losing left items ---- *)
  Lemma view_lose_l : forall A2 A1 (B : list zr), distinct (eqL E) (map z_l (A2 ++ A1)) ->
    GroupProofs.view A1 B = fold_left (s_remove_left (eqL E)) (map z_l A2) (GroupProofs.view (A2 ++ A1) B).
  Proof.
    induction A2 as [|z A2 IH]; intros A1 B DL; auto. cbn [app map fold_left] in *.
    apply distinct_cons in DL as [D1 D2]. rewrite (IH _ _ D2). f_equal.
    unfold s_remove_left, GroupProofs.view. f_equal. unfold del_l. simpl. unfold is_l at 1. simpl.
    rewrite (equiv_refl _ EL). simpl. symmetry. apply filter_all_true. intros p Hp.
    apply in_map_iff in Hp as (x & <- & Hx). unfold is_l. simpl. rewrite D1; auto. apply in_map; auto.
  Qed.
  Lemma repr_lose_l : forall b s lc rc m G t lost, Repr b s lc rc m G ->
    Permutation (slots t ++ lost) (slots (left_set m)) ->
    exists ls kept, Permutation (ls ++ kept) (map fst (g_pairs G)) /\ (lost = [] <-> ls = []) /\
      Repr (match ls with [] => b | _ => (false, snd b) end) s lc rc (set_left t m)
        (fold_left (s_remove_left (eqL E)) ls G).
  Proof.
    intros b s lc rc m G t lost (A & D & B & H & -> & T & C) P.
    rewrite (rep_l _ _ _ _ _ _ _ _ H) in P. apply split_torn in P as (A1 & A2 & PA & Q1 & Q2).
    exists (map z_l A2), (map z_l A1). split; [|split].
    - rewrite <- map_app. simpl. rewrite map_map. symmetry. apply Permutation_map; auto.
    - subst lost. destruct A2; split; auto; discriminate.
    - assert (H1 := rep_perm E OK _ _ _ _ _ _ _ _ _ PA (Permutation_refl _) H).
      apply (repr_same E OK) with (G := GroupProofs.view A1 B).
      + rewrite (view_lose_l A2 A1 B) by apply (rep_eql _ _ _ _ _ _ _ _ H1).
        apply same_fold; [intros; apply same_remove_left; auto|]. split; simpl; auto.
        symmetry. apply Permutation_map; auto.
      + exists A1, (A2 ++ D), B. split; [|split; [auto|split; [|auto]]].
        * apply core_rep; [| apply (rep_hb _ _ _ _ _ _ _ _ H)|simpl; rewrite Q1; auto|apply (rep_r _ _ _ _ _ _ _ _ H)].
          apply (core_kill E). eapply rep_core; eauto.
        * apply (tame_less _ A A1 A2); auto. destruct A2 as [|z A2]; [auto|]. destruct T as [T1 T2].
          split; [discriminate|auto].
  Qed.

  (* ---- a rehash cut short ---- *)
  Variable F : fault.
  Hypothesis FO : fault_ok F.
  Notation loses_l := (loses_l (eqL E)).
  Notation loses_r := (loses_r (eqR E)).
  Notation lost_l := (lost_l E F).
  Notation lost_r := (lost_r E F).
  Lemma no_loss : forall {T} (a b c : list T), Permutation (a ++ b) c -> Permutation a c -> b = [].
  Proof.
    intros T a b c P1 P2. apply Permutation_length in P1, P2. rewrite app_length in P1.
    destruct b; auto. simpl in P1. lia.
  Qed.
  Lemma lost_r_loses : forall (full : Prop) b s lc rc m m' G xs h, WRepr b s lc rc m G xs -> lost_r h m m' -> full ->
    exists G' xs', loses_r full (lossless F) G xs G' xs' /\ WRepr b s lc rc m' G' xs'.
  Proof.
    intros full b s lc rc m m' G xs h H (t & SP & ->) FU.
    destruct (spoilt_torn _ _ FO _ _ _ _ SP) as [lost P].
    destruct (wrepr_lose_r _ _ _ _ _ _ _ _ _ H P) as (rs & kept & PR & NL & H').
    do 2 eexists. split; [|exact H']. split; auto. exists rs, kept. split; auto. split; [|auto].
    intros LF. apply NL. eapply no_loss; [exact P|]. eapply spoilt_lossless; eauto.
  Qed.
  Lemma lost_l_loses : forall (full : Prop) b s lc rc m m' G h, Repr b s lc rc m G -> lost_l h m m' -> full ->
    exists G' b', loses_l full (lossless F) G G' /\ Repr b' s lc rc m' G' /\
      (b' = b \/ (~ lossless F /\ b' = (false, snd b))).
  Proof.
    intros full b s lc rc m m' G h H (t & SP & ->) FU.
    destruct (spoilt_torn _ _ FO _ _ _ _ SP) as [lost P].
    destruct (repr_lose_l _ _ _ _ _ _ _ _ H P) as (ls & kept & PR & NL & H').
    assert (LL : lossless F -> lost = []).
    { intros LF. eapply no_loss; [exact P|]. eapply spoilt_lossless; eauto. }
    do 2 eexists. split; [|split; [exact H'|]].
    - split; auto. exists ls, kept. split; auto. split; [|auto]. intros LF. apply NL; auto.
    - destruct ls as [|x ls]; auto. right. split; auto. intros LF. apply LL in LF. apply NL in LF. discriminate.
  Qed.

  (* ---- remove_right cut short ---- *)
  Lemma remove_pairs_ret : forall s zs A D m m' ls, hash_builder m = s ->
    Permutation (slots (left_set m)) (map (slotL s) A) -> NoDup (map z_id (A ++ D)) ->
    incl zs (A ++ D) -> NoDup (map z_id zs) -> remove_pairs E (map (pkey s) zs) m = Ret m' ls ->
    exists A' lt, Permutation A (zs ++ A') /\ m' = set_left lt m /\
      Permutation (slots lt) (map (slotL s) A') /\ ls = map z_l zs.
  Proof.
    induction zs as [|z t IH]; intros A D m m' ls HB P ND I NZ X; cbn [map remove_pairs] in X.
    - inversion X; subst. exists A, (left_set m'). split; auto. split; [destruct m'; auto|auto].
    - cbn [GroupProofs.pkey] in X. unfold left_remove_entry in X. revert X. mrun. subst s.
      cbn [map] in NZ. apply NoDup_cons_iff in NZ as [NZ1 NZ2].
      assert (Hz := I z (or_introl eq_refl)). apply in_app_or in Hz as [Hz|Hz].
      + apply perm_in_cons in Hz as [A1 PA].
        assert (PD : Permutation (A ++ D) (z :: A1 ++ D)) by (rewrite PA; reflexivity).
        assert (ND1 := NoDup_perm _ _ (Permutation_map z_id PD) ND). cbn [map] in ND1.
        apply NoDup_cons_iff in ND1 as [F1 ND1].
        destruct (t_remove_entry_unique _ LO (left_set m) (hashL E (hash_builder m) (z_l z))
          (left_with_left_id (z_id z)) (snd (slotL (hash_builder m) z)) (map (slotL (hash_builder m)) A1))
          as (lt & -> & PL).
        { rewrite P. apply (Permutation_map (slotL (hash_builder m))) in PA. exact PA. }
        { apply N.eqb_refl. }
        { intros x Hx. eapply (id_l_other E); [|exact Hx]. intros J. apply F1. rewrite map_app. apply in_or_app; auto. }
        destruct (remove_pairs E (map (pkey (hash_builder m)) t) (set_left lt m)) as [m2 rest|m2] eqn:R1; [|discriminate].
        intros X. injection X as -> <-.
        destruct (IH A1 D (set_left lt m) m' rest eq_refl PL ND1) as (A' & lt' & P1 & -> & P2 & ->); auto.
        { intros x Hx. assert (J := I x (or_intror Hx)). apply (Permutation_in _ PD) in J as [<-|J]; auto.
          exfalso. apply NZ1. apply in_map; auto. }
        exists A', lt'. split; [rewrite PA, P1; auto|]. split; [reflexivity|]. split; auto.
      + rewrite t_remove_entry_absent; [discriminate|].
        intros x Hx. eapply (id_l_other E); [|eapply Permutation_in; [exact P|exact Hx]].
        intros J. rewrite map_app in ND. apply in_split in Hz as (D1 & D2 & ->).
        rewrite map_app in ND. simpl in ND. rewrite app_assoc in ND. apply NoDup_remove_2 in ND.
        apply ND. rewrite !in_app_iff. auto.
  Qed.

  Lemma contains_right_z : forall (A : list zl) B y B' q, Permutation B (y :: B') -> eqR E q (y_r y) = true ->
    s_contains_right (eqR E) (GroupProofs.view A B) q = true.
  Proof.
    intros A B y B' q P Q. unfold s_contains_right. apply existsb_exists. exists (y_r y). split; auto.
    simpl. apply in_map. eapply Permutation_in; [symmetry; exact P|left; auto].
  Qed.
  Lemma repr_half_remove : forall b s lc rc m G r m1 e ps1 ps2 m' ls, Repr b s lc rc m G ->
    right_remove_entry E (rhash m r) (eqkr r) m = Ret m1 (Some e) -> hs_elems (r_pairs e) = ps1 ++ ps2 ->
    remove_pairs E ps1 m1 = Ret m' ls ->
    s_contains_right (eqR E) G r = true /\
    exists xs, Permutation (ls ++ xs) (group (eqR E) G r) /\
      WRepr b s lc rc m' (s_remove_right (eqR E) G r) xs /\ length ls = length ps1 /\ (ps2 = [] -> xs = []).
  Proof.
    intros b s lc rc m G r m1 e ps1 ps2 m' ls (A & D & B & H & -> & T & CL & CR) X1 PS X2.
    assert (HB := rep_hb _ _ _ _ _ _ _ _ H).
    destruct (split_r E OK _ _ _ _ _ _ _ r H) as [(y & B' & P & H' & Q & HQ & N)|N].
    2:{ exfalso. revert X1. unfold right_remove_entry. mrun. rewrite t_remove_entry_absent; auto; [discriminate|].
        eapply (right_absent E OK); eauto. }
    split; [eapply contains_right_z; eauto|].
    assert (X : exists rt, m1 = set_right rt m /\ e = snd (slotR s y) /\ Permutation (slots rt) (map (slotR s) B')).
    { revert X1. unfold right_remove_entry. mrun. rewrite HB, HQ.
      destruct (t_remove_entry_unique _ LO (right_set m) (hashR E s (y_r y))
        (equivalent_key_right (eqR E) r) (snd (slotR s y)) (map (slotR s) B')) as (rt & -> & PR).
      { apply (rep_r _ _ _ _ _ _ _ _ H'). }
      { apply (equiv_sym _ (eqR_equiv E OK)), Q. }
      { intros x Hx. eapply (key_r_other E OK); eauto. }
      intros J. injection J as <- <-. eauto. }
    destruct X as (rt & -> & -> & PR). clear X1.
    destruct (tab_elems E _ _ _ _ _ _ _ y H' (or_introl eq_refl)) as (zs & QZ & PZ).
    simpl in PS. rewrite QZ in PS. apply map_eq_app in PS as (zs1 & zs2 & -> & <- & <-).
    assert (NDA := rep_lids _ _ _ _ _ _ _ _ H').
    assert (IZ : forall z, In z (zs1 ++ zs2) -> In z (A ++ D) /\ in_group (y_id y) z = true).
    { intros z Hz. apply (Permutation_in _ PZ) in Hz. apply filter_In in Hz; auto. }
    assert (NZ : NoDup (map z_id (zs1 ++ zs2))).
    { eapply NoDup_perm; [apply Permutation_map; symmetry; exact PZ|].
      assert (SG := split_group (y_id y) (A ++ D)). apply (Permutation_map z_id) in SG.
      apply (NoDup_perm _ _ SG) in NDA. rewrite map_app in NDA. eapply NoDup_app_left; eauto. }
    assert (NZ1 : NoDup (map z_id zs1)) by (rewrite map_app in NZ; eapply NoDup_app_left; eauto).
    assert (IZ1 : incl zs1 (A ++ D)) by (intros z Hz; apply IZ, in_or_app; auto).
    destruct (remove_pairs_ret s zs1 A D (set_right rt m) m' ls HB (rep_l _ _ _ _ _ _ _ _ H) NDA IZ1 NZ1 X2)
      as (A' & lt & PA & -> & PL & ->).
    set (X := filter (in_group (y_id y)) A'). set (A2 := filter (fun z => negb (in_group (y_id y) z)) A').
    assert (F1 : filter (in_group (y_id y)) zs1 = zs1).
    { apply filter_all_true. intros z Hz. apply IZ, in_or_app; auto. }
    assert (F2 : filter (fun z => negb (in_group (y_id y) z)) zs1 = []).
    { apply filter_all_false. intros z Hz. apply negb_false_iff. apply IZ, in_or_app; auto. }
    assert (PA2 : Permutation (filter (fun z => negb (in_group (y_id y) z)) A) A2).
    { rewrite (filter_perm _ _ _ PA), filter_app, F2. reflexivity. }
    assert (PX : Permutation (filter (in_group (y_id y)) A) (zs1 ++ X)).
    { rewrite (filter_perm _ _ _ PA), filter_app, F1. reflexivity. }
    assert (PA' : Permutation A' (A2 ++ X)).
    { rewrite (split_group (y_id y) A') at 1. apply Permutation_app_comm. }
    assert (Hy : In y B) by (eapply Permutation_in; [symmetry; exact P|left; auto]).
    exists (map z_l X). split; [|split; [|split; [rewrite !map_length; auto|]]].
    - rewrite (group_z E OK _ _ _ _ _ _ _ _ _ H Hy Q), <- map_app. symmetry. apply Permutation_map; auto.
    - apply (wrepr_same b s lc rc _ (GroupProofs.view A2 B') _ (map z_l X)); auto.
      { split; simpl.
        - symmetry. exact (del_r_some E y A B' B r P Q N).
        - rewrite (others_z E OK _ _ _ _ _ _ _ _ _ H Hy Q). symmetry. apply Permutation_map; auto. }
      exists A2, X, D, B'. split; [|split; [auto|split; [auto|split; [|auto]]]].
      + constructor; auto.
        * simpl. rewrite PL. apply Permutation_map; auto.
        * eapply (core_perm E OK); [| | |apply (core_lose_one s lc rc A D y B'); eapply rep_core; eauto]; auto.
          apply Permutation_app_tail; auto.
        * assert (DL := rep_eql _ _ _ _ _ _ _ _ H).
          apply (distinct_perm _ EL _ _ (Permutation_map z_l PA)) in DL. rewrite map_app in DL.
          apply distinct_app in DL as (_ & DL & _). eapply distinct_perm; [exact EL|apply Permutation_map; exact PA'|auto].
        * assert (PD : Permutation (A ++ D) ((zs1 ++ X) ++ A2 ++ D)).
          { rewrite app_assoc. apply Permutation_app_tail. rewrite <- app_assoc, (Permutation_app_comm X A2), <- PA'. auto. }
          intros x Hx. apply (NoDup_perm _ _ (Permutation_map z_id PD)) in NDA.
          eapply nodup_apart; [exact NDA|]. apply in_or_app; auto.
      + eapply (tame_less b A A2 (zs1 ++ X)); auto. rewrite <- app_assoc, (Permutation_app_comm X A2), <- PA'. auto.
    - intros Q2. apply map_eq_nil in Q2. subst zs2. rewrite app_nil_r in *.
      destruct X as [|x X'] eqn:QX; auto. exfalso.
      assert (Hx : In x A' /\ in_group (y_id y) x = true) by (apply filter_In; fold X; rewrite QX; left; auto).
      destruct Hx as [Hx GX].
      assert (Hz : In x zs1).
      { eapply Permutation_in; [symmetry; exact PZ|]. apply filter_In. split; auto. apply in_or_app; left.
        eapply Permutation_in; [symmetry; exact PA|]. apply in_or_app; auto. }
      rewrite map_app in NDA. apply NoDup_app_left in NDA.
      apply (NoDup_perm _ _ (Permutation_map z_id PA)) in NDA.
      apply (nodup_apart _ _ _ NDA x Hz). apply in_map; auto.
  Qed.

  Lemma remove_right_absent : forall b s lc rc m G r, Repr b s lc rc m G -> s_contains_right (eqR E) G r = false ->
    s_remove_right (eqR E) G r = G.
  Proof.
    intros b s lc rc m G r (A & D & B & H & -> & _) C.
    assert (N := view_r_absent E A B r C). unfold s_remove_right, GroupProofs.view.
    assert (X1 := del_r_none E A B r N). cbn [g_rights g_pairs GroupProofs.view] in *.
    rewrite X1, (others_absent E _ _ _ _ _ _ _ _ H N). reflexivity.
  Qed.
  Lemma rre_cases : forall b s lc rc m G r m1 o, Repr b s lc rc m G ->
    right_remove_entry E (rhash m r) (eqkr r) m = Ret m1 o ->
    match o with
    | Some e => s_contains_right (eqR E) G r = true
    | None => s_contains_right (eqR E) G r = false /\ m1 = m
    end.
  Proof.
    intros b s lc rc m G r m1 [e|] H X.
    - apply (repr_half_remove b s lc rc m G r m1 e [] (hs_elems (r_pairs e)) m1 [] H X eq_refl eq_refl).
    - revert X. unfold right_remove_entry. mrun. intros X.
      rewrite <- (contains_right_ok E OK _ _ _ _ _ _ r H). unfold contains_right, find_right.
      destruct (t_remove_entry _ _ _ _) as [[e t]|] eqn:Q; [discriminate|]. split; [|congruence].
      unfold t_remove_entry in Q. unfold t_get. destruct (t_find _ _ _ _) as [i|]; auto.
      destruct (t_entry _ _); auto. discriminate.
  Qed.
  (* remove_right that returns: no left-over can have been in the way *)
  Lemma remove_right_ret : forall b s lc rc m G r m1 a, Repr b s lc rc m G -> remove_right E r m = Ret m1 a ->
    Repr b s lc rc m1 (s_remove_right (eqR E) G r).
  Proof.
    intros b s lc rc m G r m1 a H X. unfold remove_right in X.
    change ((o <- right_remove_entry E (rhash m r) (eqkr r) ;;
             match o with
             | None => ret None
             | Some right_item => ls <- remove_pairs E (hs_elems (r_pairs right_item)) ;;
                 ret (Some (collect_set E [] ls, r_value right_item))
             end) m = Ret m1 a) in X.
    unfold bind at 1 in X.
    destruct (right_remove_entry E (rhash m r) (eqkr r) m) as [m2 [e|]|] eqn:Q; [| |discriminate].
    - unfold bind, ret in X. destruct (remove_pairs E (hs_elems (r_pairs e)) m2) as [m3 ls|] eqn:Q2; [|discriminate].
      injection X as -> _.
      destruct (repr_half_remove _ _ _ _ _ _ _ _ _ (hs_elems (r_pairs e)) [] _ _ H Q (eq_sym (app_nil_r _)) Q2)
        as (_ & xs & _ & H' & _ & NX). rewrite (NX eq_refl) in H'. apply wrepr_repr; auto.
    - unfold ret in X. injection X as -> _. destruct (rre_cases _ _ _ _ _ _ _ _ _ H Q) as [C ->].
      erewrite remove_right_absent; eauto.
  Qed.
  Lemma remove_left_ret : forall b s lc rc m G l m1 a, Repr b s lc rc m G -> remove_left E l m = Ret m1 a ->
    Repr b s lc rc m1 (s_remove_left (eqL E) G l).
  Proof.
    intros b s lc rc m G l m1 a H X. destruct (remove_left_ok E OK _ _ _ _ _ _ l H) as (m' & Q & H').
    rewrite X in Q. injection Q as -> _. auto.
  Qed.

  (* ---- swap_right: old has lost its left items ---- *)
  Lemma filter_twice : forall {T} (p q : T -> bool) l, (forall x, In x l -> p x = true -> q x = true) ->
    filter p (filter q l) = filter p l.
  Proof.
    intros T p q l H. induction l as [|a l IH]; simpl; auto.
    assert (IH' := IH (fun x Hx => H x (or_intror Hx))). specialize (H a (or_introl eq_refl)).
    destruct (q a); simpl; rewrite IH'; auto. destruct (p a); auto. discriminate H; auto.
  Qed.
  Lemma core_cut : forall s lc rc A D y B t, Core s lc rc A D (y :: B) -> slots t = [] ->
    Core s lc rc (filter (fun z => negb (in_group (y_id y) z)) A) (filter (fun z => negb (in_group (y_id y) z)) D)
      (ZR (y_id y) (y_r y) t :: B).
  Proof.
    intros s lc rc A D y B t [] T. set (p := fun z : zl => negb (in_group (y_id y) z)).
    assert (FA : filter p A ++ filter p D = filter p (A ++ D)) by (rewrite filter_app; auto).
    assert (ND : NoDup (map z_id (filter p (A ++ D)))).
    { assert (SG := split_group (y_id y) (A ++ D)).
      assert (SG2 := Permutation_trans SG (Permutation_app_comm _ _)).
      apply (NoDup_perm _ _ (Permutation_map z_id SG2)) in c_lids. rewrite map_app in c_lids. eapply NoDup_app_left; eauto. }
    constructor; rewrite ?FA; auto.
    - simpl in c_rids. apply NoDup_cons_iff in c_rids as [NY _]. intros x [<-|Hx].
      + simpl. rewrite T. rewrite filter_all_false; auto. intros z Hz. apply filter_In in Hz as [_ Hz].
        apply negb_true_iff in Hz; auto.
      + rewrite filter_twice; [apply c_tab; right; auto|]. intros z _ Hz. apply N.eqb_eq in Hz.
        apply negb_true_iff, N.eqb_neq. rewrite Hz. intros J. apply NY. rewrite <- J. apply in_map; auto.
    - intros z Hz. apply filter_In in Hz as [Hz _]. auto.
    - intros x [<-|Hx]; [apply (c_rlt y); left; auto|apply c_rlt; right; auto].
    - intros z Hz. apply filter_In in Hz as [Hz GZ]. destruct (c_link z Hz) as (x & [<-|Hx] & Q1 & Q2).
      + apply negb_true_iff, N.eqb_neq in GZ. congruence.
      + exists x. split; [right|]; auto.
    - assert (SG := split_group (y_id y) A). apply (Permutation_map z_l) in SG.
      apply (distinct_perm _ EL _ _ SG) in c_eql. rewrite map_app in c_eql.
      apply distinct_app in c_eql as (_ & DL & _). exact DL.
  Qed.
  Lemma repr_cut : forall b s lc rc m G r j e, Repr b s lc rc m G ->
    t_get_mut E (right_set m) (rhash m r) (eqkr r) = Some (j, e) ->
    s_contains_right (eqR E) G r = true /\
    WRepr b s lc rc (set_right (t_modify (right_set m) j (set_pairs (t_clear (lo E) (r_pairs e)))) m)
      (s_cut (eqR E) G r) (group (eqR E) G r).
  Proof.
    intros b s lc rc m G r j e (A & D & B & H & -> & T & CL & CR) Q0.
    assert (HB := rep_hb _ _ _ _ _ _ _ _ H). rewrite HB in Q0.
    destruct (split_r E OK _ _ _ _ _ _ _ r H) as [(y & B' & P & H' & Q & HQ & N)|N].
    2:{ rewrite (find_key_right_none E OK _ _ _ _ _ _ _ _ H N) in Q0. discriminate. }
    destruct (find_key_right E OK _ _ _ _ _ _ _ _ _ H' Q N) as (j' & FR & AR).
    rewrite FR in Q0. injection Q0 as -> <-. split; [eapply contains_right_z; eauto|].
    assert (Hy : In y B) by (eapply Permutation_in; [symmetry; exact P|left; auto]).
    set (t := t_clear (lo E) (r_pairs (snd (slotR s y)))) in *.
    apply modify_at with (f := set_pairs t) in AR.
    set (A2 := filter (fun z => negb (in_group (y_id y) z)) A). set (X := filter (in_group (y_id y)) A).
    assert (PA : Permutation A (X ++ A2)) by apply split_group.
    apply (wrepr_same b s lc rc _ (GroupProofs.view A2 (ZR (y_id y) (y_r y) t :: B')) _ (map z_l X)).
    { split; simpl.
      - symmetry. exact (Permutation_map y_r P).
      - rewrite (others_z E OK _ _ _ _ _ _ _ _ _ H Hy Q). reflexivity. }
    { rewrite (group_z E OK _ _ _ _ _ _ _ _ _ H Hy Q). reflexivity. }
    exists A2, X, (filter (fun z => negb (in_group (y_id y) z)) D), (ZR (y_id y) (y_r y) t :: B').
    split; [|split; [auto|split; [auto|split; [|auto]]]].
    - constructor; auto.
      + simpl. rewrite (rep_l _ _ _ _ _ _ _ _ H). apply Permutation_map. rewrite PA. apply Permutation_app_comm.
      + simpl. apply AR.
      + apply core_cut; auto. eapply rep_core; eauto.
      + eapply distinct_perm; [exact EL|apply Permutation_map; rewrite Permutation_app_comm; exact PA|].
        apply (rep_eql _ _ _ _ _ _ _ _ H).
      + assert (SD := split_group (y_id y) D). assert (NDA := rep_lids _ _ _ _ _ _ _ _ H).
        assert (PD : Permutation (A ++ D) (X ++ (A2 ++ filter (fun z => negb (in_group (y_id y) z)) D) ++ filter (in_group (y_id y)) D)).
        { rewrite SD at 1. rewrite PA at 1. rewrite <- !app_assoc. apply Permutation_app_head, Permutation_app_head, Permutation_app_comm. }
        apply (NoDup_perm _ _ (Permutation_map z_id PD)) in NDA. intros x Hx J.
        apply (nodup_apart _ _ _ NDA x Hx). rewrite map_app. apply in_or_app; auto.
    - destruct (tame_less b A A2 X D PA T) as [T1 T2]. split; auto. intros Hb. rewrite (T1 Hb). reflexivity.
  Qed.

  (* ---- a left item stored before its right item ---- *)
  Lemma wrepr_strand : forall b s lc rc m G l r lc' rc', Repr b s lc rc m G -> s_contains_left (eqL E) G l = false ->
    lc <= lc' -> rc <= rc' ->
    WRepr b s lc' rc' (GM s lc' rc'
      (t_insert (lo E) (left_set m) (hashL E s l) (LI l (hashR E s r) rc lc) (make_hasher_l E s)) (right_set m)) G [l].
  Proof.
    intros b s lc rc m G l r lc' rc' (A & D & B & H & -> & T & CL & CR) C L1 L2.
    assert (N := view_l_absent E A B l C).
    exists A, [ZL lc l 0 r rc], D, B. split; [|split; [auto|split; [auto|split; auto]]].
    assert (PX : Permutation (A ++ [ZL lc l 0 r rc]) (ZL lc l 0 r rc :: A)) by (symmetry; apply Permutation_cons_append).
    constructor; auto.
    - cbn [left_set]. rewrite t_insert_perm; [|exact LO|eapply (rep_hashed_l E); eauto].
      rewrite PX. simpl. constructor. apply (rep_l _ _ _ _ _ _ _ _ H).
    - apply (rep_r _ _ _ _ _ _ _ _ H).
    - eapply core_bounds; [eapply rep_core; eauto| |]; auto.
    - eapply distinct_perm; [exact EL|apply Permutation_map; symmetry; exact PX|]. simpl.
      apply distinct_cons. split; [|apply (rep_eql _ _ _ _ _ _ _ _ H)].
      intros x Hx. apply in_map_iff in Hx as (z & <- & Hz). auto.
    - intros x [<-|[]]. simpl. eapply (core_lid_fresh E). eapply rep_core; eauto.
  Qed.
  (* ---- the left item z taken out of its group ---- *)
  Lemma wrepr_leave : forall b s lc rc m A D B l z A' r i y1 B2 lt rt,
    Rep s lc rc m A D B -> tame b A D -> Permutation A (z :: A') -> eqL E l (z_l z) = true ->
    (forall x, In x A' -> eqL E l (z_l x) = false) -> Permutation B (y1 :: B2) -> y_id y1 = z_g z ->
    Permutation (slots lt) ((hashL E s (z_l z), LI (z_l z) (hashR E s r) i (z_id z)) :: map (slotL s) A') ->
    Permutation (slots rt) (map (slotR s) (ZR (y_id y1) (y_r y1) (set_remove E (y_id y1) (y_tab y1) (pkey s z)) :: B2)) ->
    left_counter m = lc -> right_counter m = rc ->
    WRepr b s lc rc (GM s lc rc lt rt) (s_remove_left (eqL E) (GroupProofs.view A B) l) [z_l z].
  Proof.
    intros b s lc rc m A D B l z A' r i y1 B2 lt rt H T P Q N PB I1 PL PR CL CR.
    assert (H1 := rep_perm E OK _ _ _ _ _ _ _ _ _ P PB H).
    assert (C0 := rep_core E _ _ _ _ _ _ _ H1).
    destruct (core_leave E OK _ _ _ _ _ _ _ _ C0 (eq_sym I1)) as [C1 F1].
    set (y1' := ZR (y_id y1) (y_r y1) (set_remove E (y_id y1) (y_tab y1) (pkey s z))) in *.
    apply (wrepr_same b s lc rc _ (GroupProofs.view A' (y1' :: B2)) _ [z_l z]); auto.
    { split; simpl; [symmetry; exact (Permutation_map y_r PB)|]. symmetry. eapply del_l_some; eauto. }
    exists A', [ZL (z_id z) (z_l z) 0 r i], D, (y1' :: B2). split; [|split; [auto|split; [auto|split; auto]]].
    - assert (PX : Permutation (A' ++ [ZL (z_id z) (z_l z) 0 r i]) (ZL (z_id z) (z_l z) 0 r i :: A'))
        by (symmetry; apply Permutation_cons_append).
      constructor; auto.
      + rewrite PX. exact PL.
      + eapply distinct_perm; [exact EL|apply Permutation_map; symmetry; exact PX|]. simpl.
        exact (c_eql _ _ _ _ _ _ _ C0).
      + intros x [<-|[]]. exact F1.
    - eapply tame_tail, tame_perm; [exact P|auto].
  Qed.
  Lemma gm_eta : forall m : map', GM (hash_builder m) (left_counter m) (right_counter m) (left_set m) (right_set m) = m.
  Proof. intros []; auto. Qed.
  Lemma repr_move_off : forall b s lc rc m G l r i e m1, Repr b s lc rc m G ->
    t_get_mut E (left_set m) (lhash m l) (eqkl l) = Some (i, e) ->
    move_off E (lhash m l) (rhash m r) (right_counter m) i e m = Ret m1 tt ->
    exists p, find_l (eqL E) G l = Some p /\ WRepr b s lc rc m1 (s_remove_left (eqL E) G l) [fst p].
  Proof.
    intros b s lc rc m G l r i e m1 (A & D & B & H & -> & T & CL & CR) Q0 X.
    assert (HB := rep_hb _ _ _ _ _ _ _ _ H). rewrite HB in Q0, X.
    destruct (split_l E OK _ _ _ _ _ _ _ l H) as [(z & A' & P & H1 & Q & HQ & N)|N].
    2:{ rewrite (find_key_left_none E OK _ _ _ _ _ _ _ _ H N) in Q0. discriminate. }
    destruct (find_key_left E OK _ _ _ _ _ _ _ _ _ H1 Q N) as (i' & FL & AL).
    rewrite FL in Q0. injection Q0 as -> <-.
    exists (z_pair z). split; [eapply find_l_some; eauto|].
    destruct (rep_link _ _ _ _ _ _ _ _ H1 z (or_introl eq_refl)) as (y1 & Hy1 & I1 & R1).
    apply perm_in_cons in Hy1 as [B2 PB2].
    assert (H3 := rep_perm E OK _ _ _ _ _ _ _ _ _ (Permutation_refl _) PB2 H1).
    destruct (find_pair_right E OK _ _ _ _ _ _ z _ _ H3 (or_introl eq_refl) (eq_sym I1)) as (j & FR & AR).
    revert X. unfold move_off, left_assign, right_assign. mrun.
    cbn [snd GroupProofs.slotL l_id l_hash l_rid] in *. rewrite HQ, <- R1.
    change (hashL E s (z_l z), z_id z) with (pkey s z). rewrite FR. cbn [fst snd set_left set_right left_set right_set].
    intros X. injection X as <-.
    apply modify_at with (f := pairs_remove E (pkey s z)) in AR.
    apply modify_at with (f := set_l_hash (hashR E s r)) in AL.
    apply modify_at with (f := set_l_rid (right_counter m)) in AL.
    unfold set_left, set_right. cbn [hash_builder left_counter right_counter left_set right_set]. rewrite HB, CL, CR.
    eapply (wrepr_leave b s lc rc m A D B l z A' r (right_counter m) y1 B2); eauto.
    - rewrite <- CR. apply AL.
    - apply AR.
  Qed.
  Lemma repr_half_pair : forall b s lc rc m G l r i e f m1, Repr b s lc rc m G -> linked E m l ->
    t_get_mut E (left_set m) (lhash m l) (eqkl l) = Some (i, e) -> find_right E m r = Some f ->
    half_pair E (lhash m l) (rhash m r) i e f m = Ret m1 tt ->
    s_contains_right (eqR E) G r = true /\
    exists p, find_l (eqL E) G l = Some p /\ WRepr b s lc rc m1 (s_remove_left (eqL E) G l) [fst p].
  Proof.
    intros b s lc rc m G l r i e f m1 HR LK Q0 QF X. split.
    { rewrite <- (contains_right_ok E OK _ _ _ _ _ _ r HR). unfold contains_right. rewrite QF. auto. }
    destruct HR as (A & D & B & H & -> & T & CL & CR).
    assert (HB := rep_hb _ _ _ _ _ _ _ _ H). rewrite HB in Q0, X.
    destruct (split_l E OK _ _ _ _ _ _ _ l H) as [(z & A' & P & H1 & Q & HQ & N)|N].
    2:{ rewrite (find_key_left_none E OK _ _ _ _ _ _ _ _ H N) in Q0. discriminate. }
    destruct (find_key_left E OK _ _ _ _ _ _ _ _ _ H1 Q N) as (i' & FL & AL).
    rewrite FL in Q0. injection Q0 as -> <-.
    exists (z_pair z). split; [eapply find_l_some; eauto|].
    assert (RZ := linked_z E OK _ _ _ _ _ _ _ _ _ H1 Q N LK).
    destruct (rep_link _ _ _ _ _ _ _ _ H1 z (or_introl eq_refl)) as (y1 & Hy1 & I1 & R1).
    apply perm_in_cons in Hy1 as [B2 PB2].
    assert (H3 := rep_perm E OK _ _ _ _ _ _ _ _ _ (Permutation_refl _) PB2 H1).
    destruct (get_mut_unique E OK (right_set m) (hashR E s (y_r y1)) (right_with_right_id (y_id y1))
      (snd (slotR s y1)) (map (slotR s) B2)) as (k & FK & AK).
    { apply (rep_r _ _ _ _ _ _ _ _ H3). }
    { apply N.eqb_refl. }
    { assert (ND := rep_rids _ _ _ _ _ _ _ _ H3). simpl in ND. apply NoDup_cons_iff in ND as [ND _].
      intros x Hx. eapply (id_r_other E); eauto. }
    revert X. unfold half_pair, left_assign, right_assign. mrun.
    cbn [snd GroupProofs.slotL l_id l_hash l_rid set_left set_right left_set right_set] in *. rewrite HQ, RZ, <- R1, <- I1.
    change (hashL E s (z_l z), z_id z) with (pkey s z). rewrite FK. cbn [fst snd set_left set_right left_set right_set].
    intros X. injection X as <-.
    apply modify_at with (f := pairs_remove E (pkey s z)) in AK.
    apply modify_at with (f := set_l_hash (hashR E s r)) in AL.
    apply modify_at with (f := set_l_rid (r_id f)) in AL.
    unfold set_left, set_right. cbn [hash_builder left_counter right_counter left_set right_set]. rewrite HB, CL, CR.
    eapply (wrepr_leave b s lc rc m A D B l z A' r (r_id f) y1 B2); eauto.
    - apply AL.
    - apply AK.
  Qed.

  (* ---- insert_left ---- *)
  (* m0 with the id of an entry for l, not made yet, in the set of r *)
  Definition planted (l : L) (r : R) (m0 m : map') : Prop :=
    exists j e, t_get_mut E (right_set m0) (rhash m0 r) (eqkr r) = Some (j, e) /\
      m = set_right (t_modify (right_set m0) j (pairs_insert E (lhash m0 l, left_counter m0))) m0.
  Lemma planted_contains : forall b s lc rc m0 m G l r, Repr b s lc rc m0 G -> planted l r m0 m ->
    s_contains_right (eqR E) G r = true.
  Proof.
    intros b s lc rc m0 m G l r H (j & e & Q & _). apply (repr_cut _ _ _ _ _ _ _ _ _ H Q).
  Qed.
  (* but for the counter of left ids, one with the id of an entry that is not there *)
  Lemma planted_repr : forall b s lc rc m0 m G l r, Repr b s lc rc m0 G -> planted l r m0 m ->
    hash_builder m = s /\
    Repr (false, snd b) s (lc + 1) rc (GM s (lc + 1) rc (left_set m) (right_set m)) G.
  Proof.
    intros b s lc rc m0 m G l r (A & D & B & H & -> & T & CL & CR) (j & e & Q0 & ->).
    assert (HB := rep_hb _ _ _ _ _ _ _ _ H). split; [exact HB|]. rewrite HB in Q0.
    destruct (split_r E OK _ _ _ _ _ _ _ r H) as [(y & B' & PB & H2 & QR & HR & NR)|NR].
    2:{ rewrite (find_key_right_none E OK _ _ _ _ _ _ _ _ H NR) in Q0. discriminate. }
    destruct (find_key_right E OK _ _ _ _ _ _ _ _ _ H2 QR NR) as (j' & FR & AR).
    rewrite FR in Q0. injection Q0 as -> <-.
    apply modify_at with (f := pairs_insert E (hashL E s l, lc)) in AR.
    set (z := ZL lc l (y_id y) (y_r y) (y_id y)).
    set (y' := ZR (y_id y) (y_r y) (set_insert E (y_id y) (y_tab y) (pkey s z))).
    assert (C1 : Core s (lc + 1) rc A (z :: D) (y' :: B')).
    { assert (C0 : Core s (lc + 1) rc A D (y :: B')).
      { eapply core_bounds; [eapply rep_core; eauto|lia|lia]. }
      assert (F0 : ~ In (z_id z) (map z_id (A ++ D))).
      { simpl. eapply (core_lid_fresh E). eapply rep_core; eauto. }
      eapply core_plan; eauto; simpl; auto.
      - lia.
      - apply (rep_rlt _ _ _ _ _ _ _ _ H2). left; auto.
      - eapply (tab_with E OK s _ _ _ _ z); eauto. }
    clear FR. set (m1 := set_right _ m0) in *.
    apply (repr_same E OK) with (G := GroupProofs.view A (y' :: B')).
      { split; simpl; auto. symmetry. exact (Permutation_map y_r PB). }
      exists A, (z :: D), (y' :: B'). split; [|split; [auto|split; [|auto]]].
      - apply core_rep; auto.
        + apply (rep_l _ _ _ _ _ _ _ _ H).
        + unfold m1. rewrite CL, HB. simpl. apply AR.
      - split; [discriminate|]. apply T.
  Qed.
  Lemma planted_remove_left : forall b s lc rc m0 m G l r m2 a m3, Repr b s lc rc m0 G -> planted l r m0 m ->
    lc + 1 < two64 -> remove_left E l m = Ret m2 a -> incr_left E m2 = Ret m3 tt ->
    Repr (false, snd b) s (lc + 1) rc m3 (s_remove_left (eqL E) G l).
  Proof.
    intros b s lc rc m0 m1 G l r m2 a m3 HR PL BL X1 X2.
    destruct (planted_repr _ _ _ _ _ _ _ _ _ HR PL) as [HB1 H3].
    destruct HR as (_ & _ & _ & _ & _ & _ & CL & CR). destruct PL as (j & e0 & _ & Q1).
    assert (CL1 : left_counter m1 = lc) by (rewrite Q1; exact CL).
    assert (CR1 : right_counter m1 = rc) by (rewrite Q1; exact CR). clear Q1.
    (* remove_left does not look at the counters *)
    destruct (remove_left_ok E OK _ _ _ _ _ _ l H3) as (m4 & X3 & H4).
    assert (Y : forall c : N, remove_left E l (GM s c rc (left_set m1) (right_set m1)) =
      match remove_left E l m1 with
      | Ret m' a => Ret (GM s c rc (left_set m') (right_set m')) a
      | Panic m' => Panic (GM s c rc (left_set m') (right_set m'))
      end).
    { intros c. unfold remove_left, left_remove_entry, right_assign. clear X1 X2 X3. mrun.
      cbn [hash_builder left_set right_set]. rewrite HB1.
      destruct (t_remove_entry _ _ _ _) as [[e t]|]; cbn [right_set set_left]; auto.
      destruct (t_get_mut _ _ _ _) as [[k f]|]; cbn [set_left set_right right_set left_set hash_builder left_counter right_counter]; auto. }
    rewrite Y, X1 in X3. injection X3 as <- _.
    assert (KE : hash_builder m2 = s /\ left_counter m2 = lc /\ right_counter m2 = rc).
    { revert X1. unfold remove_left, left_remove_entry, right_assign. clear X2 Y. mrun.
      destruct (t_remove_entry _ _ _ _) as [[e t]|].
      - cbn [right_set set_left]. destruct (t_get_mut _ _ _ _) as [[k f]|]; [|discriminate].
        intros J. injection J as <- _. cbn. auto.
      - intros J. injection J as <- _. cbn. auto. }
    destruct KE as (K1 & K2 & K3). revert X2. unfold incr_left. mrun. rewrite K2, u64_incr_ok by auto.
    intros J. injection J as <-. rewrite K1, K3. exact H4.
  Qed.

  (* ---- every call ---- *)
  (* the left (right) table has no room for k more items, as far as the contract of hashbrown goes *)
  Definition full_l (k : N) (m : map') : Prop :=
    ~ (capacity_ok (lo E) /\ calm_ok (lo E) /\ room_for (lo E) k (left_set m)).
  Definition full_r (k : N) (m : map') : Prop :=
    ~ (capacity_ok (lo E) /\ calm_ok (lo E) /\ room_for (lo E) k (right_set m)).
  Notation costs := (costs (lo E) (@left_set L R S) (@right_set L R S)).
  Notation at_cost := (at_cost (lo E) (@left_set L R S) (@right_set L R S)).
  Lemma cost_of : forall {X} (c : M map' X) a b m m' x, at_cost a b c -> c m = Ret m' x -> costs a b m m'.
  Proof. intros X c a b m m' x H Q. specialize (H m). rewrite Q in H. exact H. Qed.
  Lemma lost_l_full : forall i j n m m1 h m', (capacity_ok (lo E) -> costs i j m m1) -> i + 1 <= n ->
    lost_l h m1 m' -> full_l n m.
  Proof.
    intros i j n m m1 h m' C LE (t & SP & _) (CO & CA & RM). destruct (C CO) as [U _].
    eapply (calm_insertion (lo E) CA F (left_set m1)); [|exact SP].
    eapply room_uses; [exact U|]. eapply room_less; eauto.
  Qed.
  Lemma lost_r_full : forall i j n m m1 h m', (capacity_ok (lo E) -> costs i j m m1) -> j + 1 <= n ->
    lost_r h m1 m' -> full_r n m.
  Proof.
    intros i j n m m1 h m' C LE (t & SP & _) (CO & CA & RM). destruct (C CO) as [_ U].
    eapply (calm_insertion (lo E) CA F (right_set m1)); [|exact SP].
    eapply room_uses; [exact U|]. eapply room_less; eauto.
  Qed.
  Lemma full_l_step : forall i j n k m m1, (capacity_ok (lo E) -> costs i j m m1) -> i + n <= k ->
    full_l n m1 -> full_l k m.
  Proof.
    intros i j n k m m1 C LE FU (CO & CA & RM). apply FU. split; auto. split; auto. destruct (C CO) as [U _].
    eapply room_uses; [exact U|]. eapply room_less; eauto.
  Qed.
  Lemma full_r_step : forall i j n k m m1, (capacity_ok (lo E) -> costs i j m m1) -> j + n <= k ->
    full_r n m1 -> full_r k m.
  Proof.
    intros i j n k m m1 C LE FU (CO & CA & RM). apply FU. split; auto. split; auto. destruct (C CO) as [_ U].
    eapply room_uses; [exact U|]. eapply room_less; eauto.
  Qed.
  Lemma costs_00 : forall m, costs 0 0 m m.
  Proof. intros m. apply costs_refl. Qed.

  (* the map m' holds G', besides xs; pd as in [s_half_insert] *)
  Definition Wrecked (b : bool * bool) (s : S) (lc rc : N) (m' : map') (G' : contents) (xs : list L)
      (pd : option (L * R)) : Prop :=
    match pd with
    | None => WRepr b s lc rc m' G' xs
    | Some (l, r) => xs = [] /\ exists m0, Repr b s lc rc m0 G' /\ planted l r m0 m'
    end.
  (* dm: what it takes for ids of lost left items to stay listed *)
  Definition left_over (dm : Prop) (n : N) (b : bool * bool) (s : S) (lc rc : N) (m' : map') (G' : contents)
      (xs : list L) (pd : option (L * R)) : Prop :=
    exists b' lc' rc', Wrecked b' s lc' rc' m' G' xs pd /\
      (b' = b \/ (dm /\ b' = (false, snd b))) /\ lc' <= lc + n /\ rc' <= rc + n.
  Lemma left_over_w : forall fl n b s lc rc lc' rc' m' G' xs, WRepr b s lc' rc' m' G' xs ->
    lc' <= lc + n -> rc' <= rc + n -> left_over fl n b s lc rc m' G' xs None.
  Proof. intros. exists b, lc', rc'. auto. Qed.
  Lemma left_over_r : forall fl n b s lc rc lc' rc' m' G', Repr b s lc' rc' m' G' ->
    lc' <= lc + n -> rc' <= rc + n -> left_over fl n b s lc rc m' G' [] None.
  Proof. intros. eapply left_over_w; eauto. apply repr_wrepr; auto. Qed.
  Lemma left_over_l : forall (dm : Prop) n b b' s lc rc lc' rc' m' G', Repr b' s lc' rc' m' G' ->
    b' = b \/ (dm /\ b' = (false, snd b)) -> lc' <= lc + n -> rc' <= rc + n ->
    left_over dm n b s lc rc m' G' [] None.
  Proof. intros. exists b', lc', rc'. split; [apply repr_wrepr; auto|auto]. Qed.

  Lemma get_mut_l_cases : forall b s lc rc m G l, Repr b s lc rc m G ->
    match t_get_mut E (left_set m) (lhash m l) (eqkl l) with
    | Some _ => is_some (find_l (eqL E) G l) = true
    | None => find_l (eqL E) G l = None
    end.
  Proof.
    intros b s lc rc m G l H. assert (Q := contains_left_ok E OK _ _ _ _ _ _ l H).
    rewrite (contains_l_find E) in Q. unfold contains_left, find_left in Q. rewrite get_mut_get in Q.
    destruct (t_get_mut _ _ _ _) as [[i e]|]; simpl in Q; auto. destruct (find_l _ _ _); auto. discriminate.
  Qed.
  Lemma get_mut_r_cases : forall b s lc rc m G r, Repr b s lc rc m G ->
    match t_get_mut E (right_set m) (rhash m r) (eqkr r) with
    | Some _ => is_some (find_r (eqR E) G r) = true
    | None => find_r (eqR E) G r = None
    end.
  Proof.
    intros b s lc rc m G r H. assert (Q := contains_right_ok E OK _ _ _ _ _ _ r H).
    rewrite (contains_r_find E) in Q. unfold contains_right, find_right in Q. rewrite get_mut_get in Q.
    destruct (t_get_mut _ _ _ _) as [[i e]|]; simpl in Q; auto. destruct (find_r _ _ _); auto. discriminate.
  Qed.
  Lemma repr_incr_left : forall b s lc rc m G m', Repr b s lc rc m G -> lc + 1 < two64 ->
    incr_left E m = Ret m' tt -> Repr b s (lc + 1) rc m' G.
  Proof.
    intros b s lc rc m G m' (A & D & B & H & -> & T & CL & CR) BL X. revert X. unfold incr_left. mrun.
    rewrite CL, u64_incr_ok by auto. intros X. injection X as <-.
    exists A, D, B. split; [|auto]. apply core_rep; try apply H. eapply core_bounds; [eapply rep_core; eauto|lia|lia].
  Qed.
  Lemma repr_incr_right : forall b s lc rc m G m', Repr b s lc rc m G -> rc + 1 < two64 ->
    incr_right E m = Ret m' tt -> Repr b s lc (rc + 1) m' G.
  Proof.
    intros b s lc rc m G m' (A & D & B & H & -> & T & CL & CR) BL X. revert X. unfold incr_right. mrun.
    rewrite CR, u64_incr_ok by auto. intros X. injection X as <-.
    exists A, D, B. split; [|auto]. apply core_rep; try apply H. eapply core_bounds; [eapply rep_core; eauto|lia|lia].
  Qed.
  Lemma repr_fields : forall b s lc rc m G, Repr b s lc rc m G ->
    hash_builder m = s /\ left_counter m = lc /\ right_counter m = rc.
  Proof. intros b s lc rc m G (A & D & B & H & _ & _ & CL & CR). split; [apply H|auto]. Qed.

  Lemma move_off_cost : forall lh rh c i e, at_cost 0 0 (move_off E lh rh c i e).
  Proof.
    intros lh rh c i e m. unfold move_off. apply cost_getst, cost_unwrap. intros a _.
    apply cost_free; [apply l_assign_cost|intros m1 [] _]. apply cost_free; [apply l_assign_cost|intros m2 [] _].
    apply r_assign_cost.
  Qed.
  (* losing left items of a full left table *)
  Definition damaged (n : N) (m : map') : Prop := full_l n m /\ ~ lossless F.
  Lemma damaged_step : forall i j n k m m1, (capacity_ok (lo E) -> costs i j m m1) -> i + n <= k ->
    damaged n m1 -> damaged k m.
  Proof. intros i j n k m m1 C LE [FU NL]. split; auto. eapply full_l_step; eauto. Qed.
  Lemma damaged_1 : forall m n, 1 <= n -> damaged 1 m -> damaged n m.
  Proof. intros m n LE. apply (damaged_step 0 0 1 n m m); [intros; apply costs_00|lia]. Qed.
  Notation s_half_insert := (s_half_insert (eqL E) (eqR E)).
  Lemma wreck_insert : forall b s lc rc m G l r m', Repr b s lc rc m G -> P_insert E F l r m m' ->
    exists G' xs pd, (unharmed G G' xs pd \/ s_half_insert (full_l 1 m) (full_r 1 m) (lossless F) G l r G' xs pd) /\
      left_over (damaged 1 m) 1 b s lc rc m' G' xs pd.
  Proof.
    intros b s lc rc m G l r m' H [->|X].
    { exists G, [], None. split; [left; repeat split|]. eapply left_over_r; eauto; lia. }
    assert (GL := get_mut_l_cases _ _ _ _ _ _ l H). assert (GR := get_mut_r_cases _ _ _ _ _ _ r H).
    unfold GroupWreck.s_half_insert.
    destruct (t_get_mut E (left_set m) (lhash m l) (eqkl l)) as [[i e]|] eqn:QL;
      destruct (t_get_mut E (right_set m) (rhash m r) (eqkr r)) as [[j f]|] eqn:QR.
    - destruct X.
    - destruct X as (m1 & X1 & X2).
      destruct (repr_move_off _ _ _ _ _ _ _ _ _ _ _ H QL X1) as (p & FP & H1). rewrite FP, GR.
      assert (FU : full_r 1 m).
      { eapply (lost_r_full 0 0 1 m m1); [|lia|exact X2]. intros CO. eapply cost_of; [|exact X1]. apply move_off_cost. }
      destruct (lost_r_loses (full_r 1 m) _ _ _ _ _ _ _ _ _ H1 X2 FU) as (G' & xs & LS & H2).
      exists G', xs, None. split; [right; auto|]. eapply left_over_w; eauto; lia.
    - destruct X as (m1 & X1 & X2). injection X1 as <-. rewrite GL. destruct (find_r (eqR E) G r); [|discriminate].
      destruct X2 as (t & SP & ->).
      assert (X3 : lost_l (lhash m l) m (set_left t m)) by (exists t; auto).
      assert (FU : full_l 1 m) by (eapply (lost_l_full 0 0 1 m m); [intros; apply costs_00|lia|exact X3]).
      destruct (lost_l_loses (full_l 1 m) _ _ _ _ _ _ _ _ H X3 FU) as (G' & b' & LS & H2 & CB).
      exists G', [], (Some (l, r)). split; [right; auto|]. exists b', lc, rc.
      split; [|split; [destruct CB as [->|[? ->]]; auto; right; repeat split; auto|lia]].
      split; auto. exists (set_left t m). split; auto. exists j, f. split; auto.
    - rewrite GL, GR. destruct (repr_fields _ _ _ _ _ _ H) as (HB & CL & CR). destruct X as [X|(m1 & X1 & X2)].
      + assert (FU : full_l 1 m) by (eapply (lost_l_full 0 0 1 m m); [intros; apply costs_00|lia|exact X]).
        destruct (lost_l_loses (full_l 1 m) _ _ _ _ _ _ _ _ H X FU) as (G' & b' & LS & H2 & CB).
        exists G', [], None. split; [right; left; auto|]. eapply left_over_l; [exact H2| |lia|lia].
        destruct CB as [->|[? ->]]; auto. right. repeat split; auto.
      + assert (FU : full_r 1 m).
        { eapply (lost_r_full 1 0 1 m m1); [|lia|exact X2]. intros CO. eapply cost_of; [|exact X1]. apply l_insert_cost; auto. }
        assert (H1 : WRepr b s lc rc m1 G [l]).
        { injection X1 as <-. unfold set_left. rewrite HB, CL, CR. apply wrepr_strand; auto; try lia.
          rewrite (contains_l_find E), GL. auto. }
        destruct (lost_r_loses (full_r 1 m) _ _ _ _ _ _ _ _ _ H1 X2 FU) as (G' & xs & LS & H2).
        exists G', xs, None. split; [right; right; auto|]. eapply left_over_w; eauto; lia.
  Qed.
  Lemma wreck_remove_right : forall b s lc rc m G r m', Repr b s lc rc m G -> P_remove_right E r m m' ->
    m' = m \/ exists G' xs, s_half_remove (eqR E) G r G' xs /\ WRepr b s lc rc m' G' xs.
  Proof.
    intros b s lc rc m G r m' H [->|(m1 & e & ps1 & ps2 & ls & X1 & X2 & NE & X3)]; auto. right.
    destruct (repr_half_remove _ _ _ _ _ _ _ _ _ _ _ _ _ H X1 X2 X3) as (C & xs & P & H1 & LN & _).
    do 2 eexists. split; [|exact H1]. split; auto. split; auto. exists ls. split; auto.
    intros ->. destruct ps1; auto; discriminate.
  Qed.
  Lemma wreck_insert_right : forall b s lc rc m G r m', Repr b s lc rc m G -> rc + 1 < two64 ->
    P_insert_right E F r m m' ->
    exists G' xs, ((G' = G /\ xs = []) \/ s_half_insert_right (eqR E) (full_r 1 m) (lossless F) G r G' xs) /\
      left_over False 1 b s lc rc m' G' xs None.
  Proof.
    intros b s lc rc m G r m' H BR [X|(m1 & a & X1 & X)].
    - destruct (wreck_remove_right _ _ _ _ _ _ _ _ H X) as [->|(G' & xs & HR & H1)].
      + exists G, []. split; auto. eapply left_over_r; eauto; lia.
      + exists G', xs. split; [right; left; auto|]. eapply left_over_w; eauto; lia.
    - assert (H1 := remove_right_ret _ _ _ _ _ _ _ _ _ H X1). destruct X as [->|(m2 & X2 & X3)].
      + do 2 eexists. split; [right; right; left; split; reflexivity|]. eapply left_over_r; eauto; lia.
      + assert (H2 := repr_incr_right _ _ _ _ _ _ _ H1 BR X2).
        assert (FU : full_r 1 m).
        { eapply (lost_r_full 0 0 1 m m2); [|lia|exact X3]. intros CO.
          eapply costs_trans with (a := 0) (b := 0) (c := 0) (d := 0); (eapply cost_of; [|eassumption]);
            [apply rr_cost; auto|apply incr_r_cost]. }
        destruct (lost_r_loses (full_r 1 m) _ _ _ _ _ _ _ _ _ (repr_wrepr _ _ _ _ _ _ H2) X3 FU) as (G' & xs & LS & H3).
        exists G', xs. split; [right; right; right; auto|]. eapply left_over_w; eauto; lia.
  Qed.
  Lemma wreck_insert_remove : forall b s lc rc m G l r m', Repr b s lc rc m G -> lc + 1 < two64 -> rc + 1 < two64 ->
    P_insert_remove E F l r m m' ->
    exists G' xs, ((G' = G /\ xs = []) \/
        s_half_insert_remove (eqL E) (eqR E) (full_l 1 m) (full_r 1 m) (lossless F) G l r G' xs) /\
      left_over (damaged 1 m) 1 b s lc rc m' G' xs None.
  Proof.
    intros b s lc rc m G l r m' H BL BR [->|(m1 & a & X1 & X)].
    { exists G, []. split; auto. eapply left_over_r; eauto; lia. }
    assert (H1 := remove_left_ret _ _ _ _ _ _ _ _ _ H X1). unfold s_half_insert_remove. cbv zeta.
    destruct X as [X|(m2 & a2 & X2 & X)].
    - destruct (wreck_remove_right _ _ _ _ _ _ _ _ H1 X) as [->|(G' & xs & HR & H2)].
      + do 2 eexists. split; [right; left; split; reflexivity|]. eapply left_over_r; eauto; lia.
      + exists G', xs. split; [right; right; left; auto|]. eapply left_over_w; eauto; lia.
    - assert (H2 := remove_right_ret _ _ _ _ _ _ _ _ _ H1 X2).
      destruct X as [->|(m3 & X3 & X)].
      + do 2 eexists. split; [right; right; right; left; split; reflexivity|]. eapply left_over_r; eauto; lia.
      + destruct (repr_fields _ _ _ _ _ _ H2) as (HB & CL & CR).
        assert (CS : capacity_ok (lo E) -> costs 0 0 m m2).
        { intros CO. eapply costs_trans with (a := 0) (b := 0) (c := 0) (d := 0); (eapply cost_of; [|eassumption]);
            [apply rl_cost; auto|apply rr_cost; auto]. }
        assert (CS3 : capacity_ok (lo E) -> costs 0 0 m2 m3).
        { intros CO. unfold bind in X3. destruct (incr_left E m2) as [m20 []|] eqn:XI; [|discriminate].
          eapply costs_trans with (a := 0) (b := 0) (c := 0) (d := 0); (eapply cost_of; [|eassumption]);
            [apply incr_l_cost|apply incr_r_cost]. }
        assert (CS4 : capacity_ok (lo E) -> costs 0 0 m m3).
        { intros CO. eapply costs_trans with (a := 0) (b := 0) (c := 0) (d := 0); auto. }
        assert (Q3 : m3 = GM s (lc + 1) (rc + 1) (left_set m2) (right_set m2)).
        { revert X3. unfold incr_left, incr_right. clear X1 X2. mrun. rewrite CL, u64_incr_ok by auto.
          cbn [right_counter left_counter hash_builder left_set right_set]. rewrite CR, u64_incr_ok by auto.
          intros J. injection J as <-. rewrite HB. reflexivity. }
        destruct X as [X|(m4 & X4 & X5)].
        * assert (H3 : Repr b s (lc + 1) (rc + 1) m3 (s_remove_right (eqR E) (s_remove_left (eqL E) G l) r)).
          { unfold bind in X3. destruct (incr_left E m2) as [m20 []|] eqn:XI; [|discriminate].
            eapply repr_incr_right; [eapply repr_incr_left|exact BR|exact X3]; eauto. }
          assert (FU : full_l 1 m) by (eapply (lost_l_full 0 0 1 m m3); [auto|lia|exact X]).
          destruct (lost_l_loses (full_l 1 m) _ _ _ _ _ _ _ _ H3 X FU) as (G' & b' & LS & H4 & CB).
          exists G', []. split; [right; right; right; right; left; auto|]. eapply left_over_l; [exact H4| |lia|lia].
          destruct CB as [->|[? ->]]; auto. right. repeat split; auto.
        * assert (FU : full_r 1 m).
          { eapply (lost_r_full 1 0 1 m m4); [|lia|exact X5]. intros CO.
            eapply costs_trans with (a := 0) (b := 0) (c := 1) (d := 0); [apply CS4; auto|].
            eapply cost_of; [|exact X4]. apply l_insert_cost; auto. }
          assert (H4 : WRepr b s (lc + 1) (rc + 1) m4 (s_remove_right (eqR E) (s_remove_left (eqL E) G l) r) [l]).
          { rewrite Q3 in X4. injection X4 as <-. unfold set_left. cbn [hash_builder left_counter right_counter left_set right_set].
            rewrite HB, CL, CR. apply wrepr_strand; auto; try lia.
            apply gone_left_right, gone_left. }
          destruct (lost_r_loses (full_r 1 m) _ _ _ _ _ _ _ _ _ H4 X5 FU) as (G' & xs & LS & H5).
          exists G', xs. split; [right; right; right; right; right; auto|]. eapply left_over_w; eauto; lia.
  Qed.
  Lemma wreck_insert_left : forall b s lc rc m G l r m', Repr b s lc rc m G -> lc + 1 < two64 ->
    P_insert_left E F l r m m' ->
    exists G' xs pd, (unharmed G G' xs pd \/
        s_half_insert_left (eqL E) (eqR E) (full_l 1 m) (lossless F) G l r G' xs pd) /\
      left_over (contains_right E m r = true /\ full_l 1 m) 1 b s lc rc m' G' xs pd.
  Proof.
    intros b s lc rc m G l r m' H BL [->|(j & e & m1 & Q & X1 & X)].
    { exists G, [], None. split; [left; repeat split|]. eapply left_over_r; eauto; lia. }
    assert (PL : planted l r m m1) by (exists j, e; split; auto; injection X1 as <-; auto).
    assert (C := planted_contains _ _ _ _ _ _ _ _ _ H PL).
    destruct X as [->|(m2 & a & m3 & X2 & X3 & X4)].
    - exists G, [], (Some (l, r)). split; [right; split; auto|]. exists b, lc, rc.
      split; [split; eauto|split; [auto|lia]].
    - assert (H3 := planted_remove_left _ _ _ _ _ _ _ _ _ _ _ _ H PL BL X2 X3).
      assert (FU : full_l 1 m).
      { eapply (lost_l_full 0 0 1 m m3); [|lia|exact X4]. intros CO.
        eapply costs_trans with (a := 0) (b := 0) (c := 0) (d := 0);
          [|eapply costs_trans with (a := 0) (b := 0) (c := 0) (d := 0)]; (eapply cost_of; [|eassumption]);
          [apply r_assign_cost; auto|apply rl_cost; auto|apply incr_l_cost]. }
      destruct (lost_l_loses (full_l 1 m) _ _ _ _ _ _ _ _ H3 X4 FU) as (G' & b' & LS & H4 & CB).
      exists G', [], None. split; [right; split; auto|]. eapply left_over_l; [exact H4| |lia|lia].
      right. split; [split; [rewrite (contains_right_ok E OK _ _ _ _ _ _ r H)|]; auto|].
      destruct CB as [->|[_ ->]]; auto.
  Qed.
  Lemma wreck_swap_right : forall b s lc rc m G old new m', Repr b s lc rc m G -> rc + 1 < two64 ->
    P_swap_right E F old new m m' ->
    exists G' xs, ((G' = G /\ xs = []) \/
        (if s_contains_right (eqR E) G old
         then s_half_swap (eqR E) (full_r 1 m) (lossless F) G (s_cut (eqR E) G old) old G' xs
         else s_half_insert_right (eqR E) (full_r 1 m) (lossless F) G new G' xs)) /\
      left_over False 1 b s lc rc m' G' xs None.
  Proof.
    intros b s lc rc m G old new m' H BR [->|X].
    { exists G, []. split; auto. eapply left_over_r; eauto; lia. }
    assert (GR := get_mut_r_cases _ _ _ _ _ _ old H). rewrite (contains_r_find E).
    destruct (t_get_mut E (right_set m) (rhash m old) (eqkr old)) as [[j e]|] eqn:Q.
    - rewrite GR. destruct (repr_cut _ _ _ _ _ _ _ _ _ H Q) as [C H1].
      destruct X as (m1 & X1 & X). assert (Q1 := X1). injection Q1 as <-. destruct X as [->|X].
      + do 2 eexists. split; [right; split; auto|]. eapply left_over_w; eauto; lia.
      + assert (FU : full_r 1 m).
        { eapply (lost_r_full 0 0 1 m); [|lia|exact X]. intros CO. eapply cost_of; [|exact X1]. apply r_assign_cost; auto. }
        destruct (lost_r_loses (full_r 1 m) _ _ _ _ _ _ _ _ _ H1 X FU) as (G' & xs & LS & H2).
        exists G', xs. split; [right; split; auto|]. eapply left_over_w; eauto; lia.
    - rewrite GR. cbn [is_some]. eapply wreck_insert_right; eauto.
  Qed.
  Lemma wreck_swap_right_remove : forall b s lc rc m G old new m', Repr b s lc rc m G -> rc + 1 < two64 ->
    P_swap_right_remove E F old new m m' ->
    exists G' xs, ((G' = G /\ xs = []) \/
        (if s_contains_right (eqR E) G old
         then s_half_swap (eqR E) (full_r 1 m) (lossless F) G (s_remove_right (eqR E) G old) old G' xs
         else s_half_insert_right (eqR E) (full_r 1 m) (lossless F) G new G' xs)) /\
      left_over False 1 b s lc rc m' G' xs None.
  Proof.
    intros b s lc rc m G old new m' H BR [->|(m1 & o & X1 & X)].
    { exists G, []. split; auto. eapply left_over_r; eauto; lia. }
    assert (C := rre_cases _ _ _ _ _ _ _ _ _ H X1). destruct o as [e|].
    - rewrite C. destruct (repr_half_remove _ _ _ _ _ _ _ _ _ [] _ _ _ H X1 eq_refl eq_refl) as (_ & xs0 & P & H1 & _ & _).
      apply (wrepr_same b s lc rc m1 _ _ _ (group (eqR E) G old) (same_refl _)) in H1; [|exact P].
      destruct X as [->|X].
      + do 2 eexists. split; [right; split; auto|]. eapply left_over_w; eauto; lia.
      + assert (FU : full_r 1 m).
        { eapply (lost_r_full 0 0 1 m); [|lia|exact X]. intros CO. eapply cost_of; [|exact X1]. apply r_remove_cost; auto. }
        destruct (lost_r_loses (full_r 1 m) _ _ _ _ _ _ _ _ _ H1 X FU) as (G' & xs & LS & H2).
        exists G', xs. split; [right; split; auto|]. eapply left_over_w; eauto; lia.
    - destruct C as [C ->]. rewrite C. eapply wreck_insert_right; eauto.
  Qed.

  Definition wreck_guard (m : map') (o : op L R) : Prop :=
    match o with
    | Pair l r => contains_right E m r = true -> linked_at E m l
    | ExtendPairs _ | Extend _ => loose E m o
    | _ => True
    end.
  Lemma wreck_pair : forall b s lc rc m G l r m', Repr b s lc rc m G ->
    (contains_right E m r = true -> linked_at E m l) -> P_pair E l r m m' ->
    exists G' xs, ((G' = G /\ xs = []) \/ s_half_pair (eqL E) (eqR E) G l r G' xs) /\
      left_over False 0 b s lc rc m' G' xs None.
  Proof.
    intros b s lc rc m G l r m' H GD [->|(i & e & f & Q & QF & X)].
    { exists G, []. split; auto. eapply left_over_r; eauto; lia. }
    assert (LK : linked_at E m l). { apply GD. unfold contains_right. rewrite QF. auto. }
    destruct (repr_half_pair _ _ _ _ _ _ _ _ _ _ _ _ H LK Q QF X) as (C & p & FP & H1).
    do 2 eexists. split; [right; split; [exact C|]; exists p; auto|]. eapply left_over_w; eauto; lia.
  Qed.
  Lemma wreck_remove : forall b s lc rc m G l r m', Repr b s lc rc m G -> P_remove E l r m m' ->
    exists G' xs, ((G' = G /\ xs = []) \/
        (s_are_paired (eqL E) (eqR E) G l r = true /\ s_half_remove (eqR E) G r G' xs)) /\
      left_over False 0 b s lc rc m' G' xs None.
  Proof.
    intros b s lc rc m G l r m' H [->|[AP X]].
    { exists G, []. split; auto. eapply left_over_r; eauto; lia. }
    destruct (wreck_remove_right _ _ _ _ _ _ _ _ H X) as [->|(G' & xs & HR & H1)].
    - exists G, []. split; auto. eapply left_over_r; eauto; lia.
    - exists G', xs. split; [right; split; auto|].
      + rewrite <- (are_paired_ok E OK _ _ _ _ _ _ l r H). exact AP.
      + eapply left_over_w; eauto; lia.
  Qed.
  Lemma left_over_mono : forall (fl fl' : Prop) n n' b s lc rc lc' rc' m' G' xs pd, (fl -> fl') ->
    lc + n <= lc' + n' -> rc + n <= rc' + n' ->
    left_over fl n b s lc rc m' G' xs pd -> left_over fl' n' b s lc' rc' m' G' xs pd.
  Proof.
    intros fl fl' n n' b s lc rc lc' rc' m' G' xs pd I L1 L2 (b' & l' & r' & H & C & B1 & B2).
    exists b', l', r'. split; auto. split; [destruct C as [->|[? ->]]; auto|lia].
  Qed.
  Lemma half_extend_cons : forall fl fr keep G x items G' xs pd,
    s_half_extend (eqL E) (eqR E) fl fr keep (s_insert_item (eqL E) (eqR E) G x) items G' xs pd ->
    s_half_extend (eqL E) (eqR E) fl fr keep G (x :: items) G' xs pd.
  Proof. intros fl fr keep G x items G' xs pd (d & y & t & -> & H). exists (x :: d), y, t. split; auto. Qed.
  Lemma half_extend_mono : forall (fl fr fl' fr' keep : Prop) G items G' xs pd, (fl -> fl') -> (fr -> fr') ->
    s_half_extend (eqL E) (eqR E) fl fr keep G items G' xs pd ->
    s_half_extend (eqL E) (eqR E) fl' fr' keep G items G' xs pd.
  Proof.
    intros fl fr fl' fr' keep G items G' xs pd I1 I2 (d & y & t & -> & H). exists d, y, t. split; auto.
    eapply half_item_mono; eauto.
  Qed.
  Lemma full_l_1 : forall m n, 1 <= n -> full_l 1 m -> full_l n m.
  Proof. intros m n LE. apply (full_l_step 0 0 1 n m m); [intros; apply costs_00|lia]. Qed.
  Lemma full_r_1 : forall m n, 1 <= n -> full_r 1 m -> full_r n m.
  Proof. intros m n LE. apply (full_r_step 0 0 1 n m m); [intros; apply costs_00|lia]. Qed.
  Lemma wreck_extend : forall items b s lc rc m G m', Repr b s lc rc m G ->
    lc + N.of_nat (length items) < two64 -> rc + N.of_nat (length items) < two64 ->
    guarded E (loose1 E) m (map item_op items) -> P_extend E F items m m' ->
    exists G' xs pd,
      s_half_extend (eqL E) (eqR E) (full_l (N.of_nat (length items)) m) (full_r (N.of_nat (length items)) m)
        (lossless F) G items G' xs pd /\
      left_over (damaged (N.of_nat (length items)) m) (N.of_nat (length items)) b s lc rc m' G' xs pd.
  Proof.
    induction items as [|[[l|] r] items IH]; intros b s lc rc m G m' H B1 B2 GD X; [destruct X| |];
      cbn [length] in *; rewrite Nat2N.inj_succ in *; cbn [P_extend] in X.
    - destruct X as [X|(m1 & Q & X)].
      + destruct (wreck_insert _ _ _ _ _ _ _ _ _ H X) as (G' & xs & pd & W & LV). exists G', xs, pd. split.
        * exists [], (Some l, r), items. split; auto. simpl.
          eapply half_item_mono; [| |exact W]; [apply full_l_1|apply full_r_1]; lia.
        * eapply left_over_mono; [| | |exact LV]; try lia. apply damaged_1; lia.
      + cbn [map item_op guarded fst snd loose1] in GD. destruct GD as [[AP LK] GD].
        destruct (insert_ok E OK _ _ _ _ _ _ l r H) as (m1' & lc1 & rc1 & Q' & H1 & C1 & C2); auto; try lia.
        rewrite Q in Q'. injection Q' as <-.
        cbn [step] in GD. rewrite Q in GD. cbn [via fst] in GD.
        destruct (IH _ _ _ _ _ _ m' H1) as (G' & xs & pd & W & LV); auto; try lia.
        assert (CS : capacity_ok (lo E) -> costs 1 1 m m1).
        { intros CO. eapply cost_of; [|exact Q]. apply insert_cost; auto. }
        exists G', xs, pd. split.
        * apply half_extend_cons. eapply half_extend_mono; [| |exact W].
          -- eapply full_l_step; [exact CS|lia].
          -- eapply full_r_step; [exact CS|lia].
        * eapply left_over_mono; [| | |exact LV]; try lia. eapply damaged_step; [exact CS|lia].
    - destruct X as [X|(m1 & d & Q & X)].
      + assert (B3 : rc + 1 < two64) by lia.
        destruct (wreck_insert_right _ _ _ _ _ _ _ _ H B3 X) as (G' & xs & W & LV).
        exists G', xs, None. split.
        * exists [], (None, r), items. split; auto. simpl.
          apply half_item_mono with (fl := full_l 1 m) (fr := full_r 1 m); [apply full_l_1; lia|apply full_r_1; lia|].
          destruct W as [[-> ->]|W]; [left; repeat split|right; split; auto].
        * eapply left_over_mono; [| | |exact LV]; try lia.
      + cbn [map item_op guarded fst snd loose1] in GD. destruct GD as [CL GD].
        destruct (insert_right_ok E OK _ _ _ _ _ _ r H) as (m1' & w & Q' & SG & H1); auto; try lia.
        rewrite Q in Q'. injection Q' as <- <-.
        cbn [step] in GD. rewrite Q in GD. cbn [via fst] in GD.
        destruct (IH _ _ _ _ _ _ m' H1) as (G' & xs & pd & W & LV); auto; try lia.
        assert (CS : capacity_ok (lo E) -> costs 0 1 m m1).
        { intros CO. eapply cost_of; [|exact Q]. apply insert_right_cost; auto. }
        exists G', xs, pd. split.
        * apply half_extend_cons. eapply half_extend_mono; [| |exact W].
          -- eapply full_l_step; [exact CS|lia].
          -- eapply full_r_step; [exact CS|lia].
        * eapply left_over_mono; [| | |exact LV]; try lia. eapply damaged_step; [exact CS|lia].
  Qed.
  Lemma P_extend_pairs_extend : forall items m m', P_extend_pairs E F items m m' ->
    P_extend E F (map (fun p => (Some (fst p), snd p)) items) m m'.
  Proof.
    induction items as [|[l r] items IH]; intros m m' X; [destruct X|]. simpl in *.
    destruct X as [X|(m1 & Q & X)]; eauto.
  Qed.
  Lemma map_pair_item : forall (items : list (L * R)),
    map item_op (map (fun p => (Some (fst p), snd p)) items) = map pair_op items.
  Proof. intros items. rewrite map_map. apply map_ext. intros [l r]; auto. Qed.

  Lemma left_over_none : forall dm n b s lc rc m' G' xs pd, left_over False n b s lc rc m' G' xs pd ->
    left_over dm n b s lc rc m' G' xs pd.
  Proof. intros dm n b s lc rc m' G' xs pd H. apply (left_over_mono False dm n n b s lc rc lc rc m'); auto; try lia. Qed.
  Ltac half W LV := destruct W as [[-> ->]|W];
    [do 2 eexists; exists None; split; [left; repeat split|first [exact LV|apply left_over_none; exact LV]]
    |do 2 eexists; exists None; split; [right; split; [exact W|reflexivity]
                                       |first [exact LV|apply left_over_none; exact LV]]].
  (* what it takes for ids of left items that are not there to be listed after a panic in o *)
  Definition damage (m : map') (o : op L R) : Prop :=
    match o with
    | InsertLeft _ r => contains_right E m r = true /\ full_l 1 m
    | Insert _ _ | InsertRemove _ _ | ExtendPairs _ | Extend _ => damaged (ids o) m
    | _ => False
    end.
  Theorem step_wreck : forall b s lc rc m G o m', Repr b s lc rc m G -> wreck_guard m o ->
    lc + ids o < two64 -> rc + ids o < two64 -> P_step E F o m m' ->
    exists G' xs pd, s_wrecked (eqL E) (eqR E) (full_l (ids o) m) (full_r (ids o) m) (lossless F) G o G' xs pd /\
      left_over (damage m o) (ids o) b s lc rc m' G' xs pd.
  Proof.
    intros b s lc rc m G o m' H GD B1 B2 X. unfold s_wrecked.
    destruct o; cbn [P_step ids wreck_guard damage] in *;
      try (subst m'; exists G, [], None; split; [left; repeat split|eapply left_over_r; [exact H|lia|lia]]).
    - exact (wreck_insert _ _ _ _ _ _ _ _ _ H X).
    - destruct (wreck_insert_remove _ _ _ _ _ _ _ _ _ H B1 B2 X) as (G' & xs & W & LV). half W LV.
    - exact (wreck_insert_left _ _ _ _ _ _ _ _ _ H B1 X).
    - destruct (wreck_insert_right _ _ _ _ _ _ _ _ H B2 X) as (G' & xs & W & LV). half W LV.
    - destruct (wreck_swap_right _ _ _ _ _ _ _ _ _ H B2 X) as (G' & xs & W & LV). half W LV.
    - destruct (wreck_swap_right_remove _ _ _ _ _ _ _ _ _ H B2 X) as (G' & xs & W & LV). half W LV.
    - destruct (wreck_pair _ _ _ _ _ _ _ _ _ H GD X) as (G' & xs & W & LV). half W LV.
    - destruct (wreck_remove _ _ _ _ _ _ _ _ _ H X) as (G' & xs & [[-> ->]|[W1 W2]] & LV).
      + exists G, [], None. split; [left; repeat split|apply left_over_none; exact LV].
      + exists G', xs, None. split; [right; auto|apply left_over_none; exact LV].
    - destruct (wreck_remove_right _ _ _ _ _ _ _ _ H X) as [->|(G' & xs & W & H1)].
      + exists G, [], None. split; [left; repeat split|eapply left_over_r; [exact H|lia|lia]].
      + exists G', xs, None. split; [right; auto|]. eapply left_over_w; eauto; lia.
    - destruct (wreck_extend (map (fun p => (Some (fst p), snd p)) xs) _ _ _ _ _ _ m' H) as (G' & ys & pd & W & LV);
        rewrite ?map_length in *; auto.
      + rewrite map_pair_item. exact GD.
      + apply P_extend_pairs_extend. exact X.
      + exists G', ys, pd. auto.
    - destruct (wreck_extend xs _ _ _ _ _ _ m' H) as (G' & ys & pd & W & LV); auto.
      exists G', ys, pd. auto.
  Qed.
End Wrecks.
