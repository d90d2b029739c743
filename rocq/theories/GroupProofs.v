(* Refinement of GroupMap to right items and pairs: invariant and lookups. *)
From Coq Require Import List NArith Lia Bool Permutation.
From Verif Require Import Prelude RawTable GroupMap GroupSpec ListFacts TableFacts.
Import ListNotations.
Open Scope N_scope.

Ltac mrun := cbv [bind ret getst putst unwrap panic] in *.

Lemma distinct_map_inj : forall {A T} (e : T -> T -> bool) (EQ : equivalence e) (f : A -> T) l x y,
  distinct e (map f l) -> In x l -> In y l -> e (f x) (f y) = true -> x = y.
Proof.
  induction l; simpl; intros x y D Hx Hy Hxy; [easy|].
  apply distinct_cons in D as [A1 B].
  destruct Hx as [<-|Hx], Hy as [<-|Hy]; auto.
  - rewrite (A1 _ (in_map f _ _ Hy)) in Hxy; discriminate.
  - apply (equiv_sym _ EQ) in Hxy. rewrite (A1 _ (in_map f _ _ Hx)) in Hxy; discriminate.
Qed.
Lemma NoDup_map_inj : forall {A B} (f : A -> B) l x y,
  NoDup (map f l) -> In x l -> In y l -> f x = f y -> x = y.
Proof.
  induction l; simpl; intros x y D Hx Hy Hxy; [easy|]. inversion D; subst.
  destruct Hx as [<-|Hx], Hy as [<-|Hy]; auto.
  - exfalso. apply H1. rewrite Hxy. apply in_map; auto.
  - exfalso. apply H1. rewrite <- Hxy. apply in_map; auto.
Qed.

Lemma NoDup_app_left : forall {A} (l r : list A), NoDup (l ++ r) -> NoDup l.
Proof.
  induction l; simpl; intros r H; constructor; inversion H; subst; eauto.
  intro I. apply H2, in_app_iff; auto.
Qed.

Lemma pair_eqb_eq : forall a b, pair_eqb a b = true <-> a = b.
Proof.
  unfold pair_eqb; intros [a1 a2] [b1 b2]; simpl. rewrite andb_true_iff, !N.eqb_eq.
  split; [intros [-> ->]; auto|intro H; inversion H; auto].
Qed.
Lemma pair_eqb_neq : forall a b, a <> b -> pair_eqb a b = false.
Proof.
  intros a b H. destruct (pair_eqb a b) eqn:X; auto. apply pair_eqb_eq in X. congruence.
Qed.

(* ---- the HashSet of a right item ---- *)
Section Sets.
  Context {L R S : Type} (E : env L R S) (OK : lawful E).
  Let LO := lo_ok _ OK.

  Definition set_hashed (i : N) (t : table (N * N)) : Prop := hashed (hashP E i) (slots t).

  Lemma set_contains_iff : forall i t p, set_hashed i t ->
    set_contains E i t p = true <-> In p (map snd (slots t)).
  Proof.
    intros i t p H. unfold set_contains, hs_contains. split.
    - destruct (t_find _ _ _ _) eqn:F; [intros _|discriminate].
      apply t_find_some in F as (h & e & Hn & Hp). apply pair_eqb_eq in Hp. subst e.
      apply nth_error_In in Hn. apply in_map_iff. exists (h, p); auto.
    - intros I. apply in_map_iff in I as ([h q] & Hq & I). simpl in Hq; subst q.
      destruct (t_find _ _ _ _) eqn:F; auto.
      assert (Hh := H _ I). simpl in Hh. subst h.
      eapply t_find_none in F; [|exact LO|exact I].
      rewrite (proj2 (pair_eqb_eq p p) eq_refl) in F. discriminate.
  Qed.
  Lemma set_contains_false : forall i t p, set_hashed i t ->
    ~ In p (map snd (slots t)) -> set_contains E i t p = false.
  Proof.
    intros i t p H N. destruct (set_contains E i t p) eqn:X; auto.
    apply set_contains_iff in X; auto. contradiction.
  Qed.

  Lemma set_insert_perm : forall i t p, set_hashed i t -> ~ In p (map snd (slots t)) ->
    Permutation (slots (set_insert E i t p)) ((hashP E i p, p) :: slots t).
  Proof.
    intros i t p H N. unfold set_insert, hs_insert.
    rewrite t_find_absent.
    - apply t_insert_perm; auto.
    - intros x Hx. apply pair_eqb_neq. intros ->. apply N. apply in_map; auto.
  Qed.
  Lemma set_remove_perm : forall i t p rest, Permutation (slots t) ((hashP E i p, p) :: rest) ->
    ~ In p (map snd rest) -> Permutation (slots (set_remove E i t p)) rest.
  Proof.
    intros i t p rest P N. unfold set_remove, hs_remove.
    destruct (t_remove_entry_unique _ LO t (hashP E i p) (pair_eqb p) p rest) as (t' & -> & P'); auto.
    - apply pair_eqb_eq; auto.
    - intros x Hx. apply pair_eqb_neq. intros ->. apply N. apply in_map; auto.
  Qed.
  Lemma set_remove_absent : forall i t p, ~ In p (map snd (slots t)) -> set_remove E i t p = t.
  Proof.
    intros i t p N. unfold set_remove, hs_remove. rewrite t_remove_entry_absent; auto.
    intros x Hx. apply pair_eqb_neq. intros ->. apply N. apply in_map; auto.
  Qed.

  Lemma set_collect_perm : forall i ps, NoDup ps ->
    Permutation (slots (set_collect E i ps)) (map (fun p => (hashP E i p, p)) ps).
  Proof.
    intros i ps. unfold set_collect.
    assert (X : forall ps acc done, NoDup (done ++ ps) ->
      Permutation (slots acc) (map (fun p => (hashP E i p, p)) done) ->
      Permutation (slots (fold_left (set_insert E i) ps acc))
                  (map (fun p => (hashP E i p, p)) (done ++ ps))).
    { induction ps0 as [|p t IH]; intros acc dn ND PA; simpl.
      - rewrite app_nil_r; auto.
      - replace (dn ++ p :: t) with ((dn ++ [p]) ++ t) in * by (rewrite <- app_assoc; auto).
        apply IH; auto. rewrite set_insert_perm.
        + rewrite map_app. simpl. etransitivity; [constructor; exact PA|]. apply Permutation_cons_append.
        + intros x Hx. apply (Permutation_in _ PA) in Hx. apply in_map_iff in Hx as (q & <- & _). auto.
        + intro I. apply (Permutation_in _ (Permutation_map snd PA)) in I.
          rewrite map_map in I. simpl in I. rewrite map_id in I.
          apply NoDup_app_left in ND. apply NoDup_remove in ND as [_ ND].
          rewrite app_nil_r in ND. contradiction. }
    intros ND. apply (X ps (set_new i) []); auto.
  Qed.
End Sets.

(* ---- assignments through get_mut ---- *)
Section TableAt.
  Context {L R S : Type} (E : env L R S) (OK : lawful E) {A : Type}.
  Implicit Types (t : table A).

  (* bucket i holds entry e under hash h; the other buckets are rest *)
  Definition at_slot t (i : nat) (h : N) (e : A) (rest : list (N * A)) : Prop :=
    nth_error (slots t) i = Some (h, e) /\ Permutation (slots t) ((h, e) :: rest).

  Lemma nth_update_nth : forall {B} (f : B -> B) l i x, nth_error l i = Some x ->
    nth_error (update_nth i f l) i = Some (f x).
  Proof.
    induction l; destruct i; simpl; intros x H; try discriminate.
    - inversion H; auto.
    - auto.
  Qed.
  Lemma modify_at : forall t i h e rest f, at_slot t i h e rest ->
    at_slot (t_modify t i f) i h (f e) rest.
  Proof.
    intros t i h e rest f [A1 B]. split.
    - simpl. erewrite nth_update_nth by eauto. auto.
    - apply t_modify_perm; auto.
  Qed.
  Lemma get_mut_unique : forall t h p e rest, Permutation (slots t) ((h, e) :: rest) ->
    p e = true -> (forall x, In x rest -> p (snd x) = false) ->
    exists i, t_get_mut E t h p = Some (i, e) /\ at_slot t i h e rest.
  Proof.
    intros t h p e rest P He Hr.
    destruct (t_find_unique _ (lo_ok _ OK) t h p e rest P He Hr) as (i & F & Hn).
    exists i. unfold t_get_mut, t_entry, at_slot. rewrite F, Hn. auto.
  Qed.
  Lemma get_mut_absent : forall t h p, (forall x, In x (slots t) -> p (snd x) = false) ->
    t_get_mut E t h p = None.
  Proof. intros. unfold t_get_mut. rewrite t_find_absent; auto. Qed.
  Lemma get_mut_get : forall t h p, t_get (lo E) t h p = option_map snd (t_get_mut E t h p).
  Proof.
    intros. unfold t_get, t_get_mut. destruct (t_find _ _ _ _); auto.
    destruct (t_entry t n); auto.
  Qed.
End TableAt.

(* ghost view of the two tables *)
Record zleft (L R : Type) := ZL { z_id : N; z_l : L; z_g : N; z_r : R; z_rid : N }.
Record zright (R : Type) := ZR { y_id : N; y_r : R; y_tab : table (N * N) }.
Arguments ZL {L R} _ _ _ _ _. Arguments z_id {L R} _. Arguments z_l {L R} _.
Arguments z_g {L R} _. Arguments z_r {L R} _. Arguments z_rid {L R} _.
Arguments ZR {R} _ _ _. Arguments y_id {R} _. Arguments y_r {R} _. Arguments y_tab {R} _.

Section Proofs.
  Context {L R S : Type} (E : env L R S) (OK : lawful E).
  Notation gm := (gmap L R S).
  Notation zl := (zleft L R).
  Notation zr := (zright R).
  Notation contents := (contents L R).

  Definition slotL (s : S) (z : zl) : N * left_item L :=
    (hashL E s (z_l z), LI (z_l z) (hashR E s (z_r z)) (z_rid z) (z_id z)).
  Definition slotR (s : S) (y : zr) : N * right_item R :=
    (hashR E s (y_r y), RI (y_r y) (y_tab y) (y_id y)).
  Definition pkey (s : S) (z : zl) : N * N := (hashL E s (z_l z), z_id z).
  Definition pslot (s : S) (i : N) (z : zl) : N * (N * N) := (hashP E i (pkey s z), pkey s z).
  Definition in_group (i : N) (z : zl) : bool := z_g z =? i.

  (* All ids are below lc, rc.  A: left items with id, group and r_id field; D: removed left items of which the set of
     their right item still holds the (hash, id); B: right items with id and set. *)
  Record Rep (s : S) (lc rc : N) (m : gm) (A D : list zl) (B : list zr) : Prop := {
    rep_hb : hash_builder m = s;
    rep_l : Permutation (slots (left_set m)) (map (slotL s) A);
    rep_r : Permutation (slots (right_set m)) (map (slotR s) B);
    rep_tab : forall y, In y B ->
      Permutation (slots (y_tab y)) (map (pslot s (y_id y)) (filter (in_group (y_id y)) (A ++ D)));
    rep_lids : NoDup (map z_id (A ++ D));
    rep_rids : NoDup (map y_id B);
    rep_llt : forall z, In z (A ++ D) -> z_id z < lc /\ z_g z < rc /\ z_rid z < rc;
    rep_rlt : forall y, In y B -> y_id y < rc;
    rep_link : forall z, In z A -> exists y, In y B /\ y_id y = z_g z /\ y_r y = z_r z;
    rep_eql : distinct (eqL E) (map z_l A);
    rep_eqr : distinct (eqR E) (map y_r B)
  }.

  (* b = (no left-overs, every r_id field right) *)
  Definition tame (b : bool * bool) (A D : list zl) : Prop :=
    (fst b = true -> D = []) /\ (snd b = true -> forall z, In z A -> z_rid z = z_g z).

  Definition z_pair (z : zl) : L * R := (z_l z, z_r z).
  Definition view (A : list zl) (B : list zr) : contents := GC (map y_r B) (map z_pair A).
  Definition Repr (b : bool * bool) (s : S) (lc rc : N) (m : gm) (G : contents) : Prop :=
    exists A D B, Rep s lc rc m A D B /\ G = view A B /\ tame b A D /\
      left_counter m = lc /\ right_counter m = rc.

  Let EL := eqL_equiv _ OK.
  Let ER := eqR_equiv _ OK.
  Let LO := lo_ok _ OK.

  Lemma tame_perm : forall b A A' D, Permutation A A' -> tame b A D -> tame b A' D.
  Proof.
    intros b A A' D P [H1 H2]. split; auto. intros Hb z Hz. apply H2; auto.
    eapply Permutation_in; [symmetry|]; eauto.
  Qed.

  Lemma rep_perm : forall s lc rc m A D B A' B', Permutation A A' -> Permutation B B' ->
    Rep s lc rc m A D B -> Rep s lc rc m A' D B'.
  Proof.
    intros s lc rc m A D B A' B' PA PB H. destruct H.
    assert (PD : Permutation (A ++ D) (A' ++ D)) by (apply Permutation_app_tail; auto).
    constructor; auto.
    - rewrite rep_l0. apply Permutation_map; auto.
    - rewrite rep_r0. apply Permutation_map; auto.
    - intros y Hy. rewrite rep_tab0 by (eapply Permutation_in; [symmetry|]; eauto).
      apply Permutation_map, filter_perm; auto.
    - eapply NoDup_perm; [apply Permutation_map; exact PD|auto].
    - eapply NoDup_perm; [apply Permutation_map; exact PB|auto].
    - intros z Hz. apply rep_llt0. eapply Permutation_in; [symmetry|]; eauto.
    - intros y Hy. apply rep_rlt0. eapply Permutation_in; [symmetry|]; eauto.
    - intros z Hz. destruct (rep_link0 z) as (y & Hy & Q);
        [eapply Permutation_in; [symmetry|]; eauto|].
      exists y; split; auto. eapply Permutation_in; eauto.
    - eapply distinct_perm; [exact EL|apply Permutation_map; exact PA|auto].
    - eapply distinct_perm; [exact ER|apply Permutation_map; exact PB|auto].
  Qed.

  Lemma repr_same : forall b s lc rc m G G', same G G' -> Repr b s lc rc m G -> Repr b s lc rc m G'.
  Proof.
    intros b s lc rc m [gr gp] [gr' gp'] [PR PP] (A & D & B & H & HG & T & C1 & C2). simpl in *.
    inversion HG; subst gr gp.
    symmetry in PR, PP. apply Permutation_map_inv in PR as (B' & -> & PB).
    apply Permutation_map_inv in PP as (A' & -> & PA).
    exists A', D, B'. split; [eapply rep_perm; eauto|]. split; [auto|split; [|auto]].
    eapply tame_perm; [exact PA|auto].
  Qed.

  Lemma repr_grouping : forall b s lc rc m G, Repr b s lc rc m G -> grouping (eqL E) (eqR E) G.
  Proof.
    intros b s lc rc m G (A & D & B & H & -> & _). unfold grouping, view; simpl. split; [|split].
    - rewrite map_map. apply (rep_eql _ _ _ _ _ _ _ H).
    - apply (rep_eqr _ _ _ _ _ _ _ H).
    - intros p Hp. apply in_map_iff in Hp as (z & <- & Hz).
      destruct (rep_link _ _ _ _ _ _ _ H z Hz) as (y & Hy & _ & Q). simpl. rewrite <- Q. apply in_map; auto.
  Qed.

  Lemma rep_hashed_l : forall s lc rc m A D B, Rep s lc rc m A D B ->
    hashed (make_hasher_l E s) (slots (left_set m)).
  Proof.
    intros s lc rc m A D B H x Hx. apply (Permutation_in _ (rep_l _ _ _ _ _ _ _ H)) in Hx.
    apply in_map_iff in Hx as (z & <- & _). auto.
  Qed.
  Lemma rep_hashed_r : forall s lc rc m A D B, Rep s lc rc m A D B ->
    hashed (make_hasher_r E s) (slots (right_set m)).
  Proof.
    intros s lc rc m A D B H x Hx. apply (Permutation_in _ (rep_r _ _ _ _ _ _ _ H)) in Hx.
    apply in_map_iff in Hx as (z & <- & _). auto.
  Qed.
  Lemma rep_hashed_tab : forall s lc rc m A D B y, Rep s lc rc m A D B -> In y B ->
    set_hashed E (y_id y) (y_tab y).
  Proof.
    intros s lc rc m A D B y H Hy x Hx. apply (Permutation_in _ (rep_tab _ _ _ _ _ _ _ H y Hy)) in Hx.
    apply in_map_iff in Hx as (z & <- & _). auto.
  Qed.

  (* the keys in a set *)
  Lemma tab_keys : forall s lc rc m A D B y, Rep s lc rc m A D B -> In y B ->
    Permutation (map snd (slots (y_tab y))) (map (pkey s) (filter (in_group (y_id y)) (A ++ D))).
  Proof.
    intros s lc rc m A D B y H Hy.
    rewrite (Permutation_map snd (rep_tab _ _ _ _ _ _ _ H y Hy)). rewrite map_map. reflexivity.
  Qed.
  Lemma tab_contains : forall s lc rc m A D B y z, Rep s lc rc m A D B -> In y B -> In z (A ++ D) ->
    set_contains E (y_id y) (y_tab y) (pkey s z) = in_group (y_id y) z.
  Proof.
    intros s lc rc m A D B y z H Hy Hz. assert (SH := rep_hashed_tab _ _ _ _ _ _ _ _ H Hy).
    assert (TK := tab_keys _ _ _ _ _ _ _ _ H Hy).
    destruct (in_group (y_id y) z) eqn:G.
    - apply set_contains_iff; auto. eapply Permutation_in; [symmetry; exact TK|].
      apply in_map, filter_In; auto.
    - apply set_contains_false; auto. intro I. apply (Permutation_in _ TK) in I.
      apply in_map_iff in I as (z' & K & I). apply filter_In in I as [I G'].
      assert (z' = z); [|congruence].
      eapply NoDup_map_inj; [apply (rep_lids _ _ _ _ _ _ _ H)|auto|auto|].
      inversion K; auto.
  Qed.
  Lemma tab_contains_fresh : forall s lc rc m A D B y p, Rep s lc rc m A D B -> In y B ->
    ~ In (snd p) (map z_id (A ++ D)) -> ~ In p (map snd (slots (y_tab y))).
  Proof.
    intros s lc rc m A D B y p H Hy N I.
    apply (Permutation_in _ (tab_keys _ _ _ _ _ _ _ _ H Hy)) in I.
    apply in_map_iff in I as (z & <- & I). apply filter_In in I as [I _].
    apply N. simpl. apply in_map; auto.
  Qed.
  Lemma fresh_lc : forall s lc rc m A D B, Rep s lc rc m A D B -> ~ In lc (map z_id (A ++ D)).
  Proof.
    intros s lc rc m A D B H I. apply in_map_iff in I as (z & Q & I).
    apply (rep_llt _ _ _ _ _ _ _ H) in I as [I _]. rewrite Q in I. lia.
  Qed.

  (* ---- the left / right item equal to q ---- *)
  Lemma split_l : forall s lc rc m A D B q, Rep s lc rc m A D B ->
    (exists z A', Permutation A (z :: A') /\ Rep s lc rc m (z :: A') D B /\
        eqL E q (z_l z) = true /\ hashL E s q = hashL E s (z_l z) /\
        forall x, In x A' -> eqL E q (z_l x) = false)
    \/ (forall x, In x A -> eqL E q (z_l x) = false).
  Proof.
    intros s lc rc m A D B q H.
    destruct (split_key (eqL E) EL z_l A q (rep_eql _ _ _ _ _ _ _ H)) as [(z & A' & P & Q & N)|N];
      [left|right; auto].
    exists z, A'. split; [auto|split; [|split; [auto|split; [apply (hashL_ok _ OK); auto|auto]]]].
    eapply rep_perm; [exact P|reflexivity|exact H].
  Qed.
  Lemma split_r : forall s lc rc m A D B q, Rep s lc rc m A D B ->
    (exists y B', Permutation B (y :: B') /\ Rep s lc rc m A D (y :: B') /\
        eqR E q (y_r y) = true /\ hashR E s q = hashR E s (y_r y) /\
        forall x, In x B' -> eqR E q (y_r x) = false)
    \/ (forall x, In x B -> eqR E q (y_r x) = false).
  Proof.
    intros s lc rc m A D B q H.
    destruct (split_key (eqR E) ER y_r B q (rep_eqr _ _ _ _ _ _ _ H)) as [(z & A' & P & Q & N)|N];
      [left|right; auto].
    exists z, A'. split; [auto|split; [|split; [auto|split; [apply (hashR_ok _ OK); auto|auto]]]].
    eapply rep_perm; [reflexivity|exact P|exact H].
  Qed.

  (* in the list of right items, equal means same id *)
  Lemma same_right : forall s lc rc m A D B y y', Rep s lc rc m A D B -> In y B -> In y' B ->
    eqR E (y_r y) (y_r y') = true -> y = y'.
  Proof.
    intros. eapply distinct_map_inj; [exact ER|apply (rep_eqr _ _ _ _ _ _ _ H)| | |]; auto.
  Qed.
  Lemma same_rid : forall s lc rc m A D B y y', Rep s lc rc m A D B -> In y B -> In y' B ->
    y_id y = y_id y' -> y = y'.
  Proof. intros. eapply NoDup_map_inj; [apply (rep_rids _ _ _ _ _ _ _ H)| | |]; auto. Qed.

  Lemma in_group_eq : forall s lc rc m A D B y z, Rep s lc rc m A D B -> In y B -> In z A ->
    in_group (y_id y) z = eqR E (y_r y) (z_r z).
  Proof.
    intros s lc rc m A D B y z H Hy Hz.
    destruct (rep_link _ _ _ _ _ _ _ H z Hz) as (y' & Hy' & I & <-).
    unfold in_group. rewrite <- I.
    destruct (eqR E (y_r y) (y_r y')) eqn:Q.
    - assert (y = y') by (eapply same_right; eauto). subst. apply N.eqb_refl.
    - apply N.eqb_neq. intro X. assert (y' = y) by (eapply same_rid; eauto). subst y'.
      rewrite (equiv_refl _ ER) in Q. discriminate.
  Qed.
  Lemma in_group_r : forall s lc rc m A D B y z, Rep s lc rc m A D B -> In y B -> In z A ->
    z_g z = y_id y -> z_r z = y_r y.
  Proof.
    intros s lc rc m A D B y z H Hy Hz Q.
    destruct (rep_link _ _ _ _ _ _ _ H z Hz) as (y' & Hy' & I & <-).
    f_equal. eapply same_rid; eauto. congruence.
  Qed.

  (* ---- searches at table level ---- *)
  Lemma swapL : forall a b, eqL E a b = eqL E b a.
  Proof. intros. apply eq_true_iff_eq. split; apply (equiv_sym _ EL). Qed.
  Lemma swapR : forall a b, eqR E a b = eqR E b a.
  Proof. intros. apply eq_true_iff_eq. split; apply (equiv_sym _ ER). Qed.
  Lemma key_l_other : forall s (A : list zl) q x, (forall z, In z A -> eqL E q (z_l z) = false) ->
    In x (map (slotL s) A) -> equivalent_key_left (eqL E) q (snd x) = false.
  Proof.
    intros s A q x H Hx. apply in_map_iff in Hx as (z & <- & Hz).
    unfold equivalent_key_left. rewrite swapL. apply H; auto.
  Qed.
  Lemma key_r_other : forall s (B : list zr) q x, (forall z, In z B -> eqR E q (y_r z) = false) ->
    In x (map (slotR s) B) -> equivalent_key_right (eqR E) q (snd x) = false.
  Proof.
    intros s B q x H Hx. apply in_map_iff in Hx as (z & <- & Hz).
    unfold equivalent_key_right. rewrite swapR. apply H; auto.
  Qed.
  Lemma id_l_other : forall s (A : list zl) i x, ~ In i (map z_id A) ->
    In x (map (slotL s) A) -> left_with_left_id i (snd x) = false.
  Proof.
    intros s A i x H Hx. apply in_map_iff in Hx as (z & <- & Hz).
    unfold left_with_left_id; simpl. apply N.eqb_neq. intros <-. apply H, in_map; auto.
  Qed.
  Lemma id_r_other : forall s (B : list zr) i x, ~ In i (map y_id B) ->
    In x (map (slotR s) B) -> right_with_right_id i (snd x) = false.
  Proof.
    intros s A i x H Hx. apply in_map_iff in Hx as (z & <- & Hz).
    unfold right_with_right_id; simpl. apply N.eqb_neq. intros <-. apply H, in_map; auto.
  Qed.
  Lemma left_absent : forall s lc rc m A D B q, Rep s lc rc m A D B ->
    (forall x, In x A -> eqL E q (z_l x) = false) ->
    forall x, In x (slots (left_set m)) -> equivalent_key_left (eqL E) q (snd x) = false.
  Proof.
    intros s lc rc m A D B q H Hn x Hx. eapply key_l_other; eauto.
    eapply Permutation_in; [apply (rep_l _ _ _ _ _ _ _ H)|auto].
  Qed.
  Lemma right_absent : forall s lc rc m A D B q, Rep s lc rc m A D B ->
    (forall x, In x B -> eqR E q (y_r x) = false) ->
    forall x, In x (slots (right_set m)) -> equivalent_key_right (eqR E) q (snd x) = false.
  Proof.
    intros s lc rc m A D B q H Hn x Hx. eapply key_r_other; eauto.
    eapply Permutation_in; [apply (rep_r _ _ _ _ _ _ _ H)|auto].
  Qed.

  Lemma find_left_some : forall s lc rc m z A D B q, Rep s lc rc m (z :: A) D B ->
    eqL E q (z_l z) = true -> (forall x, In x A -> eqL E q (z_l x) = false) ->
    find_left E m q = Some (snd (slotL s z)).
  Proof.
    intros s lc rc m z A D B q H Q N. unfold find_left. rewrite (rep_hb _ _ _ _ _ _ _ H).
    rewrite (hashL_ok _ OK _ _ _ Q).
    eapply t_get_unique; [exact LO|apply (rep_l _ _ _ _ _ _ _ H)|apply (equiv_sym _ EL), Q|].
    intros x Hx. eapply key_l_other; eauto.
  Qed.
  Lemma find_left_none : forall s lc rc m A D B q, Rep s lc rc m A D B ->
    (forall x, In x A -> eqL E q (z_l x) = false) -> find_left E m q = None.
  Proof. intros. unfold find_left. apply t_get_absent. eapply left_absent; eauto. Qed.
  Lemma find_right_some : forall s lc rc m A D y B q, Rep s lc rc m A D (y :: B) ->
    eqR E q (y_r y) = true -> (forall x, In x B -> eqR E q (y_r x) = false) ->
    find_right E m q = Some (snd (slotR s y)).
  Proof.
    intros s lc rc m A D z B q H Q N. unfold find_right. rewrite (rep_hb _ _ _ _ _ _ _ H).
    rewrite (hashR_ok _ OK _ _ _ Q).
    eapply t_get_unique; [exact LO|apply (rep_r _ _ _ _ _ _ _ H)|apply (equiv_sym _ ER), Q|].
    intros x Hx. eapply key_r_other; eauto.
  Qed.
  Lemma find_right_none : forall s lc rc m A D B q, Rep s lc rc m A D B ->
    (forall x, In x B -> eqR E q (y_r x) = false) -> find_right E m q = None.
  Proof. intros. unfold find_right. apply t_get_absent. eapply right_absent; eauto. Qed.

  (* search by id *)
  Lemma get_left_id : forall s lc rc m A D B z, Rep s lc rc m A D B -> In z A ->
    t_get (lo E) (left_set m) (hashL E s (z_l z)) (left_with_left_id (z_id z)) = Some (snd (slotL s z)).
  Proof.
    intros s lc rc m A D B z H Hz. apply perm_in_cons in Hz as [A' P].
    assert (H' := rep_perm _ _ _ _ _ _ _ _ _ P (Permutation_refl B) H).
    eapply t_get_unique; [exact LO|apply (rep_l _ _ _ _ _ _ _ H')| |].
    - apply N.eqb_refl.
    - intros x Hx. eapply id_l_other; [|exact Hx].
      assert (ND := rep_lids _ _ _ _ _ _ _ H'). rewrite map_app in ND.
      apply NoDup_app_left in ND. inversion ND; auto.
  Qed.
  Lemma get_left_id_dead : forall s lc rc m A D B z h, Rep s lc rc m A D B -> In z D ->
    t_get (lo E) (left_set m) h (left_with_left_id (z_id z)) = None.
  Proof.
    intros s lc rc m A D B z h H Hz. apply t_get_absent. intros x Hx.
    apply (Permutation_in _ (rep_l _ _ _ _ _ _ _ H)) in Hx. eapply id_l_other; [|exact Hx].
    intro I. apply in_map_iff in I as (z' & Q & I).
    apply in_split in Hz as (D1 & D2 & ->). assert (ND := rep_lids _ _ _ _ _ _ _ H).
    rewrite app_assoc, map_app in ND. simpl in ND. apply NoDup_remove in ND as [_ ND].
    apply ND. rewrite <- Q, <- map_app. apply in_map. rewrite !in_app_iff; auto.
  Qed.
  Lemma get_right_id : forall s lc rc m A D B y, Rep s lc rc m A D B -> In y B ->
    t_get (lo E) (right_set m) (hashR E s (y_r y)) (right_with_right_id (y_id y)) = Some (snd (slotR s y)).
  Proof.
    intros s lc rc m A D B z H Hz. apply perm_in_cons in Hz as [B' P].
    assert (H' := rep_perm _ _ _ _ _ _ _ _ _ (Permutation_refl A) P H).
    eapply t_get_unique; [exact LO|apply (rep_r _ _ _ _ _ _ _ H')| |].
    - apply N.eqb_refl.
    - intros x Hx. eapply id_r_other; [|exact Hx].
      assert (ND := rep_rids _ _ _ _ _ _ _ H'). inversion ND; auto.
  Qed.

  (* ---- find / filter on the abstract lists ---- *)
  Lemma find_l_some : forall z A A0 B q, Permutation A0 (z :: A) -> eqL E q (z_l z) = true ->
    (forall x, In x A -> eqL E q (z_l x) = false) ->
    find_l (eqL E) (view A0 B) q = Some (z_pair z).
  Proof.
    intros z A A0 B q P Q N. unfold find_l, view; simpl.
    apply find_perm_unique with (Z' := map z_pair A); auto.
    - apply Permutation_map with (f := z_pair) in P. auto.
    - intros x Hx. apply in_map_iff in Hx as (y & <- & Hy). apply N; auto.
  Qed.
  Lemma find_l_none : forall A B q, (forall x, In x A -> eqL E q (z_l x) = false) ->
    find_l (eqL E) (view A B) q = None.
  Proof.
    intros A B q N. apply find_all_false. intros x Hx.
    apply in_map_iff in Hx as (y & <- & Hy). apply N; auto.
  Qed.
  Lemma find_r_some : forall y A B B0 q, Permutation B0 (y :: B) -> eqR E q (y_r y) = true ->
    (forall x, In x B -> eqR E q (y_r x) = false) ->
    find_r (eqR E) (view A B0) q = Some (y_r y).
  Proof.
    intros y A B B0 q P Q N. unfold find_r, view; simpl.
    apply find_perm_unique with (Z' := map y_r B); auto.
    - apply Permutation_map with (f := y_r) in P. auto.
    - intros x Hx. apply in_map_iff in Hx as (x' & <- & Hy). apply N; auto.
  Qed.
  Lemma find_r_none : forall A B q, (forall x, In x B -> eqR E q (y_r x) = false) ->
    find_r (eqR E) (view A B) q = None.
  Proof.
    intros A B q N. apply find_all_false. intros x Hx.
    apply in_map_iff in Hx as (y & <- & Hy). apply N; auto.
  Qed.
  Lemma del_l_some : forall z A A0 B q, Permutation A0 (z :: A) -> eqL E q (z_l z) = true ->
    (forall x, In x A -> eqL E q (z_l x) = false) ->
    Permutation (del_l (eqL E) (view A0 B) q) (map z_pair A).
  Proof.
    intros z A A0 B q P Q N. unfold del_l, view; simpl.
    rewrite (filter_perm _ _ _ (Permutation_map z_pair P)). simpl. unfold is_l at 1; simpl.
    rewrite Q. simpl. rewrite filter_all_true; auto.
    intros x Hx. apply in_map_iff in Hx as (y & <- & Hy). unfold is_l; simpl. rewrite N; auto.
  Qed.
  Lemma del_l_none : forall A B q, (forall x, In x A -> eqL E q (z_l x) = false) ->
    del_l (eqL E) (view A B) q = map z_pair A.
  Proof.
    intros A B q N. unfold del_l, view; simpl. apply filter_all_true.
    intros x Hx. apply in_map_iff in Hx as (y & <- & Hy). unfold is_l; simpl. rewrite N; auto.
  Qed.
  Lemma del_r_some : forall y A B B0 q, Permutation B0 (y :: B) -> eqR E q (y_r y) = true ->
    (forall x, In x B -> eqR E q (y_r x) = false) ->
    Permutation (filter (fun b => negb (eqR E q b)) (g_rights (view A B0))) (map y_r B).
  Proof.
    intros y A B B0 q P Q N. simpl.
    rewrite (filter_perm _ _ _ (Permutation_map y_r P)). simpl. rewrite Q. simpl.
    rewrite filter_all_true; auto.
    intros x Hx. apply in_map_iff in Hx as (y' & <- & Hy). rewrite N; auto.
  Qed.
  Lemma del_r_none : forall A B q, (forall x, In x B -> eqR E q (y_r x) = false) ->
    filter (fun b => negb (eqR E q b)) (g_rights (view A B)) = map y_r B.
  Proof.
    intros A B q N. simpl. apply filter_all_true.
    intros x Hx. apply in_map_iff in Hx as (y & <- & Hy). rewrite N; auto.
  Qed.
  Lemma contains_l_find : forall (G : contents) q, s_contains_left (eqL E) G q = is_some (find_l (eqL E) G q).
  Proof.
    intros [gr gp] q. unfold s_contains_left, find_l; simpl.
    induction gp; simpl; auto. destruct (is_l (eqL E) q a); auto.
  Qed.
  Lemma contains_r_find : forall (G : contents) q,
    s_contains_right (eqR E) G q = is_some (find_r (eqR E) G q).
  Proof.
    intros [gr gp] q. unfold s_contains_right, find_r; simpl.
    induction gr; simpl; auto. destruct (eqR E q a); auto.
  Qed.

  (* the pairs of q among those of A *)
  Lemma is_r_in_group : forall s lc rc m A D B y q z, Rep s lc rc m A D B -> In y B ->
    eqR E q (y_r y) = true -> In z A -> is_r (eqR E) q (z_pair z) = in_group (y_id y) z.
  Proof.
    intros s lc rc m A D B y q z H Hy Q Hz. rewrite (in_group_eq _ _ _ _ _ _ _ _ _ H Hy Hz).
    unfold is_r; simpl. apply (eqb_replace_l _ ER); auto.
  Qed.
  Lemma is_r_absent : forall s lc rc m A D B q z, Rep s lc rc m A D B ->
    (forall x, In x B -> eqR E q (y_r x) = false) -> In z A -> is_r (eqR E) q (z_pair z) = false.
  Proof.
    intros s lc rc m A D B q z H N Hz.
    destruct (rep_link _ _ _ _ _ _ _ H z Hz) as (y & Hy & _ & Q).
    unfold is_r; simpl. rewrite <- Q. auto.
  Qed.

  (* ---- lookups ---- *)
  Lemma contains_left_ok : forall b s lc rc m G q, Repr b s lc rc m G ->
    contains_left E m q = s_contains_left (eqL E) G q.
  Proof.
    intros b s lc rc m G q (A & D & B & H & -> & _). rewrite contains_l_find. unfold contains_left.
    destruct (split_l _ _ _ _ _ _ _ q H) as [(z & A' & P & H' & Q & _ & N)|N].
    - erewrite find_left_some, find_l_some by eauto. auto.
    - erewrite find_left_none, find_l_none by eauto. auto.
  Qed.
  Lemma contains_right_ok : forall b s lc rc m G q, Repr b s lc rc m G ->
    contains_right E m q = s_contains_right (eqR E) G q.
  Proof.
    intros b s lc rc m G q (A & D & B & H & -> & _). rewrite contains_r_find. unfold contains_right.
    destruct (split_r _ _ _ _ _ _ _ q H) as [(z & A' & P & H' & Q & _ & N)|N].
    - erewrite find_right_some, find_r_some by eauto. auto.
    - erewrite find_right_none, find_r_none by eauto. auto.
  Qed.

  (* both found *)
  Lemma are_paired_z : forall s lc rc m z A D y B l r, Rep s lc rc m (z :: A) D (y :: B) ->
    eqL E l (z_l z) = true -> (forall x, In x A -> eqL E l (z_l x) = false) ->
    eqR E r (y_r y) = true -> (forall x, In x B -> eqR E r (y_r x) = false) ->
    are_paired E m l r = in_group (y_id y) z.
  Proof.
    intros s lc rc m z A D y B l r H QL NL QR NR. unfold are_paired.
    erewrite find_left_some, find_right_some by eauto. simpl.
    rewrite (rep_hb _ _ _ _ _ _ _ H).
    rewrite (hashL_ok _ OK _ _ _ QL), (hashR_ok _ OK _ _ _ QR).
    change (hashL E s (z_l z), z_id z) with (pkey s z).
    rewrite (tab_contains _ _ _ _ _ _ _ _ _ H) by (simpl; auto).
    destruct (in_group (y_id y) z) eqn:G; [|apply andb_false_r].
    apply N.eqb_eq in G. erewrite (in_group_r _ _ _ _ _ _ _ y z H) by (simpl; auto).
    rewrite N.eqb_refl. auto.
  Qed.
  Lemma are_paired_ok : forall b s lc rc m G l r, Repr b s lc rc m G ->
    are_paired E m l r = s_are_paired (eqL E) (eqR E) G l r.
  Proof.
    intros b s lc rc m G l r (A & D & B & H & -> & _). unfold s_are_paired. simpl.
    destruct (split_l _ _ _ _ _ _ _ l H) as [(z & A' & P & H' & Q & HQ & N)|N].
    - rewrite (existsb_perm _ _ _ (Permutation_map z_pair P)). simpl.
      replace (existsb _ (map z_pair A')) with false.
      2:{ symmetry. apply existsb_false. intros x Hx. apply in_map_iff in Hx as (y & <- & Hy).
          unfold is_l; simpl. rewrite N; auto. }
      rewrite orb_false_r. unfold is_l; simpl. rewrite Q. simpl.
      destruct (split_r _ _ _ _ _ _ _ r H') as [(y & B' & PB & HB & QB & _ & NB)|NB].
      + erewrite are_paired_z by eauto.
        symmetry. apply (is_r_in_group _ _ _ _ _ _ _ y r z HB); simpl; auto.
      + unfold are_paired. erewrite (find_right_none _ _ _ _ _ _ _ _ H') by auto.
        rewrite (is_r_absent _ _ _ _ _ _ _ r z H') by (simpl; auto).
        destruct (find_left E m l); auto.
    - replace (existsb _ (map z_pair A)) with false.
      2:{ symmetry. apply existsb_false. intros x Hx. apply in_map_iff in Hx as (y & <- & Hy).
          unfold is_l; simpl. rewrite N; auto. }
      unfold are_paired. erewrite find_left_none by eauto. auto.
  Qed.

  (* the r_id field of l is right / the group of r has no left-over *)
  Definition linked (m : gm) (l : L) : Prop := contains_left E m l = true ->
    exists r, get_right E m l = Some r /\ are_paired E m l r = true.
  Definition clean (m : gm) (r : R) : Prop :=
    forall it, get_left_iter E m r = Some it -> exists ls, pair_rest E m it = Done ls.

  Lemma get_right_z : forall s lc rc m z A D B l, Rep s lc rc m (z :: A) D B ->
    eqL E l (z_l z) = true -> (forall x, In x A -> eqL E l (z_l x) = false) -> z_rid z = z_g z ->
    get_right E m l = Some (z_r z).
  Proof.
    intros s lc rc m z A D B l H Q N RZ. unfold get_right, get_right_q.
    change (t_get (lo E) (left_set m) (hashL E (hash_builder m) l) (equivalent_key_left (eqL E) l))
      with (find_left E m l).
    erewrite find_left_some by eauto. simpl.
    destruct (rep_link _ _ _ _ _ _ _ H z (or_introl eq_refl)) as (y & Hy & I & <-).
    rewrite RZ, <- I. erewrite get_right_id by eauto. auto.
  Qed.
  Lemma linked_z : forall s lc rc m z A D B l, Rep s lc rc m (z :: A) D B ->
    eqL E l (z_l z) = true -> (forall x, In x A -> eqL E l (z_l x) = false) ->
    linked m l -> z_rid z = z_g z.
  Proof.
    intros s lc rc m z A D B l H Q N LK.
    destruct LK as (r & GR & AP).
    { unfold contains_left. erewrite find_left_some by eauto. auto. }
    unfold get_right, get_right_q in GR.
    change (t_get (lo E) (left_set m) (hashL E (hash_builder m) l) (equivalent_key_left (eqL E) l))
      with (find_left E m l) in GR.
    erewrite find_left_some in GR by eauto. simpl in GR.
    destruct (t_get _ _ _ _) as [e|] eqn:T; inversion GR; subst r; clear GR.
    unfold t_get in T. destruct (t_find _ _ _ _) as [i|] eqn:F; [|discriminate].
    apply t_find_some in F as (h & e' & Hn & Hp). unfold t_entry in T. rewrite Hn in T.
    inversion T; subst e'; clear T. apply nth_error_In in Hn.
    apply (Permutation_in _ (rep_r _ _ _ _ _ _ _ H)) in Hn.
    apply in_map_iff in Hn as (y & Y & Hy). unfold slotR in Y. inversion Y; subst; clear Y.
    unfold right_with_right_id in Hp. simpl in *. apply N.eqb_eq in Hp.
    apply perm_in_cons in Hy as [B' PB].
    assert (H' := rep_perm _ _ _ _ _ _ _ _ _ (Permutation_refl _) PB H).
    erewrite are_paired_z in AP; eauto.
    - apply N.eqb_eq in AP. congruence.
    - apply (equiv_refl _ ER).
    - intros x Hx. assert (DR := rep_eqr _ _ _ _ _ _ _ H'). simpl in DR.
      apply distinct_cons in DR as [DR _]. apply DR, in_map; auto.
  Qed.
  Lemma linked_of_z : forall s lc rc m z A D B l, Rep s lc rc m (z :: A) D B ->
    eqL E l (z_l z) = true -> (forall x, In x A -> eqL E l (z_l x) = false) ->
    z_rid z = z_g z -> linked m l.
  Proof.
    intros s lc rc m z A D B l H' Q N RZ C.
    exists (z_r z). split; [eapply get_right_z; eauto|].
    destruct (rep_link _ _ _ _ _ _ _ H' z (or_introl eq_refl)) as (y & Hy & I & <-).
    apply perm_in_cons in Hy as [B' PB].
    assert (H2 := rep_perm _ _ _ _ _ _ _ _ _ (Permutation_refl _) PB H').
    erewrite are_paired_z; eauto.
    - unfold in_group. rewrite I. apply N.eqb_refl.
    - apply (equiv_refl _ ER).
    - intros x Hx. assert (DR := rep_eqr _ _ _ _ _ _ _ H2). simpl in DR.
      apply distinct_cons in DR as [DR _]. apply DR, in_map; auto.
  Qed.
  Lemma tame_linked : forall s lc rc m A D B l, Rep s lc rc m A D B ->
    (forall z, In z A -> z_rid z = z_g z) -> linked m l.
  Proof.
    intros s lc rc m A D B l H T.
    destruct (split_l _ _ _ _ _ _ _ l H) as [(z & A' & P & H' & Q & HQ & N)|N].
    - eapply linked_of_z; eauto. apply T. eapply Permutation_in; [symmetry; exact P|left; auto].
    - intros C. unfold contains_left in C. erewrite find_left_none in C by eauto. discriminate.
  Qed.

  Lemma get_right_ok : forall b s lc rc m G q, Repr b s lc rc m G -> linked m q ->
    get_right E m q = s_get_right (eqL E) G q.
  Proof.
    intros b s lc rc m G q (A & D & B & H & -> & _) LK. unfold s_get_right.
    destruct (split_l _ _ _ _ _ _ _ q H) as [(z & A' & P & H' & Q & _ & N)|N].
    - erewrite find_l_some by eauto. simpl. eapply get_right_z; eauto. eapply linked_z; eauto.
    - erewrite find_l_none by eauto. unfold get_right, get_right_q.
      change (t_get (lo E) (left_set m) (hashL E (hash_builder m) q) (equivalent_key_left (eqL E) q))
        with (find_left E m q). erewrite find_left_none by eauto. auto.
  Qed.

  (* ---- get_left_iter ---- *)
  Lemma pair_rest_ok : forall s lc rc m A D B zs, Rep s lc rc m A D B -> incl zs A ->
    pair_rest E m (map (pkey s) zs) = Done (map z_l zs).
  Proof.
    intros s lc rc m A D B zs H I. unfold pair_rest. rewrite map_length.
    induction zs as [|z t IH]; simpl; auto.
    erewrite get_left_id by (eauto; apply I; left; auto). simpl.
    rewrite IH; auto. intros x Hx. apply I; right; auto.
  Qed.
  (* a set with a left-over makes get_left_iter panic *)
  Lemma pair_rest_dead : forall s lc rc m A D B zs ls, Rep s lc rc m A D B -> incl zs (A ++ D) ->
    pair_rest E m (map (pkey s) zs) = Done ls -> incl zs A.
  Proof.
    intros s lc rc m A D B zs ls H. unfold pair_rest. rewrite map_length. revert ls.
    induction zs as [|z t IH]; simpl; intros ls I Q; [intros x []|].
    assert (Hz : In z (A ++ D)) by (apply I; left; auto).
    apply in_app_iff in Hz as [Hz|Hz].
    - erewrite get_left_id in Q by eauto. simpl in Q.
      destruct (collect _ _ _) eqn:X; [|discriminate].
      intros x [<-|Hx]; auto. eapply (IH a); auto. intros x' Hx'; apply I; right; auto.
    - erewrite get_left_id_dead in Q by eauto. discriminate.
  Qed.

  (* elements of the set of y, as left items *)
  Lemma tab_elems : forall s lc rc m A D B y, Rep s lc rc m A D B -> In y B ->
    exists zs, hs_elems (y_tab y) = map (pkey s) zs /\
      Permutation zs (filter (in_group (y_id y)) (A ++ D)).
  Proof.
    intros s lc rc m A D B y H Hy. assert (TK := tab_keys _ _ _ _ _ _ _ _ H Hy).
    apply Permutation_map_inv in TK as (zs & Q & P). exists zs; split; auto. symmetry; auto.
  Qed.
  Definition cleanZ (D : list zl) (i : N) : Prop := forall z, In z D -> z_g z <> i.
  Lemma clean_z : forall s lc rc m A D y B r, Rep s lc rc m A D (y :: B) ->
    eqR E r (y_r y) = true -> (forall x, In x B -> eqR E r (y_r x) = false) ->
    clean m r -> cleanZ D (y_id y).
  Proof.
    intros s lc rc m A D y B r H Q N C z Hz G. unfold clean, get_left_iter, get_left_iter_q in C.
    change (t_get (lo E) (right_set m) (hashR E (hash_builder m) r) (equivalent_key_right (eqR E) r))
      with (find_right E m r) in C.
    erewrite find_right_some in C by eauto. simpl in C.
    destruct (C _ eq_refl) as [ls X].
    destruct (tab_elems _ _ _ _ _ _ _ y H (or_introl eq_refl)) as (zs & Q1 & P).
    rewrite Q1 in X. eapply pair_rest_dead in X; [|exact H|].
    - assert (I : In z zs).
      { eapply Permutation_in; [symmetry; exact P|]. apply filter_In. split.
        - apply in_app_iff; auto.
        - unfold in_group. rewrite G. apply N.eqb_refl. }
      apply X in I. assert (ND := rep_lids _ _ _ _ _ _ _ H).
      apply in_split in Hz as (D1 & D2 & ->). rewrite app_assoc, map_app in ND. simpl in ND.
      apply NoDup_remove in ND as [_ ND]. apply ND. rewrite <- map_app. apply in_map.
      rewrite !in_app_iff; auto.
    - intros x Hx. apply (Permutation_in _ P) in Hx. apply filter_In in Hx. tauto.
  Qed.
  Lemma clean_filter : forall A D i, cleanZ D i ->
    filter (in_group i) (A ++ D) = filter (in_group i) A.
  Proof.
    intros A D i C. rewrite filter_app. rewrite (filter_all_false _ D); [apply app_nil_r|].
    intros z Hz. apply N.eqb_neq. auto.
  Qed.
  Lemma get_left_iter_z : forall s lc rc m A D y B r, Rep s lc rc m A D (y :: B) ->
    eqR E r (y_r y) = true -> (forall x, In x B -> eqR E r (y_r x) = false) -> cleanZ D (y_id y) ->
    exists zs, get_left_iter E m r = Some (map (pkey s) zs) /\
      Permutation zs (filter (in_group (y_id y)) A).
  Proof.
    intros s lc rc m A D y B r H Q N C. unfold get_left_iter, get_left_iter_q.
    change (t_get (lo E) (right_set m) (hashR E (hash_builder m) r) (equivalent_key_right (eqR E) r))
      with (find_right E m r).
    erewrite find_right_some by eauto. simpl.
    destruct (tab_elems _ _ _ _ _ _ _ y H (or_introl eq_refl)) as (zs & -> & P).
    exists zs; split; auto. rewrite clean_filter in P; auto.
  Qed.
  Lemma tame_clean : forall s lc rc m A D B r, Rep s lc rc m A D B -> D = [] -> clean m r.
  Proof.
    intros s lc rc m A D B r H T it Hit. subst D.
    destruct (split_r _ _ _ _ _ _ _ r H) as [(y & B' & P & H' & Q & _ & N)|N].
    - destruct (get_left_iter_z _ _ _ _ _ _ _ _ _ H' Q N) as (zs & Q1 & P1); [intros z []|].
      rewrite Q1 in Hit. inversion Hit; subst. eexists.
      eapply pair_rest_ok; [exact H|]. intros x Hx. apply (Permutation_in _ P1) in Hx.
      apply filter_In in Hx. tauto.
    - unfold get_left_iter, get_left_iter_q in Hit.
      change (t_get (lo E) (right_set m) (hashR E (hash_builder m) r) (equivalent_key_right (eqR E) r))
        with (find_right E m r) in Hit.
      erewrite find_right_none in Hit by eauto. discriminate.
  Qed.

  (* the group of r, abstractly *)
  Lemma group_z : forall s lc rc m A D B y q, Rep s lc rc m A D B -> In y B ->
    eqR E q (y_r y) = true ->
    group (eqR E) (view A B) q = map z_l (filter (in_group (y_id y)) A).
  Proof.
    intros s lc rc m A D B y q H Hy Q. unfold group, view; simpl.
    assert (X : forall A', incl A' A ->
      map fst (filter (is_r (eqR E) q) (map z_pair A')) = map z_l (filter (in_group (y_id y)) A')).
    { induction A' as [|z t IH]; simpl; intros I; auto.
      rewrite (is_r_in_group _ _ _ _ _ _ _ y q z H Hy Q) by (apply I; left; auto).
      destruct (in_group (y_id y) z); simpl; [f_equal|]; apply IH; intros x Hx; apply I; right; auto. }
    apply X. intros x Hx; auto.
  Qed.

  Lemma get_left_iter_ok : forall b s lc rc m G r, Repr b s lc rc m G -> clean m r ->
    match get_left_iter E m r with
    | Some it => exists ls g, pair_rest E m it = Done ls /\ pair_len it = length ls /\
                   s_get_left_iter (eqR E) G r = Some g /\ Permutation ls g
    | None => s_get_left_iter (eqR E) G r = None
    end.
  Proof.
    intros b s lc rc m G r (A & D & B & H & -> & _) C. unfold s_get_left_iter.
    destruct (split_r _ _ _ _ _ _ _ r H) as [(y & B' & P & H' & Q & _ & N)|N].
    - assert (CZ := clean_z _ _ _ _ _ _ _ _ _ H' Q N C).
      destruct (get_left_iter_z _ _ _ _ _ _ _ _ _ H' Q N CZ) as (zs & -> & PZ).
      exists (map z_l zs), (group (eqR E) (view A B) r). split; [|split; [|split]].
      + eapply pair_rest_ok; [exact H|]. intros x Hx. apply (Permutation_in _ PZ) in Hx.
        apply filter_In in Hx. tauto.
      + unfold pair_len. rewrite !map_length. auto.
      + erewrite find_r_some by eauto. auto.
      + assert (Hy : In y B) by (eapply Permutation_in; [symmetry; exact P|left; auto]).
        rewrite (group_z _ _ _ _ _ _ _ _ _ H Hy Q). apply Permutation_map; auto.
    - unfold get_left_iter, get_left_iter_q.
      change (t_get (lo E) (right_set m) (hashR E (hash_builder m) r) (equivalent_key_right (eqR E) r))
        with (find_right E m r).
      erewrite find_right_none, find_r_none by eauto. simpl. auto.
  Qed.

  Lemma is_right_paired_ok : forall b s lc rc m G r, Repr b s lc rc m G -> clean m r ->
    is_right_paired E m r = s_is_right_paired (eqR E) G r.
  Proof.
    intros b s lc rc m G r (A & D & B & H & -> & _) C. unfold is_right_paired, s_is_right_paired.
    simpl. destruct (split_r _ _ _ _ _ _ _ r H) as [(y & B' & P & H' & Q & _ & N)|N].
    - erewrite find_right_some by eauto. simpl. unfold set_is_empty, t_len.
      rewrite (Permutation_length (rep_tab _ _ _ _ _ _ _ H' y (or_introl eq_refl))), map_length.
      rewrite clean_filter by (eapply clean_z; eauto).
      assert (Hy : In y B) by (eapply Permutation_in; [symmetry; exact P|left; auto]).
      clear H' P B' N C.
      assert (X : forall A', incl A' A -> negb (Nat.eqb (length (filter (in_group (y_id y)) A')) 0) =
        existsb (is_r (eqR E) r) (map z_pair A')).
      { induction A' as [|z t IH]; simpl; intros I; auto.
        rewrite (is_r_in_group _ _ _ _ _ _ _ y r z H Hy Q) by (apply I; left; auto).
        destruct (in_group (y_id y) z); simpl; auto. apply IH; intros x Hx; apply I; right; auto. }
      apply X. intros x Hx; auto.
    - erewrite find_right_none by eauto. symmetry. apply existsb_false. intros x Hx.
      apply in_map_iff in Hx as (z & <- & Hz). eapply is_r_absent; eauto.
  Qed.

  Lemma len_left_ok : forall b s lc rc m G, Repr b s lc rc m G ->
    len_left m = length (g_pairs G).
  Proof.
    intros b s lc rc m G (A & D & B & H & -> & _). unfold len_left, t_len, view; simpl.
    rewrite (Permutation_length (rep_l _ _ _ _ _ _ _ H)), !map_length. auto.
  Qed.
  Lemma len_right_ok : forall b s lc rc m G, Repr b s lc rc m G ->
    len_right m = length (g_rights G).
  Proof.
    intros b s lc rc m G (A & D & B & H & -> & _). unfold len_right, t_len, view; simpl.
    rewrite (Permutation_length (rep_r _ _ _ _ _ _ _ H)), !map_length. auto.
  Qed.

  Lemma new_ok : forall s ll lr, Repr (true, true) s 0 0 (with_hasher s ll lr) (GC [] []).
  Proof.
    intros. exists [], [], []. split; [|split; auto].
    - constructor; simpl; auto; try constructor; easy.
    - split; auto. split; auto. intros _ z [].
  Qed.
End Proofs.
