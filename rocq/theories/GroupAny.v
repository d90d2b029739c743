(* GroupMap: what holds after any history of calls at all: the calls that damage the pairing
   (C48, C50, C51, C56), any number of ids taken (wrapped counters included), panics caught.
   The left side is always a set; the right side is one as long as no swap brings in an item
   that is already there. *)
From Coq Require Import List NArith Lia Bool Permutation PeanoNat.
From Verif Require Import Closures Prelude RawTable GroupMap ListFacts TableFacts SoundTables
  GroupSpec GroupProofs GroupHistory IterFacts Concrete.
Import ListNotations.
Open Scope N_scope.

Section AnyRun.
  Context {L R S : Type}.
  Variable E : env L R S.
  Notation map := (gmap L R S).
  (* any map that a program can get hold of *)
  Definition obtainable (m : map) : Prop :=
    exists s ll lr ops, m = fst (run E (with_hasher s ll lr) ops).
  (* a swap of a present item brings in an item that is not there (or, when the old item is
     removed, the old item itself) *)
  Definition fresh_swap (m : map) (o : op L R) : Prop :=
    match o with
    | SwapRight old new => contains_right E m old = true -> contains_right E m new = false
    | SwapRightRemove old new => contains_right E m old = true ->
        contains_right E m new = false \/ eqR E old new = true
    | _ => True
    end.
  Definition fairly_obtainable (m : map) : Prop :=
    exists s ll lr ops, guarded E fresh_swap (with_hasher s ll lr) ops /\
      m = fst (run E (with_hasher s ll lr) ops).
End AnyRun.

(* the items a call hands over to the map *)
Definition some_l {L R} (x : option L * R) : list L := match fst x with Some l => [l] | None => [] end.
Definition given_l {L R} (o : op L R) : list L :=
  match o with
  | Insert l _ | InsertRemove l _ | InsertLeft l _ => [l]
  | ExtendPairs xs => List.map fst xs
  | Extend xs => flat_map some_l xs
  | _ => []
  end.
Definition given_r {L R} (o : op L R) : list R :=
  match o with
  | Insert _ r | InsertRemove _ r | InsertRight r | SwapRight _ r | SwapRightRemove _ r => [r]
  | ExtendPairs xs => List.map snd xs
  | Extend xs => List.map snd xs
  | _ => []
  end.

(* [sound] with the distinctness asked for only if b = true, and W of every entry *)
Section Half.
  Variable lo : layout.
  Hypothesis OK : layout_ok lo.
  Context {A T : Type}.
  Variable v : A -> T.
  Variable e : T -> T -> bool.
  Hypothesis EQ : equivalence e.
  Variable h : T -> N.
  Hypothesis HH : forall a b, e a b = true -> h a = h b.
  Variable G : T -> Prop.
  Variable W : A -> Prop.
  Variable b : bool.
  Definition sound_if (t : table A) : Prop :=
    hashed (fun x => h (v x)) (slots t) /\ (b = true -> distinct e (t_values v t)) /\
    (forall x, In x (slots t) -> G (v (snd x)) /\ W (snd x)).
  Lemma sound_of : forall t, sound_if t -> b = true -> sound v e h G t.
  Proof.
    intros t (H1 & H2 & H3) B. split; [assumption|]. split; auto. apply Forall_forall. intros y Hy.
    apply in_map_iff in Hy as (z & <- & Hz). apply H3; auto.
  Qed.
  Lemma sound_if_nil : forall l, sound_if (Tbl [] l).
  Proof. split; [intros x []|split; [intros _; constructor|intros x []]]. Qed.
  Lemma sound_if_remove_at : forall t i, sound_if t -> sound_if (t_remove_at lo t i).
  Proof.
    intros t i H. pose proof H as (H1 & H2 & H3). split; [|split].
    - intros x Hx. apply H1. exact (remove_nth_In _ _ _ Hx).
    - intros B. destruct (sound_remove_at lo v e h G t i (sound_of t H B)) as (_ & D & _). exact D.
    - intros x Hx. apply H3. exact (remove_nth_In _ _ _ Hx).
  Qed.
  Lemma sound_if_remove_entry : forall t hh p x t', sound_if t ->
    t_remove_entry lo t hh p = Some (x, t') -> sound_if t'.
  Proof. intros t hh p x t' H R. apply remove_entry_at in R as (i & h' & _ & _ & ->). apply sound_if_remove_at; auto. Qed.
  Lemma sound_if_modify : forall t i f, (forall x, v (f x) = v x) -> (forall x, W x -> W (f x)) ->
    sound_if t -> sound_if (t_modify t i f).
  Proof.
    intros t i f F FW (H1 & H2 & H3). split; [|split; [rewrite t_values_modify; auto|]].
    - destruct t as [s ly]. simpl in *. clear H2 H3. revert i. induction s as [|a s IH]; intros [|i]; simpl; auto.
      + intros x [<-|Hx]; simpl; [rewrite F; apply H1; left; auto|apply H1; right; auto].
      + intros x [<-|Hx]; [apply H1; left; auto|]. eapply IH; eauto. intros y Hy. apply H1; right; auto.
    - destruct t as [s ly]. simpl in *. clear H1 H2. revert i. induction s as [|a s IH]; intros [|i]; simpl; auto.
      + intros x [<-|Hx]; simpl; [|apply H3; right; auto].
        destruct (H3 a (or_introl eq_refl)). rewrite F. auto.
      + intros x [<-|Hx]; [apply H3; left; auto|]. eapply IH; eauto. intros y Hy. apply H3; right; auto.
  Qed.
  Lemma sound_if_insert : forall t x, sound_if t -> (b = true -> absent v e (v x) t) -> G (v x) -> W x ->
    sound_if (t_insert lo t (h (v x)) x (fun x => h (v x))).
  Proof.
    intros t x (H1 & H2 & H3) AB GX WX.
    assert (P := t_insert_perm lo OK t (h (v x)) x (fun x => h (v x)) H1). split; [|split].
    - eapply hashed_perm; [symmetry; exact P|]. intros y [<-|Hy]; auto.
    - intros B. eapply distinct_perm; [exact EQ|apply Permutation_map; symmetry; exact P|]. simpl.
      apply distinct_cons. split; [apply AB; auto|apply H2; auto].
    - intros y Hy. apply (Permutation_in _ P) in Hy as [<-|Hy]; auto.
  Qed.
  Lemma found_if_iff : forall t k p, (forall x, p x = e k (v x)) -> sound_if t ->
    ((exists a, t_get lo t (h k) p = Some a) <-> exists x, In x (t_values v t) /\ e k x = true).
  Proof.
    intros t k p HP (H1 & _). split.
    - intros [a Q]. unfold t_get, t_entry in Q. destruct (t_find lo t (h k) p) as [i|] eqn:F; [|discriminate].
      apply t_find_some in F as (h' & x & N & Q2). rewrite N in Q. inversion Q; subst a.
      exists (v x). rewrite <- HP. split; auto. apply in_map_iff. exists (h', x). split; auto. eapply nth_error_In; eauto.
    - intros (x & Hx & Q). apply in_map_iff in Hx as ((h', a) & <- & Ha). simpl in Q.
      assert (X := H1 _ Ha). simpl in X. rewrite <- (HH _ _ Q) in X. subst h'.
      unfold t_get, t_entry. destruct (t_find lo t (h k) p) as [i|] eqn:F.
      + apply t_find_some in F as (h' & x & N & _). rewrite N. eauto.
      + rewrite <- HP in Q. rewrite (t_find_none lo OK _ _ _ F _ Ha) in Q. discriminate.
  Qed.
End Half.

(* the set of left items of a right item *)
Section GroupSets.
  Context {L R S : Type} (E : env L R S) (OK : lawful E).
  Let LO := lo_ok _ OK.
  Lemma set_new_hashed : forall i, set_hashed E i (set_new i).
  Proof. intros i x []. Qed.
  Lemma set_clear_hashed : forall i l, set_hashed E i (t_clear (lo E) l).
  Proof. intros i l x []. Qed.
  Lemma set_insert_hashed : forall i t p, set_hashed E i t -> set_hashed E i (set_insert E i t p).
  Proof.
    intros i t p H. unfold set_insert, hs_insert. destruct (t_find _ _ _ _); auto.
    assert (P := t_insert_perm (lo E) LO t (hashP E i p) p (hashP E i) H).
    intros y Hy. apply (Permutation_in _ P) in Hy as [<-|Hy]; auto.
  Qed.
  Lemma set_remove_hashed : forall i t p, set_hashed E i t -> set_hashed E i (set_remove E i t p).
  Proof.
    intros i t p H. unfold set_remove, hs_remove. destruct (t_remove_entry _ _ _ _) as [[x t']|] eqn:Q; auto.
    apply remove_entry_at in Q as (k & h' & _ & _ & ->). intros y Hy. apply H. exact (remove_nth_In _ _ _ Hy).
  Qed.
  Lemma set_collect_hashed : forall i ps, set_hashed E i (set_collect E i ps).
  Proof.
    intros i ps. unfold set_collect. assert (X := set_new_hashed i). revert X. generalize (set_new i).
    induction ps as [|p ps IH]; simpl; intros t H; auto. apply IH, set_insert_hashed; auto.
  Qed.
  Lemma set_contains_inserted : forall i t p, set_hashed E i t -> set_contains E i (set_insert E i t p) p = true.
  Proof.
    intros i t p H. apply (set_contains_iff E OK); [apply set_insert_hashed; auto|].
    unfold set_insert, hs_insert. destruct (t_find _ _ _ _) as [k|] eqn:F.
    - apply t_find_some in F as (h & x & N & Q). apply pair_eqb_eq in Q. subst x.
      apply in_map_iff. exists (h, p). split; auto. eapply nth_error_In; eauto.
    - assert (P := t_insert_perm (lo E) LO t (hashP E i p) p (hashP E i) H).
      apply in_map_iff. exists (hashP E i p, p). split; auto.
      eapply Permutation_in; [symmetry; exact P|left; reflexivity].
  Qed.
  Definition group_hashed (x : right_item R) : Prop := set_hashed E (r_id x) (r_pairs x).
  Lemma gh_insert : forall p x, group_hashed x -> group_hashed (pairs_insert E p x).
  Proof. intros p x H. apply set_insert_hashed; auto. Qed.
  Lemma gh_remove : forall p x, group_hashed x -> group_hashed (pairs_remove E p x).
  Proof. intros p x H. apply set_remove_hashed; auto. Qed.
  Lemma gh_clear : forall t x, group_hashed x -> group_hashed (set_pairs (t_clear (lo E) t) x).
  Proof. intros t x H. apply set_clear_hashed. Qed.
End GroupSets.

(* a lawful Eq does not mind which of the two is the receiver *)
Lemma key_l : forall {L R S} (E : env L R S), lawful E -> forall k x,
  equivalent_key_left (eqL E) k x = eqL E k (l_value x).
Proof.
  intros L R S E OK k x. unfold equivalent_key_left. apply eq_true_iff_eq.
  split; apply (equiv_sym _ (eqL_equiv E OK)).
Qed.
Lemma key_r : forall {L R S} (E : env L R S), lawful E -> forall k x,
  equivalent_key_right (eqR E) k x = eqR E k (r_value x).
Proof.
  intros L R S E OK k x. unfold equivalent_key_right. apply eq_true_iff_eq.
  split; apply (equiv_sym _ (eqR_equiv E OK)).
Qed.

Section Any.
  Context {L R S : Type}.
  Variable E : env L R S.
  Hypothesis OK : lawful E.
  Notation map := (gmap L R S).
  Variable GL : L -> Prop.
  Variable GR : R -> Prop.
  Variable s : S.
  Variable b : bool.

  Let lok := lo_ok E OK.
  Let el := eqL_equiv E OK.
  Let er := eqR_equiv E OK.
  Notation soundL := (sound (@l_value L) (eqL E) (hashL E s) GL).
  Notation soundR := (sound_if (@r_value R) (eqR E) (hashR E s) GR (group_hashed E) b).
  Notation absL k m := (absent (@l_value L) (eqL E) k (left_set m)).
  Notation absR k m := (b = true -> absent (@r_value R) (eqR E) k (right_set m)).

  Definition Inv (m : map) : Prop :=
    hash_builder m = s /\ soundL (left_set m) /\ soundR (right_set m).
  Definition ab (ls : list L) (rs : list R) (m : map) : Prop :=
    Forall (fun k => absL k m) ls /\ Forall (fun k => absR k m) rs.
  Notation hoare := (hoare Inv).
  Notation keeps := (keeps Inv).

  Lemma ab_nil : forall m, ab [] [] m.
  Proof. split; constructor. Qed.
  Lemma h_start : forall {A} (c : M map A) Q, hoare (ab [] []) c (fun _ => Q) -> keeps c.
  Proof. intros. eapply h_keeps; [exact H|]. intros; apply ab_nil. Qed.
  Lemma hb : forall m, Inv m -> hash_builder m = s.
  Proof. intros m H. apply H. Qed.

  Ltac gh := solve [repeat (apply set_insert_hashed; [exact OK|]); apply set_new_hashed|apply set_collect_hashed; exact OK].
  (* ---- the table operations ---- *)
  Lemma l_remove_any : forall h p ls rs, hoare (ab ls rs) (left_remove_entry E h p) (fun _ => ab ls rs).
  Proof.
    intros h p ls rs m I1 A. pose proof I1 as (H1 & H2 & H3). pose proof A as [A1 A2]. unfold left_remove_entry, bind, getst.
    destruct (t_remove_entry _ _ _ _) as [[x t]|] eqn:Q; simpl; [|split; assumption].
    split; [split; [assumption|split; [|assumption]]; eapply sound_remove_entry; eauto|].
    split; auto. simpl. eapply Forall_impl; [|exact A1]. intros k Ak. simpl in Ak.
    eapply absent_remove_entry; eauto.
  Qed.
  Lemma r_remove_any : forall h p ls rs, hoare (ab ls rs) (right_remove_entry E h p) (fun _ => ab ls rs).
  Proof.
    intros h p ls rs m I1 A. pose proof I1 as (H1 & H2 & H3). pose proof A as [A1 A2]. unfold right_remove_entry, bind, getst.
    destruct (t_remove_entry _ _ _ _) as [[x t]|] eqn:Q; simpl; [|split; assumption].
    split; [split; [assumption|split; [assumption|]]; eapply sound_if_remove_entry; eauto|].
    split; auto. simpl. eapply Forall_impl; [|exact A2]. intros k Ak B. simpl in Ak.
    eapply absent_remove_entry; eauto.
  Qed.
  Lemma l_remove_key : forall k ls rs,
    hoare (ab ls rs) (left_remove_entry E (hashL E s k) (equivalent_key_left (eqL E) k)) (fun _ => ab (k :: ls) rs).
  Proof.
    intros k ls rs m I1 A. assert (K := l_remove_any (hashL E s k) (equivalent_key_left (eqL E) k) ls rs m I1 A).
    destruct I1 as (H1 & H2 & H3). revert K. unfold left_remove_entry, bind, getst.
    assert (X := remove_key _ lok _ _ el _ (hashL_ok E OK s) _ (left_set m) k (equivalent_key_left (eqL E) k)
                   (key_l E OK k) H2).
    destruct (t_remove_entry _ _ _ _) as [[x t]|]; simpl.
    - intros [I1 [A1 A2]]. split; auto. split; auto. constructor; auto. apply X.
    - intros [I1 [A1 A2]]. split; auto. split; auto.
  Qed.
  Lemma r_remove_key : forall k ls rs,
    hoare (ab ls rs) (right_remove_entry E (hashR E s k) (equivalent_key_right (eqR E) k)) (fun _ => ab ls (k :: rs)).
  Proof.
    intros k ls rs m I1 A. assert (K := r_remove_any (hashR E s k) (equivalent_key_right (eqR E) k) ls rs m I1 A).
    destruct I1 as (H1 & H2 & H3). revert K. unfold right_remove_entry, bind, getst.
    assert (X := fun B => remove_key _ lok _ _ er _ (hashR_ok E OK s) _ (right_set m) k (equivalent_key_right (eqR E) k)
                   (key_r E OK k) (sound_of _ _ _ _ _ _ _ H3 B)).
    destruct (t_remove_entry _ _ _ _) as [[x t]|]; simpl.
    - intros [I1 [A1 A2]]. split; auto. split; auto. constructor; auto. apply X.
    - intros [I1 [A1 A2]]. split; auto. split; auto.
  Qed.
  Lemma l_insert : forall k h i j ls rs, GL k ->
    hoare (ab (k :: ls) rs) (left_insert E (hashL E s k) (LI k h i j)) (fun _ => ab [] rs).
  Proof.
    intros k h i j ls rs GK m (H1 & H2 & H3) [A1 A2]. unfold left_insert, bind, getst, putst. simpl.
    split; [|split; auto]. split; [auto|]. split; auto. rewrite H1.
    apply (sound_insert _ lok (@l_value L) _ el (hashL E s) GL (left_set m) (LI k h i j)); auto.
    inversion A1; auto.
  Qed.
  Lemma r_insert : forall k ps i ls rs, GR k -> set_hashed E i ps ->
    hoare (ab ls (k :: rs)) (right_insert E (hashR E s k) (RI k ps i)) (fun _ => ab ls []).
  Proof.
    intros k ps i ls rs GK WK m (H1 & H2 & H3) [A1 A2]. unfold right_insert, bind, getst, putst. simpl.
    split; [|split; auto]. split; [auto|]. split; auto. rewrite H1.
    apply (sound_if_insert _ lok (@r_value R) _ er (hashR E s) GR (group_hashed E) b (right_set m) (RI k ps i)); auto.
    inversion A2; auto.
  Qed.
  Lemma l_assign : forall i f ls rs, (forall x, l_value (f x) = l_value x) ->
    hoare (ab ls rs) (left_assign i f) (fun _ => ab ls rs).
  Proof.
    intros i f ls rs F m I1 [A1 A2]. destruct I1 as (H1 & H2 & H3). unfold left_assign, bind, getst, putst. simpl.
    split; [split; [assumption|split; [apply sound_modify; auto|assumption]]|].
    split; auto. eapply Forall_impl; [|exact A1]. intros k Ak. simpl in *. apply absent_modify; auto.
  Qed.
  Lemma r_assign : forall i f ls rs, (forall x, r_value (f x) = r_value x) -> (forall x, group_hashed E x -> group_hashed E (f x)) ->
    hoare (ab ls rs) (right_assign i f) (fun _ => ab ls rs).
  Proof.
    intros i f ls rs F FW m I1 [A1 A2]. destruct I1 as (H1 & H2 & H3). unfold right_assign, bind, getst, putst. simpl.
    split; [split; [assumption|split; [assumption|apply sound_if_modify; auto]]|].
    split; auto. eapply Forall_impl; [|exact A2]. intros k Ak B. simpl in *. apply absent_modify; auto.
  Qed.
  Lemma t_get_mut_get : forall {A} (t : table A) h p,
    t_get (lo E) t h p = option_map snd (t_get_mut E t h p).
  Proof.
    intros. unfold t_get, t_get_mut. destruct (t_find _ _ _ _) as [i|]; auto. destruct (t_entry t i); auto.
  Qed.
  Lemma l_mut_none : forall m k, Inv m ->
    t_get_mut E (left_set m) (hashL E s k) (equivalent_key_left (eqL E) k) = None -> absL k m.
  Proof.
    intros m k (H1 & H2 & H3) Q.
    assert (X := get_key _ lok _ _ _ (hashL_ok E OK s) _ (left_set m) k (equivalent_key_left (eqL E) k) (key_l E OK k) H2).
    rewrite t_get_mut_get, Q in X. exact X.
  Qed.
  Lemma r_mut_none : forall m k, Inv m ->
    t_get_mut E (right_set m) (hashR E s k) (equivalent_key_right (eqR E) k) = None -> absR k m.
  Proof.
    intros m k (H1 & H2 & H3) Q B.
    assert (X := get_key _ lok _ _ _ (hashR_ok E OK s) _ (right_set m) k (equivalent_key_right (eqR E) k) (key_r E OK k)
                   (sound_of _ _ _ _ _ _ _ H3 B)).
    rewrite t_get_mut_get, Q in X. exact X.
  Qed.

  (* ---- the functions ---- *)
  Lemma incr_l_any : forall ls rs, hoare (ab ls rs) (incr_left E) (fun _ => ab ls rs).
  Proof.
    intros ls rs. unfold incr_left. apply h_getst. intros m Hm A. apply h_any. apply h_unwrap_then.
    intros c _ m' I1 A1. simpl. split; assumption.
  Qed.
  Lemma incr_r_any : forall ls rs, hoare (ab ls rs) (incr_right E) (fun _ => ab ls rs).
  Proof.
    intros ls rs. unfold incr_right. apply h_getst. intros m Hm A. apply h_any. apply h_unwrap_then.
    intros c _ m' I1 A1. simpl. split; assumption.
  Qed.
  Lemma remove_left_any : forall k ls rs, hoare (ab ls rs) (remove_left E k) (fun _ => ab (k :: ls) rs).
  Proof.
    intros k ls rs. unfold remove_left. apply h_getst. intros m Hm _. rewrite (hb _ Hm). apply h_any.
    eapply h_then; [apply l_remove_key|]. intros [lp|]; [|apply h_retx; auto].
    apply h_getst. intros m1 Hm1 _. apply h_any. apply h_unwrap_then. intros p _.
    eapply h_then; [apply r_assign; [reflexivity|solve [apply gh_insert, OK|apply gh_remove|apply gh_clear]]|]. intros _. apply h_retx; auto.
  Qed.
  Lemma remove_pairs_any : forall ps ls rs, hoare (ab ls rs) (remove_pairs E ps) (fun _ => ab ls rs).
  Proof.
    induction ps as [|[h i] ps IH]; intros ls rs; simpl; [apply h_retx; auto|].
    eapply h_then; [apply l_remove_any|]. intros o. apply h_unwrap_then. intros x _.
    eapply h_then; [apply IH|]. intros rest. apply h_retx; auto.
  Qed.
  Lemma remove_right_any : forall k ls rs, hoare (ab ls rs) (remove_right E k) (fun _ => ab ls (k :: rs)).
  Proof.
    intros k ls rs. unfold remove_right. apply h_getst. intros m Hm _. rewrite (hb _ Hm). apply h_any.
    eapply h_then; [apply r_remove_key|]. intros [rp|]; [|apply h_retx; auto].
    eapply h_then; [apply remove_pairs_any|]. intros ls'. apply h_retx; auto.
  Qed.
  Lemma remove_id_any : forall h i ls rs, hoare (ab ls rs) (remove_via_hash_and_id E h i) (fun _ => ab ls rs).
  Proof.
    intros h i ls rs. unfold remove_via_hash_and_id.
    eapply h_then; [apply r_remove_any|]. intros [rp|]; [|apply h_retx; auto].
    eapply h_then; [apply remove_pairs_any|]. intros ls'. apply h_retx; auto.
  Qed.
  Lemma remove_any : forall l r, hoare (ab [] []) (remove E l r) (fun _ => ab [] []).
  Proof.
    intros l r. unfold remove. apply h_getst. intros m Hm _. destruct (are_paired E m l r).
    - apply h_any. eapply h_weaken; [apply (remove_right_any _ [] [])|auto|]. intros; apply ab_nil.
    - apply h_retx. tauto.
  Qed.
  Lemma ab_weak : forall ls rs ls' rs' m, incl ls' ls -> incl rs' rs -> ab ls rs m -> ab ls' rs' m.
  Proof.
    intros ls rs ls' rs' m I1 I2 [A1 A2]. rewrite Forall_forall in A1, A2. split; apply Forall_forall; auto.
  Qed.
  Lemma h_less : forall {A} (c : M map A) ls rs ls' rs' Q, incl ls' ls -> incl rs' rs ->
    hoare (ab ls' rs') c Q -> hoare (ab ls rs) c Q.
  Proof. intros. eapply h_weaken; [exact H1| |auto]. intros m _. apply ab_weak; auto. Qed.
  (* drop what the current state says, remember only [ab] *)
  Lemma h_at : forall {A} (c : M map A) m ls rs (P : map -> Prop) Q, ab ls rs m ->
    hoare (ab ls rs) c Q -> hoare (fun m' => m' = m /\ P m') c Q.
  Proof. intros. eapply h_weaken; [exact H0| |auto]. intros m' _ [-> _]. auto. Qed.
  Lemma insert_any : forall l r, GL l -> GR r -> hoare (ab [] []) (insert E l r) (fun _ => ab [] []).
  Proof.
    intros l r Gl Gr. unfold insert. apply h_getst. intros m Hm _. rewrite (hb _ Hm).
    destruct (t_get_mut E (left_set m) _ _) as [[i lp]|] eqn:QL; destruct (t_get_mut E (right_set m) _ _) as [[j rp]|] eqn:QR.
    - apply h_any. eapply h_then; [apply r_assign; [reflexivity|solve [apply gh_insert, OK|apply gh_remove|apply gh_clear]]|]. intros _.
      apply h_getst. intros m1 Hm1 _. apply h_any. apply h_unwrap_then. intros p _.
      eapply h_then; [apply r_assign; [reflexivity|solve [apply gh_insert, OK|apply gh_remove|apply gh_clear]]|]. intros _.
      eapply h_then; [apply l_assign; reflexivity|]. intros _. apply l_assign; reflexivity.
    - pose proof (r_mut_none _ _ Hm QR) as AR. apply (h_at _ m [] [r]); [split; auto|].
      apply h_unwrap_then. intros p _.
      eapply h_then; [apply l_assign; reflexivity|]. intros _.
      eapply h_then; [apply l_assign; reflexivity|]. intros _.
      eapply h_then; [apply r_assign; [reflexivity|solve [apply gh_insert, OK|apply gh_remove|apply gh_clear]]|]. intros _.
      eapply h_then; [apply r_insert; auto; gh|]. intros _. apply incr_r_any.
    - pose proof (l_mut_none _ _ Hm QL) as AL. apply (h_at _ m [l] []); [split; auto|].
      eapply h_then; [apply r_assign; [reflexivity|solve [apply gh_insert, OK|apply gh_remove|apply gh_clear]]|]. intros _.
      eapply h_then; [apply l_insert; auto|]. intros _. apply incr_l_any.
    - pose proof (l_mut_none _ _ Hm QL) as AL. pose proof (r_mut_none _ _ Hm QR) as AR. apply (h_at _ m [l] [r]); [split; auto|].
      eapply h_then; [apply l_insert; auto|]. intros _.
      eapply h_then; [apply r_insert; auto; gh|]. intros _.
      eapply h_then; [apply incr_l_any|]. intros _. apply incr_r_any.
  Qed.
  Lemma insert_remove_any : forall l r, GL l -> GR r -> hoare (ab [] []) (insert_remove E l r) (fun _ => ab [] []).
  Proof.
    intros l r Gl Gr. unfold insert_remove.
    eapply h_then; [apply remove_left_any|]. intros o1.
    eapply h_then; [apply remove_right_any|]. intros o2.
    apply h_getst. intros m Hm _. rewrite (hb _ Hm). apply h_any.
    eapply h_then; [apply incr_l_any|]. intros _.
    eapply h_then; [apply incr_r_any|]. intros _.
    eapply h_then; [apply l_insert; auto|]. intros _.
    eapply h_then; [apply r_insert; auto; gh|]. intros _. apply h_retx; auto.
  Qed.
  Lemma insert_left_any : forall l r, GL l -> hoare (ab [] []) (insert_left E l r) (fun _ => ab [] []).
  Proof.
    intros l r Gl. unfold insert_left. apply h_getst. intros m Hm _. rewrite (hb _ Hm).
    destruct (t_get_mut E (right_set m) _ _) as [[j rp]|]; [|apply h_retx; tauto]. apply h_any.
    eapply h_then; [apply r_assign; [reflexivity|solve [apply gh_insert, OK|apply gh_remove|apply gh_clear]]|]. intros _.
    eapply h_then; [apply remove_left_any|]. intros o1.
    eapply h_then; [apply incr_l_any|]. intros _.
    eapply h_then; [apply l_insert; auto|]. intros _. apply h_retx; auto.
  Qed.
  Lemma insert_right_any : forall r, GR r -> hoare (ab [] []) (insert_right E r) (fun _ => ab [] []).
  Proof.
    intros r Gr. unfold insert_right.
    eapply h_then; [apply remove_right_any|]. intros o1.
    apply h_getst. intros m Hm _. rewrite (hb _ Hm). apply h_any.
    eapply h_then; [apply incr_r_any|]. intros _.
    eapply h_then; [apply r_insert; auto; gh|]. intros _. apply h_retx; auto.
  Qed.
  Lemma rehash_any : forall nh ps ls rs, hoare (ab ls rs) (rehash_pairs E nh ps) (fun _ => ab ls rs).
  Proof.
    induction ps as [|[h i] ps IH]; intros ls rs; simpl; [apply h_retx; auto|].
    apply h_getst. intros m Hm _. apply h_any. apply h_unwrap_then. intros p _.
    eapply h_then; [apply l_assign; reflexivity|]. intros _. apply IH.
  Qed.
  Lemma not_contained : forall m r, Inv m -> contains_right E m r = false -> absR r m.
  Proof.
    intros m r I1 C. apply r_mut_none; auto. unfold contains_right, find_right in C.
    rewrite (hb _ I1), t_get_mut_get in C. destruct (t_get_mut _ _ _ _); [discriminate|reflexivity].
  Qed.
  Lemma contained : forall m r x, Inv m ->
    t_get_mut E (right_set m) (hashR E s r) (equivalent_key_right (eqR E) r) = Some x -> contains_right E m r = true.
  Proof.
    intros m r x I1 Q. unfold contains_right, find_right. rewrite (hb _ I1), t_get_mut_get, Q. reflexivity.
  Qed.
  Lemma swap_right_any : forall old new m, GR new -> (b = true -> fresh_swap E m (SwapRight old new)) ->
    Inv m -> Inv (res_state (swap_right E old new m)).
  Proof.
    intros old new m Gn FR I1.
    assert (H : hoare (fun m' => m' = m /\ any m') (swap_right E old new) (fun _ => any)).
    { intros m' I2 [-> _]. revert I1. clear I2. intros I1. unfold swap_right. unfold bind at 1. unfold getst.
      rewrite (hb _ I1). destruct (t_get_mut E (right_set m) _ _) as [[j rp]|] eqn:Q.
      - assert (A : ab [] [new] m).
        { split; auto. constructor; auto. intros B. apply not_contained; auto. apply FR; auto.
          eapply contained; eauto. }
        assert (X : hoare (ab [] [new]) (
          right_assign j (set_pairs (t_clear (lo E) (r_pairs rp))) ;;;
          right_insert E (hashR E s new) (RI new (set_collect E (right_counter m) (hs_elems (r_pairs rp))) (right_counter m)) ;;;
          incr_right E ;;;
          rehash_pairs E (hashR E s new) (hs_elems (set_collect E (right_counter m) (hs_elems (r_pairs rp))))) (fun _ => any)).
        { eapply h_then; [apply r_assign; [reflexivity|solve [apply gh_insert, OK|apply gh_remove|apply gh_clear]]|]. intros _.
          eapply h_then; [apply r_insert; auto; gh|]. intros _.
          eapply h_then; [apply incr_r_any|]. intros _. eapply h_weaken; [apply (rehash_any _ _ [] [])|auto|unfold any; auto]. }
        exact (X m I1 A).
      - assert (X : hoare (ab [] []) (insert_right E new ;;; ret tt) (fun _ => any)).
        { eapply h_then; [apply insert_right_any; auto|]. intros _. apply h_retx. unfold any; auto. }
        apply (X m I1 (ab_nil m)). }
    specialize (H m I1 (conj eq_refl I)). destruct (swap_right E old new m); simpl; tauto.
  Qed.
  Lemma swap_right_remove_any : forall old new m, GR new -> (b = true -> fresh_swap E m (SwapRightRemove old new)) ->
    Inv m -> Inv (res_state (swap_right_remove E old new m)).
  Proof.
    intros old new m Gn FR I1. unfold swap_right_remove. unfold bind at 1. unfold getst. rewrite (hb _ I1).
    assert (K := r_remove_key old [] [] m I1 (ab_nil m)).
    assert (N : b = true -> contains_right E m new = false ->
                match right_remove_entry E (hashR E s old) (equivalent_key_right (eqR E) old) m with
                | Ret m' _ => ab [] [new] m' | Panic _ => True end).
    { intros B C. assert (X := r_remove_any (hashR E s old) (equivalent_key_right (eqR E) old) [] [new] m I1).
      destruct (right_remove_entry _ _ _ _); auto. apply X. split; auto. constructor; auto.
      apply not_contained; auto. }
    assert (C : forall m' x, right_remove_entry E (hashR E s old) (equivalent_key_right (eqR E) old) m = Ret m' (Some x) ->
                contains_right E m old = true).
    { intros m' x Q. unfold right_remove_entry, bind, getst, t_remove_entry in Q.
      unfold contains_right, find_right. rewrite (hb _ I1). unfold t_get.
      destruct (t_find _ _ _ _) as [i|]; [|discriminate]. destruct (t_entry _ _); [reflexivity|discriminate]. }
    unfold bind at 1. destruct (right_remove_entry E _ _ m) as [m1 [rp|]|m1] eqn:Q1; [| |auto].
    - destruct K as [I2 [_ A2]]. inversion A2 as [|? ? A3 _]; subst. specialize (C _ _ eq_refl).
      assert (A : ab [] [new] m1).
      { split; auto. constructor; auto. intros B. destruct (FR B C) as [F|F].
        - destruct (N B F) as [_ Y]. inversion Y; auto.
        - intros x Hx. rewrite (eqb_replace_l _ er new old); [apply A3; auto|]. apply (equiv_sym _ er). exact F. }
      assert (X : hoare (ab [] [new]) (
          right_insert E (hashR E s new) (RI new (set_collect E (right_counter m) (hs_elems (r_pairs rp))) (right_counter m)) ;;;
           incr_right E ;;;
           rehash_pairs E (hashR E s new) (hs_elems (set_collect E (right_counter m) (hs_elems (r_pairs rp)))) ;;;
           ret (Some (r_value rp))) (fun _ => any)).
      { eapply h_then; [apply r_insert; auto; gh|]. intros _.
        eapply h_then; [apply incr_r_any|]. intros _.
        eapply h_then; [apply rehash_any|]. intros _. apply h_retx. unfold any; auto. }
      specialize (X m1 I2 A).
      match goal with |- Inv (res_state ?y) => change (match y with Ret s' a => Inv s' /\ any s' | Panic s' => Inv s' end) in X;
        destruct y; simpl; tauto end.
    - destruct K as [I2 _].
      assert (X : hoare (ab [] []) (insert_right E new ;;; ret (@None R)) (fun _ => any)).
      { eapply h_then; [apply insert_right_any; auto|]. intros _. apply h_retx. unfold any; auto. }
      specialize (X m1 I2 (ab_nil m1)).
      match goal with |- Inv (res_state ?y) => change (match y with Ret s' a => Inv s' /\ any s' | Panic s' => Inv s' end) in X;
        destruct y; simpl; tauto end.
  Qed.
  Lemma pair_any : forall l r, hoare (ab [] []) (pair E l r) (fun _ => ab [] []).
  Proof.
    intros l r. unfold pair. apply h_getst. intros m Hm _.
    destruct (t_get_mut E (left_set m) _ _) as [[i lp]|]; [|apply h_retx; tauto].
    destruct (find_right E m r) as [rp|]; [|apply h_retx; tauto]. apply h_any.
    eapply h_then; [apply l_assign; reflexivity|]. intros _.
    eapply h_then; [apply l_assign; reflexivity|]. intros _.
    apply h_getst. intros m1 Hm1 _. apply h_any. apply h_unwrap_then. intros p _.
    eapply h_then; [apply r_assign; [reflexivity|solve [apply gh_insert, OK|apply gh_remove|apply gh_clear]]|]. intros _.
    apply h_getst. intros m2 Hm2 _. apply h_any. apply h_unwrap_then. intros p' _.
    eapply h_then; [apply r_assign; [reflexivity|solve [apply gh_insert, OK|apply gh_remove|apply gh_clear]]|]. intros _. apply h_retx; auto.
  Qed.
  Lemma extend_pairs_any : forall xs, Forall GL (List.map fst xs) -> Forall GR (List.map snd xs) ->
    hoare (ab [] []) (extend_pairs E xs) (fun _ => ab [] []).
  Proof.
    induction xs as [|[x y] xs IH]; simpl; intros F1 F2; [apply h_retx; auto|].
    inversion F1; inversion F2; subst. eapply h_then; [apply insert_any; auto|]. auto.
  Qed.
  Lemma extend_any : forall xs, Forall GL (flat_map some_l xs) -> Forall GR (List.map snd xs) ->
    hoare (ab [] []) (extend E xs) (fun _ => ab [] []).
  Proof.
    induction xs as [|[[x|] y] xs IH]; simpl; intros F1 F2; [apply h_retx; auto| |].
    - inversion F1; inversion F2; subst. eapply h_then; [apply insert_any; auto|]. auto.
    - inversion F2; subst. eapply h_then; [apply insert_right_any; auto|]. auto.
  Qed.
  Lemma drop_lefts_any : forall xs, hoare (ab [] []) (drop_lefts E xs) (fun _ => ab [] []).
  Proof.
    induction xs as [|[h i] xs IH]; simpl; [apply h_retx; auto|].
    eapply h_then; [apply l_remove_any|]. intros _. exact IH.
  Qed.
  Lemma drop_rights_any : forall xs, hoare (ab [] []) (drop_rights E xs) (fun _ => ab [] []).
  Proof.
    induction xs as [|[h i] xs IH]; simpl; [apply h_retx; auto|].
    eapply h_then; [apply remove_id_any|]. intros _. exact IH.
  Qed.
  Lemma retain_with_any : forall {X A J} (f : X -> A -> X * verdict) (next : J -> outcome (option A * J)) key
      (dall : list (N * N) -> M map unit) fuel it m x,
    (forall xs, hoare (ab [] []) (dall xs) (fun _ => ab [] [])) -> Inv m ->
    match retain_with f next key dall fuel it (m, x) with Ret mx _ | Panic mx => Inv (fst mx) end.
  Proof.
    intros X A J f next key dall fuel it m x H I1. unfold retain_with.
    destruct (retain_scan _ _ _ _ _ _) as [x' l|x']; auto.
    assert (D := H l m I1 (ab_nil m)). destruct (dall l m); simpl; tauto.
  Qed.
  Lemma clear_any : keeps (clear E).
  Proof. intros m (H1 & H2 & H3) _. split; [|exact I]. split; [assumption|]. split; [apply sound_nil|apply sound_if_nil]. Qed.

  Lemma via_any : forall {A} (k : A -> out L R) (c : M map A) m, keeps c -> Inv m -> Inv (fst (via k (c m))).
  Proof. intros A k c m H I1. specialize (H m I1 I). destruct (c m); simpl; tauto. Qed.
  Lemma via_state : forall {A} (k : A -> out L R) (x : res map A), fst (via k x) = res_state x.
  Proof. intros A k [m a|m]; reflexivity. Qed.
  Lemma seen_any : forall {A} (k : A -> out L R) m o, Inv m -> Inv (fst (seen (A:=A) m k o)).
  Proof. intros A k m [a|] I1; auto. Qed.

  Lemma step_any : forall o m, Forall GL (given_l o) -> Forall GR (given_r o) ->
    (b = true -> fresh_swap E m o) -> Inv m -> Inv (fst (step E m o)).
  Proof.
    intros o m FL FR FS I1. destruct o; simpl in FL, FR; cbn [step]; auto;
        try (apply seen_any; assumption);
        repeat match goal with
               | H : Forall _ [_] |- _ => inversion H; clear H; subst
               | H : Forall _ [] |- _ => clear H
               end.
    - apply via_any; auto. eapply h_start. apply insert_any; auto.
    - apply via_any; auto. eapply h_start. apply insert_remove_any; auto.
    - apply via_any; auto. eapply h_start. apply insert_left_any; auto.
    - apply via_any; auto. eapply h_start. apply insert_right_any; auto.
    - rewrite via_state. apply swap_right_any; auto.
    - rewrite via_state. apply swap_right_remove_any; auto.
    - apply via_any; auto. eapply h_start. apply pair_any; auto.
    - apply via_any; auto. eapply h_start. apply remove_any; auto.
    - apply via_any; auto. eapply h_start. apply remove_left_any; auto.
    - apply via_any; auto. eapply h_start. apply remove_right_any; auto.
    - destruct (get_left_iter E m r); auto. apply seen_any; assumption.
    - assert (X1 := retain_with_any f (paired_next E m) (retain_paired_key E m) (drop_lefts E)
                      (length (iter_paired m)) (iter_paired m) m x drop_lefts_any I1).
      unfold retain_paired. cbn [fst]. revert X1. destruct (retain_with _ _ _ _ _ _ _); auto.
    - assert (X1 := retain_with_any f unpaired_next (retain_unpaired_key E m) (drop_rights E)
                      (length (iter_unpaired m)) (iter_unpaired m) m x drop_rights_any I1).
      unfold retain_unpaired. cbn [fst]. revert X1. destruct (retain_with _ _ _ _ _ _ _); auto.
    - apply via_any; auto. eapply h_start. apply extend_pairs_any; auto.
    - apply via_any; auto. eapply h_start. apply extend_any; auto.
    - apply via_any; auto. apply clear_any.
  Qed.
End Any.

(* what is surely there afterwards *)
Section Has.
  Context {L R S : Type}.
  Variable E : env L R S.
  Hypothesis OK : lawful E.
  Notation map := (gmap L R S).
  Variable s : S.
  Let lok := lo_ok E OK.
  Definition HInv (m : map) : Prop :=
    hash_builder m = s /\ hashed (fun x => hashL E s (l_value x)) (slots (left_set m)) /\
    hashed (fun x => hashR E s (r_value x)) (slots (right_set m)).
  Definition hs (ls : list L) (rs : list R) (m : map) : Prop :=
    Forall (fun k => exists x, In x (t_values (@l_value L) (left_set m)) /\ eqL E k x = true) ls /\
    Forall (fun k => exists x, In x (t_values (@r_value R) (right_set m)) /\ eqR E k x = true) rs.
  Notation hoare := (hoare HInv).

  Lemma hs_nil : forall m, hs [] [] m.
  Proof. split; constructor. Qed.
  Lemma update_hashed : forall {A} (f : A -> A) (h : A -> N) (l : list (N * A)) i, (forall x, h (f x) = h x) ->
    hashed h l -> hashed h (update_nth i (fun x => (fst x, f (snd x))) l).
  Proof.
    induction l as [|a l IH]; intros [|i] F H; simpl; auto.
    - intros x [<-|Hx]; simpl; [rewrite F; apply H; left; auto|apply H; right; auto].
    - intros x [<-|Hx]; [apply H; left; auto|]. eapply IH; eauto. intros y Hy. apply H; right; auto.
  Qed.
  Lemma hs_l_assign : forall i f ls rs, (forall x, l_value (f x) = l_value x) ->
    hoare (hs ls rs) (left_assign i f) (fun _ => hs ls rs).
  Proof.
    intros i f ls rs F m (H1 & H2 & H3) [A1 A2]. unfold left_assign, bind, getst, putst. simpl.
    split; [split; [assumption|split; [|assumption]]|].
    - simpl. apply update_hashed; auto. intros x. rewrite F; auto.
    - split; [|assumption]. cbn [left_set set_left]. rewrite t_values_modify; auto.
  Qed.
  Lemma hs_r_assign : forall i f ls rs, (forall x, r_value (f x) = r_value x) ->
    hoare (hs ls rs) (right_assign i f) (fun _ => hs ls rs).
  Proof.
    intros i f ls rs F m (H1 & H2 & H3) [A1 A2]. unfold right_assign, bind, getst, putst. simpl.
    split; [split; [assumption|split; [assumption|]]|].
    - simpl. apply update_hashed; auto. intros x. rewrite F; auto.
    - split; [assumption|]. cbn [right_set set_right]. rewrite t_values_modify; auto.
  Qed.
  Lemma hs_l_insert : forall k h i j ls rs,
    hoare (hs ls rs) (left_insert E (hashL E s k) (LI k h i j)) (fun _ => hs (k :: ls) rs).
  Proof.
    intros k h i j ls rs m (H1 & H2 & H3) [A1 A2]. unfold left_insert, bind, getst, putst. rewrite H1.
    assert (P := t_insert_perm (lo E) lok (left_set m) (hashL E s k) (LI k h i j) (make_hasher_l E s) H2).
    split; [split; [assumption|split; [|assumption]]|].
    - simpl. eapply hashed_perm; [symmetry; exact P|]. intros y [<-|Hy]; auto.
    - split; [|assumption]. cbn [left_set set_left].
      assert (Z : forall x, x = k \/ In x (t_values (@l_value L) (left_set m)) ->
        In x (t_values (@l_value L) (t_insert (lo E) (left_set m) (hashL E s k) (LI k h i j) (make_hasher_l E s)))).
      { intros x Hx. unfold t_values. eapply Permutation_in; [apply Permutation_map; symmetry; exact P|].
        destruct Hx as [->|Hx]; [left; reflexivity|right; exact Hx]. }
      constructor; [exists k; split; [auto|apply (equiv_refl _ (eqL_equiv E OK))]|].
      eapply Forall_impl; [|exact A1]. intros a (x & Hx & Q). exists x. auto.
  Qed.
  Lemma hs_r_insert : forall k ps i ls rs,
    hoare (hs ls rs) (right_insert E (hashR E s k) (RI k ps i)) (fun _ => hs ls (k :: rs)).
  Proof.
    intros k ps i ls rs m (H1 & H2 & H3) [A1 A2]. unfold right_insert, bind, getst, putst. rewrite H1.
    assert (P := t_insert_perm (lo E) lok (right_set m) (hashR E s k) (RI k ps i) (make_hasher_r E s) H3).
    split; [split; [assumption|split; [assumption|]]|].
    - simpl. eapply hashed_perm; [symmetry; exact P|]. intros y [<-|Hy]; auto.
    - split; [assumption|]. cbn [right_set set_right].
      assert (Z : forall x, x = k \/ In x (t_values (@r_value R) (right_set m)) ->
        In x (t_values (@r_value R) (t_insert (lo E) (right_set m) (hashR E s k) (RI k ps i) (make_hasher_r E s)))).
      { intros x Hx. unfold t_values. eapply Permutation_in; [apply Permutation_map; symmetry; exact P|].
        destruct Hx as [->|Hx]; [left; reflexivity|right; exact Hx]. }
      constructor; [exists k; split; [auto|apply (equiv_refl _ (eqR_equiv E OK))]|].
      eapply Forall_impl; [|exact A2]. intros a (x & Hx & Q). exists x. auto.
  Qed.
  Lemma hs_incr_l : forall ls rs, hoare (hs ls rs) (incr_left E) (fun _ => hs ls rs).
  Proof.
    intros ls rs. unfold incr_left. apply h_getst. intros m Hm A. apply h_any. apply h_unwrap_then.
    intros c _ m' I1 A1. simpl. split; assumption.
  Qed.
  Lemma hs_incr_r : forall ls rs, hoare (hs ls rs) (incr_right E) (fun _ => hs ls rs).
  Proof.
    intros ls rs. unfold incr_right. apply h_getst. intros m Hm A. apply h_any. apply h_unwrap_then.
    intros c _ m' I1 A1. simpl. split; assumption.
  Qed.
  (* removals on the left leave the right side as it is *)
  Lemma hs_l_remove : forall h p rs, hoare (hs [] rs) (left_remove_entry E h p) (fun _ => hs [] rs).
  Proof.
    intros h p rs m I1 A. pose proof I1 as (H1 & H2 & H3). pose proof A as [A1 A2]. unfold left_remove_entry, bind, getst.
    destruct (t_remove_entry _ _ _ _) as [[x t]|] eqn:Q; simpl; [|split; assumption].
    split; [split; [assumption|split; [|assumption]]|split; [constructor|assumption]].
    apply remove_entry_at in Q as (i & h' & _ & _ & ->). intros y Hy. apply H2. exact (remove_nth_In _ _ _ Hy).
  Qed.
  Lemma hs_r_remove : forall h p ls, hoare (hs ls []) (right_remove_entry E h p) (fun _ => hs ls []).
  Proof.
    intros h p ls m I1 A. pose proof I1 as (H1 & H2 & H3). pose proof A as [A1 A2]. unfold right_remove_entry, bind, getst.
    destruct (t_remove_entry _ _ _ _) as [[x t]|] eqn:Q; simpl; [|split; assumption].
    split; [split; [assumption|split; [assumption|]]|split; [assumption|constructor]].
    apply remove_entry_at in Q as (i & h' & _ & _ & ->). intros y Hy. apply H3. exact (remove_nth_In _ _ _ Hy).
  Qed.
  Lemma hs_remove_left : forall k rs, hoare (hs [] rs) (remove_left E k) (fun _ => hs [] rs).
  Proof.
    intros k rs. unfold remove_left. apply h_getst. intros m Hm _. apply h_any.
    eapply h_then; [apply hs_l_remove|]. intros [lp|]; [|apply h_retx; auto].
    apply h_getst. intros m1 Hm1 _. apply h_any. apply h_unwrap_then. intros p _.
    eapply h_then; [apply hs_r_assign; reflexivity|]. intros _. apply h_retx; auto.
  Qed.
  Lemma hs_remove_pairs : forall ps rs, hoare (hs [] rs) (remove_pairs E ps) (fun _ => hs [] rs).
  Proof.
    induction ps as [|[h i] ps IH]; intros rs; simpl; [apply h_retx; auto|].
    eapply h_then; [apply hs_l_remove|]. intros o. apply h_unwrap_then. intros x _.
    eapply h_then; [apply IH|]. intros rest. apply h_retx; auto.
  Qed.
  Lemma hs_remove_right : forall k, hoare (hs [] []) (remove_right E k) (fun _ => hs [] []).
  Proof.
    intros k. unfold remove_right. apply h_getst. intros m Hm _. apply h_any.
    eapply h_then; [apply hs_r_remove|]. intros [rp|]; [|apply h_retx; auto].
    eapply h_then; [apply hs_remove_pairs|]. intros ls'. apply h_retx; auto.
  Qed.
  Lemma hs_l_found : forall (m : map) k x, t_get_mut E (left_set m) (hashL E s k) (equivalent_key_left (eqL E) k) = Some x ->
    exists y, In y (t_values (@l_value L) (left_set m)) /\ eqL E k y = true.
  Proof.
    intros m k x Q. unfold t_get_mut in Q. destruct (t_find _ _ _ _) as [i|] eqn:F; [|discriminate].
    apply t_find_some in F as (h & a & N & P). exists (l_value a). split; [|rewrite <- (key_l E OK); exact P].
    apply in_map_iff. exists (h, a). split; auto. eapply nth_error_In; eauto.
  Qed.
  Lemma hs_r_found : forall (m : map) k x, t_get_mut E (right_set m) (hashR E s k) (equivalent_key_right (eqR E) k) = Some x ->
    exists y, In y (t_values (@r_value R) (right_set m)) /\ eqR E k y = true.
  Proof.
    intros m k x Q. unfold t_get_mut in Q. destruct (t_find _ _ _ _) as [i|] eqn:F; [|discriminate].
    apply t_find_some in F as (h & a & N & P). exists (r_value a). split; [|rewrite <- (key_r E OK); exact P].
    apply in_map_iff. exists (h, a). split; auto. eapply nth_error_In; eauto.
  Qed.
  Lemma hs_at : forall {A} (c : M map A) m ls rs (P : map -> Prop) Q, hs ls rs m ->
    hoare (hs ls rs) c Q -> hoare (fun m' => m' = m /\ P m') c Q.
  Proof. intros. eapply h_weaken; [exact H0| |auto]. intros m' _ [-> _]. auto. Qed.
  Lemma hs_insert_lr : forall l r, hoare (hs [] []) (insert E l r) (fun _ => hs [l] [r]).
  Proof.
    intros l r. unfold insert. apply h_getst. intros m Hm _. rewrite (proj1 Hm).
    destruct (t_get_mut E (left_set m) _ _) as [[i lp]|] eqn:QL; destruct (t_get_mut E (right_set m) _ _) as [[j rp]|] eqn:QR.
    - pose proof (hs_l_found _ _ _ QL) as FL. pose proof (hs_r_found _ _ _ QR) as FR.
      apply (hs_at _ m [l] [r]); [split; auto|].
      eapply h_then; [apply hs_r_assign; reflexivity|]. intros _.
      apply h_getst. intros m1 Hm1 _. apply h_any. apply h_unwrap_then. intros p _.
      eapply h_then; [apply hs_r_assign; reflexivity|]. intros _.
      eapply h_then; [apply hs_l_assign; reflexivity|]. intros _. apply hs_l_assign; reflexivity.
    - pose proof (hs_l_found _ _ _ QL) as FL. apply (hs_at _ m [l] []); [split; auto|].
      apply h_unwrap_then. intros p _.
      eapply h_then; [apply hs_l_assign; reflexivity|]. intros _.
      eapply h_then; [apply hs_l_assign; reflexivity|]. intros _.
      eapply h_then; [apply hs_r_assign; reflexivity|]. intros _.
      eapply h_then; [apply hs_r_insert|]. intros _. apply hs_incr_r.
    - pose proof (hs_r_found _ _ _ QR) as FR. apply (hs_at _ m [] [r]); [split; auto|].
      eapply h_then; [apply hs_r_assign; reflexivity|]. intros _.
      eapply h_then; [apply hs_l_insert|]. intros _. apply hs_incr_l.
    - apply h_any.
      eapply h_then; [apply hs_l_insert|]. intros _.
      eapply h_then; [apply hs_r_insert|]. intros _.
      eapply h_then; [apply hs_incr_l|]. intros _. apply hs_incr_r.
  Qed.
  Lemma hs_insert_remove : forall l r, hoare (hs [] []) (insert_remove E l r) (fun _ => hs [l] [r]).
  Proof.
    intros l r. unfold insert_remove.
    eapply h_then; [apply hs_remove_left|]. intros o1.
    eapply h_then; [apply hs_remove_right|]. intros o2.
    apply h_getst. intros m Hm _. rewrite (proj1 Hm). apply h_any.
    eapply h_then; [apply hs_incr_l|]. intros _.
    eapply h_then; [apply hs_incr_r|]. intros _.
    eapply h_then; [apply hs_l_insert|]. intros _.
    eapply h_then; [apply hs_r_insert|]. intros _. apply h_retx; auto.
  Qed.
  Lemma hs_insert_left : forall l r, hoare (hs [] [r]) (insert_left E l r) (fun _ => hs [l] [r]).
  Proof.
    intros l r. unfold insert_left. apply h_getst. intros m Hm [_ A]. rewrite (proj1 Hm).
    destruct (t_get_mut E (right_set m) _ _) as [[j rp]|] eqn:Q.
    - apply h_any. eapply h_then; [apply hs_r_assign; reflexivity|]. intros _.
      eapply h_then; [apply hs_remove_left|]. intros o1.
      eapply h_then; [apply hs_incr_l|]. intros _.
      eapply h_then; [apply hs_l_insert|]. intros _. apply h_retx; auto.
    - exfalso. inversion A as [|? ? (x & Hx & QX) _]; subst.
      apply in_map_iff in Hx as ((h', a) & <- & Ha). simpl in QX. destruct Hm as (_ & _ & H3).
      assert (Y := H3 _ Ha). simpl in Y. rewrite <- (hashR_ok E OK s _ _ QX) in Y. subst h'.
      unfold t_get_mut in Q. destruct (t_find _ _ _ _) as [i|] eqn:F.
      + apply t_find_some in F as (h' & y & N & _). unfold t_entry in Q. rewrite N in Q. discriminate.
      + assert (Z := t_find_none (lo E) lok _ _ _ F _ Ha). rewrite (key_r E OK) in Z. simpl in Z. congruence.
  Qed.
  Lemma hs_insert_right : forall r, hoare (hs [] []) (insert_right E r) (fun _ => hs [] [r]).
  Proof.
    intros r. unfold insert_right.
    eapply h_then; [apply hs_remove_right|]. intros o1.
    apply h_getst. intros m Hm _. rewrite (proj1 Hm). apply h_any.
    eapply h_then; [apply hs_incr_r|]. intros _.
    eapply h_then; [apply hs_r_insert|]. intros _. apply h_retx; auto.
  Qed.
End Has.

Section AnyProps.
  Context {L R S : Type}.
  Variable E : env L R S.
  Hypothesis OK : lawful E.
  Notation map := (gmap L R S).
  Notation "a =L b" := (eqL E a b = true) (at level 70).
  Notation "a =R b" := (eqR E a b = true) (at level 70).
  Notation Top := (fun _ => True).

  (* the items a for loop over iter_left() (iter_right()) yields *)
  Definition lefts (m : map) (ls : list L) : Prop := left_rest (iter_left m) = Done ls.
  Definition rights (m : map) (rs : list R) : Prop := right_rest (iter_right m) = Done rs.
  Lemma left_all : forall (it : list (N * left_item L)), left_rest it = Done (List.map (fun x => l_value (snd x)) it).
  Proof. unfold left_rest. induction it as [|[h x] it IH]; simpl in *; auto. rewrite IH. reflexivity. Qed.
  Lemma right_all : forall (it : list (N * right_item R)), right_rest it = Done (List.map (fun x => r_value (snd x)) it).
  Proof. unfold right_rest. induction it as [|[h x] it IH]; simpl in *; auto. rewrite IH. reflexivity. Qed.
  Lemma lefts_are : forall m ls, lefts m ls <-> ls = t_values (@l_value L) (left_set m).
  Proof. intros m ls. unfold lefts. rewrite left_all. unfold iter_left, t_values. split; [congruence|]. intros ->. auto. Qed.
  Lemma rights_are : forall m rs, rights m rs <-> rs = t_values (@r_value R) (right_set m).
  Proof. intros m rs. unfold rights. rewrite right_all. unfold iter_right, t_values. split; [congruence|]. intros ->. auto. Qed.

  Lemma inv_new : forall GL GR s b ll lr, Inv E GL GR s b (with_hasher s ll lr).
  Proof. intros. split; [reflexivity|]. split; [apply sound_nil|apply sound_if_nil]. Qed.
  Lemma run_any : forall GL GR s b ops m, Forall GL (flat_map given_l ops) -> Forall GR (flat_map given_r ops) ->
    (b = true -> guarded E (fresh_swap E) m ops) ->
    Inv E GL GR s b m -> Inv E GL GR s b (fst (run E m ops)).
  Proof.
    intros GL GR s b. induction ops as [|o ops IH]; simpl; intros m FL FR G I1; auto.
    apply Forall_app in FL as [FL1 FL2]. apply Forall_app in FR as [FR1 FR2].
    assert (X := step_any E OK GL GR s b o m FL1 FR1 (fun B => proj1 (G B)) I1).
    assert (G2 := fun B => proj2 (G B)). destruct (step E m o) as [m1 w]. simpl in *.
    specialize (IH m1 FL2 FR2 G2 X). destruct (run E m1 ops). auto.
  Qed.
  Lemma Forall_top : forall {A} (l : list A), Forall (fun _ => True) l.
  Proof. induction l; auto. Qed.
  Lemma obtainable_inv : forall m, obtainable E m -> exists s, Inv E Top Top s false m.
  Proof.
    intros m (s & ll & lr & ops & ->). exists s. apply run_any; try apply Forall_top; [discriminate|apply inv_new].
  Qed.
  Lemma fairly_inv : forall m, fairly_obtainable E m -> exists s, Inv E Top Top s true m.
  Proof.
    intros m (s & ll & lr & ops & G & ->). exists s. apply run_any; try apply Forall_top; auto. apply inv_new.
  Qed.
  Lemma inv_hinv : forall GL GR s b m, Inv E GL GR s b m -> HInv E s m.
  Proof. intros GL GR s b m (H1 & (H2 & _) & (H3 & _)). split; [assumption|]. split; assumption. Qed.

  Lemma contains_l : forall GL GR s b m l, Inv E GL GR s b m ->
    (contains_left E m l = true <-> exists l', In l' (t_values (@l_value L) (left_set m)) /\ l =L l').
  Proof.
    intros GL GR s b m l I1. pose proof I1 as (H1 & H2 & H3). unfold contains_left, find_left. rewrite H1.
    rewrite <- (found_iff _ (lo_ok E OK) _ _ _ (hashL_ok E OK s) _ (left_set m) l (equivalent_key_left (eqL E) l)
                  (key_l E OK l) H2).
    destruct (t_get _ _ _ _); simpl; split; intros H; eauto; [discriminate|destruct H; discriminate].
  Qed.
  Lemma contains_r : forall GL GR s b m r, Inv E GL GR s b m ->
    (contains_right E m r = true <-> exists r', In r' (t_values (@r_value R) (right_set m)) /\ r =R r').
  Proof.
    intros GL GR s b m l I1. pose proof I1 as (H1 & H2 & H3). unfold contains_right, find_right. rewrite H1.
    rewrite <- (found_if_iff _ (lo_ok E OK) _ _ _ (hashR_ok E OK s) _ _ _ (right_set m) l (equivalent_key_right (eqR E) l)
                  (key_r E OK l) H3).
    destruct (t_get _ _ _ _); simpl; split; intros H; eauto; [discriminate|destruct H; discriminate].
  Qed.
  Lemma t_get_In : forall {A} (t : table A) h p a, t_get (lo E) t h p = Some a -> exists h', In (h', a) (slots t) /\ p a = true.
  Proof.
    unfold t_get, t_entry. intros A t h p a H. destruct (t_find _ _ _ _) as [i|] eqn:F; [|discriminate].
    apply t_find_some in F as (h' & x & N1 & N2). rewrite N1 in H. inversion H; subst.
    apply nth_error_In in N1. eauto.
  Qed.
  Lemma get_l_In : forall m h p x, t_get (lo E) (left_set m) h p = Some x ->
    In (l_value x) (t_values (@l_value L) (left_set (m : map))).
  Proof. intros m h p x Q. apply t_get_In in Q as (h' & Q & _). apply in_map_iff. exists (h', x). auto. Qed.
  Lemma get_r_In : forall m h p x, t_get (lo E) (right_set m) h p = Some x ->
    In (r_value x) (t_values (@r_value R) (right_set (m : map))).
  Proof. intros m h p x Q. apply t_get_In in Q as (h' & Q & _). apply in_map_iff. exists (h', x). auto. Qed.
  Lemma pair_rest_incl : forall m it xs, pair_rest E m it = Done xs -> incl xs (t_values (@l_value L) (left_set m)).
  Proof.
    unfold pair_rest. induction it as [|[h i] it IH]; simpl; intros xs Q.
    - inversion Q. intros x [].
    - destruct (t_get _ _ _ _) as [x|] eqn:G; [|discriminate]. simpl in Q.
      destruct (collect (pair_next E m) (length it) it) as [ys|]; [|discriminate].
      inversion Q; subst. intros y [<-|Hy]; [eapply get_l_In; eauto|]. apply (IH ys); auto.
  Qed.
  Lemma paired_rest_all : forall m it ps, paired_rest E m it = Done ps ->
    List.map fst ps = List.map (fun x => l_value (snd x)) it /\
    incl (List.map snd ps) (t_values (@r_value R) (right_set m)).
  Proof.
    unfold paired_rest. induction it as [|[h x] it IH]; simpl; intros ps Q.
    - inversion Q. split; auto. intros y [].
    - destruct (t_get _ _ _ _) as [y|] eqn:G; [|discriminate]. simpl in Q.
      destruct (collect (paired_next E m) (length it) it) as [ys|]; [|discriminate].
      inversion Q; subst. destruct (IH ys eq_refl) as [I1 I2]. simpl. rewrite I1. split; auto.
      intros z [<-|Hz]; [eapply get_r_In; eauto|]. apply I2; auto.
  Qed.
  Lemma unpaired_rest_all : forall (it : list (N * right_item R)), unpaired_rest it =
    Done (List.map (fun x => r_value (snd x)) (filter (fun x => set_is_empty (r_pairs (snd x))) it)).
  Proof.
    intros it. unfold unpaired_rest.
    assert (Z : forall it n, (length it <= n)%nat -> collect (@unpaired_next R) n it =
      Done (List.map (fun x => r_value (snd x)) (filter (fun x => set_is_empty (r_pairs (snd x))) it))).
    { clear. induction it as [|[h x] it IH]; intros n LE.
      - destruct n; reflexivity.
      - simpl in LE. destruct n as [|n]; [lia|]. simpl. destruct (set_is_empty (r_pairs x)) eqn:Q.
        + simpl. rewrite IH by lia. reflexivity.
        + specialize (IH (Datatypes.S n) ltac:(lia)). simpl in IH. exact IH. }
    apply Z. auto.
  Qed.

  Lemma inv_sides : forall s m, Inv E Top Top s false m -> exists ls rs,
    lefts m ls /\ rights m rs /\ distinct (eqL E) ls /\
    len_left m = length ls /\ len_right m = length rs /\ (is_empty m = true <-> ls = [] /\ rs = []) /\
    (forall l, contains_left E m l = true <-> exists l', In l' ls /\ l =L l') /\
    (forall r, contains_right E m r = true <-> exists r', In r' rs /\ r =R r') /\
    (forall l r, get_right E m l = Some r -> contains_left E m l = true /\ In r rs) /\
    (forall r, get_left_iter E m r = None <-> contains_right E m r = false) /\
    (forall r it xs, get_left_iter E m r = Some it -> pair_rest E m it = Done xs -> incl xs ls) /\
    (forall l r, are_paired E m l r = true -> contains_left E m l = true /\ contains_right E m r = true) /\
    (forall r, is_right_paired E m r = true -> contains_right E m r = true) /\
    (forall ps, paired_rest E m (iter_paired m) = Done ps -> List.map fst ps = ls /\ incl (List.map snd ps) rs) /\
    (exists us, unpaired_rest (iter_unpaired m) = Done us /\ incl us rs).
  Proof.
    intros s m I1. pose proof I1 as (H1 & (_ & H2 & _) & _).
    exists (t_values (@l_value L) (left_set m)), (t_values (@r_value R) (right_set m)).
    refine (conj _ (conj _ (conj H2 (conj _ (conj _ (conj _ (conj _ (conj _ (conj _ (conj _ (conj _ (conj _ (conj _ (conj _ _)))))))))))))).
    - apply lefts_are. reflexivity.
    - apply rights_are. reflexivity.
    - unfold len_left, t_len, t_values. rewrite map_length. reflexivity.
    - unfold len_right, t_len, t_values. rewrite map_length. reflexivity.
    - unfold is_empty, len_left, len_right, t_len, t_values.
      destruct (slots (left_set m)); destruct (slots (right_set m)); simpl; split; try discriminate; try (intros [? ?]; discriminate); auto.
    - intros l. eapply contains_l; eauto.
    - intros r. eapply contains_r; eauto.
    - intros l r. unfold get_right, get_right_q, contains_left, find_left.
      destruct (t_get _ (left_set m) _ _) as [lp|] eqn:G1; [|discriminate].
      destruct (t_get _ (right_set m) _ _) as [rp|] eqn:G2; [|discriminate].
      intros Q. inversion Q; subst. split; auto. eapply get_r_In; eauto.
    - intros r. unfold get_left_iter, get_left_iter_q, contains_right, find_right.
      destruct (t_get _ _ _ _); simpl; split; auto; discriminate.
    - intros r it xs _. apply pair_rest_incl.
    - intros l r. unfold are_paired, contains_left, contains_right.
      destruct (find_left E m l); [|discriminate]. destruct (find_right E m r); [auto|discriminate].
    - intros r. unfold is_right_paired, contains_right. destruct (find_right E m r); [auto|discriminate].
    - intros ps. apply paired_rest_all.
    - unfold iter_unpaired. rewrite unpaired_rest_all. eexists. split; [reflexivity|].
      intros x Hx. apply in_map_iff in Hx as (y & <- & Hy). apply filter_In in Hy as [Hy _].
      apply in_map_iff. eauto.
  Qed.

  (* C74: whatever was done to the map, the left side is a set of pairwise non-equal items, and
     iterators, membership tests, lengths and lookups agree about what is on the two sides. *)
  Theorem C74_sides : forall m, obtainable E m -> exists ls rs,
    lefts m ls /\ rights m rs /\ distinct (eqL E) ls /\
    len_left m = length ls /\ len_right m = length rs /\ (is_empty m = true <-> ls = [] /\ rs = []) /\
    (forall l, contains_left E m l = true <-> exists l', In l' ls /\ l =L l') /\
    (forall r, contains_right E m r = true <-> exists r', In r' rs /\ r =R r') /\
    (forall l r, get_right E m l = Some r -> contains_left E m l = true /\ In r rs) /\
    (forall r, get_left_iter E m r = None <-> contains_right E m r = false) /\
    (forall r it xs, get_left_iter E m r = Some it -> pair_rest E m it = Done xs -> incl xs ls) /\
    (forall l r, are_paired E m l r = true -> contains_left E m l = true /\ contains_right E m r = true) /\
    (forall r, is_right_paired E m r = true -> contains_right E m r = true) /\
    (forall ps, paired_rest E m (iter_paired m) = Done ps -> List.map fst ps = ls /\ incl (List.map snd ps) rs) /\
    (exists us, unpaired_rest (iter_unpaired m) = Done us /\ incl us rs).
  Proof. intros m OB. destruct (obtainable_inv m OB) as [s I1]. eapply inv_sides; eauto. Qed.

  (* every item in the map is one that some call handed over *)
  Theorem C74_given : forall s ll lr ops ls rs,
    lefts (fst (run E (with_hasher s ll lr) ops)) ls -> rights (fst (run E (with_hasher s ll lr) ops)) rs ->
    incl ls (flat_map given_l ops) /\ incl rs (flat_map given_r ops).
  Proof.
    intros s ll lr ops ls rs HL HR. apply lefts_are in HL. apply rights_are in HR. subst.
    destruct (run_any (fun l => In l (flat_map given_l ops)) (fun r => In r (flat_map given_r ops)) s false ops
                (with_hasher s ll lr)) as (_ & (_ & _ & F1) & (_ & _ & F2)).
    - apply Forall_forall; auto.
    - apply Forall_forall; auto.
    - discriminate.
    - apply inv_new.
    - rewrite Forall_forall in F1. split; auto.
      intros y Hy. apply in_map_iff in Hy as (z & <- & Hz). apply F2; auto.
  Qed.

  Lemma has_contains : forall s m l r, Inv E Top Top s false m -> hs E [l] [r] m ->
    contains_left E m l = true /\ contains_right E m r = true.
  Proof.
    intros s m l r I1 [A1 A2]. inversion A1; inversion A2; subst.
    split; [apply (contains_l _ _ _ _ _ _ I1)|apply (contains_r _ _ _ _ _ _ I1)]; auto.
  Qed.
  (* items inserted by a call that returns are there *)
  Theorem C74_insert : forall m l r, obtainable E m ->
    (forall m' x, insert E l r m = Ret m' x -> contains_left E m' l = true /\ contains_right E m' r = true) /\
    (forall m' x, insert_remove E l r m = Ret m' x -> contains_left E m' l = true /\ contains_right E m' r = true) /\
    (forall m' x, insert_right E r m = Ret m' x -> contains_right E m' r = true) /\
    (forall m' x, insert_left E l r m = Ret m' x -> contains_right E m r = true ->
       contains_left E m' l = true /\ contains_right E m' r = true) /\
    (contains_right E m r = false -> insert_left E l r m = Ret m None).
  Proof.
    intros m l r OB. destruct (obtainable_inv m OB) as [s I1]. assert (HI := inv_hinv _ _ _ _ _ I1).
    assert (T1 : forall {T} (x : T), (fun _ : T => True) x) by (intros; exact I).
    refine (conj _ (conj _ (conj _ (conj _ _)))).
    - intros m' x Q. assert (X := hs_insert_lr E OK s l r m HI (hs_nil E m)).
      assert (Y := insert_any E OK Top Top s false l r I I m I1 (ab_nil E false m)).
      rewrite Q in X, Y. apply (has_contains s); tauto.
    - intros m' x Q. assert (X := hs_insert_remove E OK s l r m HI (hs_nil E m)).
      assert (Y := insert_remove_any E OK Top Top s false l r I I m I1 (ab_nil E false m)).
      rewrite Q in X, Y. apply (has_contains s); tauto.
    - intros m' x Q. assert (X := hs_insert_right E OK s r m HI (hs_nil E m)).
      assert (Y := insert_right_any E OK Top Top s false r I m I1 (ab_nil E false m)).
      rewrite Q in X, Y. destruct X as [_ [_ X]]. inversion X; subst.
      apply (contains_r _ _ _ _ _ _ (proj1 Y)); auto.
    - intros m' x Q C. assert (X := hs_insert_left E OK s l r m HI).
      assert (Y := insert_left_any E OK Top Top s false l r I m I1 (ab_nil E false m)).
      rewrite Q in X, Y. apply (has_contains s); [tauto|]. apply X. split; [constructor|].
      constructor; auto. apply (contains_r _ _ _ _ _ _ I1); auto.
    - intros C. unfold insert_left, bind, getst. unfold contains_right, find_right in C.
      rewrite (t_get_mut_get E) in C. destruct (t_get_mut _ _ _ _) as [[j rp]|]; [discriminate|reflexivity].
  Qed.

  (* a left item removed is gone, also when the call panicked *)
  Theorem C74_remove : forall m l, obtainable E m -> contains_left E (res_state (remove_left E l m)) l = false.
  Proof.
    intros m l OB. destruct (obtainable_inv m OB) as [s I1].
    assert (N : forall m', Inv E Top Top s false m' -> ab E false [l] [] m' -> contains_left E m' l = false).
    { intros m' I2 [A _]. inversion A; subst. destruct (contains_left E m' l) eqn:C; auto.
      apply (contains_l _ _ _ _ _ _ I2) in C as (l' & C1 & C2). rewrite (H1 _ C1) in C2. discriminate. }
    unfold remove_left. unfold bind at 1, getst at 1. rewrite (hb _ _ _ _ _ _ I1).
    assert (X := l_remove_key E OK Top Top s false l [] [] m I1 (ab_nil E false m)).
    unfold bind at 1. destruct (left_remove_entry E _ _ m) as [m1 [lp|]|m1] eqn:Q1.
    - destruct X as [I2 A2].
      unfold bind at 1, getst. destruct (t_get_mut E (right_set m1) _ _) as [[j rp]|]; [|simpl; apply N; auto].
      assert (Y := r_assign E Top Top s false j (pairs_remove E (hashL E s l, l_id lp)) [l] [] (fun _ => eq_refl)
                     (gh_remove E _) m1 I2 A2). apply N; apply Y.
    - simpl. apply N; tauto.
    - exfalso. clear - Q1. unfold left_remove_entry, bind, getst in Q1. destruct (t_remove_entry _ _ _ _) as [[? ?]|]; discriminate.
  Qed.

  (* ---- histories whose swaps bring in absent items ---- *)
  Lemma paired_if : forall s m l r h x h' y, Inv E Top Top s true m ->
    In (h, x) (slots (left_set m)) -> In (h', y) (slots (right_set m)) -> l =L l_value x -> r =R r_value y ->
    l_hash x = hashR E s r -> set_contains E (r_id y) (r_pairs y) (hashL E s l, l_id x) = true ->
    are_paired E m l r = true.
  Proof.
    intros s m l r h x h' y (H1 & H2 & H3) IX IY QX QY HX CY. unfold are_paired, find_left, find_right. rewrite H1.
    rewrite (get_there _ (lo_ok E OK) _ _ (eqL_equiv E OK) _ (hashL_ok E OK s) _ (left_set m) l
               (equivalent_key_left (eqL E) l) _ _ (key_l E OK l) H2 IX QX).
    rewrite (get_there _ (lo_ok E OK) _ _ (eqR_equiv E OK) _ (hashR_ok E OK s) _ (right_set m) r
               (equivalent_key_right (eqR E) r) _ _ (key_r E OK r) (sound_of _ _ _ _ _ _ _ H3 eq_refl) IY QY).
    rewrite HX, N.eqb_refl, CY. reflexivity.
  Qed.
  Lemma get_mut_at : forall {A} (t : table A) h p i x, t_get_mut E t h p = Some (i, x) ->
    exists h', nth_error (slots t) i = Some (h', x) /\ p x = true.
  Proof.
    intros A t h p i x Q. unfold t_get_mut in Q. destruct (t_find _ _ _ _) as [j|] eqn:F; [|discriminate].
    apply t_find_some in F as (h' & a & N & P). unfold t_entry in Q. rewrite N in Q. inversion Q; subst. eauto.
  Qed.
  Lemma modify_In : forall {A} (t : table A) i f h x, nth_error (slots t) i = Some (h, x) ->
    In (h, f x) (slots (t_modify t i f)) /\ nth_error (slots (t_modify t i f)) i = Some (h, f x).
  Proof.
    intros A t i f h x N. assert (X := nth_update_nth (fun x => (fst x, f (snd x))) (slots t) i (h, x) N).
    split; auto. eapply nth_error_In. exact X.
  Qed.
  Lemma l_inserted : forall s m h x, Inv E Top Top s true m ->
    In (h, x) (slots (t_insert (lo E) (left_set m) h x (make_hasher_l E (hash_builder m)))).
  Proof.
    intros s m h x (H1 & H2 & _). rewrite H1. eapply Permutation_in;
      [symmetry; apply (t_insert_perm _ (lo_ok E OK)), H2|left; reflexivity].
  Qed.
  Lemma insert_pairs_them : forall s m l r m' u, Inv E Top Top s true m -> insert E l r m = Ret m' u ->
    contains_left E m l = false \/ contains_right E m r = false -> are_paired E m' l r = true.
  Proof.
    intros s m l r m' u I1 Q AB.
    assert (IM := insert_any E OK Top Top s true l r I I m I1 (ab_nil E true m)). rewrite Q in IM. destruct IM as [I2 _].
    pose proof I1 as (H1 & H2 & H3). assert (RL := equiv_refl _ (eqL_equiv E OK) l).
    assert (RR := equiv_refl _ (eqR_equiv E OK) r).
    unfold contains_left, contains_right, find_left, find_right in AB. rewrite !(t_get_mut_get E), H1 in AB.
    unfold insert in Q. unfold bind at 1, getst at 1 in Q. rewrite H1 in Q.
    destruct (t_get_mut E (left_set m) _ _) as [[i lp]|] eqn:QL; destruct (t_get_mut E (right_set m) _ _) as [[j rp]|] eqn:QR;
      simpl in AB; [destruct AB; discriminate| | |]; clear AB.
    - destruct (t_get_mut E (right_set m) (l_hash lp) _) as [[k op]|] eqn:QO; [|discriminate]. simpl in Q.
      unfold left_assign, right_assign, right_insert, incr_right in Q. cbv [bind ret getst putst unwrap panic] in Q.
      simpl in Q. destruct (u64_incr (ovf E) (right_counter m)) as [c|]; [|discriminate]. inversion Q; subst m' u. clear Q.
      apply get_mut_at in QL as (h & NL & PL). rewrite (key_l E OK) in PL.
      destruct (modify_In _ _ (set_l_hash (hashR E s r)) _ _ NL) as [_ N1].
      destruct (modify_In _ _ (set_l_rid (right_counter m)) _ _ N1) as [N2 _].
      eapply (paired_if s _ l r _ _ _ (RI r (set_insert E (right_counter m) (set_new (right_counter m)) (hashL E s l, l_id lp)) (right_counter m)) I2).
      + cbn [left_set right_set hash_builder]. exact N2.
      + cbn [left_set right_set hash_builder]. rewrite H1. eapply Permutation_in; [symmetry; apply (t_insert_perm _ (lo_ok E OK))|left; reflexivity].
        apply update_hashed; [reflexivity|apply H3].
      + simpl. exact PL.
      + exact RR.
      + reflexivity.
      + simpl. apply set_contains_inserted; auto. apply set_new_hashed.
    - unfold left_assign, right_assign, left_insert, incr_left in Q. cbv [bind ret getst putst unwrap panic] in Q.
      simpl in Q. destruct (u64_incr (ovf E) (left_counter m)) as [c|]; [|discriminate]. inversion Q; subst m' u. clear Q.
      apply get_mut_at in QR as (h & NR & PR). rewrite (key_r E OK) in PR.
      destruct (modify_In _ _ (pairs_insert E (hashL E s l, left_counter m)) _ _ NR) as [N1 _].
      eapply (paired_if s _ l r _ (LI l (hashR E s r) (r_id rp) (left_counter m)) _ _ I2).
      + cbn [left_set right_set hash_builder]. apply (l_inserted s m _ _ I1).
      + cbn [left_set right_set hash_builder]. exact N1.
      + exact RL.
      + simpl. exact PR.
      + reflexivity.
      + simpl. apply set_contains_inserted; auto. apply H3 with (x := (h, rp)). eapply nth_error_In; eauto.
    - unfold right_insert, left_insert, incr_left, incr_right in Q. cbv [bind ret getst putst unwrap panic] in Q.
      simpl in Q. destruct (u64_incr (ovf E) (left_counter m)) as [c|]; [|discriminate]. simpl in Q.
      destruct (u64_incr (ovf E) (right_counter m)) as [c'|]; [|discriminate]. inversion Q; subst m' u. clear Q.
      eapply (paired_if s _ l r _ (LI l (hashR E s r) (right_counter m) (left_counter m)) _
               (RI r (set_insert E (right_counter m) (set_new (right_counter m)) (hashL E s l, left_counter m)) (right_counter m)) I2).
      + cbn [left_set right_set hash_builder]. apply (l_inserted s m _ _ I1).
      + cbn [left_set right_set hash_builder]. rewrite H1. eapply Permutation_in; [symmetry; apply (t_insert_perm _ (lo_ok E OK)), H3|left; reflexivity].
      + exact RL.
      + exact RR.
      + reflexivity.
      + simpl. apply set_contains_inserted; auto. apply set_new_hashed.
  Qed.
  Lemma insert_remove_pairs_them : forall s m l r m' u, Inv E Top Top s true m -> insert_remove E l r m = Ret m' u ->
    are_paired E m' l r = true.
  Proof.
    intros s m0 l r m' u I0 Q.
    assert (IM := insert_remove_any E OK Top Top s true l r I I m0 I0 (ab_nil E true m0)). rewrite Q in IM. destruct IM as [I2 _].
    unfold insert_remove in Q. unfold bind at 1 in Q.
    assert (X := remove_left_any E OK Top Top s true l [] [] m0 I0 (ab_nil E true m0)).
    destruct (remove_left E l m0) as [m1 o1|]; [|discriminate]. destruct X as [I1 A1].
    unfold bind at 1 in Q. assert (X := remove_right_any E OK Top Top s true r [l] [] m1 I1 A1).
    destruct (remove_right E r m1) as [m o2|]; [|discriminate]. destruct X as [I3 _]. clear - Q I2 I3 OK.
    pose proof I3 as (H1 & H2 & H3). assert (RL := equiv_refl _ (eqL_equiv E OK) l).
    assert (RR := equiv_refl _ (eqR_equiv E OK) r).
    unfold right_insert, left_insert, incr_left, incr_right in Q. cbv [bind ret getst putst unwrap panic] in Q.
    rewrite H1 in Q.
    destruct (u64_incr (ovf E) (left_counter m)) as [c|]; [|discriminate]. simpl in Q.
    destruct (u64_incr (ovf E) (right_counter m)) as [c'|]; [|discriminate]. inversion Q; subst m' u. clear Q.
    eapply (paired_if s _ l r _ (LI l (hashR E s r) (right_counter m) (left_counter m)) _
             (RI r (set_insert E (right_counter m) (set_new (right_counter m)) (hashL E s l, left_counter m)) (right_counter m)) I2).
    + cbn [left_set right_set hash_builder set_left set_right]. eapply Permutation_in; [symmetry; apply (t_insert_perm _ (lo_ok E OK)), H2|left; reflexivity].
    + cbn [left_set right_set hash_builder set_left set_right]. eapply Permutation_in; [symmetry; apply (t_insert_perm _ (lo_ok E OK)), H3|left; reflexivity].
    + exact RL.
    + exact RR.
    + reflexivity.
    + simpl. apply set_contains_inserted; auto. apply set_new_hashed.
  Qed.
  Lemma pair_pairs_them : forall s m l r m', Inv E Top Top s true m -> pair E l r m = Ret m' true ->
    are_paired E m' l r = true.
  Proof.
    intros s m l r m' I1 Q.
    assert (IM := pair_any E OK Top Top s true l r m I1 (ab_nil E true m)).
    rewrite Q in IM. destruct IM as [I2 _].
    pose proof I1 as (H1 & H2 & H3). unfold pair in Q. unfold bind at 1, getst at 1 in Q. rewrite H1 in Q.
    destruct (t_get_mut E (left_set m) _ _) as [[i lp]|] eqn:QL; [|discriminate].
    destruct (find_right E m r) as [rp|]; [|discriminate].
    unfold left_assign, right_assign in Q. cbv [bind ret getst putst unwrap panic] in Q. simpl in Q.
    destruct (t_get_mut E (right_set m) (l_hash lp) _) as [[k op]|] eqn:QO; [|discriminate]. simpl in Q.
    destruct (t_get_mut E _ (hashR E s r) _) as [[j rp']|] eqn:QR; [|discriminate]. inversion Q; subst m'. clear Q.
    apply get_mut_at in QL as (h & NL & PL). rewrite (key_l E OK) in PL.
    destruct (modify_In _ _ (set_l_hash (hashR E s r)) _ _ NL) as [_ N1].
    destruct (modify_In _ _ (set_l_rid (r_id rp)) _ _ N1) as [N2 _].
    apply get_mut_at in QR as (h' & NR & PR). rewrite (key_r E OK) in PR.
    destruct (modify_In _ _ (pairs_insert E (hashL E s l, l_id lp)) _ _ NR) as [N3 _].
    eapply (paired_if s _ l r _ _ _ _ I2).
    - cbn [left_set right_set hash_builder]. exact N2.
    - cbn [left_set right_set hash_builder]. exact N3.
    - exact PL.
    - exact PR.
    - reflexivity.
    - simpl. apply set_contains_inserted; auto.
      assert (SM : sound_if (@r_value R) (eqR E) (hashR E s) Top (group_hashed E) true
                     (t_modify (right_set m) k (pairs_remove E (hashL E s l, l_id lp))))
        by (apply sound_if_modify; [reflexivity|apply gh_remove|exact H3]).
      apply SM with (x := (h', rp')). eapply nth_error_In; eauto.
  Qed.

  Lemma remove_pairs_state : forall J : map -> Prop,
    (forall h p m, J m -> J (res_state (left_remove_entry E h p m))) ->
    forall ps m, J m -> J (res_state (remove_pairs E ps m)).
  Proof.
    intros J H. induction ps as [|[h i] ps IH]; intros m H0; [exact H0|]. cbn [remove_pairs].
    specialize (H h (left_with_left_id i) m H0). unfold bind at 1.
    destruct (left_remove_entry E h (left_with_left_id i) m) as [m1 [x|]|m1]; try exact H.
    specialize (IH m1 H). unfold unwrap, bind, ret. destruct (remove_pairs E ps m1); exact IH.
  Qed.

  (* C75, full claim: as C74, and the right side is a set, too.  Refuted below: swap_right and
     swap_right_remove can bring in an item that is already there.  Proved here: if no swap of
     the history does that, then the right side is a set, a right item removed is gone (also
     when the call panicked), and insertions and pairings that return have paired the two items
     (insert: of which one at least was not there before; C48 is about the other case). *)
  Theorem C75_rights_partial : forall m, fairly_obtainable E m ->
    (forall rs, rights m rs -> distinct (eqR E) rs) /\
    (forall r, contains_right E (res_state (remove_right E r m)) r = false) /\
    (forall l r m' u, insert E l r m = Ret m' u ->
       contains_left E m l = false \/ contains_right E m r = false -> are_paired E m' l r = true) /\
    (forall l r m' d, insert_remove E l r m = Ret m' d -> are_paired E m' l r = true) /\
    (forall l r m', pair E l r m = Ret m' true -> are_paired E m' l r = true).
  Proof.
    intros m OB. destruct (fairly_inv m OB) as [s I1]. refine (conj _ (conj _ (conj _ (conj _ _)))).
    - intros rs HR. apply rights_are in HR. subst. destruct I1 as (_ & _ & _ & D & _). auto.
    - intros r.
      assert (N : forall m', Inv E Top Top s true m' -> ab E true [] [r] m' -> contains_right E m' r = false).
      { intros m' I2 [_ A]. inversion A; subst. destruct (contains_right E m' r) eqn:C; auto.
        apply (contains_r _ _ _ _ _ _ I2) in C as (l' & C1 & C2). rewrite (H1 eq_refl _ C1) in C2. discriminate. }
      unfold remove_right. unfold bind at 1, getst at 1. rewrite (hb _ _ _ _ _ _ I1).
      assert (X := r_remove_key E OK Top Top s true r [] [] m I1 (ab_nil E true m)).
      unfold bind at 1. destruct (right_remove_entry E _ _ m) as [m1 [rp|]|m1] eqn:Q1.
      + destruct X as [I2 A2].
        assert (Y : forall ps m2, Inv E Top Top s true m2 -> ab E true [] [r] m2 ->
          Inv E Top Top s true (res_state (remove_pairs E ps m2)) /\ ab E true [] [r] (res_state (remove_pairs E ps m2))).
        { clear. intros ps m2 I2 A2. apply (remove_pairs_state (fun m' => Inv E Top Top s true m' /\ ab E true [] [r] m')); auto.
          intros h p m3 [I3 A3]. assert (Z := l_remove_any E Top Top s true h p [] [r] m3 I3 A3).
          unfold left_remove_entry, bind, getst in *. destruct (t_remove_entry _ _ _ _) as [[? ?]|]; exact Z. }
        destruct (Y (hs_elems (r_pairs rp)) m1 I2 A2) as [I3 A3]. unfold bind.
        destruct (remove_pairs E (hs_elems (r_pairs rp)) m1); apply N; auto.
      + simpl. apply N; tauto.
      + exfalso. clear - Q1. unfold right_remove_entry, bind, getst in Q1. destruct (t_remove_entry _ _ _ _) as [[? ?]|]; discriminate.
    - intros l r m' u. apply (insert_pairs_them s); auto.
    - intros l r m' d. apply (insert_remove_pairs_them s); auto.
    - intros l r m'. apply (pair_pairs_them s); auto.
  Qed.
End AnyProps.

(* Cases: a re-insertion (C48), a swap (C50), a dropped pair (C56), and calls that panic. *)
Definition wild_history : list (op item item) :=
  [Insert (it 1) (it 1); Insert (it 2) (it 1); Insert (it 3) (it 3); Insert (it 1) (it 1);
   SwapRight (it 3) (it 4); RetainPaired unit (fun x p => (x, Some (fst (fst p) =? 2))) tt;
   Insert (it 3) (it 5); RemoveLeft (it 1); InsertRight (it 6); Insert (it 7) (it 6); Pair (it 7) (it 3);
   RemoveRight (it 1); Insert (it 8) (it 4); SwapRight (it 4) (it 9)].
Definition wild : gmap item item N := fst (run env_collide (with_hasher 0 0 0) wild_history).
Lemma wild_obtainable : obtainable env_collide wild.
Proof. exists 0, 0, 0, wild_history. reflexivity. Qed.
Lemma wild_fairly : fairly_obtainable env_collide wild.
Proof.
  exists 0, 0, 0, wild_history. split; [|reflexivity].
  repeat (split; [vm_compute; auto|]). exact I.
Qed.
(* two calls panic; at the end 8 is paired with 9, but get_right still finds 4 *)
Example C74_case : exists ls rs, obtainable env_collide wild /\
  lefts wild ls /\ rights wild rs /\ ls = [it 7; it 3; it 8] /\ rs = [it 6; it 4; it 3; it 5; it 9] /\
  count_occ Bool.bool_dec
    (map (fun w => match w with OPanic => true | _ => false end) (snd (run env_collide (with_hasher 0 0 0) wild_history))) true = 2%nat /\
  are_paired env_collide wild (it 8) (it 9) = true /\ get_right env_collide wild (it 8) = Some (it 4) /\
  contains_left env_collide wild (it 1) = false /\ contains_right env_collide wild (it 1) = false.
Proof.
  exists [it 7; it 3; it 8], [it 6; it 4; it 3; it 5; it 9]. split; [exact wild_obtainable|].
  repeat (split; [vm_compute; reflexivity|]). vm_compute. reflexivity.
Qed.
Example C74_given_case : flat_map given_l wild_history =
  [it 1; it 2; it 3; it 1; it 3; it 7; it 8].
Proof. vm_compute. reflexivity. Qed.
Example C74_insert_case : exists m' x, insert env_collide (it 8) (it 1) wild = Ret m' x /\
  contains_left env_collide m' (it 8) = true /\ contains_right env_collide m' (it 1) = true.
Proof. eexists. eexists. split; [vm_compute; reflexivity|]. vm_compute. auto. Qed.
(* the removal panics (after the re-insertion of 1) and still removes *)
Example C74_remove_case : exists m', let m := fst (run env_collide (with_hasher 0 0 0) (firstn 7 wild_history)) in
  remove_left env_collide (it 1) m = Panic m' /\
  contains_left env_collide m (it 1) = true /\ contains_left env_collide m' (it 1) = false.
Proof. eexists. split; [vm_compute; reflexivity|]. vm_compute. auto. Qed.
(* insert, pair and insert_remove in the damaged map; remove_right panics and still removes *)
Example C75_case : exists m1 m2 m3 m4 m5 x y, fairly_obtainable env_collide wild /\
  insert env_collide (it 8) (it 1) wild = Ret m1 x /\ contains_right env_collide wild (it 1) = false /\
  are_paired env_collide m1 (it 8) (it 1) = true /\ get_right env_collide m1 (it 8) = Some (it 1) /\
  insert_remove env_collide (it 8) (it 4) wild = Ret m2 y /\ are_paired env_collide m2 (it 8) (it 4) = true /\
  pair env_collide (it 7) (it 9) wild = Ret m3 true /\ are_paired env_collide wild (it 7) (it 9) = false /\
  are_paired env_collide m3 (it 7) (it 9) = true /\
  m4 = fst (run env_collide (with_hasher 0 0 0) (firstn 11 wild_history)) /\
  fairly_obtainable env_collide m4 /\ contains_right env_collide m4 (it 1) = true /\
  remove_right env_collide (it 1) m4 = Panic m5 /\ contains_right env_collide m5 (it 1) = false.
Proof.
  eexists. eexists. eexists. eexists. eexists. eexists. eexists. split; [exact wild_fairly|].
  do 10 (split; [vm_compute; reflexivity|]). split.
  - exists 0, 0, 0, (firstn 11 wild_history). split; [|reflexivity]. repeat (split; [vm_compute; auto|]). exact I.
  - repeat (split; [vm_compute; reflexivity|]). vm_compute. reflexivity.
Qed.
(* swap_right(1, 2) with 2 already there: two equal right items, and one of them survives
   remove_right(2) *)
Theorem C75_rights_refuted : exists (m : gmap item item N) rs, lawful env_spread /\ obtainable env_spread m /\
  rights m rs /\ ~ distinct (eqR env_spread) rs /\
  contains_right env_spread (res_state (remove_right env_spread (it 2) m)) (it 2) = true.
Proof.
  exists (fst (run env_spread (with_hasher 0 0 0) [InsertRight (it 1); InsertRight (it 2); SwapRight (it 1) (it 2)])).
  eexists. split; [exact env_spread_ok|]. split; [do 4 eexists; reflexivity|].
  split; [vm_compute; reflexivity|]. split; [|vm_compute; reflexivity].
  intros D. repeat (apply distinct_cons in D as [? D]).
  repeat match goal with H : forall y, In y _ -> _ |- _ => specialize (H (it 2)); vm_compute in H end.
  repeat match goal with H : ?A -> true = false |- _ => assert (A -> False) by (intros Z; specialize (H Z); discriminate); clear H end.
  tauto.
Qed.

Print Assumptions C74_sides.
Print Assumptions C74_given.
Print Assumptions C74_insert.
Print Assumptions C74_remove.
Print Assumptions C75_rights_partial.
Print Assumptions C75_rights_refuted.
