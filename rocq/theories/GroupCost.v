(* GroupMap: how often a call runs the Hash and Eq of the items: property C108. *)
From Coq Require Import List NArith Lia Bool Permutation PeanoNat.
From Verif Require Import Closures Prelude RawTable GroupMap ListFacts TableFacts SoundTables
  GroupSpec GroupHistory GroupProofs GroupHistoryProofs Concrete GroupAny Capacity
  Faults FaultTables GroupFault GroupFaultProofs GroupFaultProps GroupFaultProps2 GroupFaultAny Cost.
Import ListNotations.
Open Scope N_scope.

(* The budget of a call, as in CycleMapCost.v: one unit for every call of Hash or Eq.
   [g r] is the number of left items paired with r, gl and gr what rehashing costs. *)
Section Budget.
  Context {L R : Type}.
  Variables (tag : N -> N) (hl : L -> N) (hr : R -> N) (ls : list L) (rs : list R) (g : R -> nat) (gl gr : nat).
  Local Open Scope nat_scope.

  Definition like_l (l : L) : nat := length (filter (fun x => N.eqb (tag (hl x)) (tag (hl l))) ls).
  Definition like_r (r : R) : nat := length (filter (fun x => N.eqb (tag (hr x)) (tag (hr r))) rs).
  (* the k left items of a group are put into a HashSet: the first is hashed, the second hashed and
     compared with the first, ... *)
  Definition drop_cost (k : nat) : nat := list_sum (seq 1 k).
  Definition remove_right_cost (r : R) : nat := 1 + like_r r + drop_cost (g r).
  Definition insert_right_cost (r : R) : nat := 1 + remove_right_cost r + gr.
  Definition budget (o : op L R) : nat :=
    match o with
    | ContainsLeft l | GetRight l | RemoveLeft l => 1 + like_l l
    | ContainsRight r | IsRightPaired r | GetLeftIter r => 1 + like_r r
    | ArePaired l r => 2 + like_l l + like_r r
    | Pair l r => 2 + like_l l + 2 * like_r r
    | Insert l r => 2 + like_l l + like_r r + gl + gr
    | InsertLeft l r => 3 + like_l l + like_r r + gl
    | InsertRemove l r => 3 + like_l l + remove_right_cost r + gl + gr
    | InsertRight r => insert_right_cost r
    | SwapRight old new | SwapRightRemove old new => 1 + like_r old + insert_right_cost new
    | Remove l r => 2 + like_l l + like_r r + remove_right_cost r
    | RemoveRight r => remove_right_cost r
    | RetainPaired X f x => list_sum (map (fun l => 1 + like_l l) ls)
    | RetainUnpaired X f x => list_sum (map (fun r => 1 + like_r r) rs)
    | ExtendPairs _ | Extend _ => 0 (* see [extend_within] *)
    | IterAll | IterPairedAll | IterUnpairedAll | IterLeftAll | IterRightAll | Clear | CloneSelf
    | LenLeft | LenRight | IsEmpty => 0
    end.
End Budget.
Definition is_extend {L R} (o : op L R) : bool :=
  match o with Extend _ | ExtendPairs _ => true | _ => false end.
(* the left items paired with r: the len() of get_left_iter(r) *)
Definition group {L R S} (E : env L R S) (m : gmap L R S) (r : R) : nat :=
  match get_left_iter E m r with Some it => length it | None => 0%nat end.

Section Costs.
  Context {L R S : Type}.
  Variable E : env L R S.
  Variable F : fault.
  Variable tag : N -> N.
  Hypothesis FR : frugal (lo E) tag.
  Notation map := (gmap L R S).
  Notation FM A := (M (fuse * gmap L R S) A).
  Local Open Scope nat_scope.

  Notation nl m h := (near tag (left_set m) h).
  Notation nr m h := (near tag (right_set m) h).
  Notation hl m l := (hashL E (hash_builder m) l).
  Notation hr m r := (hashR E (hash_builder m) r).
  Definition under (m m' : map) : Prop :=
    hash_builder m' = hash_builder m /\ less (lo E) (left_set m) (left_set m') /\ less (lo E) (right_set m) (right_set m').
  Lemma under_refl : forall m, under m m.
  Proof. intros m. split; [auto|split; apply less_refl]. Qed.
  Lemma under_trans : forall m1 m2 m3, under m1 m2 -> under m2 m3 -> under m1 m3.
  Proof.
    intros m1 m2 m3 (H1 & H2 & H3) (H4 & H5 & H6). split; [congruence|].
    split; eapply less_trans; eauto.
  Qed.

  Lemma ch_hash_l : forall m l, cheap 1 (hash_l E m l) (fun h => h = hl m l).
  Proof. intros. apply ch_user. auto. Qed.
  Lemma ch_hash_r : forall m r, cheap 1 (hash_r E m r) (fun h => h = hr m r).
  Proof. intros. apply ch_user. auto. Qed.
  Lemma ch_find_left : forall m h l, cheap (nl m h) (u_find_left E m h l) (fun _ => True).
  Proof. intros. apply ch_get; auto. Qed.
  Lemma ch_find_right : forall m h r, cheap (nr m h) (u_find_right E m h r) (fun _ => True).
  Proof. intros. apply ch_get; auto. Qed.
  Lemma ch_get_mut : forall {A} (t : table A) h p, cheap (near tag t h) (u_get_mut E t h p) (fun _ => True).
  Proof.
    intros. unfold u_get_mut. eapply (ch_then _ 0); [apply ch_find; exact FR| |lia]. intros. apply ch_ret. auto.
  Qed.
  Lemma ch_mut_left : forall m h l, cheap (nl m h) (mut_left E m h l) (fun _ => True).
  Proof. intros. apply ch_get_mut. Qed.
  Lemma ch_mut_right : forall m h r, cheap (nr m h) (mut_right E m h r) (fun _ => True).
  Proof. intros. apply ch_get_mut. Qed.

  (* ---- groups ---- *)
  Lemma find_modify : forall {A} (t : table A) i f h p, (forall x, p (f x) = p x) ->
    t_find (lo E) (t_modify t i f) h p = t_find (lo E) t h p.
  Proof.
    intros A t i f h p H. unfold t_find. cbn [t_modify slots lay].
    assert (Q : List.map fst (update_nth i (fun s : N * A => (fst s, f (snd s))) (slots t)) = List.map fst (slots t)).
    { generalize (slots t). clear. intros s. revert i. induction s as [|x s IH]; intros [|i]; simpl; auto. f_equal. auto. }
    rewrite Q. generalize (hb_probe (lo E) (lay t) h (List.map fst (slots t))). intros js.
    induction js as [|j js IH]; simpl; auto.
    assert (X : match nth_error (update_nth i (fun s : N * A => (fst s, f (snd s))) (slots t)) j with Some (_, e) => p e | None => false end =
                match nth_error (slots t) j with Some (_, e) => p e | None => false end).
    { generalize (slots t). clear - H. intros s. revert i j. induction s as [|[k x] s IH]; intros [|i] [|j]; simpl; auto. }
    rewrite X, IH. reflexivity.
  Qed.
  Lemma entry_modify : forall {A} (t : table A) i f j, exists b : bool,
    t_entry (t_modify t i f) j = option_map (fun x => if b then f x else x) (t_entry t j).
  Proof.
    intros A t i f j. unfold t_entry. cbn [t_modify slots]. generalize (slots t). intros s. revert i j.
    induction s as [|[k x] s IH]; intros [|i] [|j]; simpl; eauto; try (exists false; reflexivity); try (exists true; reflexivity).
    exists false. destruct (nth_error s j) as [[? ?]|]; reflexivity.
  Qed.
  Lemma get_left_iter_as : forall m r, get_left_iter E m r =
    option_map (fun x => hs_elems (r_pairs x)) (t_get (lo E) (right_set m) (hr m r) (equivalent_key_right (eqR E) r)).
  Proof. reflexivity. Qed.
  Lemma group_shrink : forall m i f r,
    (forall x, r_value (f x) = r_value x) -> (forall x, length (hs_elems (r_pairs (f x))) <= length (hs_elems (r_pairs x))) ->
    group E (set_right (t_modify (right_set m) i f) m) r <= group E m r.
  Proof.
    intros m i f r HV HL. unfold group. rewrite !get_left_iter_as. unfold t_get.
    cbn [set_right right_set hash_builder]. rewrite find_modify by (intros x; unfold equivalent_key_right; rewrite HV; auto).
    destruct (t_find _ _ _ _) as [j|]; simpl; auto. destruct (entry_modify (right_set m) i f j) as (b & ->).
    destruct (t_entry (right_set m) j) as [x|]; simpl; auto. destruct b; auto.
  Qed.
  Lemma pairs_remove_len : forall p (x : right_item R), length (hs_elems (r_pairs (pairs_remove E p x))) <= length (hs_elems (r_pairs x)).
  Proof.
    intros p x. unfold pairs_remove, set_remove, hs_remove, hs_elems. simpl.
    destruct (t_remove_entry _ _ _ _) as [[y t]|] eqn:Q; simpl; auto.
    apply remove_entry_at in Q as (i & _ & _ & _ & ->). rewrite !map_length. simpl. apply remove_length.
  Qed.

  (* ---- taking entries out ---- *)
  Lemma sp_left_remove : forall m h l, spends (nl m h) m (u_left_remove_entry E h l)
    (fun m' _ => under m m' /\ right_set m' = right_set m).
  Proof.
    intros m h l. unfold u_left_remove_entry.
    eapply sp_more; [eapply (sp_look_bind _ 0); [apply ch_remove_entry; exact FR|]|lia|intros ? ? X; exact X].
    intros [[e t]|] HQ; [|apply sp_ret; split; [apply under_refl|auto]].
    apply (sp_bind 0 0 _ _ _ (fun m' _ => under m m' /\ right_set m' = right_set m)); [|intros; apply sp_ret; auto].
    apply sp_calm. intros m' a Q. unfold bind, getst, putst in Q. inversion Q; subst. split; [|auto].
    split; [auto|]. split; simpl; [eapply HQ; eauto|apply less_refl].
  Qed.
  Lemma sp_right_remove : forall m r, spends (nr m (hr m r)) m (u_right_remove_entry E (hr m r) r)
    (fun m' o => under m m' /\ match o with Some e => length (hs_elems (r_pairs e)) = group E m r | None => True end).
  Proof.
    intros m r w Hw.
    pose proof (ch_remove_entry (lo E) tag FR (right_set m) (hr m r) (equivalent_key_right (eqR E) r)) as C.
    destruct (C w Hw) as (w' & HL & X).
    destruct (cheap_agrees _ _ _ _ (ag_remove_entry (lo E) (right_set m) (hr m r) (equivalent_key_right (eqR E) r)) C w Hw) as (w2 & HC).
    exists w'. split; [exact HL|]. unfold u_right_remove_entry, bind, look. cbn [fst snd]. rewrite HC in *. simpl in X.
    destruct X as [[= ->] X]. simpl. unfold t_remove_entry in *. unfold group. rewrite get_left_iter_as. unfold t_get.
    destruct (t_find _ _ _ _) as [i|]; [|simpl; split; [auto|split; [apply under_refl|auto]]].
    destruct (t_entry _ _) as [e|]; [|simpl; split; [auto|split; [apply under_refl|auto]]].
    simpl. split; [auto|]. split; [|auto]. split; [auto|]. split; simpl; [apply less_refl|]. eapply X. reflexivity.
  Qed.
  Lemma left_remove_under : forall h p m m' a, left_remove_entry E h p m = Ret m' a -> under m m'.
  Proof.
    intros h p m m' a Q. unfold left_remove_entry, bind, getst, putst in Q.
    destruct (t_remove_entry _ _ _ _) as [[e t]|] eqn:X; inversion Q; subst; [|apply under_refl].
    split; [auto|]. split; simpl; [eapply less_remove; [apply less_refl|eauto]|apply less_refl].
  Qed.

  (* ---- reading ---- *)
  Lemma ch_are_paired : forall m l r, cheap (2 + nl m (hl m l) + nr m (hr m r)) (u_are_paired E m l r) (fun _ => True).
  Proof.
    intros m l r. unfold u_are_paired. replace (2 + nl m (hl m l) + nr m (hr m r))
      with (1 + (1 + (nl m (hl m l) + (nr m (hr m r) + 0)))) by lia.
    eapply ch_bind; [apply ch_hash_l|]. intros a ->. eapply ch_bind; [apply ch_hash_r|]. intros a ->.
    eapply ch_bind; [apply ch_find_left|]. intros a _. eapply ch_bind; [apply ch_find_right|]. intros b _.
    apply ch_ret. auto.
  Qed.
  Lemma ch_key_l : forall {A} m l (f : N -> option (left_item L) -> A),
    cheap (1 + nl m (hl m l)) (h <- hash_l E m l ;; o <- u_find_left E m h l ;; ret (f h o)) (fun _ => True).
  Proof.
    intros A m l f. eapply ch_bind; [apply ch_hash_l|]. intros a ->.
    eapply (ch_then _ 0); [apply ch_find_left| |lia]. intros a _. apply ch_ret. auto.
  Qed.
  Lemma ch_key_r : forall {A} m r (f : N -> option (right_item R) -> A),
    cheap (1 + nr m (hr m r)) (h <- hash_r E m r ;; o <- u_find_right E m h r ;; ret (f h o)) (fun _ => True).
  Proof.
    intros A m r f. eapply ch_bind; [apply ch_hash_r|]. intros a ->.
    eapply (ch_then _ 0); [apply ch_find_right| |lia]. intros a _. apply ch_ret. auto.
  Qed.
  Lemma ch_is_right_paired : forall m r, cheap (1 + nr m (hr m r)) (u_is_right_paired E m r) (fun _ => True).
  Proof. intros. apply (ch_key_r m r (fun _ o => match o with Some x => negb (set_is_empty (r_pairs x)) | None => false end)). Qed.
  Lemma ch_get_right : forall m l, cheap (1 + nl m (hl m l)) (u_get_right E m l) (fun _ => True).
  Proof. intros. unfold u_get_right. apply (ch_key_l m l (fun h o => match o with None => None | Some p => _ end)). Qed.
  Lemma ch_inner : forall {A} n (o : outcome A), cheap n (inner o) (fun _ => True).
  Proof. intros A n o w _. exists w. split; [lia|]. destruct o; simpl; auto. Qed.
  Lemma ch_get_left_all : forall m r, cheap (1 + nr m (hr m r)) (u_get_left_all E m r) (fun _ => True).
  Proof.
    intros. unfold u_get_left_all. eapply ch_bind; [apply ch_hash_r|]. intros a ->.
    eapply (ch_then _ 0); [apply ch_find_right| |lia]. intros [e|] _; [|apply ch_ret; auto].
    eapply (ch_then 0 0); [apply ch_inner| |lia]. intros. apply ch_ret. auto.
  Qed.
  Lemma ch_retain_paired_key : forall m p, cheap (1 + nl m (hl m (fst p))) (u_retain_paired_key E m p) (fun _ => True).
  Proof.
    intros m p. unfold u_retain_paired_key. eapply ch_bind; [apply ch_hash_l|]. intros a ->.
    eapply (ch_then _ 0); [apply ch_find_left| |lia]. intros o _.
    eapply (ch_then 0 0); [apply (ch_unwrap _ _ (fun _ => True)); auto| |lia]. intros. apply ch_ret. auto.
  Qed.
  Lemma ch_retain_unpaired_key : forall m r, cheap (1 + nr m (hr m r)) (u_retain_unpaired_key E m r) (fun _ => True).
  Proof.
    intros m r. unfold u_retain_unpaired_key. eapply ch_bind; [apply ch_hash_r|]. intros a ->.
    eapply (ch_then _ 0); [apply ch_find_right| |lia]. intros o _.
    eapply (ch_then 0 0); [apply (ch_unwrap _ _ (fun _ => True)); auto| |lia]. intros. apply ch_ret. auto.
  Qed.
  (* the loop of the retain functions: what is left of the iterator pays for the keys *)
  Section Loops.
    Context {I A : Type}.
    Variable next : I -> outcome (option A * I).
    Variable left_over : I -> nat.
    Variable per_item : A -> nat.
    Hypothesis PN : forall it a it', next it = Done (Some a, it') -> per_item a + left_over it' <= left_over it.
    Lemma ch_scan : forall {X} (f : X -> A -> X * verdict) key,
      (forall a, cheap (per_item a) (key a) (fun _ => True)) ->
      forall fuel it x, cheap (left_over it) (u_retain_scan f next key fuel it x) (fun _ => True).
    Proof.
      intros X f key HK.
      assert (HD : forall a (ans : bool), cheap (per_item a) (if ans then t <- key a ;; ret [t] else ret []) (fun _ => True)).
      { intros a [|]; [|apply ch_ret; auto]. eapply (ch_then _ 0); [apply HK| |lia]. intros. apply ch_ret. auto. }
      assert (CN : forall it, cheap 0 (inner (next it)) (fun x => next it = Done x)).
      { intros it w _. exists w. split; [lia|]. destruct (next it); simpl; auto. }
      induction fuel as [|fuel IH]; intros it x; cbn [u_retain_scan];
        (eapply (ch_then 0 (left_over it)); [apply CN| |lia]); intros [[a|] it'] Q;
        try (apply ch_ret; exact Logic.I); apply PN in Q; destruct (f x a) as [x' [ans|]]; try (apply ch_ret; exact Logic.I).
      - eapply (ch_then _ 0); [apply HD| |lia]. intros. apply ch_panic.
      - eapply (ch_then _ (left_over it')); [apply HD| |lia]. intros d _.
        eapply (ch_then _ 0); [apply IH| |lia]. intros. apply ch_ret. auto.
    Qed.
  End Loops.
  Definition sums {T A} (v : A -> T) (f : T -> nat) (it : list (N * A)) : nat := list_sum (List.map (fun x => f (v (snd x))) it).
  Lemma sums_cons : forall {T A} (v : A -> T) (f : T -> nat) h e it, sums v f ((h, e) :: it) = f (v e) + sums v f it.
  Proof. reflexivity. Qed.
  Lemma sp_retain_with : forall {X} n m (scan : map -> M fuse (res X (list (N * N)))) da,
    cheap n (scan m) (fun _ => True) -> spends n m (u_retain_with scan da) (fun _ _ => True).
  Proof.
    intros X n m scan da H. unfold u_retain_with. eapply (sp_look_then _ 0); [exact H| |lia].
    intros [y l|y] _; [|apply sp_panic]. apply sp_calm. auto.
  Qed.
  Lemma sp_retain_paired : forall {X} (f : X -> L * R -> X * verdict) m x,
    spends (sums (@l_value L) (fun l => 1 + nl m (hl m l)) (slots (left_set m))) m (u_retain_paired E f x) (fun _ _ => True).
  Proof.
    intros X f m x. unfold u_retain_paired. apply sp_retain_with.
    apply (ch_scan _ (sums (@l_value L) (fun l => 1 + nl m (hl m l))) (fun p => 1 + nl m (hl m (fst p)))); [|apply ch_retain_paired_key].
    intros [|[h e] it] a it' Q; simpl in Q; [discriminate|]. destruct (t_get _ _ _ _); inversion Q; subst.
    rewrite sums_cons. simpl. lia.
  Qed.
  Lemma sp_retain_unpaired : forall {X} (f : X -> R -> X * verdict) m x,
    spends (sums (@r_value R) (fun r => 1 + nr m (hr m r)) (slots (right_set m))) m (u_retain_unpaired E f x) (fun _ _ => True).
  Proof.
    intros X f m x. unfold u_retain_unpaired. apply sp_retain_with.
    apply (ch_scan _ (sums (@r_value R) (fun r => 1 + nr m (hr m r))) (fun r => 1 + nr m (hr m r))); [|apply ch_retain_unpaired_key].
    intros it a it'. induction it as [|[h e] it IH]; intros Q; simpl in Q; [discriminate|].
    rewrite sums_cons. destruct (set_is_empty (r_pairs e)); [inversion Q; subst; lia|]. apply IH in Q. lia.
  Qed.

  (* ---- removing ---- *)
  Lemma assign_r_set : forall (m : map) h p f m' u,
    (b <- unwrap (t_get_mut E (right_set m) h p) ;; right_assign (fst b) f) m = Ret m' u ->
    exists i, m' = set_right (t_modify (right_set m) i f) m.
  Proof.
    intros m h p f m' u Q. unfold bind, unwrap, right_assign, getst, putst in Q. destruct (t_get_mut _ _ _ _) as [[i x]|]; [|discriminate].
    inversion Q; subst. simpl. eauto.
  Qed.
  Lemma modify_right_under : forall (m : map) i f, under m (set_right (t_modify (right_set m) i f) m).
  Proof. intros. split; [auto|]. split; simpl; [apply less_refl|apply less_modify, less_refl]. Qed.
  Lemma modify_left_under : forall (m : map) i f, under m (set_left (t_modify (left_set m) i f) m).
  Proof. intros. split; [auto|]. split; simpl; [apply less_modify, less_refl|apply less_refl]. Qed.
  Lemma sp_remove_left : forall m l, spends (1 + nl m (hl m l)) m (u_remove_left E l)
    (fun m' _ => under m m' /\ forall r, group E m' r <= group E m r).
  Proof.
    intros m l. unfold u_remove_left. eapply sp_look_bind; [apply ch_hash_l|]. intros a ->.
    eapply (sp_then _ 0); [apply sp_left_remove| |lia]. intros m1 o [U1 Q1]. destruct o as [e|];
    assert (G1 : forall r, group E m1 r <= group E m r)
      by (intros r; unfold group; rewrite !get_left_iter_as; destruct U1 as (-> & _); rewrite Q1; auto).
    2:{ apply sp_ret; auto. }
    apply (sp_then 0 0 _ _ _ _ (fun m' _ => under m m' /\ forall r, group E m' r <= group E m r)); [| |lia].
    - apply sp_calm. intros m2 u Q. cbv beta in Q. unfold bind at 1, getst in Q. apply assign_r_set in Q as (i & ->).
      split; [eapply under_trans; [exact U1|apply modify_right_under]|].
      intros r. etransitivity; [|apply G1]. apply group_shrink; [reflexivity|apply pairs_remove_len].
    - intros. apply sp_ret. auto.
  Qed.
  Lemma ch_seen : forall l seen, cheap (length seen) (u_seen E l seen) (fun _ => True).
  Proof.
    induction seen as [|x t IH]; simpl; [apply ch_ret; auto|].
    apply (ch_bind 1 _ _ _ (fun _ => True)); [apply ch_user; auto|]. intros b _. destruct b; [apply ch_ret; auto|exact IH].
  Qed.
  Lemma sum_seq_mono : forall k a b, a <= b -> list_sum (seq a k) <= list_sum (seq b k).
  Proof.
    unfold list_sum. induction k as [|k IH]; intros a b H; simpl; auto.
    specialize (IH (Datatypes.S a) (Datatypes.S b)). lia.
  Qed.
  Lemma drop_cost_mono : forall a b, a <= b -> drop_cost a <= drop_cost b.
  Proof.
    intros a b H. unfold drop_cost. replace b with (a + (b - a)) by lia.
    rewrite seq_app, list_sum_app. lia.
  Qed.
  Lemma sp_remove_pairs : forall ps seen m, spends (list_sum (seq (1 + length seen) (length ps))) m (u_remove_pairs E seen ps)
    (fun m' _ => under m m').
  Proof.
    induction ps as [|[h i] ps IH]; intros seen m; cbn [u_remove_pairs]; [apply sp_ret, under_refl|].
    change (list_sum (seq (1 + length seen) (length ((h, i) :: ps))))
      with (1 + length seen + list_sum (seq (2 + length seen) (length ps))).
    set (k := list_sum (seq (2 + length seen) (length ps))).
    apply (sp_then 0 (1 + length seen + k) _ _ _ _ (fun m' _ => under m m')); [| |lia].
    { apply sp_calm. intros m' o Q. eapply left_remove_under; eauto. }
    intros m1 o U1. apply (sp_then 0 (1 + length seen + k) _ _ _ _ (fun m' _ => m' = m1)); [apply sp_unwrap; auto| |lia].
    intros m2 e ->. eapply (sp_look_then 1 (length seen + k)); [apply (ch_user _ (fun _ => True)); auto| |lia]. intros _ _.
    eapply (sp_look_then _ k); [apply ch_seen| |lia]. intros b _.
    eapply sp_more; [apply IH| |].
    - apply sum_seq_mono. destruct b; simpl; lia.
    - intros m' ls U. eapply under_trans; eauto.
  Qed.
  Lemma sp_remove_right : forall m r, spends (1 + nr m (hr m r) + drop_cost (group E m r)) m (u_remove_right E r)
    (fun m' _ => under m m').
  Proof.
    intros m r. unfold u_remove_right. eapply (sp_look_then _ (nr m (hr m r) + drop_cost (group E m r))); [apply ch_hash_r| |lia].
    intros a ->. eapply (sp_then _ (drop_cost (group E m r))); [apply sp_right_remove| |lia].
    intros m1 [e|] [U1 G]; [|apply sp_ret; auto].
    eapply (sp_then _ 0); [apply (sp_remove_pairs _ [])| |rewrite G; simpl length; unfold drop_cost; simpl Nat.add; lia].
    intros m2 ls U2. apply sp_ret. eapply under_trans; eauto.
  Qed.
  Lemma sp_remove : forall m l r,
    spends (2 + nl m (hl m l) + nr m (hr m r) + (1 + nr m (hr m r) + drop_cost (group E m r))) m (u_remove E l r) (fun _ _ => True).
  Proof.
    intros m l r. unfold u_remove. eapply sp_look_bind; [apply ch_are_paired|].
    intros [|] _; [|apply sp_ret; exact I]. eapply sp_more; [apply sp_remove_right|lia|auto].
  Qed.

  (* ---- adding ---- *)
  Definition ins_l (m : map) (h : N) := rehash_cost (lo E) (left_set m) (hb_next (lo E) (lay (left_set m)) (CInsert h (N.of_nat (t_len (left_set m))))).
  Definition ins_r (m : map) (h : N) := rehash_cost (lo E) (right_set m) (hb_next (lo E) (lay (right_set m)) (CInsert h (N.of_nat (t_len (right_set m))))).
  Lemma sp_left_insert : forall m h e, spends (ins_l m h) m (u_left_insert E F h e) (fun (m' : map) (_ : unit) => right_set m' = right_set (m : map)).
  Proof.
    intros m h e w Hw. unfold u_left_insert, on_left, u_insert. simpl.
    destruct (rehashing_cost (lo E) F true (left_set m) _ (t_insert (lo E) (left_set m) h e (make_hasher_l E (hash_builder m))) w Hw)
      as (w' & HL & ->). exists w'. auto.
  Qed.
  Lemma sp_right_insert : forall m h e, spends (ins_r m h) m (u_right_insert E F h e) (fun _ _ => True).
  Proof.
    intros m h e w Hw. unfold u_right_insert, on_right, u_insert. simpl.
    destruct (rehashing_cost (lo E) F true (right_set m) _ (t_insert (lo E) (right_set m) h e (make_hasher_r E (hash_builder m))) w Hw)
      as (w' & HL & ->). exists w'. auto.
  Qed.
  (* ml, mr: what rehashing may cost *)
  Definition rehash_bound (ml mr : nat) (m : map) : Prop := forall m', under m m' ->
    (forall h, ins_l m' h <= ml) /\ (forall h, ins_r m' h <= mr).
  Lemma rehash_bound_len : forall m, rehash_bound (t_len (left_set m)) (t_len (right_set m)) m.
  Proof.
    intros m m' (_ & H1 & H2). apply less_len in H1. apply less_len in H2.
    split; intros h; unfold ins_l, ins_r; (etransitivity; [apply rehash_le|auto]).
  Qed.
  (* no rehashing where there is room *)
  Lemma rehash_bound_room : forall m, capacity_ok (lo E) -> calm_ok (lo E) ->
    room E 1 m -> rehash_bound 0 0 m.
  Proof.
    assert (H : forall A (t t' : table A) h, capacity_ok (lo E) -> calm_ok (lo E) -> less (lo E) t t' ->
      room_for (lo E) 1 t -> rehash_cost (lo E) t' (hb_next (lo E) (lay t') (CInsert h (N.of_nat (t_len t')))) <= 0).
    { intros A t t' h CO CA U Q. pose proof (less_room (lo E) t t' 1 CO U Q) as RM. unfold rehash_cost.
      rewrite (calm_insert _ CA); auto. unfold room_for, size, t_capacity in RM. lia. }
    intros m CO CA [RL RR] m' (_ & H1 & H2). split; intros h; eapply H; eauto.
  Qed.
  Lemma nl_under : forall m m' l, under m m' -> nl m' (hl m' l) <= nl m (hl m l).
  Proof. intros m m' l (-> & H & _). apply (less_near (lo E)), H. Qed.
  Lemma nr_under : forall m m' r, under m m' -> nr m' (hr m' r) <= nr m (hr m r).
  Proof. intros m m' r (-> & _ & H). apply (less_near (lo E)), H. Qed.
  Definition same_sets (m m' : map) : Prop := left_set m' = left_set m /\ right_set m' = right_set m.
  Lemma incr_left_sets : forall m m' u, incr_left E m = Ret m' u -> same_sets m m'.
  Proof.
    intros m m' u Q. unfold incr_left, bind, getst, unwrap, putst in Q.
    destruct (u64_incr _ _); inversion Q; subst. split; auto.
  Qed.
  Lemma incr_right_sets : forall m m' u, incr_right E m = Ret m' u -> same_sets m m'.
  Proof.
    intros m m' u Q. unfold incr_right, bind, getst, unwrap, putst in Q.
    destruct (u64_incr _ _); inversion Q; subst. split; auto.
  Qed.
  Lemma incr_both_sets : forall m m' u, (incr_left E ;;; incr_right E) m = Ret m' u -> same_sets m m'.
  Proof.
    intros m m' u Q. unfold bind in Q. destruct (incr_left E m) as [m1 []|] eqn:Q1; [|discriminate].
    apply incr_left_sets in Q1 as [A B]. apply incr_right_sets in Q as [C D]. split; congruence.
  Qed.
  Lemma sp_const : forall {A B} n (m : map) (f : map -> A) (k : A -> FM B) Q,
    (forall a, spends n m (k a) Q) -> spends n m (bind (look (fun m => ret (f m))) k) Q.
  Proof. intros A B n m f k Q H. apply (sp_look_then 0 n _ _ _ _ (fun _ => True)); [apply ch_ret; exact I| |lia]. auto. Qed.
  Lemma sp_free : forall {A B} n (m : map) (c : M map A) (k : A -> FM B) (P : map -> A -> Prop) Q, (forall m' a, c m = Ret m' a -> P m' a) ->
    (forall m' a, P m' a -> spends n m' (k a) Q) -> spends n m (bind (calmly c) k) Q.
  Proof. intros A B n m c k P Q H H2. apply (sp_then 0 n _ _ _ _ P); [apply sp_calm; auto|auto|lia]. Qed.

  Lemma sp_insert : forall ml mr m l r, rehash_bound ml mr m ->
    spends (2 + nl m (hl m l) + nr m (hr m r) + ml + mr) m (u_insert_pair E F l r) (fun _ _ => True).
  Proof.
    intros ml mr m l r RB. unfold u_insert_pair. set (a := nl m (hl m l)). set (b := nr m (hr m r)).
    eapply (sp_look_then _ (1 + a + b + ml + mr)); [apply ch_hash_l| |lia]. intros h ->.
    eapply (sp_look_then _ (a + b + ml + mr)); [apply ch_hash_r| |lia]. intros h ->.
    eapply (sp_look_then _ (b + ml + mr)); [apply ch_mut_left| |unfold a; lia]. intros ol _.
    eapply (sp_look_then _ (ml + mr)); [apply ch_mut_right| |unfold b; lia]. intros orr _.
    apply sp_const. intros lc. apply sp_const. intros rc.
    destruct ol as [[i x]|], orr as [[j y]|].
    - apply sp_calm. auto.
    - eapply (sp_free _ _ _ _ (fun m' _ => under m m')).
      + intros m1 u Q. unfold bind, getst, unwrap, left_assign, right_assign, putst in Q.
        destruct (t_get_mut _ _ _ _) as [[k z]|]; [|discriminate]. inversion Q; subst.
        split; [auto|]. split; simpl; [apply less_modify, less_modify, less_refl|apply less_modify, less_refl].
      + intros m1 u U1. destruct (RB m1 U1) as [_ B]. eapply (sp_then _ 0); [apply sp_right_insert| |specialize (B (hr m r)); lia].
        intros. apply sp_calm. auto.
    - eapply (sp_free _ _ _ _ (fun m' _ => under m m')).
      + intros m1 u Q. unfold bind, getst, right_assign, putst in Q. inversion Q; subst. apply modify_right_under.
      + intros m1 u U1. destruct (RB m1 U1) as [B _]. eapply (sp_then _ 0); [apply sp_left_insert| |specialize (B (hl m l)); lia].
        intros. apply sp_calm. auto.
    - destruct (RB m (under_refl m)) as [B1 B2].
      eapply (sp_then _ mr); [apply sp_left_insert| |specialize (B1 (hl m l)); lia]. intros m1 u Q1.
      eapply (sp_then _ 0); [apply sp_right_insert| |specialize (B2 (hr m r)); unfold ins_r in *; rewrite Q1; lia].
      intros. apply sp_calm. auto.
  Qed.
  Lemma sp_insert_right : forall ml mr m r, rehash_bound ml mr m ->
    spends (1 + (1 + nr m (hr m r) + drop_cost (group E m r)) + mr) m (u_insert_right E F r) (fun _ _ => True).
  Proof.
    intros ml mr m r RB. unfold u_insert_right.
    eapply (sp_then _ (1 + mr)); [apply sp_remove_right| |lia]. intros m1 a U1.
    eapply (sp_look_then _ mr); [apply ch_hash_r| |lia]. intros h1 _. apply sp_const. intros rc.
    eapply (sp_free _ _ _ _ (fun m' _ => same_sets m1 m')); [intros; eapply incr_right_sets; eauto|].
    intros m3 u3 [HL HR]. destruct (RB m1 U1) as [B1 B2].
    eapply (sp_then _ 0); [apply sp_right_insert| |unfold ins_r; rewrite HR; specialize (B2 h1); unfold ins_r in B2; lia].
    intros. apply sp_ret. auto.
  Qed.
  Lemma sp_insert_remove : forall ml mr m l r, rehash_bound ml mr m ->
    spends (3 + nl m (hl m l) + (1 + nr m (hr m r) + drop_cost (group E m r)) + ml + mr) m (u_insert_remove E F l r) (fun _ _ => True).
  Proof.
    intros ml mr m l r RB. unfold u_insert_remove. set (a := nl m (hl m l)).
    eapply (sp_then _ (2 + (1 + nr m (hr m r) + drop_cost (group E m r)) + ml + mr)); [apply sp_remove_left| |unfold a; lia].
    intros m1 x [U1 G1]. eapply (sp_then _ (2 + ml + mr)); [apply sp_remove_right| |].
    2:{ pose proof (nr_under m m1 r U1). pose proof (drop_cost_mono _ _ (G1 r)). lia. }
    intros m2 y U2. assert (U : under m m2) by exact (under_trans _ _ _ U1 U2).
    eapply (sp_look_then _ (1 + ml + mr)); [apply ch_hash_l| |lia]. intros h1 _.
    eapply (sp_look_then _ (ml + mr)); [apply ch_hash_r| |lia]. intros h2 _.
    apply sp_const. intros lc. apply sp_const. intros rc.
    eapply (sp_free _ _ _ _ (fun m' _ => same_sets m2 m')); [intros; eapply incr_both_sets; eauto|].
    intros m3 u3 [HL HR]. destruct (RB m2 U) as [B1 B2].
    eapply (sp_then _ mr); [apply sp_left_insert| |unfold ins_l; rewrite HL; specialize (B1 h1); unfold ins_l in B1; lia].
    intros m4 u4 Q4. eapply (sp_then _ 0); [apply sp_right_insert| |].
    - intros. apply sp_ret. auto.
    - unfold ins_r. rewrite Q4, HR. specialize (B2 h2). unfold ins_r in B2. lia.
  Qed.
  Lemma sp_insert_left : forall ml mr m l r, rehash_bound ml mr m ->
    spends (3 + nl m (hl m l) + nr m (hr m r) + ml) m (u_insert_left E F l r) (fun _ _ => True).
  Proof.
    intros ml mr m l r RB. unfold u_insert_left. set (a := nl m (hl m l)). set (b := nr m (hr m r)).
    eapply (sp_look_then _ (2 + a + b + ml)); [apply ch_hash_r| |lia]. intros h ->.
    eapply (sp_look_then _ (2 + a + ml)); [apply ch_mut_right| |unfold b; lia]. intros [[j x]|] _; [|apply sp_ret; auto].
    eapply (sp_look_then _ (1 + a + ml)); [apply ch_hash_l| |lia]. intros h ->.
    apply sp_const. intros lc.
    eapply (sp_free _ _ _ _ (fun m' _ => under m m')).
    { intros m1 u Q. unfold bind, getst, right_assign, putst in Q. inversion Q; subst. apply modify_right_under. }
    intros m1 u U1. eapply (sp_then _ ml); [apply sp_remove_left| |pose proof (nl_under m m1 l U1); unfold a; lia].
    intros m2 d [U2 _]. assert (U : under m m2) by exact (under_trans _ _ _ U1 U2). destruct (RB m2 U) as [B _].
    eapply (sp_free _ _ _ _ (fun m' _ => same_sets m2 m')); [intros; eapply incr_left_sets; eauto|]. intros m3 u3 [HL HR].
    eapply (sp_then _ 0); [apply sp_left_insert| |unfold ins_l; rewrite HL; specialize (B (hl m l)); unfold ins_l in B; lia].
    intros. apply sp_ret. auto.
  Qed.

  (* ---- swaps and pair ---- *)
  Lemma sp_swap_right : forall ml mr m old new, rehash_bound ml mr m ->
    spends (1 + nr m (hr m old) + (1 + (1 + nr m (hr m new) + drop_cost (group E m new)) + mr)) m (u_swap_right E F old new) (fun _ _ => True).
  Proof.
    intros ml mr m old new RB. unfold u_swap_right. set (b := nr m (hr m old)). set (c := 1 + (1 + _ + _) + mr).
    eapply (sp_look_then _ (b + c)); [apply ch_hash_r| |lia]. intros h ->.
    eapply (sp_look_then _ c); [apply ch_mut_right| |unfold b; lia]. intros [[j x]|] _.
    - apply sp_const. intros rc. cbv zeta.
      eapply (sp_free _ _ _ _ (fun m' _ => under m m')).
      { intros m1 u Q. unfold bind, getst, right_assign, putst in Q. inversion Q; subst. apply modify_right_under. }
      intros m1 u U1. eapply (sp_look_then _ mr); [apply ch_hash_r| |unfold c; lia]. intros h _.
      destruct (RB m1 U1) as [_ B]. eapply (sp_then _ 0); [apply sp_right_insert| |specialize (B h); lia].
      intros. apply sp_calm. auto.
    - eapply (sp_then _ 0); [eapply sp_insert_right; eauto| |unfold c; lia]. intros. apply sp_ret. auto.
  Qed.
  Lemma sp_swap_right_remove : forall ml mr m old new, rehash_bound ml mr m ->
    spends (1 + nr m (hr m old) + (1 + (1 + nr m (hr m new) + drop_cost (group E m new)) + mr)) m (u_swap_right_remove E F old new) (fun _ _ => True).
  Proof.
    intros ml mr m old new RB. unfold u_swap_right_remove. set (b := nr m (hr m old)). set (c := 1 + (1 + _ + _) + mr).
    eapply (sp_look_then _ (b + c)); [apply ch_hash_r| |lia]. intros h ->.
    pose proof (ch_remove_entry (lo E) tag FR (right_set m) (hr m old) (equivalent_key_right (eqR E) old)) as C.
    apply (sp_then b c _ _ _ _ (fun m' o => under m m' /\ (o = None -> m' = m))); [| |lia].
    - unfold u_right_remove_entry. eapply (sp_look_then _ 0); [exact C| |unfold b; lia].
      intros [[e t]|] HQ; [|apply sp_ret; split; [apply under_refl|auto]].
      apply (sp_bind 0 0 _ _ _ (fun m' _ => under m m')); [|intros; apply sp_ret; split; [auto|discriminate]].
      apply sp_calm. intros m' a Q. unfold bind, getst, putst in Q. inversion Q; subst.
      split; [auto|]. split; simpl; [apply less_refl|eapply HQ; eauto].
    - intros m1 [e|] [U1 Q1].
      + apply sp_const. intros rc. cbv zeta.
        eapply (sp_look_then _ mr); [apply ch_hash_r| |unfold c; lia]. intros h _.
        destruct (RB m1 U1) as [_ B]. eapply (sp_then _ 0); [apply sp_right_insert| |specialize (B h); lia].
        intros. eapply (sp_free _ _ _ _ (fun _ _ => True)); [auto|]. intros. apply sp_ret. auto.
      + rewrite (Q1 eq_refl). eapply (sp_then _ 0); [eapply sp_insert_right; eauto| |unfold c; lia]. intros. apply sp_ret. auto.
  Qed.
  Lemma sp_pair : forall m l r, spends (2 + nl m (hl m l) + 2 * nr m (hr m r)) m (u_pair E l r) (fun _ _ => True).
  Proof.
    intros m l r. unfold u_pair. set (a := nl m (hl m l)). set (b := nr m (hr m r)).
    eapply (sp_look_then _ (1 + a + 2 * b)); [apply ch_hash_l| |lia]. intros h ->.
    eapply (sp_look_then _ (a + 2 * b)); [apply ch_hash_r| |lia]. intros h ->.
    eapply (sp_look_then _ (2 * b)); [apply ch_mut_left| |unfold a; lia]. intros ol _.
    eapply (sp_look_then _ b); [apply ch_find_right| |unfold b; lia]. intros orr _.
    destruct ol as [[i x]|]; [|apply sp_ret; auto]. destruct orr as [y|]; [|apply sp_ret; auto].
    eapply (sp_free _ _ _ _ (fun m' _ => under m m')).
    - intros m1 u Q. unfold left_assign, right_assign, bind, getst, unwrap, putst in Q.
      match type of Q with context[t_get_mut ?x1 ?x2 ?x3 ?x4] => destruct (t_get_mut x1 x2 x3 x4) as [[k z]|] end; [|discriminate]. inversion Q; subst.
      split; [auto|]. split; simpl; [apply less_modify, less_modify, less_refl|apply less_modify, less_refl].
    - intros m1 u (_ & _ & U). eapply (sp_look_then _ 0); [apply ch_mut_right| |].
      2:{ pose proof (less_near (lo E) tag _ _ (hr m r) U). unfold b. lia. }
      intros o _. eapply (sp_then 0 0); [apply (sp_unwrap _ _ _ (fun _ _ => True)); auto| |lia]. intros m2 p _.
      eapply (sp_free _ _ _ _ (fun _ _ => True)); [auto|]. intros. apply sp_ret. auto.
  Qed.

  (* ---- all calls, in terms of the items ---- *)
  Lemma via_spends : forall {A} n m w (k : A -> out L R) (c : FM A) c0 K Q, tracks m c c0 K -> spends n m c Q ->
    n <= w -> u_via k c m (Some w) = via k (c0 m).
  Proof.
    intros A n m w k c c0 K Q T SP Hw. destruct (spends_tracks _ _ _ _ _ _ T SP w Hw) as (w' & HC).
    unfold u_via, via. rewrite HC. destruct (c0 m); reflexivity.
  Qed.
  Lemma read_spends : forall {A} n m w (k : A -> out L R) (f : map -> M fuse A) o Q, agrees (f m) o -> cheap n (f m) Q ->
    n <= w -> u_via k (look f) m (Some w) = GroupHistory.seen m k o.
  Proof.
    intros A n m w k f o Q T SP Hw. destruct (cheap_agrees _ _ _ _ T SP w Hw) as (w' & HC).
    unfold u_via, look. cbn [fst snd]. rewrite HC. destruct o; reflexivity.
  Qed.
  Lemma forget_spends : forall {X} n m w (u : FM unit) (r : map -> res (map * X) unit) K Q, tracks m u (forget r) K ->
    spends n m u Q -> n <= w -> u_via (fun _ => OUnit) u m (Some w) = via_closure (r m).
  Proof.
    intros X n m w u r K Q T SP Hw. rewrite (via_spends n m w _ u _ K Q T SP Hw). unfold via, forget.
    destruct (r m) as [[? ?] []|[? ?]]; reflexivity.
  Qed.

  Variables (GL : L -> Prop) (GR : R -> Prop) (b : bool).
  Notation Inv s m := (Inv E GL GR s b m).
  Lemma near_l : forall s m l, Inv s m ->
    nl m (hl m l) = like_l tag (hashL E s) (t_values (@l_value L) (left_set m)) l.
  Proof. intros s m l (-> & (H & _) & _). rewrite (near_hashed tag (@l_value L) (hashL E s)) by exact H. reflexivity. Qed.
  Lemma near_r : forall s m r, Inv s m ->
    nr m (hr m r) = like_r tag (hashR E s) (t_values (@r_value R) (right_set m)) r.
  Proof. intros s m r (-> & _ & (H & _)). rewrite (near_hashed tag (@r_value R) (hashR E s)) by exact H. reflexivity. Qed.
  Lemma sums_l : forall s m (f : nat -> nat), Inv s m ->
    sums (@l_value L) (fun l => f (nl m (hl m l))) (slots (left_set m)) =
    list_sum (List.map (fun l => f (like_l tag (hashL E s) (t_values (@l_value L) (left_set m)) l)) (t_values (@l_value L) (left_set m))).
  Proof.
    intros s m f I0. unfold sums. f_equal. unfold t_values at 2. rewrite map_map. apply map_ext. intros x.
    rewrite (near_l s) by exact I0. auto.
  Qed.
  Lemma sums_r : forall s m (f : nat -> nat), Inv s m ->
    sums (@r_value R) (fun r => f (nr m (hr m r))) (slots (right_set m)) =
    list_sum (List.map (fun r => f (like_r tag (hashR E s) (t_values (@r_value R) (right_set m)) r)) (t_values (@r_value R) (right_set m))).
  Proof.
    intros s m f I0. unfold sums. f_equal. unfold t_values at 2. rewrite map_map. apply map_ext. intros x.
    rewrite (near_r s) by exact I0. auto.
  Qed.
  Lemma budget_ok : forall s m gl gr o w, Inv s m -> rehash_bound gl gr m -> is_extend o = false ->
    budget tag (hashL E s) (hashR E s) (t_values (@l_value L) (left_set m)) (t_values (@r_value R) (right_set m))
      (group E m) gl gr o <= w ->
    u_step E F m o (Some w) = step E m o.
  Proof.
    intros s m gl gr o w I0 RB X B.
    destruct o; try discriminate X; cbn [u_step step budget] in *; auto;
      unfold insert_right_cost, remove_right_cost in B; rewrite <- ?(near_l s), <- ?(near_r s) in B by exact I0.
    - eapply via_spends; [apply tr_insert|eapply sp_insert, RB|lia].
    - eapply via_spends; [apply tr_insert_remove|eapply sp_insert_remove, RB|lia].
    - eapply via_spends; [apply tr_insert_left|eapply sp_insert_left, RB|lia].
    - eapply via_spends; [apply tr_insert_right|eapply sp_insert_right, RB|lia].
    - eapply via_spends; [apply tr_swap_right|eapply sp_swap_right, RB|lia].
    - eapply via_spends; [apply tr_swap_right_remove|eapply sp_swap_right_remove, RB|lia].
    - eapply via_spends; [apply tr_pair|apply sp_pair|lia].
    - eapply via_spends; [apply tr_remove|apply sp_remove|lia].
    - eapply via_spends; [apply (tr_remove_left E _ _ (fun _ => True)); auto|apply sp_remove_left|lia].
    - eapply via_spends; [apply tr_remove_right|apply sp_remove_right|lia].
    - apply (read_spends (1 + nr m (hr m r)) m w OBool (fun m => u_is_right_paired E m r) (Done _) (fun _ => True));
        [apply ag_is_right_paired|apply ch_is_right_paired|lia].
    - apply (read_spends (2 + nl m (hl m l) + nr m (hr m r)) m w OBool (fun m => u_are_paired E m l r) (Done _) (fun _ => True));
        [apply ag_are_paired|apply ch_are_paired|lia].
    - apply (read_spends (1 + nl m (hl m l)) m w OBool (fun m => u_contains_left E m l) (Done _) (fun _ => True));
        [apply ag_contains_left|apply (ch_key_l m l (fun _ o => is_some o))|lia].
    - apply (read_spends (1 + nr m (hr m r)) m w OBool (fun m => u_contains_right E m r) (Done _) (fun _ => True));
        [apply ag_contains_right|apply (ch_key_r m r (fun _ o => is_some o))|lia].
    - apply (read_spends (1 + nl m (hl m l)) m w OR (fun m => u_get_right E m l) (Done _) (fun _ => True));
        [apply ag_get_right|apply ch_get_right|lia].
    - rewrite (read_spends _ m w OLsO (fun m => u_get_left_all E m r) _ _ (ag_get_left_all E m r) (ch_get_left_all m r)) by lia.
      destruct (get_left_iter E m r) as [it|]; [|reflexivity]. destruct (pair_rest E m it); reflexivity.
    - apply (forget_spends _ m w _ (fun m => retain_paired E f (m, x)) _ _ (tr_retain_paired E f m x (fun _ => True) I) (sp_retain_paired f m x)).
      rewrite (sums_l s m (fun n => 1 + n)) by exact I0. exact B.
    - apply (forget_spends _ m w _ (fun m => retain_unpaired E f (m, x)) _ _ (tr_retain_unpaired E f m x (fun _ => True) I) (sp_retain_unpaired f m x)).
      rewrite (sums_r s m (fun n => 1 + n)) by exact I0. exact B.
  Qed.

  (* == : a lookup in the other map for every item *)
  Definition eq_cost (other : map) (x : option L * R) : nat :=
    match fst x with
    | Some l => 2 + nl other (hl other l) + nr other (hr other (snd x))
    | None => 1 + nr other (hr other (snd x))
    end.
  Lemma ch_eq_item : forall other x, cheap (eq_cost other x) (u_eq_item E other x) (fun _ => True).
  Proof.
    intros other [[l|] r]; unfold u_eq_item, eq_cost; cbn [fst snd]; [apply ch_are_paired|].
    eapply (ch_then _ 0); [apply ch_is_right_paired| |lia]. intros. apply ch_ret. auto.
  Qed.
  Lemma ch_all_items : forall m other es fuel it, collect (iter_next E m) fuel it = Done es ->
    cheap (list_sum (List.map (eq_cost other) es)) (u_all_items E m other fuel it) (fun _ => True).
  Proof.
    assert (CI : forall {A} n (o : outcome A), cheap n (inner o) (fun x => o = Done x)).
    { intros A n o w _. exists w. split; [lia|]. destruct o; simpl; auto. }
    intros m other es fuel. revert es. induction fuel as [|fuel IH]; intros es it C; cbn [u_all_items collect] in *;
      destruct (iter_next E m it) as [[[x|] it']|] eqn:Q; simpl in C; try discriminate;
      (eapply (ch_then 0); [apply CI| |apply Nat.le_refl]); intros a Qa; inversion Qa; subst a; try (apply ch_ret; exact I).
    destruct (collect (iter_next E m) fuel it') as [es'|] eqn:C'; [|discriminate]. simpl in C. inversion C; subst es.
    cbn [List.map list_sum fold_right]. eapply (ch_then _ (list_sum (List.map (eq_cost other) es'))); [apply ch_eq_item| |apply Nat.le_refl].
    intros [|] _; [apply IH; exact C'|apply ch_ret; auto].
  Qed.
End Costs.

Section Props.
  Context {L R S : Type}.
  Variable E : env L R S.
  Hypothesis OK : lawful E.
  Variable F : fault.
  Hypothesis FO : fault_ok F.
  Variable tag : N -> N.
  Hypothesis FR : frugal (lo E) tag.
  Notation map := (gmap L R S).
  Notation budget_of m ls rs := (budget tag (hashL E (hash_builder m)) (hashR E (hash_builder m)) ls rs (group E m)).
  Notation INV m := (Inv E (fun _ => True) (fun _ => True) (hash_builder m) false m).

  Lemma survives_inv : forall m ops, survives E F m ops -> INV m.
  Proof.
    intros m ops (s & ll & lr & ->).
    assert (I1 : Inv E (fun _ => True) (fun _ => True) s false (fst (u_run E F (with_hasher s ll lr) ops))).
    { apply u_run_inv; try apply Forall_top; auto; [discriminate|]. apply inv_new. }
    destruct I1 as (H & I1). split; auto. rewrite H. exact I1.
  Qed.

  (* ---- C108 ---- a call whose fuse allows the budget does not notice the fuse: it runs user code
     no more often than that *)
  Theorem C108_budget : forall m ops ls rs o w, survives E F m ops -> lefts m ls -> rights m rs ->
    is_extend o = false -> (budget_of m ls rs (length ls) (length rs) o <= w)%nat ->
    u_step E F m o (Some w) = step E m o.
  Proof.
    intros m ops ls rs o w SV HL HR X B. apply lefts_are in HL. apply rights_are in HR. subst.
    eapply (budget_ok E F tag FR); eauto using survives_inv.
    unfold t_values. rewrite !map_length. apply rehash_bound_len.
  Qed.
  (* nothing is rehashed where there is room *)
  Theorem C108_roomy : forall m ops ls rs o w, capacity_ok (lo E) -> calm_ok (lo E) ->
    survives E F m ops -> lefts m ls -> rights m rs -> room E 1 m ->
    is_extend o = false -> (budget_of m ls rs 0 0 o <= w)%nat ->
    u_step E F m o (Some w) = step E m o.
  Proof.
    intros m ops ls rs o w CO CA SV HL HR RM X B. apply lefts_are in HL. apply rights_are in HR. subst.
    eapply (budget_ok E F tag FR); eauto using survives_inv, rehash_bound_room.
  Qed.
  (* without collisions a lookup is one Hash and at most one Eq, whatever the size of the map and of
     its groups *)
  Definition uncrowded (m : map) (ls : list L) (rs : list R) : Prop :=
    (forall a b, In a ls -> In b ls -> tag (hashL E (hash_builder m) a) = tag (hashL E (hash_builder m) b) -> eqL E a b = true) /\
    (forall a b, In a rs -> In b rs -> tag (hashR E (hash_builder m) a) = tag (hashR E (hash_builder m) b) -> eqR E a b = true).
  Theorem C108_lookup : forall m ops ls rs, fairly_survives E F m ops -> lefts m ls -> rights m rs -> uncrowded m ls rs ->
    forall o w, match o with
                | ContainsLeft _ | ContainsRight _ | IsRightPaired _ | GetLeftIter _ | GetRight _ | RemoveLeft _ => (2 <= w)%nat
                | ArePaired _ _ => (4 <= w)%nat
                | Pair _ _ => (5 <= w)%nat
                | RemoveRight r => (2 + drop_cost (group E m r) <= w)%nat
                | _ => False
                end -> u_step E F m o (Some w) = step E m o.
  Proof.
    intros m ops ls rs FSV HL HR [U1 U2] o w W.
    assert (SV : survives E F m ops) by (destruct FSV as (s & ll & lr & Q & _); exists s, ll, lr; exact Q).
    destruct (C101_sides E OK F FO m ops SV) as (ls' & rs' & HL' & HR' & D1 & _).
    destruct (C101_rights E OK F FO m ops FSV) as (rs2 & HR2 & D2).
    apply lefts_are in HL' as Q. apply lefts_are in HL as Q'. rewrite <- Q' in Q. subst ls'. clear Q'.
    apply rights_are in HR2 as Q. apply rights_are in HR as Q'. rewrite <- Q' in Q. subst rs2. clear Q'.
    assert (NL : forall l, (like_l tag (hashL E (hash_builder m)) ls l <= 1)%nat).
    { intros l. apply (filter_one (eqL E)); auto. intros a b Ha Hb P1 P2. apply U1; auto.
      apply N.eqb_eq in P1, P2. congruence. }
    assert (NR : forall r, (like_r tag (hashR E (hash_builder m)) rs r <= 1)%nat).
    { intros l. apply (filter_one (eqR E)); auto. intros a b Ha Hb P1 P2. apply U2; auto.
      apply N.eqb_eq in P1, P2. congruence. }
    eapply C108_budget; eauto; destruct o; try destruct W; cbn [budget is_extend]; auto; unfold remove_right_cost;
      try specialize (NL l); try specialize (NR r); lia.
  Qed.

  (* extend: the budgets of the insertions, one after the other *)
  Definition entry_op (e : option L * R) : op L R :=
    match fst e with Some l => Insert l (snd e) | None => InsertRight (snd e) end.
  Inductive extend_within : map -> list (option L * R) -> nat -> Prop :=
  | within_nil : forall m, extend_within m [] 0
  | within_cons : forall m ls rs e xs n, lefts m ls -> rights m rs ->
      extend_within (fst (step E m (entry_op e))) xs n ->
      extend_within m (e :: xs) (budget_of m ls rs (length ls) (length rs) (entry_op e) + n).
  Lemma sp_one : forall {A} m ls rs (c : M (fuse * map) A) (c0 : M map A) K (k : A -> out L R) o (rest : M (fuse * map) unit) n,
    fresh_swap E m o -> INV m -> lefts m ls -> rights m rs -> tracks m c c0 K ->
    spends (budget_of m ls rs (length ls) (length rs) o) m c (fun _ _ => True) ->
    step E m o = via k (c0 m) ->
    (INV (fst (step E m o)) -> spends n (fst (step E m o)) rest (fun _ _ => True)) ->
    spends (budget_of m ls rs (length ls) (length rs) o + n) m (c ;;; rest) (fun _ _ => True).
  Proof.
    intros A m ls rs c c0 K k o rest n FS I HL HR T SP ST IH w Hw.
    destruct (SP w) as (w1 & L1 & X); [lia|].
    destruct (spends_tracks _ _ _ _ _ _ T SP w) as (w2 & HC); [lia|].
    unfold bind. rewrite HC in *. assert (Q : fst (step E m o) = res_state (c0 m)).
    { rewrite ST. unfold via. destruct (c0 m); auto. }
    assert (I2 : Inv E (fun _ => True) (fun _ => True) (hash_builder m) false (fst (step E m o))).
    { rewrite <- (u_step_calm E F). apply u_step_inv; auto; apply Forall_top; auto. }
    destruct (c0 m) as [m1 d|m1]; simpl in X.
    - destruct X as [[= ->] _]. cbn [res_state] in Q. rewrite Q in IH, I2. destruct I2 as (Q2 & I2).
      assert (I3 : INV m1) by (split; [auto|rewrite Q2; exact I2]).
      destruct (IH I3 w1) as (w3 & L3 & Y); [lia|]. exists w3. split; [lia|]. exact Y.
    - inversion X; subst. exists w1. split; [lia|auto].
  Qed.
  Lemma sp_entry : forall m ls rs o, INV m -> lefts m ls -> rights m rs ->
    match o with
    | Insert l r => spends (budget_of m ls rs (length ls) (length rs) o) m (u_insert_pair E F l r) (fun _ _ => True)
    | InsertRight r => spends (budget_of m ls rs (length ls) (length rs) o) m (u_insert_right E F r) (fun _ _ => True)
    | _ => True
    end.
  Proof.
    intros m ls rs o I HL HR. apply lefts_are in HL. apply rights_are in HR. subst.
    destruct o; auto.
    - eapply sp_more; [apply (sp_insert E F tag FR), rehash_bound_len| |auto].
      cbn [budget]. rewrite (near_l E tag _ _ _ _ _ _ I), (near_r E tag _ _ _ _ _ _ I).
      unfold t_values. rewrite !map_length. unfold t_len. lia.
    - eapply sp_more; [eapply (sp_insert_right E F tag FR), rehash_bound_len| |auto].
      cbn [budget]. unfold insert_right_cost, remove_right_cost. rewrite (near_r E tag _ _ _ _ _ _ I).
      unfold t_values. rewrite !map_length. unfold t_len. lia.
  Qed.
  Lemma sp_extend : forall m xs n, INV m -> extend_within m xs n -> spends n m (u_extend E F xs) (fun _ _ => True).
  Proof.
    intros m xs n I H. induction H as [m|m ls rs e xs n HL HR _ IH]; simpl u_extend; [apply sp_ret; auto|].
    pose proof (sp_entry m ls rs (entry_op e) I HL HR) as SP.
    destruct e as [[l|] r]; unfold entry_op in *; cbn [fst snd u_extend] in *.
    - eapply (sp_one _ _ _ _ _ _ (fun _ => OUnit) (Insert l r)); [exact Logic.I|exact I|exact HL|exact HR|apply tr_insert|exact SP|reflexivity|exact IH].
    - eapply (sp_one _ _ _ _ _ _ OGroup (InsertRight r)); [exact Logic.I|exact I|exact HL|exact HR|apply tr_insert_right|exact SP|reflexivity|exact IH].
  Qed.
  Lemma extend_pairs_same : forall xs,
    u_extend_pairs E F xs = u_extend E F (List.map (fun p => (Some (fst p), snd p)) xs).
  Proof. induction xs as [|[l r] xs IH]; simpl; [auto|]. rewrite IH. auto. Qed.
  Theorem C108_extend : forall m ops xs n w, survives E F m ops -> extend_within m xs n -> (n <= w)%nat ->
    u_step E F m (Extend xs) (Some w) = step E m (Extend xs).
  Proof.
    intros m ops xs n w SV H Hw. cbn [u_step step].
    eapply via_spends; [apply tr_extend|apply sp_extend; eauto using survives_inv|exact Hw].
  Qed.
  Theorem C108_extend_pairs : forall m ops xs n w, survives E F m ops ->
    extend_within m (List.map (fun p => (Some (fst p), snd p)) xs) n -> (n <= w)%nat ->
    u_step E F m (ExtendPairs xs) (Some w) = step E m (ExtendPairs xs).
  Proof.
    intros m ops xs n w SV H Hw. cbn [u_step step].
    eapply via_spends; [apply tr_extend_pairs|rewrite extend_pairs_same; apply sp_extend; eauto using survives_inv|exact Hw].
  Qed.
  (* m == m': a lookup in m' for every item iter() yields *)
  Theorem C108_eq : forall m m' ops' ls' rs' es w,
    survives E F m' ops' -> lefts m' ls' -> rights m' rs' -> iter_rest E m (iter m) = Done es ->
    (list_sum (List.map (fun e => match fst e with
                                  | Some l => 2 + like_l tag (hashL E (hash_builder m')) ls' l
                                                + like_r tag (hashR E (hash_builder m')) rs' (snd e)
                                  | None => 1 + like_r tag (hashR E (hash_builder m')) rs' (snd e)
                                  end) es) <= w)%nat ->
    exists w', u_map_eq E m m' (Some w) = inner (map_eq E m m') (Some w').
  Proof.
    intros m m' ops' ls' rs' es w SV' HL' HR' IA B.
    apply lefts_are in HL'. apply rights_are in HR'. subst.
    pose proof (survives_inv _ _ SV') as I'.
    eapply cheap_agrees; [apply ag_map_eq| |exact B].
    unfold u_map_eq. destruct (_ && _); [apply (ch_ret _ _ (fun _ => True)); exact Logic.I|].
    eapply ch_more; [eapply (ch_all_items E tag FR); exact IA| |intros ? X; exact X].
    apply Nat.eq_le_incl. f_equal. apply map_ext. intros [[l|] r]; unfold eq_cost; cbn [fst snd];
      rewrite ?(near_l E tag _ _ _ _ _ _ I'), ?(near_r E tag _ _ _ _ _ _ I'); auto.
  Qed.
End Props.

(* ---- cases: the contracts can be met, and the budgets are not too generous ---- *)
Definition cost_ops : list (op item item * fuse) :=
  [(Insert (it 1) (it 11), None); (Insert (it 2) (it 11), None); (Insert (it 4) (it 11), None);
   (InsertRight (it 13), None); (Insert (it 3) (it 12), Some 1%nat); (Insert (it 5) (it 12), None)].
Definition cost_map {S} (E : env item item S) (s : S) : gmap item item S :=
  fst (u_run E f_in_place (with_hasher s 0 0) cost_ops).
(* the last unit of the budget is needed *)
Definition tight {S} (E : env item item S) (m : gmap item item S) (o : op item item) (n : nat) : bool :=
  match snd (u_step E f_in_place m o (Some (n - 1)%nat)), snd (u_step E f_in_place m o (Some n)) with
  | OPanic, OPanic => false
  | OPanic, _ => true
  | _, _ => false
  end.
Example C108_case :
  let m := cost_map env_spread 0 in
  let b := budget (fun h => N.land h 127) (hashL env_spread 0) (hashR env_spread 0) [it 5; it 4; it 2; it 1] [it 12; it 13; it 11]
    (group env_spread m) 4 3 in
  survives env_spread f_in_place m cost_ops /\ fairly_survives env_spread f_in_place m cost_ops /\
  (exists ls rs, lefts m ls /\ rights m rs /\ ls = [it 5; it 4; it 2; it 1] /\ rs = [it 12; it 13; it 11] /\
     uncrowded env_spread (fun h => N.land h 127) m ls rs) /\
  List.map (group env_spread m) [it 11; it 12; it 13; it 14] = [3; 1; 0; 0]%nat /\
  List.map (fun o => (b o, tight env_spread m o (b o)))
    [GetRight (it 4); GetLeftIter (it 11); IsRightPaired (it 7); ArePaired (it 1) (it 14); Pair (it 5) (it 13);
     RemoveLeft (it 2); RemoveRight (it 11); Remove (it 1) (it 11); Insert (it 6) (it 14); InsertLeft (it 6) (it 12);
     InsertRight (it 14); RetainPaired unit (fun x _ => (x, Some true)) tt]
  = [(2, true); (2, true); (1, true); (3, true); (5, true); (2, true); (8, true); (12, true); (9, true); (8, true);
     (5, true); (8, true)]%nat.
Proof.
  split; [exists 0, 0, 0; reflexivity|].
  split; [exists 0, 0, 0; split; [reflexivity|repeat (split; [exact I|]); exact I]|].
  split; [|split; vm_compute; reflexivity].
  exists [it 5; it 4; it 2; it 1], [it 12; it 13; it 11]. repeat (split; [vm_compute; reflexivity|]).
  split; intros a b.
  - intros [<-|[<-|[<-|[<-|[]]]]] [<-|[<-|[<-|[<-|[]]]]]; vm_compute; try reflexivity; discriminate.
  - intros [<-|[<-|[<-|[]]]] [<-|[<-|[<-|[]]]]; vm_compute; try reflexivity; discriminate.
Qed.
(* room for more: no rehashing, and the budget without it *)
Example C108_roomy_case :
  let m := cost_map env_room 0 in
  let b := budget (fun _ => 0) (hashL env_room 0) (hashR env_room 0) [it 5; it 4; it 2; it 1] [it 12; it 13; it 11] (group env_room m) 0 0 in
  survives env_room f_in_place m cost_ops /\ room env_room 1 m /\
  (exists ls rs, lefts m ls /\ rights m rs /\ ls = [it 5; it 4; it 2; it 1] /\ rs = [it 12; it 13; it 11]) /\
  List.map (fun o => (b o, tight env_room m o (b o)))
    [GetRight (it 7); ArePaired (it 1) (it 14); Insert (it 6) (it 14); InsertRight (it 14); SwapRight (it 14) (it 15)]
  = [(5, true); (9, true); (9, true); (5, true); (9, true)]%nat.
Proof.
  split; [exists 0, 0, 0; reflexivity|]. split; [split; vm_compute; discriminate|]. split; [|vm_compute; reflexivity].
  exists [it 5; it 4; it 2; it 1], [it 12; it 13; it 11]. repeat split.
Qed.
Example C108_extend_case : exists n, extend_within env_spread (fun h => N.land h 127) (cost_map env_spread 0)
  [(Some (it 6), it 14); (None, it 11)] n /\ n = 22%nat.
Proof.
  eexists. split.
  - eapply within_cons with (ls := [it 5; it 4; it 2; it 1]) (rs := [it 12; it 13; it 11]); [vm_compute; reflexivity|vm_compute; reflexivity|].
    eapply within_cons; [vm_compute; reflexivity|vm_compute; reflexivity|]. apply within_nil.
  - vm_compute. reflexivity.
Qed.

Print Assumptions C108_budget.
Print Assumptions C108_roomy.
Print Assumptions C108_lookup.
Print Assumptions C108_extend.
Print Assumptions C108_extend_pairs.
Print Assumptions C108_eq.
