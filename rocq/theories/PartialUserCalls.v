(* PartialCycleMap: on which items user code runs (property C152). *)
From Coq Require Import List NArith Lia Bool Permutation.
From Verif Require Import Closures Prelude RawTable Optionals PartialCycleMap TableFacts PartialHistory PartialAny
  Faults Conserve Wild PartialWild Concrete UserCalls.
Import ListNotations.
Open Scope N_scope.

(* ---- the spec ---- *)
(* the items handed to a call, by value or by reference *)
Definition args_l {L R} (o : op L R) : list L :=
  match o with
  | Insert l _ | InsertLeft l | Pair l _ | PairForced l _ | PairForcedRemove l _ | Unpair l _
  | Remove l _ | RemoveLeft l | RemoveViaLeft l | ArePaired l _ | IsLeftPaired l | ContainsLeft l
  | GetRight l => [l]
  | SwapLeft old new | SwapLeftChecked old _ new | SwapLeftOrInsert old new _ => [old; new]
  | SwapRightChecked _ l _ | SwapRightOrInsert _ _ l => [l]
  | ExtendPairs xs => List.map fst xs
  | Extend xs => flat_map (fun p => match p with SomeLeft l | SomeBoth l _ => [l] | _ => [] end) xs
  | _ => []
  end.
Definition args_r {L R} (o : op L R) : list R :=
  match o with
  | Insert _ r | InsertRight r | Pair _ r | PairForced _ r | PairForcedRemove _ r | Unpair _ r
  | Remove _ r | RemoveRight r | RemoveViaRight r | ArePaired _ r | IsRightPaired r | ContainsRight r
  | GetLeft r => [r]
  | SwapRight old new | SwapRightChecked old _ new | SwapRightOrInsert old new _ => [old; new]
  | SwapLeftChecked _ r _ | SwapLeftOrInsert _ _ r => [r]
  | ExtendPairs xs => List.map snd xs
  | Extend xs => flat_map (fun p => match p with SomeRight r | SomeBoth _ r => [r] | _ => [] end) xs
  | _ => []
  end.
(* lookups and removals, and the calls that pair items of the map or part them *)
Definition searches {L R} (o : op L R) : bool :=
  match o with
  | Pair _ _ | PairForced _ _ | PairForcedRemove _ _ | Unpair _ _
  | Remove _ _ | RemoveLeft _ | RemoveRight _ | RemoveViaLeft _ | RemoveViaRight _
  | ArePaired _ _ | IsLeftPaired _ | IsRightPaired _ | ContainsLeft _ | ContainsRight _
  | GetLeft _ | GetRight _ => true
  | _ => false
  end.
(* calls that look up the map's own items (iter_paired does not: it hashes them only) *)
Definition walks {L R} (o : op L R) : bool :=
  match o with IterAll | Retain _ _ _ | RetainPaired _ _ _ | RetainUnpaired _ _ _ => true | _ => false end.
(* calls that may compare two items handed to them *)
Definition swaps_l {L R} (o : op L R) : bool :=
  match o with SwapLeft _ _ | SwapLeftChecked _ _ _ | SwapLeftOrInsert _ _ _ => true | _ => false end.
Definition swaps_r {L R} (o : op L R) : bool :=
  match o with SwapRight _ _ | SwapRightChecked _ _ _ | SwapRightOrInsert _ _ _ => true | _ => false end.
Definition lefts {L R S} (m : pmap L R S) : list L := List.map value (entries (left_set m)).
Definition rights {L R S} (m : pmap L R S) : list R := List.map value (entries (right_set m)).
(* the calls of user code that o may make on m *)
Definition allowed {L R S} (m : pmap L R S) (o : op L R) (c : ucall L R S) : Prop :=
  match c with
  | CHashL s l => s = hash_builder m /\ (In l (args_l o) \/ searches o = false /\ In l (lefts m))
  | CHashR s r => s = hash_builder m /\ (In r (args_r o) \/ searches o = false /\ In r (rights m))
  | CEqL a b => (In a (args_l o) \/ walks o = true /\ In a (lefts m)) /\
                (In b (lefts m) \/ searches o = false /\ In b (args_l o))
  | CEqR a b => (In a (args_r o) \/ walks o = true /\ In a (rights m)) /\
                (In b (rights m) \/ searches o = false /\ In b (args_r o))
  | CNeL a b => swaps_l o = true /\ exists old new, args_l o = [old; new] /\ a = new /\ b = old
  | CNeR a b => swaps_r o = true /\ exists old new, args_r o = [old; new] /\ a = new /\ b = old
  end.

(* ---- the program that a call runs ---- *)
Section Calls.
  Context {L R S W : Type}.
  (* [go] is given the computation and how its value is shown; the calls not listed run no user
     code ([w_step] in PartialWild.v says what they do) *)
  Definition program {Z} (E : wenv L R S W) (go : forall A, (A -> out L R) -> M (W * pmap L R S) A -> Z) (calm : Z)
      (o : op L R) : Z :=
    match o with
    | Insert l r => go _ OIns (w_insert_pair E l r)
    | InsertLeft l => go _ OEntry (w_insert_left E l)
    | InsertRight r => go _ OEntry (w_insert_right E r)
    | Pair l r => go _ OBool (w_pair E l r)
    | PairForced l r => go _ OEntry (w_pair_forced E l r)
    | PairForcedRemove l r => go _ OEntry (w_pair_forced_remove E l r)
    | Unpair l r => go _ OBool (w_unpair E l r)
    | Remove l r => go _ OPair (w_remove E l r)
    | RemoveLeft l => go _ OL (w_remove_left E l)
    | RemoveRight r => go _ OR (w_remove_right E r)
    | RemoveViaLeft l => go _ OEntry (w_remove_via_left E l)
    | RemoveViaRight r => go _ OEntry (w_remove_via_right E r)
    | SwapLeft old new => go _ OSwapL (w_swap_left E old new)
    | SwapLeftChecked old ex new => go _ OSwapL (w_swap_left_checked E old ex new)
    | SwapLeftOrInsert old new ti => go _ OSwapL (w_swap_left_or_insert E old new ti)
    | SwapRight old new => go _ OSwapR (w_swap_right E old new)
    | SwapRightChecked old ex new => go _ OSwapR (w_swap_right_checked E old ex new)
    | SwapRightOrInsert old new ti => go _ OSwapR (w_swap_right_or_insert E old new ti)
    | ArePaired l r => go _ OBool (w_look (fun m => w_are_paired E m l r))
    | IsLeftPaired l => go _ OBool (w_look (fun m => w_is_left_paired E m l))
    | IsRightPaired r => go _ OBool (w_look (fun m => w_is_right_paired E m r))
    | ContainsLeft l => go _ OBool (w_look (fun m => w_contains_left E m l))
    | ContainsRight r => go _ OBool (w_look (fun m => w_contains_right E m r))
    | GetLeft r => go _ OL (w_look (fun m => w_get_left E m r))
    | GetRight l => go _ OR (w_look (fun m => w_get_right E m l))
    | IterAll => go _ OEntries (w_look (w_iter_all E))
    | IterPairedAll => go _ OPairs (w_look (w_paired_all E))
    | ExtendPairs xs => go _ (fun _ => OUnit) (w_extend_pairs E xs)
    | Extend xs => go _ (fun _ => OUnit) (w_extend E xs)
    | Retain X f x => go _ (fun _ => OUnit) (w_retain E f x)
    | RetainPaired X f x => go _ (fun _ => OUnit) (w_retain_paired E f x)
    | RetainUnpaired X f x => go _ (fun _ => OUnit) (w_retain_unpaired E f x)
    | ShrinkToLeft n => go _ (fun _ => OUnit) (w_resize_left E (Shrink n))
    | ShrinkToRight n => go _ (fun _ => OUnit) (w_resize_right E (Shrink n))
    | ShrinkToFit => go _ (fun _ => OUnit) (w_shrink_to_fit E)
    | ReserveLeft n => go _ (fun _ => OUnit) (w_resize_left E (Grow n))
    | ReserveRight n => go _ (fun _ => OUnit) (w_resize_right E (Grow n))
    | TryReserveLeft n => go _ OBool (w_try_reserve_left E n)
    | TryReserveRight n => go _ OBool (w_try_reserve_right E n)
    | LenLeft | LenRight | IsEmpty | IterUnpairedAll | IterLeftAll | IterRightAll
    | DrainN _ | DrainFilter _ _ _ _ _ | Clear | CloneSelf => calm
    end.
  Lemma program_step : forall (E : wenv L R S W) m o w,
    w_step E m o w = program E (fun A k c => w_via k c m w) (step (calm_env E) m o) o.
  Proof. intros E m [] w; reflexivity. Qed.
End Calls.

(* the calls of user code made by o on m in the world w, first to last, also if it panics *)
Definition user_calls {L R S W} (E : wenv L R S W) (m : pmap L R S) (o : op L R) (w : W) : list (ucall L R S) :=
  program (logged E) (fun A k c => snd (fst (res_state (c ((w, []), m))))) [] o.

(* ---- proofs ---- *)
Section Seen.
  Context {L R S W : Type} (E0 : wenv L R S W).
  Hypothesis TE : tame E0.
  Notation E := (logged E0).
  Notation map := (pmap L R S).
  Variable ok : ucall L R S -> Prop.
  Notation K := (@clean L R S W ok).
  Let OP := proj1 TE.
  Let FO := proj2 TE.

  (* the items of m that may be asked about a given item *)
  Definition ask_l (m : map) (l : L) : Prop :=
    ok (CHashL (hash_builder m) l) /\ forall e, In e (entries (left_set m)) -> ok (CEqL l (value e)).
  Definition ask_r (m : map) (r : R) : Prop :=
    ok (CHashR (hash_builder m) r) /\ forall e, In e (entries (right_set m)) -> ok (CEqR r (value e)).

  Lemma hash_l_seen : forall m l, ask_l m l -> yields K any (hash_l E m l).
  Proof. intros m l H. apply note_clean, H. Qed.
  Lemma hash_r_seen : forall m r, ask_r m r -> yields K any (hash_r E m r).
  Proof. intros m r H. apply note_clean, H. Qed.
  Lemma find_left_seen : forall m h l, ask_l m l ->
    yields K (fun o => forall e, o = Some e -> In e (entries (left_set m))) (find_left E m h l).
  Proof. intros m h l H. apply get_yields. intros e He. apply note_clean, H, He. Qed.
  Lemma find_right_seen : forall m h r, ask_r m r ->
    yields K (fun o => forall e, o = Some e -> In e (entries (right_set m))) (find_right E m h r).
  Proof. intros m h l H. apply get_yields. intros e He. apply note_clean, H, He. Qed.

  Lemma are_paired_seen : forall m l r, ask_l m l -> ask_r m r -> yields K any (w_are_paired E m l r).
  Proof.
    intros m l r H1 H2. unfold w_are_paired.
    eapply yields_bind; [apply hash_l_seen, H1|intros h1 _].
    eapply yields_bind; [apply hash_r_seen, H2|intros h2 _].
    eapply yields_bind; [apply find_left_seen, H1|intros x _].
    eapply yields_bind; [apply find_right_seen, H2|intros y _].
    apply yields_ret. exact Logic.I.
  Qed.
  Lemma contains_left_seen : forall m l, ask_l m l -> yields K any (w_contains_left E m l).
  Proof.
    intros m l H. unfold w_contains_left.
    eapply yields_bind; [apply hash_l_seen, H|intros h1 _].
    eapply yields_bind; [apply find_left_seen, H|intros x _]. apply yields_ret. exact Logic.I.
  Qed.
  Lemma contains_right_seen : forall m r, ask_r m r -> yields K any (w_contains_right E m r).
  Proof.
    intros m l H. unfold w_contains_right.
    eapply yields_bind; [apply hash_r_seen, H|intros h1 _].
    eapply yields_bind; [apply find_right_seen, H|intros x _]. apply yields_ret. exact Logic.I.
  Qed.
  Lemma get_left_seen : forall m r, ask_r m r -> yields K any (w_get_left E m r).
  Proof.
    intros m l H. unfold w_get_left.
    eapply yields_bind; [apply hash_r_seen, H|intros h1 _].
    eapply yields_bind; [apply find_right_seen, H|intros x _]. apply yields_ret. exact Logic.I.
  Qed.
  Lemma is_left_paired_seen : forall m l, ask_l m l -> yields K any (w_is_left_paired E m l).
  Proof.
    intros m l H. unfold w_is_left_paired.
    eapply yields_bind; [apply hash_l_seen, H|intros h1 _].
    eapply yields_bind; [apply find_left_seen, H|intros x _]. apply yields_ret. exact Logic.I.
  Qed.
  Lemma is_right_paired_seen : forall m r, ask_r m r -> yields K any (w_is_right_paired E m r).
  Proof.
    intros m l H. unfold w_is_right_paired.
    eapply yields_bind; [apply hash_r_seen, H|intros h1 _].
    eapply yields_bind; [apply find_right_seen, H|intros x _]. apply yields_ret. exact Logic.I.
  Qed.
  Lemma find_both_seen : forall m l r, ask_l m l -> ask_r m r -> yields K any (w_find_both E m l r).
  Proof.
    intros m l r H1 H2. unfold w_find_both, w_get_mut.
    apply (yields_bind _ any); [apply hash_l_seen, H1|intros h1 _].
    apply (yields_bind _ any); [apply hash_r_seen, H2|intros h2 _].
    apply (yields_bind _ any); [|intros x _].
    { apply (yields_bind _ any); [|intros; apply ret_seen]. apply find_yields. intros e He. apply note_clean, H1, He. }
    apply (yields_bind _ any); [|intros; apply ret_seen].
    apply (yields_bind _ any); [|intros; apply ret_seen]. apply find_yields. intros e He. apply note_clean, H2, He.
  Qed.
  Lemma get_right_seen : forall m l, ask_l m l ->
    yields K (fun o => forall r, o = Some r -> In r (rights m)) (w_get_right E m l).
  Proof.
    intros m l H. unfold w_get_right.
    eapply yields_bind; [apply hash_l_seen, H|intros h1 _].
    eapply yields_bind; [apply find_left_seen, H|intros x _]. apply yields_ret.
    intros r X. destruct x as [p|]; [|discriminate]. destruct (phash p); [|discriminate].
    destruct (t_get _ _ _ _) as [q|] eqn:Y; [|discriminate]. injection X as <-.
    apply (in_map value). eapply calm_get_in, Y.
  Qed.

  (* the map's own items may be looked up *)
  Definition ask_own (m : map) : Prop :=
    (forall l, In l (lefts m) -> ask_l m l) /\ (forall r, In r (rights m) -> ask_r m r).
  Definition own (m : map) (it : @iter_l L) : Prop := forall x, In x it -> In (value (snd x)) (lefts m).
  Definition own_r (m : map) (it : @iter_r R) : Prop := forall x, In x it -> In (value (snd x)) (rights m).
  Definition item_of (m : map) (x : optional_pair L R) : Prop :=
    match x with
    | SomeLeft l => In l (lefts m)
    | SomeRight r => In r (rights m)
    | SomeBoth l r => In l (lefts m) /\ In r (rights m)
    | Neither => True
    end.
  Definition pair_of (m : map) (x : L * R) : Prop := In (fst x) (lefts m) /\ In (snd x) (rights m).
  (* an iterator that gives out Q and stays O *)
  Definition walker {J A} (O : J -> Prop) (Q : A -> Prop) (next : J -> M (W * list (ucall L R S)) (option A * J)) : Prop :=
    forall it, O it -> yields K (fun x => (forall a, fst x = Some a -> Q a) /\ O (snd x)) (next it).
  Lemma iter_next_seen : forall m, (forall l, In l (lefts m) -> ask_l m l) -> walker (own m) (item_of m) (w_iter_next E m).
  Proof.
    intros m H [|[h l] it] X; cbn [w_iter_next].
    - apply yields_ret. split; [discriminate|]. intros x [].
    - assert (XL : In (value l) (lefts m)) by (apply (X (h, l)); left; auto).
      eapply yields_bind; [apply get_right_seen, H, XL|]. intros o Ho.
      apply yields_ret. split; cbn [fst snd].
      + intros a Q. injection Q as <-. destruct o as [r|]; cbn; auto.
      + intros x Hx. apply X. right. auto.
  Qed.
  Lemma inner_seen : forall {A} (P : A -> Prop) (o : outcome A), (forall a, o = Done a -> P a) ->
    yields K P (@w_inner (W * list (ucall L R S)) A o).
  Proof. intros A P [a|] H; [apply yields_ret; auto|apply yields_panic]. Qed.
  Lemma paired_next_seen : forall m, (forall l, In l (lefts m) -> ok (CHashL (hash_builder m) l)) ->
    walker (own m) (pair_of m) (w_paired_next E m).
  Proof.
    intros m H it. induction it as [|[h l] it IH]; intros X; cbn [w_paired_next].
    - apply yields_ret. split; [discriminate|]. intros x [].
    - assert (XL : In (value l) (lefts m)) by (apply (X (h, l)); left; auto).
      assert (XI : own m it) by (intros x Hx; apply X; right; auto).
      destruct (phash l); [|apply IH, XI].
      apply (yields_bind _ any); [apply note_clean, H, XL|intros h1 _].
      eapply yields_bind; [apply inner_seen; exact (fun a H => H)|]. intros o Ho.
      apply yields_ret. split; cbn [fst snd]; [|exact XI]. intros a ->.
      unfold get_via_hashes_and_id in Ho. destruct (t_get _ _ _ _) as [x|] eqn:Y; [|discriminate].
      destruct (t_get _ (right_set m) _ _) as [y|] eqn:Z; [|discriminate]. injection Ho as <-.
      split; apply (in_map value); [eapply calm_get_in, Y|eapply calm_get_in, Z].
  Qed.
  Lemma unpaired_next_seen : forall m, walker (fun it => own m (fst it) /\ own_r m (snd it)) (item_of m)
    (fun it => w_inner (unpaired_next it)).
  Proof.
    intros m [il ir] [X Y]. apply inner_seen. cbn [fst snd] in X, Y. unfold unpaired_next. cbn [fst snd].
    assert (RR : forall ir o ir', own_r m ir -> unpaired_next_r ir = (o, ir') ->
      (forall a : optional_pair L R, o = Some a -> item_of m a) /\ own_r m ir').
    { clear. induction ir as [|[h r] ir IH]; intros o ir' X H; cbn in H.
      - injection H as <- <-. split; [discriminate|auto].
      - assert (XI : own_r m ir) by (intros x Hx; apply X; right; auto).
        destruct (phash r); [eauto|]. injection H as <- <-. split; [|auto].
        intros a Q. injection Q as <-. apply (X (h, r)). left. auto. }
    revert X. induction il as [|[h l] il IH]; intros X a H; cbn in H.
    - destruct (unpaired_next_r ir) as [o ir'] eqn:Q. injection H as <-. cbn [fst snd].
      destruct (RR _ _ _ Y Q) as [R1 R2]. split; [exact R1|split; [intros x []|exact R2]].
    - assert (XI : own m il) by (intros x Hx; apply X; right; auto).
      destruct (phash l); [eauto|]. injection H as <-. cbn [fst snd]. split; [|auto].
      intros a Q. injection Q as <-. apply (X (h, l)). left. auto.
  Qed.
  Lemma collect_seen : forall {J A} (O : J -> Prop) (Q : A -> Prop) next fuel it, walker O Q next -> O it ->
    yields K any (w_collect next fuel it).
  Proof.
    intros J A O Q next. induction fuel as [|fuel IH]; intros it H X; cbn [w_collect];
      (eapply yields_bind; [apply H, X|intros [[p|] it'] [P Y]; cbn [snd] in Y]);
      try apply yields_panic; try apply ret_seen.
    apply (yields_bind _ any); [apply IH; auto|intros l _]. apply ret_seen.
  Qed.
  Lemma own_iter : forall m, own m (iter m).
  Proof. intros m x H. unfold lefts. apply in_map, in_map, H. Qed.
  Lemma own_iter_r : forall m, own_r m (iter_right m).
  Proof. intros m x H. unfold rights. apply in_map, in_map, H. Qed.
  Lemma iter_all_seen : forall m, ask_own m -> yields K any (w_iter_all E m).
  Proof. intros m H. eapply collect_seen; [apply iter_next_seen, (proj1 H)|apply own_iter]. Qed.
  Lemma paired_all_seen : forall m, (forall l, In l (lefts m) -> ok (CHashL (hash_builder m) l)) ->
    yields K any (w_paired_all E m).
  Proof. intros m H. eapply collect_seen; [apply paired_next_seen, H|apply own_iter]. Qed.

  Lemma eq_item_seen : forall m other op, item_of m op ->
    (forall l, In l (lefts m) -> ask_l other l) -> (forall r, In r (rights m) -> ask_r other r) ->
    yields K any (w_eq_item E other op).
  Proof.
    intros m other op X XL XR. destruct op as [|l|r|l r]; cbn [w_eq_item item_of] in *; [apply yields_panic| | |].
    - apply (yields_bind _ any); [eapply yields_any, get_right_seen; auto|intros; apply ret_seen].
    - apply (yields_bind _ any); [apply get_left_seen; auto|intros; apply ret_seen].
    - destruct X. apply are_paired_seen; auto.
  Qed.
  Lemma all_items_seen : forall m other fuel it, (forall l, In l (lefts m) -> ask_l m l) -> own m it ->
    (forall l, In l (lefts m) -> ask_l other l) -> (forall r, In r (rights m) -> ask_r other r) ->
    yields K any (w_all_items E m other fuel it).
  Proof.
    intros m other. induction fuel as [|fuel IH]; intros it H X XL XR; cbn [w_all_items];
      (eapply yields_bind; [apply iter_next_seen; eauto|intros [[op|] it'] [P Q]; cbn [fst snd] in P, Q]);
      try apply ret_seen;
      (apply (yields_bind _ any); [eapply eq_item_seen; eauto|intros [|] _]);
      try apply yields_panic; try apply ret_seen.
    apply IH; auto.
  Qed.
  Lemma map_eq_seen : forall m other, (forall l, In l (lefts m) -> ask_l m l) ->
    (forall l, In l (lefts m) -> ask_l other l) -> (forall r, In r (rights m) -> ask_r other r) ->
    yields K any (w_map_eq E m other).
  Proof.
    intros m other H1 H2 H3. unfold w_map_eq. destruct (_ && _); [apply ret_seen|].
    apply all_items_seen; auto. apply own_iter.
  Qed.

  Lemma retain_scan_seen : forall {X J A} (f : X -> A -> X * verdict) (O : J -> Prop) (Q : A -> Prop) next key fuel it x,
    walker O Q next -> (forall a, Q a -> yields K any (key a)) -> O it ->
    yields K any (w_retain_scan f next key fuel it x).
  Proof.
    intros X J A f O Q next key. induction fuel as [|fuel IH]; intros it x H HK Y; cbn [w_retain_scan];
      (eapply yields_bind; [apply H, Y|intros [[a|] it'] [P Z]; cbn [fst snd] in P, Z]);
      try apply ret_seen;
      (destruct (f x a) as [x' [ans|]]; [|apply ret_seen]);
      (apply (yields_bind _ any); [destruct ans; [|apply ret_seen]; apply (yields_bind _ any); [auto|intros; apply ret_seen]|]).
    - intros d _. apply yields_panic.
    - intros d _. apply (yields_bind _ any); [apply IH; auto|]. intros y _. apply ret_seen.
  Qed.
  Lemma inner_l_seen : forall m l, ask_l m l -> yields K any (w_get_left_inner E m l).
  Proof. intros. apply (yields_bind _ any); [apply hash_l_seen; auto|intros]. eapply yields_any, find_left_seen; auto. Qed.
  Lemma inner_r_seen : forall m r, ask_r m r -> yields K any (w_get_right_inner E m r).
  Proof. intros. apply (yields_bind _ any); [apply hash_r_seen; auto|intros]. eapply yields_any, find_right_seen; auto. Qed.
  Lemma retain_key_seen : forall m op, ask_own m -> item_of m op -> yields K any (w_retain_key E m op).
  Proof.
    intros m op [HL HR] X. unfold w_retain_key.
    destruct op as [|l|r|l r]; cbn [op_to_pair w_opt item_of] in *; try destruct X;
      repeat first [apply yields_panic | apply ret_seen | apply unwrap_seen | apply inner_l_seen; auto | apply inner_r_seen; auto
        | apply hash_l_seen; auto | apply hash_r_seen; auto
        | apply (yields_bind _ any); [|intros ? _]].
  Qed.
  Lemma retain_paired_key_seen : forall m p, ask_own m -> pair_of m p -> yields K any (w_retain_paired_key E m p).
  Proof.
    intros m op [HL HR] [X1 X2]. unfold w_retain_paired_key.
      repeat first [apply yields_panic | apply ret_seen | apply unwrap_seen | apply inner_l_seen; auto | apply inner_r_seen; auto
        | apply hash_l_seen; auto | apply hash_r_seen; auto
        | apply (yields_bind _ any); [|intros ? _]].
  Qed.
  Lemma retain_unpaired_key_seen : forall m op, ask_own m -> item_of m op -> yields K any (w_retain_unpaired_key E m op).
  Proof.
    intros m op [HL HR] X. unfold w_retain_unpaired_key.
    destruct op as [|l|r|l r]; cbn [item_of] in *; try destruct X;
      repeat first [apply yields_panic | apply ret_seen | apply unwrap_seen
        | apply hash_l_seen; auto | apply hash_r_seen; auto
        | eapply yields_any, find_left_seen; auto | eapply yields_any, find_right_seen; auto
        | apply (yields_bind _ any); [|intros ? _]].
  Qed.

  (* ---- calls on the map: the items that may be in it, and its hasher ---- *)
  Variable s0 : S.
  Variable AL : L -> Prop.
  Variable AR : R -> Prop.
  Definition within (m : map) : Prop :=
    hash_builder m = s0 /\ (forall e, In e (entries (left_set m)) -> AL (value e)) /\
    (forall e, In e (entries (right_set m)) -> AR (value e)).
  Notation I := within.
  Notation J := (both K I).
  Definition may_l (l : L) : Prop := ok (CHashL s0 l) /\ forall b, AL b -> ok (CEqL l b).
  Definition may_r (r : R) : Prop := ok (CHashR s0 r) /\ forall b, AR b -> ok (CEqR r b).
  Definition may_rehash : Prop :=
    (forall b, AL b -> ok (CHashL s0 b)) /\ (forall b, AR b -> ok (CHashR s0 b)).
  Lemma may_ask_l : forall m l, I m -> may_l l -> ask_l m l.
  Proof. intros m l (H1 & H2 & _) [X Y]. split; [rewrite H1; auto|auto]. Qed.
  Lemma may_ask_r : forall m r, I m -> may_r r -> ask_r m r.
  Proof. intros m r (H1 & _ & H2) [X Y]. split; [rewrite H1; auto|auto]. Qed.
  Lemma within_left : forall m t, I m -> (forall e, In e (entries t) -> AL (value e)) -> I (set_left t m).
  Proof. intros m t (H1 & H2 & H3) H. split; [exact H1|split; [exact H|exact H3]]. Qed.
  Lemma within_right : forall m t, I m -> (forall e, In e (entries t) -> AR (value e)) -> I (set_right t m).
  Proof. intros m t (H1 & H2 & H3) H. split; [exact H1|split; [exact H2|exact H]]. Qed.

  Lemma left_remove_seen : forall h l, may_l l -> yields J any (w_left_remove_entry E h l).
  Proof.
    intros h l H [w m] [X Y]. unfold w_left_remove_entry, bind, w_look. cbn [fst snd] in *.
    assert (Z : yields K (fun o => forall e t', o = Some (e, t') -> In e (entries (left_set m)) /\
                  incl (entries t') (entries (left_set m)))
              (w_remove_entry (w_lo E) (left_set m) h (fun e => w_eqL E l (value e)))).
    { apply remove_yields. intros e He. apply note_clean, H, Y, He. }
    specialize (Z w X). destruct (w_remove_entry _ _ _ _ _) as [w' [[e t]|]|w']; cbn.
    - destruct Z as [Z1 Z2]. destruct (Z2 _ _ eq_refl) as [_ Z3]. split; [|exact Logic.I].
      split; auto. apply within_left; auto. intros x Hx. apply Y, Z3, Hx.
    - destruct Z. split; [split; auto|exact Logic.I].
    - split; auto.
  Qed.
  Lemma right_remove_seen : forall h r, may_r r -> yields J any (w_right_remove_entry E h r).
  Proof.
    intros h l H [w m] [X Y]. unfold w_right_remove_entry, bind, w_look. cbn [fst snd] in *.
    assert (Z : yields K (fun o => forall e t', o = Some (e, t') -> In e (entries (right_set m)) /\
                  incl (entries t') (entries (right_set m)))
              (w_remove_entry (w_lo E) (right_set m) h (fun e => w_eqR E l (value e)))).
    { apply remove_yields. intros e He. apply note_clean, H, Y, He. }
    specialize (Z w X). destruct (w_remove_entry _ _ _ _ _) as [w' [[e t]|]|w']; cbn.
    - destruct Z as [Z1 Z2]. destruct (Z2 _ _ eq_refl) as [_ Z3]. split; [|exact Logic.I].
      split; auto. apply within_right; auto. intros x Hx. apply Y, Z3, Hx.
    - destruct Z. split; [split; auto|exact Logic.I].
    - split; auto.
  Qed.
  (* the searches with hash_and_id *)
  Lemma calm_left_remove : forall h p, yields I any (left_remove_entry (calm_env E) h p).
  Proof.
    intros h p. apply yields_get. intros m Y. destruct (t_remove_entry _ _ _ _) as [[e t]|] eqn:Q.
    - apply calm_remove_in in Q as [_ Q].
      eapply yields_bind; [apply yields_put; apply within_left; [exact Y|intros x Hx; apply Y, Q, Hx]|].
      intros _ _. apply yields_ret. exact Logic.I.
    - apply yields_ret. exact Logic.I.
  Qed.
  Lemma calm_right_remove : forall h p, yields I any (right_remove_entry (calm_env E) h p).
  Proof.
    intros h p. apply yields_get. intros m Y. destruct (t_remove_entry _ _ _ _) as [[e t]|] eqn:Q.
    - apply calm_remove_in in Q as [_ Q].
      eapply yields_bind; [apply yields_put; apply within_right; [exact Y|intros x Hx; apply Y, Q, Hx]|].
      intros _ _. apply yields_ret. exact Logic.I.
    - apply yields_ret. exact Logic.I.
  Qed.

  Lemma hash_l_may : forall m l, I m -> may_l l -> yields K any (hash_l E m l).
  Proof. intros. apply hash_l_seen, may_ask_l; auto. Qed.
  Lemma hash_r_may : forall m r, I m -> may_r r -> yields K any (hash_r E m r).
  Proof. intros. apply hash_r_seen, may_ask_r; auto. Qed.
  Lemma find_left_may : forall m h l, I m -> may_l l -> yields K any (find_left E m h l).
  Proof. intros. eapply yields_any, find_left_seen, may_ask_l; auto. Qed.
  Lemma find_right_may : forall m h r, I m -> may_r r -> yields K any (find_right E m h r).
  Proof. intros. eapply yields_any, find_right_seen, may_ask_r; auto. Qed.
  Lemma are_paired_may : forall m l r, I m -> may_l l -> may_r r -> yields K any (w_are_paired E m l r).
  Proof. intros. apply are_paired_seen; [apply may_ask_l|apply may_ask_r]; auto. Qed.
  Lemma find_both_may : forall m l r, I m -> may_l l -> may_r r -> yields K any (w_find_both E m l r).
  Proof. intros. apply find_both_seen; [apply may_ask_l|apply may_ask_r]; auto. Qed.
  Lemma modify_left_in : forall m i f, I m -> (forall p, value (f p) = value p) ->
    I (set_left (t_modify (left_set m) i f) m).
  Proof.
    intros m i f Y H. apply within_left; auto. intros e He.
    destruct (modify_entries _ _ _ _ He) as (x & Hx & [->| ->]); [|rewrite H]; apply Y, Hx.
  Qed.
  Lemma modify_right_in : forall m i f, I m -> (forall p, value (f p) = value p) ->
    I (set_right (t_modify (right_set m) i f) m).
  Proof.
    intros m i f Y H. apply within_right; auto. intros e He.
    destruct (modify_entries _ _ _ _ He) as (x & Hx & [->| ->]); [|rewrite H]; apply Y, Hx.
  Qed.
  Hint Resolve modify_left_in modify_right_in find_both_may : ys.
  Hint Resolve hash_l_may hash_r_may find_left_may find_right_may are_paired_may
    left_remove_seen right_remove_seen calm_left_remove calm_right_remove : ys.
  Lemma remove_via_left_seen : forall l, may_l l -> yields J any (w_remove_via_left E l).
  Proof. ys. Qed.
  Lemma remove_via_right_seen : forall r, may_r r -> yields J any (w_remove_via_right E r).
  Proof. ys. Qed.
  Hint Resolve remove_via_left_seen remove_via_right_seen : ys.
  Lemma remove_seen : forall l r, may_l l -> may_r r -> yields J any (w_remove E l r).
  Proof. ys. Qed.
  Lemma remove_left_seen : forall l, may_l l -> yields J any (w_remove_left E l).
  Proof. ys. Qed.
  Lemma remove_right_seen : forall r, may_r r -> yields J any (w_remove_right E r).
  Proof. ys. Qed.
  Lemma pair_seen : forall l r, may_l l -> may_r r -> yields J any (w_pair E l r).
  Proof. ys. Qed.
  Lemma pair_forced_seen : forall l r, may_l l -> may_r r -> yields J any (w_pair_forced E l r).
  Proof. ys. Qed.
  Lemma pair_forced_remove_seen : forall l r, may_l l -> may_r r -> yields J any (w_pair_forced_remove E l r).
  Proof. ys. Qed.
  Lemma unpair_seen : forall l r, may_l l -> may_r r -> yields J any (w_unpair E l r).
  Proof. ys. Qed.
  Lemma drop_all_seen : forall l, yields I any (drop_all (calm_env E) l).
  Proof. induction l as [|e l IH]; cbn [drop_all]; ys. Qed.
  Hint Resolve drop_all_seen : ys.
  Lemma own_within : forall m, (forall l, AL l -> may_l l) -> (forall r, AR r -> may_r r) -> I m -> ask_own m.
  Proof.
    intros m H H' Y. split; intros l Hl.
    - apply may_ask_l; auto. apply H. apply in_map_iff in Hl as (e & <- & He). apply Y, He.
    - apply may_ask_r; auto. apply H'. apply in_map_iff in Hl as (e & <- & He). apply Y, He.
  Qed.
  Lemma retain_with_seen : forall {X} (scan : map -> M _ (res X (list drop_tup))),
    (forall m, I m -> yields K any (scan m)) -> yields J any (w_retain_with E scan).
  Proof.
    intros X scan H. apply (yields_bind _ any); [apply yields_look; auto|]. ys.
  Qed.
  Lemma retain_seen : forall {X} (f : X -> optional_pair L R -> X * verdict) x,
    (forall l, AL l -> may_l l) -> (forall r, AR r -> may_r r) -> yields J any (w_retain E f x).
  Proof.
    intros X f x HL HR. apply retain_with_seen. intros m Y. assert (H := own_within m HL HR Y).
    eapply retain_scan_seen; [apply iter_next_seen, (proj1 H)|intros; apply retain_key_seen; auto|apply own_iter].
  Qed.
  Lemma retain_paired_seen : forall {X} (f : X -> L * R -> X * verdict) x,
    (forall l, AL l -> may_l l) -> (forall r, AR r -> may_r r) -> yields J any (w_retain_paired E f x).
  Proof.
    intros X f x HL HR. apply retain_with_seen. intros m Y. assert (H := own_within m HL HR Y).
    eapply retain_scan_seen; [apply paired_next_seen; intros; apply H; auto|intros; apply retain_paired_key_seen; auto|apply own_iter].
  Qed.
  Lemma retain_unpaired_seen : forall {X} (f : X -> optional_pair L R -> X * verdict) x,
    (forall l, AL l -> may_l l) -> (forall r, AR r -> may_r r) -> yields J any (w_retain_unpaired E f x).
  Proof.
    intros X f x HL HR. apply retain_with_seen. intros m Y. assert (H := own_within m HL HR Y).
    eapply retain_scan_seen; [apply unpaired_next_seen|intros; apply retain_unpaired_key_seen; eauto|split; [apply own_iter|apply own_iter_r]].
  Qed.

  (* insertions and changes of size *)
  Hypothesis MR : may_rehash.
  Lemma left_insert_seen : forall h e, AL (value e) -> yields J any (w_left_insert E h e).
  Proof.
    intros h e H [w m] [X Y]. unfold w_left_insert, on_left. cbn [fst snd] in *.
    assert (Z := insert_yields (w_lo E) (w_fault E) K OP FO (left_set m) h e
      (fun e => w_hashL E (hash_builder m) (value e)) w).
    assert (Q := Y). destruct Q as (Q1 & Q2 & Q3).
    destruct (w_insert _ _ _ _ _ _ _) as [[w' t] u|[w' t]];
      (destruct Z as [Z1 Z2]; [intros x Hx; rewrite Q1; apply note_clean; apply MR; auto|exact X|]).
    - split; [split; [exact Z1|]|exact Logic.I]. apply within_left; [exact Y|].
      intros x Hx. destruct (Z2 x Hx) as [<-|Hx']; auto.
    - split; [exact Z1|]. apply within_left; [exact Y|]. intros x Hx. auto.
  Qed.
  Lemma right_insert_seen : forall h e, AR (value e) -> yields J any (w_right_insert E h e).
  Proof.
    intros h e H [w m] [X Y]. unfold w_right_insert, on_right. cbn [fst snd] in *.
    assert (Z := insert_yields (w_lo E) (w_fault E) K OP FO (right_set m) h e
      (fun e => w_hashR E (hash_builder m) (value e)) w).
    assert (Q := Y). destruct Q as (Q1 & Q2 & Q3).
    destruct (w_insert _ _ _ _ _ _ _) as [[w' t] u|[w' t]];
      (destruct Z as [Z1 Z2]; [intros x Hx; rewrite Q1; apply note_clean; apply MR; auto|exact X|]).
    - split; [split; [exact Z1|]|exact Logic.I]. apply within_right; [exact Y|].
      intros x Hx. destruct (Z2 x Hx) as [<-|Hx']; auto.
    - split; [exact Z1|]. apply within_right; [exact Y|]. intros x Hx. auto.
  Qed.
  Lemma left_resize_seen : forall z,
    yields J any (on_left (fun s t => w_resize (w_lo E) (w_fault E) t z (fun e => w_hashL E s (value e)))).
  Proof.
    intros z [w m] [X Y]. unfold on_left. cbn [fst snd] in *.
    assert (Z := resize_yields (w_lo E) (w_fault E) K OP FO (left_set m) z
      (fun e => w_hashL E (hash_builder m) (value e)) w).
    assert (Q := Y). destruct Q as (Q1 & Q2 & Q3).
    destruct (w_resize _ _ _ _ _ _) as [[w' t] u|[w' t]];
      (destruct Z as [Z1 Z2]; [intros x Hx; rewrite Q1; apply note_clean; apply MR; auto|exact X|]);
      [split; [split; [exact Z1|]|exact Logic.I]|split; [exact Z1|]]; (apply within_left; [exact Y|auto]).
  Qed.
  Lemma right_resize_seen : forall z,
    yields J any (on_right (fun s t => w_resize (w_lo E) (w_fault E) t z (fun e => w_hashR E s (value e)))).
  Proof.
    intros z [w m] [X Y]. unfold on_right. cbn [fst snd] in *.
    assert (Z := resize_yields (w_lo E) (w_fault E) K OP FO (right_set m) z
      (fun e => w_hashR E (hash_builder m) (value e)) w).
    assert (Q := Y). destruct Q as (Q1 & Q2 & Q3).
    destruct (w_resize _ _ _ _ _ _) as [[w' t] u|[w' t]];
      (destruct Z as [Z1 Z2]; [intros x Hx; rewrite Q1; apply note_clean; apply MR; auto|exact X|]);
      [split; [split; [exact Z1|]|exact Logic.I]|split; [exact Z1|]]; (apply within_right; [exact Y|auto]).
  Qed.
  Lemma left_try_seen : forall n,
    yields J any (on_left (fun s t => w_try_resize (w_lo E) (w_fault E) t n (fun e => w_hashL E s (value e)))).
  Proof.
    intros z [w m] [X Y]. unfold on_left. cbn [fst snd] in *.
    assert (Z := try_resize_yields (w_lo E) (w_fault E) K OP FO (left_set m) z
      (fun e => w_hashL E (hash_builder m) (value e)) w).
    assert (Q := Y). destruct Q as (Q1 & Q2 & Q3).
    destruct (w_try_resize _ _ _ _ _ _) as [[w' t] u|[w' t]];
      (destruct Z as [Z1 Z2]; [intros x Hx; rewrite Q1; apply note_clean; apply MR; auto|exact X|]);
      [split; [split; [exact Z1|]|exact Logic.I]|split; [exact Z1|]]; (apply within_left; [exact Y|auto]).
  Qed.
  Lemma right_try_seen : forall n,
    yields J any (on_right (fun s t => w_try_resize (w_lo E) (w_fault E) t n (fun e => w_hashR E s (value e)))).
  Proof.
    intros z [w m] [X Y]. unfold on_right. cbn [fst snd] in *.
    assert (Z := try_resize_yields (w_lo E) (w_fault E) K OP FO (right_set m) z
      (fun e => w_hashR E (hash_builder m) (value e)) w).
    assert (Q := Y). destruct Q as (Q1 & Q2 & Q3).
    destruct (w_try_resize _ _ _ _ _ _) as [[w' t] u|[w' t]];
      (destruct Z as [Z1 Z2]; [intros x Hx; rewrite Q1; apply note_clean; apply MR; auto|exact X|]);
      [split; [split; [exact Z1|]|exact Logic.I]|split; [exact Z1|]]; (apply within_right; [exact Y|auto]).
  Qed.
  Hint Resolve left_insert_seen right_insert_seen left_resize_seen right_resize_seen left_try_seen
    right_try_seen : ys.
  Lemma insert_left_seen : forall l, may_l l -> AL l -> yields J any (w_insert_left E l).
  Proof. ys. Qed.
  Lemma insert_right_seen : forall r, may_r r -> AR r -> yields J any (w_insert_right E r).
  Proof. ys. Qed.
  Lemma insert_pair_seen : forall l r, may_l l -> may_r r -> AL l -> AR r -> yields J any (w_insert_pair E l r).
  Proof. ys. Qed.
  Hint Resolve insert_pair_seen : ys.
  Lemma ne_l_seen : forall a b, ok (CNeL a b) -> yields K any (w_neL E a b).
  Proof. intros. apply note_clean. auto. Qed.
  Lemma ne_r_seen : forall a b, ok (CNeR a b) -> yields K any (w_neR E a b).
  Proof. intros. apply note_clean. auto. Qed.
  Hint Resolve ne_l_seen ne_r_seen : ys.
  Lemma swap_left_seen : forall old new, may_l old -> may_l new -> AL new -> ok (CNeL new old) ->
    yields J any (w_swap_left E old new).
  Proof. ys. Qed.
  Lemma swap_right_seen : forall old new, may_r old -> may_r new -> AR new -> ok (CNeR new old) ->
    yields J any (w_swap_right E old new).
  Proof. ys. Qed.
  Hint Resolve swap_left_seen swap_right_seen : ys.
  Lemma swap_left_checked_seen : forall old ex new, may_l old -> may_r ex -> may_l new -> AL new ->
    ok (CNeL new old) -> yields J any (w_swap_left_checked E old ex new).
  Proof. ys. Qed.
  Lemma swap_right_checked_seen : forall old ex new, may_r old -> may_l ex -> may_r new -> AR new ->
    ok (CNeR new old) -> yields J any (w_swap_right_checked E old ex new).
  Proof. ys. Qed.
  Lemma swap_left_or_insert_seen : forall old new ti, may_l old -> may_l new -> may_r ti -> AL new -> AR ti ->
    ok (CNeL new old) -> yields J any (w_swap_left_or_insert E old new ti).
  Proof. ys. Qed.
  Lemma swap_right_or_insert_seen : forall old new ti, may_r old -> may_r new -> may_l ti -> AR new -> AL ti ->
    ok (CNeR new old) -> yields J any (w_swap_right_or_insert E old new ti).
  Proof. ys. Qed.
  Lemma extend_pairs_seen : forall xs, (forall l r, In (l, r) xs -> may_l l /\ may_r r /\ AL l /\ AR r) ->
    yields J any (w_extend_pairs E xs).
  Proof.
    induction xs as [|[a b] xs IH]; intros H; cbn [w_extend_pairs]; [apply ret_seen|].
    destruct (H a b (or_introl eq_refl)) as (H1 & H2 & H3 & H4).
    apply (yields_bind _ any); [apply insert_pair_seen; auto|]. intros _ _. apply IH. intros l r X. apply H. right. auto.
  Qed.
  Lemma extend_seen : forall xs,
    (forall l, In l (args_l (@Extend L R xs)) -> may_l l /\ AL l) -> (forall r, In r (args_r (@Extend L R xs)) -> may_r r /\ AR r) ->
    yields J any (w_extend E xs).
  Proof.
    cbn [args_l args_r].
    induction xs as [|p xs IH]; intros HL HR; cbn [w_extend]; [apply ret_seen|]. cbn [flat_map] in HL, HR.
    assert (Y : yields J any (w_extend E xs)).
    { apply IH; intros x X; [apply HL|apply HR]; apply in_or_app; right; exact X. }
    destruct p as [|l|r|l r]; [exact Y| | |]; cbn in HL, HR; (apply (yields_bind _ any); [|intros _ _; exact Y]).
    - destruct (HL l (or_introl eq_refl)). apply insert_left_seen; auto.
    - destruct (HR r (or_introl eq_refl)). apply insert_right_seen; auto.
    - destruct (HL l (or_introl eq_refl)), (HR r (or_introl eq_refl)). apply insert_pair_seen; auto.
  Qed.
  Lemma resize_left_seen : forall z, yields J any (w_resize_left E z).
  Proof. ys. Qed.
  Lemma resize_right_seen : forall z, yields J any (w_resize_right E z).
  Proof. ys. Qed.
  Lemma shrink_to_fit_seen : yields J any (w_shrink_to_fit E).
  Proof. ys. Qed.
  Lemma try_left_seen : forall n, yields J any (w_try_reserve_left E n).
  Proof. ys. Qed.
  Lemma try_right_seen : forall n, yields J any (w_try_reserve_right E n).
  Proof. ys. Qed.
End Seen.

(* ---- C152 ---- *)
Section Theorem152.
  Context {L R S W : Type} (E : wenv L R S W).
  Hypothesis TE : tame E.

  Lemma seen_from : forall A (ok : ucall L R S -> Prop) s0 AL AR (c : M ((W * list (ucall L R S)) * pmap L R S) A) m w,
    yields (both (clean ok) (within s0 AL AR)) any c -> within s0 AL AR m ->
    Forall ok (snd (fst (res_state (c ((w, []), m))))).
  Proof.
    intros A ok s0 AL AR c m w H X. specialize (H ((w, []), m)).
    assert (Y : both (clean ok) (within s0 AL AR) ((w, []), m)) by (split; [apply Forall_nil|exact X]).
    specialize (H Y). destruct (c _); cbn [res_state]; [destruct H as [[H _] _]|destruct H as [H _]]; exact H.
  Qed.
  Lemma within_start : forall (m : pmap L R S) (xs : list L) (ys : list R),
    within (hash_builder m) (fun l => In l (lefts m) \/ In l xs) (fun r => In r (rights m) \/ In r ys) m.
  Proof.
    intros m xs ys. split; [reflexivity|split]; intros e He; left; apply (in_map value), He.
  Qed.

  Ltac side := try exact TE; unfold may_l, may_r, may_rehash, allowed; cbn [args_l args_r searches walks swaps_l swaps_r List.In];
    intros; repeat match goal with H : False |- _ => destruct H | H : In (_, _) _ |- _ =>
      pose proof (in_map fst _ _ H); pose proof (in_map snd _ _ H); clear H end; cbn [fst snd] in *;
    repeat split; intros; eauto 6; intuition eauto.
  Theorem C152_calls : forall m (o : op L R) w, Forall (allowed m o) (user_calls E m o w).
  Proof.
    intros m o w.
    assert (WS := within_start m (if searches o then [] else args_l o) (if searches o then [] else args_r o)).
    unfold user_calls. destruct o; cbn [program]; try apply Forall_nil;
      (eapply seen_from; [|exact WS]); clear WS; cbn [searches args_l args_r].
    all: cbn [List.map].
    - apply insert_pair_seen; side.
    - apply insert_left_seen; side.
    - apply insert_right_seen; side.
    - apply pair_seen; side.
    - apply pair_forced_seen; side.
    - apply pair_forced_remove_seen; side.
    - apply unpair_seen; side.
    - apply remove_seen; side.
    - apply remove_left_seen; side.
    - apply remove_right_seen; side.
    - apply remove_via_left_seen; side.
    - apply remove_via_right_seen; side.
    - apply swap_left_seen; side.
    - apply swap_left_checked_seen; side.
    - apply swap_left_or_insert_seen; side.
    - apply swap_right_seen; side.
    - apply swap_right_checked_seen; side.
    - apply swap_right_or_insert_seen; side.
    - apply yields_look. intros m' X. apply (are_paired_may _ _ _ _ _ m' _ _ X); side.
    - apply yields_look. intros m' X. apply is_left_paired_seen. eapply may_ask_l; [exact X|side].
    - apply yields_look. intros m' X. apply is_right_paired_seen. eapply may_ask_r; [exact X|side].
    - apply yields_look. intros m' X. apply contains_left_seen. eapply may_ask_l; [exact X|side].
    - apply yields_look. intros m' X. apply contains_right_seen. eapply may_ask_r; [exact X|side].
    - apply yields_look. intros m' X. apply get_left_seen. eapply may_ask_r; [exact X|side].
    - apply yields_look. intros m' X. eapply yields_any, get_right_seen. eapply may_ask_l; [exact X|side].
    - apply yields_look. intros m' X. apply iter_all_seen. eapply own_within; [| |exact X]; side.
    - apply yields_look. intros m' X. apply paired_all_seen. intros l Hl. destruct X as (X1 & X2 & _).
      rewrite X1. apply in_map_iff in Hl as (e & <- & He). specialize (X2 e He). side.
    - apply extend_pairs_seen; side.
    - apply extend_seen; side.
    - apply retain_seen; side.
    - apply retain_paired_seen; side.
    - apply retain_unpaired_seen; side.
    - apply resize_left_seen; side.
    - apply resize_right_seen; side.
    - apply shrink_to_fit_seen; side.
    - apply resize_left_seen; side.
    - apply resize_right_seen; side.
    - apply try_left_seen; side.
    - apply try_right_seen; side.
  Qed.
End Theorem152.

(* writing the calls down changes nothing *)
Section Unchanged.
  Context {L R S W : Type} (E : wenv L R S W).
  Notation map := (pmap L R S).
  Lemma on_left_shadows : forall A (c : S -> table (mapping_pair L) -> W * list (ucall L R S) -> res _ A) c',
    (forall s t, tshadows (c s t) (c' s t)) -> mshadows (@on_left L R S _ A c) (@on_left L R S W A c').
  Proof.
    intros A c c' H w g m. unfold on_left. cbn [fst snd]. specialize (H (hash_builder m) (left_set m) w g).
    destruct (c _ _ _) as [[[w1 g1] t1] u|[[w1 g1] t1]], (c' _ _ _) as [[w2 t2] u'|[w2 t2]]; try contradiction.
    - destruct H as (<- & <- & <-). auto.
    - destruct H as (<- & <-). auto.
  Qed.
  Lemma on_right_shadows : forall A (c : S -> table (mapping_pair R) -> W * list (ucall L R S) -> res _ A) c',
    (forall s t, tshadows (c s t) (c' s t)) -> mshadows (@on_right L R S _ A c) (@on_right L R S W A c').
  Proof.
    intros A c c' H w g m. unfold on_right. cbn [fst snd]. specialize (H (hash_builder m) (right_set m) w g).
    destruct (c _ _ _) as [[[w1 g1] t1] u|[[w1 g1] t1]], (c' _ _ _) as [[w2 t2] u'|[w2 t2]]; try contradiction.
    - destruct H as (<- & <- & <-). auto.
    - destruct H as (<- & <-). auto.
  Qed.
  Ltac sh := intros; repeat (progress first
    [apply on_left_shadows; intros | apply on_right_shadows; intros | shw1]).
  Lemma extend_pairs_shadows : forall xs, mshadows (w_extend_pairs (logged E) xs) (w_extend_pairs E xs).
  Proof. induction xs as [|[a b] xs IH]; cbn [w_extend_pairs]; [sh|]. apply bind_mshadows; [sh|intros; exact IH]. Qed.
  Lemma extend_shadows : forall xs, mshadows (w_extend (logged E) xs) (w_extend E xs).
  Proof.
    induction xs as [|[|l|r|l r] xs IH]; cbn [w_extend]; [sh|exact IH| | |]; (apply bind_mshadows; [sh|intros; exact IH]).
  Qed.
  Lemma inner_shadows : forall A (o : outcome A), shadows (@w_inner (W * list (ucall L R S)) A o) (w_inner o).
  Proof. intros A [a|]; [apply ret_shadows|apply panic_shadows]. Qed.
  Lemma find_both_shadows : forall m l r, shadows (w_find_both (logged E) m l r) (w_find_both E m l r).
  Proof.
    intros. unfold w_find_both, w_get_mut. apply bind_shadows; [sh|intros]. apply bind_shadows; [sh|intros].
    apply bind_shadows; [apply bind_shadows; [apply find_shadows; sh|sh]|intros].
    apply bind_shadows; [apply bind_shadows; [apply find_shadows; sh|sh]|sh].
  Qed.
  Lemma paired_next_shadows : forall m it, shadows (w_paired_next (logged E) m it) (w_paired_next E m it).
  Proof.
    intros m. induction it as [|[h l] it IH]; cbn [w_paired_next]; [sh|]. destruct (phash l); [|exact IH].
    apply bind_shadows; [sh|intros]. apply bind_shadows; [apply inner_shadows|sh].
  Qed.
  Lemma collect_shadows : forall J A (n : J -> M (W * list (ucall L R S)) (option A * J)) n' fuel it,
    (forall it, shadows (n it) (n' it)) -> shadows (w_collect n fuel it) (w_collect n' fuel it).
  Proof.
    intros J A n n' fuel it H. revert it. induction fuel as [|fuel IH]; intros it; cbn [w_collect];
      (apply bind_shadows; [apply H|intros [[p|] it']]); try apply ret_shadows; try apply panic_shadows.
    apply bind_shadows; [apply IH|sh].
  Qed.
  Lemma iter_all_shadows : forall m, shadows (w_iter_all (logged E) m) (w_iter_all E m).
  Proof. intros. apply collect_shadows. sh. Qed.
  Lemma paired_all_shadows : forall m, shadows (w_paired_all (logged E) m) (w_paired_all E m).
  Proof. intros. apply collect_shadows. apply paired_next_shadows. Qed.
  Lemma retain_scan_shadows : forall X J A (f : X -> A -> X * verdict) (n : J -> M (W * list (ucall L R S)) _) n' k k' fuel it x,
    (forall it, shadows (n it) (n' it)) -> (forall a, shadows (k a) (k' a)) ->
    shadows (w_retain_scan f n k fuel it x) (w_retain_scan f n' k' fuel it x).
  Proof.
    intros X J A f n n' k k' fuel it x H HK. revert it x. induction fuel as [|fuel IH]; intros it x; cbn [w_retain_scan];
      (apply bind_shadows; [apply H|intros [[a|] it']]); try apply ret_shadows;
      (destruct (f x a) as [x' [ans|]]; [|apply ret_shadows]);
      (apply bind_shadows; [destruct ans; [apply bind_shadows; [apply HK|sh]|sh]|intros d]);
      [apply panic_shadows|]. apply bind_shadows; [apply IH|sh].
  Qed.
  Hint Resolve extend_pairs_shadows extend_shadows find_both_shadows iter_all_shadows paired_all_shadows : shw.
  Lemma retain_with_shadows : forall X (s : map -> M _ (res X (list drop_tup))) s', (forall m, shadows (s m) (s' m)) ->
    mshadows (w_retain_with (logged E) s) (w_retain_with E s').
  Proof. intros X s s' H. apply bind_mshadows; [apply look_mshadows, H|sh]. Qed.
  Lemma retain_shadows : forall X (f : X -> optional_pair L R -> X * verdict) x, mshadows (w_retain (logged E) f x) (w_retain E f x).
  Proof. intros. apply retain_with_shadows. intros m. apply retain_scan_shadows; sh. Qed.
  Lemma retain_paired_shadows : forall X (f : X -> L * R -> X * verdict) x,
    mshadows (w_retain_paired (logged E) f x) (w_retain_paired E f x).
  Proof. intros. apply retain_with_shadows. intros m. apply retain_scan_shadows; [apply paired_next_shadows|sh]. Qed.
  Lemma retain_unpaired_shadows : forall X (f : X -> optional_pair L R -> X * verdict) x,
    mshadows (w_retain_unpaired (logged E) f x) (w_retain_unpaired E f x).
  Proof. intros. apply retain_with_shadows. intros m. apply retain_scan_shadows; [intros; apply inner_shadows|sh]. Qed.
  Hint Resolve retain_shadows retain_paired_shadows retain_unpaired_shadows : shw.
  Lemma via_shadows : forall A (k : A -> out L R) (c : M ((W * list (ucall L R S)) * map) A) c' m w g,
    mshadows c c' -> w_via k c m (w, g) = w_via k c' m w.
  Proof.
    intros A k c c' m w g H. unfold w_via. specialize (H w g m).
    destruct (c _) as [[[w1 g1] m1] a|[[w1 g1] m1]], (c' _) as [[w2 m2] b|[w2 m2]]; try contradiction;
      destruct H as (<- & H).
    - destruct H as [<- <-]. auto.
    - subst. auto.
  Qed.
  Lemma unchanged : forall m (o : op L R) w g, w_step (logged E) m o (w, g) = w_step E m o w.
  Proof.
    intros m o w g. destruct o; cbn [w_step]; try reflexivity; apply via_shadows; sh.
  Qed.
End Unchanged.

(* [user_calls] records the very call that [w_step] makes: writing the calls down changes
   neither the map nor what the caller gets *)
Theorem C152_unchanged : forall {L R S W} (E : wenv L R S W) m (o : op L R) w,
  w_step (logged E) m o (w, []) = w_step E m o w.
Proof. intros. apply unchanged. Qed.

(* lookups: the one item is hashed once, before anything is compared, and only it is compared,
   with items of the map *)

Section Lookups.
  Context {L R S W : Type} (E : wenv L R S W).
  Notation map := (pmap L R S).
  Lemma adds_left : forall (m : map) h l,
    adds (fun d => exists bs, incl bs (lefts m) /\ d = List.map (CEqL l) bs) (find_left (logged E) m h l).
  Proof.
    intros m h l w g. destruct (adds_get (w_lo E) (left_set m) h (fun e => @CEqL L R S l (value e))
      (fun e => w_eqL E l (value e)) w g) as (d & (es & H & ->) & X).
    exists (List.map (CEqL l) (List.map value es)). split; [exists (List.map value es); split; auto; apply incl_map, H|].
    rewrite map_map. exact X.
  Qed.
  Lemma adds_right : forall (m : map) h r,
    adds (fun d => exists bs, incl bs (rights m) /\ d = List.map (CEqR r) bs) (find_right (logged E) m h r).
  Proof.
    intros m h l w g. destruct (adds_get (w_lo E) (right_set m) h (fun e => @CEqR L R S l (value e))
      (fun e => w_eqR E l (value e)) w g) as (d & (es & H & ->) & X).
    exists (List.map (CEqR l) (List.map value es)). split; [exists (List.map value es); split; auto; apply incl_map, H|].
    rewrite map_map. exact X.
  Qed.
  Lemma look_adds : forall {A} P (f : map -> M _ A) m w,
    adds P (f m) -> P (snd (fst (res_state (w_look f ((w, @nil (ucall L R S)) : W * _, m))))).
  Proof.
    intros A P f m w H. destruct (H w []) as (d & H1 & H2). unfold w_look. cbn [fst snd].
    cbn [app] in H2. destruct (f m (w, [])); cbn [res_state fst snd] in *; subst d; exact H1.
  Qed.
  Theorem C152_lookups : forall (m : map) w,
    (forall l o, o = ContainsLeft l \/ o = GetRight l \/ o = IsLeftPaired l ->
       exists bs, incl bs (lefts m) /\
         user_calls E m o w = CHashL (hash_builder m) l :: List.map (CEqL l) bs) /\
    (forall r o, o = ContainsRight r \/ o = GetLeft r \/ o = IsRightPaired r ->
       exists bs, incl bs (rights m) /\
         user_calls E m o w = CHashR (hash_builder m) r :: List.map (CEqR r) bs).
  Proof.
    intros m w. split; intros x o [->|[->| ->]]; unfold user_calls; cbn [program].
    1, 2, 3: apply (look_adds (fun d => exists bs, incl bs (lefts m) /\ d = CHashL (hash_builder m) x :: List.map (CEqL x) bs)).
    4, 5, 6: apply (look_adds (fun d => exists bs, incl bs (rights m) /\ d = CHashR (hash_builder m) x :: List.map (CEqR x) bs)).
    1, 2, 3: apply (adds_lookup (List.map (CEqL x))); [apply adds_note|intros a; apply adds_left|reflexivity].
    1, 2, 3: apply (adds_lookup (List.map (CEqR x))); [apply adds_note|intros a; apply adds_right|reflexivity].
  Qed.
End Lookups.

(* == on two maps *)
Definition eq_calls {L R S W} (E : wenv L R S W) (m other : pmap L R S) (w : W) : list (ucall L R S) :=
  snd (res_state (w_map_eq (logged E) m other (w, []))).
Theorem C152_eq : forall {L R S W} (E : wenv L R S W) (m other : pmap L R S) w,
  Forall (fun c => match c with
    | CHashL s l => (s = hash_builder m \/ s = hash_builder other) /\ In l (lefts m)
    | CHashR s r => s = hash_builder other /\ In r (rights m)
    | CEqL a b => In a (lefts m) /\ (In b (lefts m) \/ In b (lefts other))
    | CEqR a b => In a (rights m) /\ In b (rights other)
    | CNeL _ _ | CNeR _ _ => False
    end) (eq_calls E m other w).
Proof.
  intros L R S W E m other w. unfold eq_calls.
  match goal with |- Forall ?ok _ => assert (H := map_eq_seen E ok m other) end.
  assert (IL : forall (m : pmap L R S) e, In e (entries (left_set m)) -> In (value e) (lefts m))
    by (intros; apply (in_map value); auto).
  assert (IR : forall (m : pmap L R S) e, In e (entries (right_set m)) -> In (value e) (rights m))
    by (intros; apply (in_map value); auto).
  match type of H with ?a -> ?b -> ?c -> _ => assert (HA : a); [|assert (HB : b); [|assert (HC : c)]] end.
  1, 2, 3: intros x Hx; split; auto.
  specialize (H HA HB HC (w, []) (Forall_nil _)).
  destruct (w_map_eq _ _ _ _); cbn [res_state]; [apply H|exact H].
Qed.

(* two pairs and two lone items, hasher 3, all user code in the usual mood *)
Definition seen_map : pmap N N N :=
  fst (w_xrun (with_hasher 3 0 0) (calls
    [([], Call (Insert 1 10)); ([], Call (InsertLeft 2)); ([], Call (InsertRight 20)); ([], Call (Insert 3 30))])).
(* Hash of 1 and 3 is the same; the table shows hashbrown looking at every bucket *)
Example C152_calls_case :
  tame told_env /\ lefts seen_map = [2; 1; 3] /\ rights seen_map = [20; 10; 30] /\
  (* both items are looked up twice *)
  user_calls told_env seen_map (PairForced 1 20) [] =
    [CHashL 3 1; CHashR 3 20; CEqL 1 3; CEqL 1 1; CEqR 20 30; CEqR 20 10; CEqR 20 20;
     CHashL 3 1; CHashR 3 20; CEqL 1 3; CEqL 1 1; CEqR 20 30; CEqR 20 10; CEqR 20 20] /\
  user_calls told_env seen_map (SwapLeft 1 5) [] =
    [CHashL 3 5; CEqL 5 3; CEqL 5 1; CEqL 5 2; CHashL 3 1; CEqL 1 3; CEqL 1 1; CEqL 1 3; CEqL 1 1] /\
  (* a wrong answer of ==, then a panic of Hash *)
  user_calls told_env seen_map (Insert 1 10) [Some true; None] = [CHashL 3 1; CEqL 1 3; CHashR 3 10] /\
  user_calls told_env seen_map (ReserveLeft 100) [] = [CHashL 3 2; CHashL 3 1; CHashL 3 3] /\
  (* no == *)
  user_calls told_env seen_map IterPairedAll [] = [CHashL 3 1; CHashL 3 3] /\
  user_calls told_env seen_map (RetainUnpaired unit (fun x _ => (x, Some true)) tt) [] =
    [CHashL 3 2; CEqL 2 3; CEqL 2 1; CEqL 2 2; CHashR 3 20; CEqR 20 30; CEqR 20 10; CEqR 20 20] /\
  user_calls told_env seen_map Clear [] = [].
Proof. split; [apply told_tame|]. vm_compute. auto 12. Qed.
Example C152_lookups_case :
  user_calls told_env seen_map (GetRight 1) [] = CHashL 3 1 :: List.map (CEqL 1) [3; 1] /\
  user_calls told_env seen_map (IsRightPaired 7) [None] = CHashR 3 7 :: List.map (CEqR 7) [].
Proof. vm_compute. auto. Qed.
(* a map with another hasher *)
Example C152_eq_case :
  let other := fst (w_xrun (with_hasher 4 0 0) (calls
    [([], Call (Insert 5 50)); ([], Call (Insert 2 20)); ([], Call (Insert 3 30))])) in
  eq_calls told_env seen_map other [] =
    [CHashL 3 2; CEqL 2 3; CEqL 2 1; CEqL 2 2; CHashL 4 2; CEqL 2 3; CEqL 2 5; CEqL 2 2].
Proof. vm_compute. reflexivity. Qed.
Example C152_unchanged_case :
  w_step (logged told_env) seen_map (Insert 1 10) ([Some true; None], []) =
  w_step told_env seen_map (Insert 1 10) [Some true; None] /\
  snd (w_step told_env seen_map (Insert 1 10) [Some true; None]) = OPanic.
Proof. vm_compute. auto. Qed.
Print Assumptions C152_calls.
Print Assumptions C152_unchanged.
Print Assumptions C152_lookups.
Print Assumptions C152_eq.
