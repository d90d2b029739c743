(* GroupMap: on which items user code runs (property C153). *)
From Coq Require Import List NArith Lia Bool Permutation.
From Verif Require Import Closures Prelude RawTable GroupMap TableFacts GroupHistory
  Faults Conserve Wild GroupWild Concrete UserCalls.
Import ListNotations.
Open Scope N_scope.

(* ---- the spec ---- *)
(* the items handed to a call, by value or by reference *)
Definition args_l {L R} (o : op L R) : list L :=
  match o with
  | Insert l _ | InsertRemove l _ | InsertLeft l _ | Pair l _ | Remove l _ | RemoveLeft l
  | ArePaired l _ | ContainsLeft l | GetRight l => [l]
  | ExtendPairs xs => List.map fst xs
  | Extend xs => flat_map (fun p => match fst p with Some l => [l] | None => [] end) xs
  | _ => []
  end.
Definition args_r {L R} (o : op L R) : list R :=
  match o with
  | Insert _ r | InsertRemove _ r | InsertLeft _ r | InsertRight r | Pair _ r | Remove _ r
  | RemoveRight r | IsRightPaired r | ArePaired _ r | ContainsRight r | GetLeftIter r => [r]
  | SwapRight old new | SwapRightRemove old new => [old; new]
  | ExtendPairs xs => List.map snd xs
  | Extend xs => List.map snd xs
  | _ => []
  end.
(* calls that may put a left, a right item into the map *)
Definition puts_l {L R} (o : op L R) : bool :=
  match o with Insert _ _ | InsertRemove _ _ | InsertLeft _ _ | ExtendPairs _ | Extend _ => true | _ => false end.
Definition puts_r {L R} (o : op L R) : bool :=
  match o with
  | Insert _ _ | InsertRemove _ _ | InsertRight _ | SwapRight _ _ | SwapRightRemove _ _
  | ExtendPairs _ | Extend _ => true
  | _ => false
  end.
(* calls that may collect the left items of a group into a HashSet, or look up the map's own
   left items *)
Definition gathers {L R} (o : op L R) : bool :=
  match o with
  | Remove _ _ | RemoveRight _ | InsertRemove _ _ | InsertRight _ | SwapRight _ _ | SwapRightRemove _ _
  | Extend _ | RetainPaired _ _ _ => true
  | _ => false
  end.
(* calls that look up the map's own right items *)
Definition walks_r {L R} (o : op L R) : bool := match o with RetainUnpaired _ _ _ => true | _ => false end.
Definition lefts {L R S} (m : gmap L R S) : list L := List.map l_value (entries (left_set m)).
Definition rights {L R S} (m : gmap L R S) : list R := List.map r_value (entries (right_set m)).
(* the items in the map, those that o puts there included *)
Definition in_l {L R S} (m : gmap L R S) (o : op L R) (l : L) : Prop :=
  In l (lefts m) \/ puts_l o = true /\ In l (args_l o).
Definition in_r {L R S} (m : gmap L R S) (o : op L R) (r : R) : Prop :=
  In r (rights m) \/ puts_r o = true /\ In r (args_r o).
(* the calls of user code that o may make on m; the Hash of an item that goes into the HashSet of
   a removed group is written down with the map's hasher (the set has one of its own) *)
Definition allowed {L R S} (m : gmap L R S) (o : op L R) (c : ucall L R S) : Prop :=
  match c with
  | CHashL s l => s = hash_builder m /\ (In l (args_l o) \/ puts_l o || gathers o = true /\ in_l m o l)
  | CHashR s r => s = hash_builder m /\ (In r (args_r o) \/ puts_r o || walks_r o = true /\ in_r m o r)
  | CEqL a b => in_l m o a /\ (In b (args_l o) \/ gathers o = true /\ in_l m o b)
  | CEqR a b => in_r m o a /\ (In b (args_r o) \/ walks_r o = true /\ in_r m o b)
  | CNeL _ _ | CNeR _ _ => False
  end.

(* ---- the program that a call runs ---- *)
Section Calls.
  Context {L R S W : Type}.
  (* [go] is given the computation and how its value is shown; the calls not listed run no user
     code ([w_step] in GroupWild.v says what they do) *)
  Definition program {Z} (E : wenv L R S W) (go : forall A, (A -> out L R) -> M (W * gmap L R S) A -> Z) (calm : Z)
      (o : op L R) : Z :=
    match o with
    | Insert l r => go _ (fun _ => OUnit) (w_insert_pair E l r)
    | InsertRemove l r => go _ OInsRem (w_insert_remove E l r)
    | InsertLeft l r => go _ OL (w_insert_left E l r)
    | InsertRight r => go _ OGroup (w_insert_right E r)
    | SwapRight old new => go _ (fun _ => OUnit) (w_swap_right E old new)
    | SwapRightRemove old new => go _ OR (w_swap_right_remove E old new)
    | Pair l r => go _ OBool (w_pair E l r)
    | Remove l r => go _ OGroup (w_remove E l r)
    | RemoveLeft l => go _ OL (w_remove_left E l)
    | RemoveRight r => go _ OGroup (w_remove_right E r)
    | IsRightPaired r => go _ OBool (w_look (fun m => w_is_right_paired E m r))
    | ArePaired l r => go _ OBool (w_look (fun m => w_are_paired E m l r))
    | ContainsLeft l => go _ OBool (w_look (fun m => w_contains_left E m l))
    | ContainsRight r => go _ OBool (w_look (fun m => w_contains_right E m r))
    | GetRight l => go _ OR (w_look (fun m => w_get_right E m l))
    | GetLeftIter r => go _ OLsO (w_look (fun m => w_get_left_all E m r))
    | RetainPaired X f x => go _ (fun _ => OUnit) (w_retain_paired E f x)
    | RetainUnpaired X f x => go _ (fun _ => OUnit) (w_retain_unpaired E f x)
    | ExtendPairs xs => go _ (fun _ => OUnit) (w_extend_pairs E xs)
    | Extend xs => go _ (fun _ => OUnit) (w_extend E xs)
    | IterAll | IterPairedAll | IterUnpairedAll | IterLeftAll | IterRightAll | Clear | CloneSelf
    | LenLeft | LenRight | IsEmpty => calm
    end.
  Lemma program_step : forall (E : wenv L R S W) m o w,
    w_step E m o w = program E (fun A k c => w_via k c m w) (step (calm_env E) m o) o.
  Proof. intros E m [] w; reflexivity. Qed.
End Calls.

(* the calls of user code made by o on m in the world w, first to last, also if it panics *)
Definition user_calls {L R S W} (E : wenv L R S W) (m : gmap L R S) (o : op L R) (w : W) : list (ucall L R S) :=
  program (logged E) (fun A k c => snd (fst (res_state (c ((w, []), m))))) [] o.

(* ---- proofs ---- *)
Section Seen.
  Context {L R S W : Type} (E0 : wenv L R S W).
  Hypothesis TE : tame E0.
  Notation E := (logged E0).
  Notation map := (gmap L R S).
  Variable ok : ucall L R S -> Prop.
  Notation K := (@clean L R S W ok).
  Let OP := proj1 TE.
  Let FO := proj2 TE.

  (* a given item may be looked up in m *)
  Definition ask_l (m : map) (l : L) : Prop :=
    ok (CHashL (hash_builder m) l) /\ forall e, In e (entries (left_set m)) -> ok (CEqL (l_value e) l).
  Definition ask_r (m : map) (r : R) : Prop :=
    ok (CHashR (hash_builder m) r) /\ forall e, In e (entries (right_set m)) -> ok (CEqR (r_value e) r).

  Lemma hash_l_seen : forall m l, ask_l m l -> yields K any (hash_l E m l).
  Proof. intros m l H. apply note_clean, H. Qed.
  Lemma hash_r_seen : forall m r, ask_r m r -> yields K any (hash_r E m r).
  Proof. intros m r H. apply note_clean, H. Qed.
  Lemma find_left_seen : forall m h l, ask_l m l -> yields K any (w_find_left E m h l).
  Proof. intros m h l H. eapply yields_any, get_yields. intros e He. apply note_clean, H, He. Qed.
  Lemma find_right_seen : forall m h r, ask_r m r -> yields K any (w_find_right E m h r).
  Proof. intros m h l H. eapply yields_any, get_yields. intros e He. apply note_clean, H, He. Qed.
  Lemma mut_left_seen : forall m h l, ask_l m l -> yields K any (mut_left E m h l).
  Proof.
    intros m h l H. apply (yields_bind _ any); [|intros; apply ret_seen].
    apply find_yields. intros e He. apply note_clean, H, He.
  Qed.
  Lemma mut_right_seen : forall m h r, ask_r m r -> yields K any (mut_right E m h r).
  Proof.
    intros m h l H. apply (yields_bind _ any); [|intros; apply ret_seen].
    apply find_yields. intros e He. apply note_clean, H, He.
  Qed.
  Lemma inner_seen : forall {A} (P : A -> Prop) (o : outcome A), (forall a, o = Done a -> P a) ->
    yields K P (@w_inner (W * list (ucall L R S)) A o).
  Proof. intros A P [a|] H; [apply yields_ret; auto|apply yields_panic]. Qed.
  Lemma inner_any : forall {A} (o : outcome A), yields K any (@w_inner (W * list (ucall L R S)) A o).
  Proof. intros. apply inner_seen. intros; exact Logic.I. Qed.
  Hint Resolve hash_l_seen hash_r_seen find_left_seen find_right_seen mut_left_seen mut_right_seen inner_any : ys.
  Lemma are_paired_seen : forall m l r, ask_l m l -> ask_r m r -> yields K any (w_are_paired E m l r).
  Proof. ys. Qed.
  Lemma is_right_paired_seen : forall m r, ask_r m r -> yields K any (w_is_right_paired E m r).
  Proof. ys. Qed.
  Lemma contains_left_seen : forall m l, ask_l m l -> yields K any (w_contains_left E m l).
  Proof. ys. Qed.
  Lemma contains_right_seen : forall m r, ask_r m r -> yields K any (w_contains_right E m r).
  Proof. ys. Qed.
  Lemma get_right_seen : forall m l, ask_l m l -> yields K any (w_get_right E m l).
  Proof. ys. Qed.
  Lemma get_left_all_seen : forall m r, ask_r m r -> yields K any (w_get_left_all E m r).
  Proof. ys. Qed.
  Hint Resolve are_paired_seen is_right_paired_seen : ys.

  (* == : every item that the iterator of m gives out is looked up in the other map *)
  Definition item_of (m : map) (x : option L * R) : Prop :=
    (forall l, fst x = Some l -> In l (lefts m)) /\ In (snd x) (rights m).
  Definition own (m : map) (it : @iter_t R) : Prop :=
    forall x, In x (right_iter it) -> In (r_value (snd x)) (rights m).
  Lemma left_in : forall (m : map) h p e, t_get (w_lo E) (left_set m) h p = Some e -> In (l_value e) (lefts m).
  Proof. intros m h p e H. apply in_map. eapply calm_get_in, H. Qed.
  Lemma right_in : forall (m : map) h p e, t_get (w_lo E) (right_set m) h p = Some e -> In (r_value e) (rights m).
  Proof. intros m h p e H. apply in_map. eapply calm_get_in, H. Qed.
  Lemma iter_next_own : forall m it o it', own m it -> iter_next (calm_env E) m it = Done (o, it') ->
    (forall x, o = Some x -> item_of m x) /\ own m it'.
  Proof.
    intros m [rit lit] o it' X H. unfold own in X. cbn [right_iter] in X.
    assert (Y : forall lit, iter_next_right (calm_env E) m lit rit = Done (o, it') ->
                (forall x, o = Some x -> item_of m x) /\ own m it').
    { clear H. intros lt H. unfold iter_next_right in H. destruct rit as [|[h r] rest].
      - injection H as <- <-. split; [discriminate|intros x []].
      - assert (XR : In (r_value r) (rights m)) by (apply (X (h, r)); left; auto).
        assert (XI : forall lt, own m (Iter rest lt)) by (intros l x Hx; apply X; right; exact Hx).
        destruct (hs_elems (r_pairs r)) as [|[h' i] ps]; injection H as <- <-; (split; [|apply XI]);
          intros x Q; injection Q as <-; (split; [|exact XR]); intros l Hl; cbn [fst] in Hl; [discriminate|].
        destruct (t_get _ _ _ _) as [e|] eqn:G; [|discriminate]. injection Hl as <-. eapply left_in, G. }
    unfold iter_next in H. cbn [left_iter right_iter] in H. destruct lit as [[|[h i] ps]|]; [apply (Y _ H)| |apply (Y _ H)].
    destruct (t_get _ (left_set m) _ _) as [l|] eqn:G; [|discriminate].
    destruct (t_get _ (right_set m) _ _) as [r|] eqn:G'; [|discriminate]. injection H as <- <-.
    split; [|exact X]. intros x Q. injection Q as <-. split; [|eapply right_in, G'].
    intros l' Hl. injection Hl as <-. eapply left_in, G.
  Qed.
  Lemma eq_item_seen : forall m other x, item_of m x ->
    (forall l, In l (lefts m) -> ask_l other l) -> (forall r, In r (rights m) -> ask_r other r) ->
    yields K any (w_eq_item E other x).
  Proof.
    intros m other [[l|] r] [X Y] XL XR; unfold w_eq_item; cbn [fst snd] in *.
    - apply are_paired_seen; auto.
    - apply (yields_bind _ any); [apply is_right_paired_seen; auto|intros; apply ret_seen].
  Qed.
  Lemma all_items_seen : forall m other fuel it, own m it ->
    (forall l, In l (lefts m) -> ask_l other l) -> (forall r, In r (rights m) -> ask_r other r) ->
    yields K any (w_all_items E m other fuel it).
  Proof.
    intros m other. induction fuel as [|fuel IH]; intros it X XL XR; cbn [w_all_items];
      (eapply yields_bind; [apply inner_seen; exact (fun a H => H)|intros [[x|] it'] P;
         destruct (iter_next_own _ _ _ _ X P) as [P1 P2]]);
      try apply ret_seen;
      (apply (yields_bind _ any); [eapply eq_item_seen; eauto|intros [|] _]);
      try apply yields_panic; try apply ret_seen.
    apply IH; auto.
  Qed.
  Lemma map_eq_seen : forall m other,
    (forall l, In l (lefts m) -> ask_l other l) -> (forall r, In r (rights m) -> ask_r other r) ->
    yields K any (w_map_eq E m other).
  Proof.
    intros m other H2 H3. unfold w_map_eq. destruct (_ && _); [apply ret_seen|].
    apply all_items_seen; auto. intros x Hx. apply in_map, in_map, Hx.
  Qed.

  Lemma retain_scan_seen : forall {X J A} (f : X -> A -> X * verdict) (O : J -> Prop) (Q : A -> Prop) next key fuel it x,
    (forall it o it', O it -> next it = Done (o, it') -> (forall a, o = Some a -> Q a) /\ O it') ->
    (forall a, Q a -> yields K any (key a)) -> O it ->
    yields K any (w_retain_scan f next key fuel it x).
  Proof.
    intros X J A f O Q next key. induction fuel as [|fuel IH]; intros it x H HK Y; cbn [w_retain_scan];
      (eapply yields_bind; [apply inner_seen; exact (fun a H => H)|intros [[a|] it'] P;
         destruct (H _ _ _ Y P) as [P1 P2]]);
      try apply ret_seen;
      (destruct (f x a) as [x' [ans|]]; [|apply ret_seen]);
      (apply (yields_bind _ any); [destruct ans; [|apply ret_seen]; apply (yields_bind _ any); [auto|intros; apply ret_seen]|]).
    - intros d _. apply yields_panic.
    - intros d _. apply (yields_bind _ any); [apply IH; auto|]. intros y _. apply ret_seen.
  Qed.
  Lemma paired_next_own : forall (m : map) it o it', (forall x, In x it -> In (l_value (snd x)) (lefts m)) ->
    paired_next (calm_env E) m it = Done (o, it') ->
    (forall a, o = Some a -> In (fst a) (lefts m)) /\ (forall x, In x it' -> In (l_value (snd x)) (lefts m)).
  Proof.
    intros m [|[h l] it] o it' X H; cbn [paired_next] in H.
    - injection H as <- <-. split; [discriminate|intros x []].
    - destruct (t_get _ _ _ _); [|discriminate]. injection H as <- <-. split; [|intros x Hx; apply X; right; auto].
      intros a Q. injection Q as <-. apply (X (h, l)). left. auto.
  Qed.
  Lemma unpaired_next_own : forall (m : map) it o it', (forall x, In x it -> In (r_value (snd x)) (rights m)) ->
    unpaired_next it = Done (o, it') ->
    (forall a, o = Some a -> In a (rights m)) /\ (forall x, In x it' -> In (r_value (snd x)) (rights m)).
  Proof.
    intros m. induction it as [|[h r] it IH]; intros o it' X H; cbn [unpaired_next] in H.
    - injection H as <- <-. split; [discriminate|intros x []].
    - assert (XI : forall x, In x it -> In (r_value (snd x)) (rights m)) by (intros x Hx; apply X; right; auto).
      destruct (set_is_empty _); [|eauto]. injection H as <- <-. split; [|exact XI].
      intros a Q. injection Q as <-. apply (X (h, r)). left. auto.
  Qed.
  Lemma paired_key_seen : forall m p, ask_l m (fst p) -> yields K any (w_retain_paired_key E m p).
  Proof. ys. Qed.
  Lemma unpaired_key_seen : forall m r, ask_r m r -> yields K any (w_retain_unpaired_key E m r).
  Proof. ys. Qed.

  (* ---- calls on the map: the items that may be in it, and its hasher ---- *)
  Variable s0 : S.
  Variable AL : L -> Prop.
  Variable AR : R -> Prop.
  Definition within (m : map) : Prop :=
    hash_builder m = s0 /\ (forall e, In e (entries (left_set m)) -> AL (l_value e)) /\
    (forall e, In e (entries (right_set m)) -> AR (r_value e)).
  Notation I := within.
  Notation J := (both K I).
  Definition may_l (l : L) : Prop := ok (CHashL s0 l) /\ forall b, AL b -> ok (CEqL b l).
  Definition may_r (r : R) : Prop := ok (CHashR s0 r) /\ forall b, AR b -> ok (CEqR b r).
  Definition rehash_l : Prop := forall b, AL b -> ok (CHashL s0 b).
  Definition rehash_r : Prop := forall b, AR b -> ok (CHashR s0 b).
  Definition gather : Prop := forall l, AL l -> may_l l.
  Lemma may_ask_l : forall m l, I m -> may_l l -> ask_l m l.
  Proof. intros m l (H1 & H2 & _) [X Y]. split; [rewrite H1; auto|auto]. Qed.
  Lemma may_ask_r : forall m r, I m -> may_r r -> ask_r m r.
  Proof. intros m r (H1 & _ & H2) [X Y]. split; [rewrite H1; auto|auto]. Qed.
  Lemma within_left : forall m t, I m -> (forall e, In e (entries t) -> AL (l_value e)) -> I (set_left t m).
  Proof. intros m t (H1 & H2 & H3) H. split; [exact H1|split; [exact H|exact H3]]. Qed.
  Lemma within_right : forall m t, I m -> (forall e, In e (entries t) -> AR (r_value e)) -> I (set_right t m).
  Proof. intros m t (H1 & H2 & H3) H. split; [exact H1|split; [exact H2|exact H]]. Qed.
  Lemma within_counters : forall m a b, I m -> I (GM (hash_builder m) a b (left_set m) (right_set m)).
  Proof. intros m a b H. exact H. Qed.

  Lemma left_remove_seen : forall h l, may_l l -> yields J any (w_left_remove_entry E h l).
  Proof.
    intros h l H [w m] [X Y]. unfold w_left_remove_entry, bind, w_look. cbn [fst snd] in *.
    assert (Z : yields K (fun o => forall e t', o = Some (e, t') -> In e (entries (left_set m)) /\
                  incl (entries t') (entries (left_set m)))
              (w_remove_entry (w_lo E) (left_set m) h (fun e => w_eqL E (l_value e) l))).
    { apply remove_yields. intros e He. apply note_clean, H, Y, He. }
    specialize (Z w X). destruct (w_remove_entry _ _ _ _ _) as [w' [[e t]|]|w']; cbn.
    - destruct Z as [Z1 Z2]. destruct (Z2 _ _ eq_refl) as [_ Z3]. split; [|exact Logic.I].
      split; auto. apply within_left; auto. intros x Hx. apply Y, Z3, Hx.
    - destruct Z. split; [split; auto|exact Logic.I].
    - split; auto.
  Qed.
  Lemma right_remove_seen : forall h r, may_r r -> yields J any (w_right_remove_entry E h r).
  Proof.
    intros h l H [w m] [X Y]. unfold w_right_remove_entry, bind, w_look. cbn [fst snd] in *.
    assert (Z : yields K (fun o => forall e t', o = Some (e, t') -> In e (entries (right_set m)) /\
                  incl (entries t') (entries (right_set m)))
              (w_remove_entry (w_lo E) (right_set m) h (fun e => w_eqR E (r_value e) l))).
    { apply remove_yields. intros e He. apply note_clean, H, Y, He. }
    specialize (Z w X). destruct (w_remove_entry _ _ _ _ _) as [w' [[e t]|]|w']; cbn.
    - destruct Z as [Z1 Z2]. destruct (Z2 _ _ eq_refl) as [_ Z3]. split; [|exact Logic.I].
      split; auto. apply within_right; auto. intros x Hx. apply Y, Z3, Hx.
    - destruct Z. split; [split; auto|exact Logic.I].
    - split; auto.
  Qed.
  (* the searches with an id *)
  Lemma calm_left_remove : forall h p,
    yields I (fun o => forall e, o = Some e -> AL (l_value e)) (left_remove_entry (calm_env E) h p).
  Proof.
    intros h p. apply yields_get. intros m Y. destruct (t_remove_entry _ _ _ _) as [[e t]|] eqn:Q.
    - apply calm_remove_in in Q as [Q' Q].
      eapply yields_bind; [apply yields_put; apply within_left; [exact Y|intros x Hx; apply Y, Q, Hx]|].
      intros _ _. apply yields_ret. intros x Hx. injection Hx as <-. apply Y, Q'.
    - apply yields_ret. discriminate.
  Qed.
  Lemma calm_left_any : forall h p, yields I any (left_remove_entry (calm_env E) h p).
  Proof. intros. eapply yields_any, calm_left_remove. Qed.
  Lemma calm_right_any : forall h p, yields I any (right_remove_entry (calm_env E) h p).
  Proof.
    intros h p. apply yields_get. intros m Y. destruct (t_remove_entry _ _ _ _) as [[e t]|] eqn:Q.
    - apply calm_remove_in in Q as [_ Q].
      eapply yields_bind; [apply yields_put; apply within_right; [exact Y|intros x Hx; apply Y, Q, Hx]|].
      intros _ _. apply yields_ret. exact Logic.I.
    - apply yields_ret. exact Logic.I.
  Qed.
  Lemma modify_left_in : forall m i f, I m -> (forall p, l_value (f p) = l_value p) ->
    I (set_left (t_modify (left_set m) i f) m).
  Proof.
    intros m i f Y H. apply within_left; auto. intros e He.
    destruct (modify_entries _ _ _ _ He) as (x & Hx & [->| ->]); [|rewrite H]; apply Y, Hx.
  Qed.
  Lemma modify_right_in : forall m i f, I m -> (forall p, r_value (f p) = r_value p) ->
    I (set_right (t_modify (right_set m) i f) m).
  Proof.
    intros m i f Y H. apply within_right; auto. intros e He.
    destruct (modify_entries _ _ _ _ He) as (x & Hx & [->| ->]); [|rewrite H]; apply Y, Hx.
  Qed.
  Lemma hash_l_may : forall m l, I m -> may_l l -> yields K any (hash_l E m l).
  Proof. intros. apply hash_l_seen, may_ask_l; auto. Qed.
  Lemma hash_r_may : forall m r, I m -> may_r r -> yields K any (hash_r E m r).
  Proof. intros. apply hash_r_seen, may_ask_r; auto. Qed.
  Lemma find_left_may : forall m h l, I m -> may_l l -> yields K any (w_find_left E m h l).
  Proof. intros. apply find_left_seen, may_ask_l; auto. Qed.
  Lemma find_right_may : forall m h r, I m -> may_r r -> yields K any (w_find_right E m h r).
  Proof. intros. apply find_right_seen, may_ask_r; auto. Qed.
  Lemma mut_left_may : forall m h l, I m -> may_l l -> yields K any (mut_left E m h l).
  Proof. intros. apply mut_left_seen, may_ask_l; auto. Qed.
  Lemma mut_right_may : forall m h r, I m -> may_r r -> yields K any (mut_right E m h r).
  Proof. intros. apply mut_right_seen, may_ask_r; auto. Qed.
  Lemma are_paired_may : forall m l r, I m -> may_l l -> may_r r -> yields K any (w_are_paired E m l r).
  Proof. intros. apply are_paired_seen; [apply may_ask_l|apply may_ask_r]; auto. Qed.
  Hint Resolve modify_left_in modify_right_in within_counters calm_left_any calm_right_any : ys.
  Hint Resolve hash_l_may hash_r_may find_left_may find_right_may mut_left_may mut_right_may are_paired_may
    left_remove_seen right_remove_seen : ys.
  Lemma drop_lefts_seen : forall l, yields I any (drop_lefts (calm_env E) l).
  Proof. induction l as [|[a b] l IH]; cbn [drop_lefts]; ys. Qed.
  Lemma remove_pairs_calm : forall l, yields I any (remove_pairs (calm_env E) l).
  Proof. induction l as [|[a b] l IH]; cbn [remove_pairs]; ys. Qed.
  Hint Resolve drop_lefts_seen remove_pairs_calm : ys.
  Lemma rehash_pairs_seen : forall n l, yields I any (rehash_pairs (calm_env E) n l).
  Proof. intro n. induction l as [|[a b] l IH]; cbn [rehash_pairs]; ys. Qed.
  Lemma drop_rights_seen : forall l, yields I any (drop_rights (calm_env E) l).
  Proof. induction l as [|[a b] l IH]; cbn [drop_rights]; ys. Qed.
  Hint Resolve rehash_pairs_seen drop_rights_seen : ys.

  (* the HashSet of a removed group *)
  Lemma seen_seen : forall l seen, gather -> AL l -> (forall x, In x seen -> AL x) -> yields K any (w_seen E l seen).
  Proof.
    intros l seen G H. induction seen as [|x seen IH]; intros X; cbn [w_seen]; [apply ret_seen|].
    apply (yields_bind _ any); [apply note_clean; apply (G x); auto; apply X; left; auto|].
    intros [|] _; [apply ret_seen|]. apply IH. intros y Hy. apply X. right. auto.
  Qed.
  Lemma remove_pairs_seen : forall ps seen, gather -> (forall x, In x seen -> AL x) ->
    yields J any (w_remove_pairs E seen ps).
  Proof.
    induction ps as [|[h i] ps IH]; intros seen G X; cbn [w_remove_pairs]; [apply ret_seen|].
    eapply yields_bind; [apply yields_calmly, calm_left_remove|]. intros o Ho.
    eapply yields_bind; [apply yields_unwrap, Ho|]. intros e He.
    apply (yields_bind _ any); [apply yields_look; intros m Y; apply hash_l_may; auto|]. intros h' _.
    apply (yields_bind _ any); [apply yields_look; intros m Y; apply seen_seen; auto|]. intros b _.
    apply IH; auto. destruct b; auto. intros x [<-|Hx]; auto.
  Qed.
  Hint Resolve remove_pairs_seen : ys.
  Lemma no_seen : forall x : L, In x [] -> AL x.
  Proof. intros x []. Qed.
  Hint Resolve no_seen : ys.
  Lemma remove_left_seen : forall l, may_l l -> yields J any (w_remove_left E l).
  Proof. ys. Qed.
  Lemma remove_right_seen : forall r, may_r r -> gather -> yields J any (w_remove_right E r).
  Proof. ys. Qed.
  Hint Resolve remove_left_seen remove_right_seen : ys.
  Lemma remove_seen : forall l r, may_l l -> may_r r -> gather -> yields J any (w_remove E l r).
  Proof. ys. Qed.
  Lemma pair_seen : forall l r, may_l l -> may_r r -> yields J any (w_pair E l r).
  Proof. ys. Qed.
  Lemma retain_paired_seen : forall {X} (f : X -> L * R -> X * verdict) x, gather -> yields J any (w_retain_paired E f x).
  Proof.
    intros X f x G. apply (yields_bind _ any); [|ys]. apply yields_look. intros m Y.
    eapply retain_scan_seen; [apply (paired_next_own m)|intros p Hp; apply paired_key_seen|].
    - apply may_ask_l; auto. apply G. apply in_map_iff in Hp as (e & <- & He). apply Y, He.
    - intros y Hy. apply in_map, in_map, Hy.
  Qed.
  Lemma retain_unpaired_seen : forall {X} (f : X -> R -> X * verdict) x, (forall r, AR r -> may_r r) ->
    yields J any (w_retain_unpaired E f x).
  Proof.
    intros X f x G. apply (yields_bind _ any); [|ys]. apply yields_look. intros m Y.
    eapply retain_scan_seen; [apply (unpaired_next_own m)|intros p Hp; apply unpaired_key_seen|].
    - apply may_ask_r; auto. apply G. apply in_map_iff in Hp as (e & <- & He). apply Y, He.
    - intros y Hy. apply in_map, in_map, Hy.
  Qed.

  (* insertions *)
  Lemma left_insert_seen : forall h e, rehash_l -> AL (l_value e) -> yields J any (w_left_insert E h e).
  Proof.
    intros h e MR H [w m] [X Y]. unfold w_left_insert, on_left. cbn [fst snd] in *.
    assert (Z := insert_yields (w_lo E) (w_fault E) K OP FO (left_set m) h e
      (fun e => w_hashL E (hash_builder m) (l_value e)) w).
    assert (Q := Y). destruct Q as (Q1 & Q2 & Q3).
    destruct (w_insert _ _ _ _ _ _ _) as [[w' t] u|[w' t]];
      (destruct Z as [Z1 Z2]; [intros x Hx; rewrite Q1; apply note_clean; apply MR; auto|exact X|]).
    - split; [split; [exact Z1|]|exact Logic.I]. apply within_left; [exact Y|].
      intros x Hx. destruct (Z2 x Hx) as [<-|Hx']; auto.
    - split; [exact Z1|]. apply within_left; [exact Y|]. intros x Hx. auto.
  Qed.
  Lemma right_insert_seen : forall h e, rehash_r -> AR (r_value e) -> yields J any (w_right_insert E h e).
  Proof.
    intros h e MR H [w m] [X Y]. unfold w_right_insert, on_right. cbn [fst snd] in *.
    assert (Z := insert_yields (w_lo E) (w_fault E) K OP FO (right_set m) h e
      (fun e => w_hashR E (hash_builder m) (r_value e)) w).
    assert (Q := Y). destruct Q as (Q1 & Q2 & Q3).
    destruct (w_insert _ _ _ _ _ _ _) as [[w' t] u|[w' t]];
      (destruct Z as [Z1 Z2]; [intros x Hx; rewrite Q1; apply note_clean; apply MR; auto|exact X|]).
    - split; [split; [exact Z1|]|exact Logic.I]. apply within_right; [exact Y|].
      intros x Hx. destruct (Z2 x Hx) as [<-|Hx']; auto.
    - split; [exact Z1|]. apply within_right; [exact Y|]. intros x Hx. auto.
  Qed.
  Hint Resolve left_insert_seen right_insert_seen : ys.
  Lemma insert_pair_seen : forall l r, may_l l -> may_r r -> AL l -> AR r -> rehash_l -> rehash_r ->
    yields J any (w_insert_pair E l r).
  Proof. ys. Qed.
  Lemma insert_remove_seen : forall l r, may_l l -> may_r r -> AL l -> AR r -> gather -> rehash_r ->
    yields J any (w_insert_remove E l r).
  Proof. intros l r H1 H2 H3 H4 H5 H6. assert (rehash_l) by (intros x Hx; apply H5; auto). ys. Qed.
  Lemma insert_left_seen : forall l r, may_l l -> may_r r -> AL l -> rehash_l -> yields J any (w_insert_left E l r).
  Proof. ys. Qed.
  Lemma insert_right_seen : forall r, may_r r -> AR r -> gather -> rehash_r -> yields J any (w_insert_right E r).
  Proof. ys. Qed.
  Hint Resolve insert_pair_seen insert_right_seen : ys.
  Lemma swap_right_seen : forall old new, may_r old -> may_r new -> AR new -> gather -> rehash_r ->
    yields J any (w_swap_right E old new).
  Proof. ys. Qed.
  Lemma swap_right_remove_seen : forall old new, may_r old -> may_r new -> AR new -> gather -> rehash_r ->
    yields J any (w_swap_right_remove E old new).
  Proof. ys. Qed.
  Lemma extend_pairs_seen : forall xs, rehash_l -> rehash_r ->
    (forall l r, In (l, r) xs -> may_l l /\ may_r r /\ AL l /\ AR r) ->
    yields J any (w_extend_pairs E xs).
  Proof.
    induction xs as [|[a b] xs IH]; intros G1 G2 H; cbn [w_extend_pairs]; [apply ret_seen|].
    destruct (H a b (or_introl eq_refl)) as (H1 & H2 & H3 & H4).
    apply (yields_bind _ any); [apply insert_pair_seen; auto|]. intros _ _. apply IH; auto. intros l r X. apply H. right. auto.
  Qed.
  Lemma extend_seen : forall xs, gather -> rehash_r ->
    (forall l, In l (args_l (@Extend L R xs)) -> may_l l /\ AL l) -> (forall r, In r (args_r (@Extend L R xs)) -> may_r r /\ AR r) ->
    yields J any (w_extend E xs).
  Proof.
    cbn [args_l args_r]. intros xs G1 G2. assert (G3 : rehash_l) by (intros x Hx; apply G1; auto).
    induction xs as [|p xs IH]; intros HL HR; cbn [w_extend]; [apply ret_seen|]. cbn [flat_map List.map] in HL, HR.
    assert (Y : yields J any (w_extend E xs)).
    { apply IH; intros x X; [apply HL|apply HR]; [apply in_or_app|]; right; exact X. }
    destruct p as [[l|] r]; cbn in HL, HR; (apply (yields_bind _ any); [|intros _ _; exact Y]);
      destruct (HR r (or_introl eq_refl)).
    - destruct (HL l (or_introl eq_refl)). apply insert_pair_seen; auto.
    - apply insert_right_seen; auto.
  Qed.
End Seen.

(* ---- C153 ---- *)
Section Theorem153.
  Context {L R S W : Type} (E : wenv L R S W).
  Hypothesis TE : tame E.

  Lemma seen_from : forall A (ok : ucall L R S -> Prop) s0 AL AR (c : M ((W * list (ucall L R S)) * gmap L R S) A) m w,
    yields (both (clean ok) (within s0 AL AR)) any c -> within s0 AL AR m ->
    Forall ok (snd (fst (res_state (c ((w, []), m))))).
  Proof.
    intros A ok s0 AL AR c m w H X. specialize (H ((w, []), m)).
    assert (Y : both (clean ok) (within s0 AL AR) ((w, []), m)) by (split; [apply Forall_nil|exact X]).
    specialize (H Y). destruct (c _); cbn [res_state]; [destruct H as [[H _] _]|destruct H as [H _]]; exact H.
  Qed.
  Lemma within_start : forall (m : gmap L R S) (o : op L R),
    within (hash_builder m) (in_l m o) (in_r m o) m.
  Proof.
    intros m o. split; [reflexivity|split]; intros e He; left; [apply (in_map l_value), He|apply (in_map r_value), He].
  Qed.

  Ltac side := try exact TE; unfold may_l, may_r, gather, rehash_l, rehash_r, may_l, in_l, in_r, allowed, in_l, in_r;
    cbn [args_l args_r puts_l puts_r gathers walks_r orb List.In];
    intros; repeat match goal with H : False |- _ => destruct H | H : In (_, _) _ |- _ =>
      pose proof (in_map fst _ _ H); pose proof (in_map snd _ _ H); clear H end; cbn [fst snd] in *;
    repeat split; intros; eauto 6; intuition eauto.
  Theorem C153_calls : forall m (o : op L R) w, Forall (allowed m o) (user_calls E m o w).
  Proof.
    intros m o w. assert (WS := within_start m o).
    unfold user_calls. destruct o; cbn [program]; try apply Forall_nil;
      (eapply seen_from; [|exact WS]); clear WS.
    - apply insert_pair_seen; side.
    - apply insert_remove_seen; side.
    - apply insert_left_seen; side.
    - apply insert_right_seen; side.
    - apply swap_right_seen; side.
    - apply swap_right_remove_seen; side.
    - apply pair_seen; side.
    - apply remove_seen; side.
    - apply remove_left_seen; side.
    - apply remove_right_seen; side.
    - apply yields_look. intros m' X. apply is_right_paired_seen. eapply may_ask_r; [exact X|side].
    - apply yields_look. intros m' X. apply (are_paired_may _ _ _ _ _ m' _ _ X); side.
    - apply yields_look. intros m' X. apply contains_left_seen. eapply may_ask_l; [exact X|side].
    - apply yields_look. intros m' X. apply contains_right_seen. eapply may_ask_r; [exact X|side].
    - apply yields_look. intros m' X. apply get_right_seen. eapply may_ask_l; [exact X|side].
    - apply yields_look. intros m' X. apply get_left_all_seen. eapply may_ask_r; [exact X|side].
    - apply retain_paired_seen; side.
    - apply retain_unpaired_seen; side.
    - apply extend_pairs_seen; side.
    - apply extend_seen; side.
  Qed.
End Theorem153.

(* writing the calls down changes nothing *)
Section Unchanged.
  Context {L R S W : Type} (E : wenv L R S W).
  Notation map := (gmap L R S).
  Lemma on_left_shadows : forall A (c : S -> table (left_item L) -> W * list (ucall L R S) -> res _ A) c',
    (forall s t, tshadows (c s t) (c' s t)) -> mshadows (@on_left L R S _ A c) (@on_left L R S W A c').
  Proof.
    intros A c c' H w g m. unfold on_left. cbn [fst snd]. specialize (H (hash_builder m) (left_set m) w g).
    destruct (c _ _ _) as [[[w1 g1] t1] u|[[w1 g1] t1]], (c' _ _ _) as [[w2 t2] u'|[w2 t2]]; try contradiction.
    - destruct H as (<- & <- & <-). auto.
    - destruct H as (<- & <-). auto.
  Qed.
  Lemma on_right_shadows : forall A (c : S -> table (right_item R) -> W * list (ucall L R S) -> res _ A) c',
    (forall s t, tshadows (c s t) (c' s t)) -> mshadows (@on_right L R S _ A c) (@on_right L R S W A c').
  Proof.
    intros A c c' H w g m. unfold on_right. cbn [fst snd]. specialize (H (hash_builder m) (right_set m) w g).
    destruct (c _ _ _) as [[[w1 g1] t1] u|[[w1 g1] t1]], (c' _ _ _) as [[w2 t2] u'|[w2 t2]]; try contradiction.
    - destruct H as (<- & <- & <-). auto.
    - destruct H as (<- & <-). auto.
  Qed.
  Ltac sh := intros; repeat (progress first
    [apply on_left_shadows; intros | apply on_right_shadows; intros | shw1]).
  Lemma inner_shadows : forall A (o : outcome A), shadows (@w_inner (W * list (ucall L R S)) A o) (w_inner o).
  Proof. intros A [a|]; [apply ret_shadows|apply panic_shadows]. Qed.
  Lemma mut_left_shadows : forall m h l, shadows (mut_left (logged E) m h l) (mut_left E m h l).
  Proof. intros. apply bind_shadows; [apply find_shadows; sh|sh]. Qed.
  Lemma mut_right_shadows : forall m h l, shadows (mut_right (logged E) m h l) (mut_right E m h l).
  Proof. intros. apply bind_shadows; [apply find_shadows; sh|sh]. Qed.
  Lemma seen_shadows : forall l seen, shadows (w_seen (logged E) l seen) (w_seen E l seen).
  Proof.
    intros l. induction seen as [|x seen IH]; cbn [w_seen]; [sh|]. apply bind_shadows; [sh|].
    intros [|]; [sh|exact IH].
  Qed.
  Lemma remove_pairs_shadows : forall ps seen, mshadows (w_remove_pairs (logged E) seen ps) (w_remove_pairs E seen ps).
  Proof.
    induction ps as [|[h i] ps IH]; intros seen; cbn [w_remove_pairs]; [sh|].
    apply bind_mshadows; [sh|intros]. apply bind_mshadows; [sh|intros]. apply bind_mshadows; [sh|intros].
    apply bind_mshadows; [apply look_mshadows; intros; apply seen_shadows|intros; apply IH].
  Qed.
  Hint Resolve inner_shadows mut_left_shadows mut_right_shadows remove_pairs_shadows : shw.
  Lemma extend_pairs_shadows : forall xs, mshadows (w_extend_pairs (logged E) xs) (w_extend_pairs E xs).
  Proof. induction xs as [|[a b] xs IH]; cbn [w_extend_pairs]; [sh|]. apply bind_mshadows; [sh|intros; exact IH]. Qed.
  Lemma extend_shadows : forall xs, mshadows (w_extend (logged E) xs) (w_extend E xs).
  Proof.
    induction xs as [|[[l|] r] xs IH]; cbn [w_extend]; [sh| |]; (apply bind_mshadows; [sh|intros; exact IH]).
  Qed.
  Hint Resolve extend_pairs_shadows extend_shadows : shw.
  Lemma retain_scan_shadows : forall X J A (f : X -> A -> X * verdict) (n : J -> outcome (option A * J))
    (k : A -> M (W * list (ucall L R S)) _) k' fuel it x, (forall a, shadows (k a) (k' a)) ->
    shadows (w_retain_scan f n k fuel it x) (w_retain_scan f n k' fuel it x).
  Proof.
    intros X J A f n k k' fuel it x HK. revert it x. induction fuel as [|fuel IH]; intros it x; cbn [w_retain_scan];
      (apply bind_shadows; [apply inner_shadows|intros [[a|] it']]); try apply ret_shadows;
      (destruct (f x a) as [x' [ans|]]; [|apply ret_shadows]);
      (apply bind_shadows; [destruct ans; [apply bind_shadows; [apply HK|sh]|sh]|intros d]);
      [apply panic_shadows|]. apply bind_shadows; [apply IH|sh].
  Qed.
  Lemma retain_paired_shadows : forall X (f : X -> L * R -> X * verdict) x,
    mshadows (w_retain_paired (logged E) f x) (w_retain_paired E f x).
  Proof.
    intros. apply bind_mshadows; [apply look_mshadows; intros m; apply retain_scan_shadows; sh|sh].
  Qed.
  Lemma retain_unpaired_shadows : forall X (f : X -> R -> X * verdict) x,
    mshadows (w_retain_unpaired (logged E) f x) (w_retain_unpaired E f x).
  Proof.
    intros. apply bind_mshadows; [apply look_mshadows; intros m; apply retain_scan_shadows; sh|sh].
  Qed.
  Hint Resolve retain_paired_shadows retain_unpaired_shadows : shw.
  Lemma via_shadows : forall A (k : A -> out L R) (c : M ((W * list (ucall L R S)) * map) A) c' m w g,
    mshadows c c' -> w_via k c m (w, g) = w_via k c' m w.
  Proof.
    intros A k c c' m w g H. unfold w_via. specialize (H w g m).
    destruct (c _) as [[[w1 g1] m1] a|[[w1 g1] m1]], (c' _) as [[w2 m2] b|[w2 m2]]; try contradiction;
      destruct H as (<- & H).
    - destruct H as [<- <-]. auto.
    - subst. auto.
  Qed.
  Lemma unchanged : forall m (o : op L R) w g, w_step (logged E) m o (w, g) = w_step E m o w.
  Proof.
    intros m o w g. destruct o; cbn [w_step]; try reflexivity; apply via_shadows; sh.
  Qed.
End Unchanged.

(* [user_calls] records the very call that [w_step] makes: writing the calls down changes
   neither the map nor what the caller gets *)
Theorem C153_unchanged : forall {L R S W} (E : wenv L R S W) m (o : op L R) w,
  w_step (logged E) m o (w, []) = w_step E m o w.
Proof. intros. apply unchanged. Qed.

(* lookups: the one item is hashed once, before anything is compared, and only it is compared,
   with items of the map *)

Section Lookups.
  Context {L R S W : Type} (E : wenv L R S W).
  Notation map := (gmap L R S).
  Lemma adds_left : forall (m : map) h l,
    adds (fun d => exists bs, incl bs (lefts m) /\ d = List.map (fun b => CEqL b l) bs) (w_find_left (logged E) m h l).
  Proof.
    intros m h l w g. destruct (adds_get (w_lo E) (left_set m) h (fun e => @CEqL L R S (l_value e) l)
      (fun e => w_eqL E (l_value e) l) w g) as (d & (es & H & ->) & X).
    exists (List.map (fun b => CEqL b l) (List.map l_value es)).
    split; [exists (List.map l_value es); split; auto; apply incl_map, H|].
    rewrite map_map. exact X.
  Qed.
  Lemma adds_right : forall (m : map) h r,
    adds (fun d => exists bs, incl bs (rights m) /\ d = List.map (fun b => CEqR b r) bs) (w_find_right (logged E) m h r).
  Proof.
    intros m h l w g. destruct (adds_get (w_lo E) (right_set m) h (fun e => @CEqR L R S (r_value e) l)
      (fun e => w_eqR E (r_value e) l) w g) as (d & (es & H & ->) & X).
    exists (List.map (fun b => CEqR b l) (List.map r_value es)).
    split; [exists (List.map r_value es); split; auto; apply incl_map, H|].
    rewrite map_map. exact X.
  Qed.
  Lemma inner_adds : forall A (o : outcome A), adds (eq []) (@w_inner (W * list (ucall L R S)) A o).
  Proof.
    intros A [a|]; [apply adds_ret|]. intros w g. exists []. cbn. rewrite app_nil_r. auto.
  Qed.
  Lemma look_adds : forall {A} P (f : map -> M _ A) m w,
    adds P (f m) -> P (snd (fst (res_state (w_look f ((w, @nil (ucall L R S)) : W * _, m))))).
  Proof.
    intros A P f m w H. destruct (H w []) as (d & H1 & H2). unfold w_look. cbn [fst snd].
    cbn [app] in H2. destruct (f m (w, [])); cbn [res_state fst snd] in *; subst d; exact H1.
  Qed.
  Theorem C153_lookups : forall (m : map) w,
    (forall l o, o = ContainsLeft l \/ o = GetRight l ->
       exists bs, incl bs (lefts m) /\
         user_calls E m o w = CHashL (hash_builder m) l :: List.map (fun b => CEqL b l) bs) /\
    (forall r o, o = ContainsRight r \/ o = IsRightPaired r \/ o = GetLeftIter r ->
       exists bs, incl bs (rights m) /\
         user_calls E m o w = CHashR (hash_builder m) r :: List.map (fun b => CEqR b r) bs).
  Proof.
    intros m w. split.
    - intros x o [->| ->]; unfold user_calls; cbn [program].
      1, 2: apply (look_adds (fun d => exists bs, incl bs (lefts m) /\ d = CHashL (hash_builder m) x :: List.map (fun b => CEqL b x) bs)).
      1, 2: apply (adds_lookup (List.map (fun b => CEqL b x))); [apply adds_note|intros a; apply adds_left|reflexivity].
    - intros x o [->|[->| ->]]; unfold user_calls; cbn [program].
      1, 2, 3: apply (look_adds (fun d => exists bs, incl bs (rights m) /\ d = CHashR (hash_builder m) x :: List.map (fun b => CEqR b x) bs)).
      1, 2: apply (adds_lookup (List.map (fun b => CEqR b x))); [apply adds_note|intros a; apply adds_right|reflexivity].
      unfold w_get_left_all. eapply adds_bind; [apply adds_note| | |].
      + intros a. eapply adds_bind with (Q := eq []); [apply adds_right| | |].
        * intros [r|]; [|apply adds_ret]. eapply adds_bind; [apply inner_adds|intros; apply adds_ret|auto|].
          intros d d' <- <-. auto.
        * exact (fun d H => H).
        * intros d d' H <-. rewrite app_nil_r. exact H.
      + intros d <-. exists []. split; [intros y []|auto].
      + intros d d' <- (bs & H & ->). exists bs. auto.
  Qed.
End Lookups.

(* == on two maps *)
Definition eq_calls {L R S W} (E : wenv L R S W) (m other : gmap L R S) (w : W) : list (ucall L R S) :=
  snd (res_state (w_map_eq (logged E) m other (w, []))).
Theorem C153_eq : forall {L R S W} (E : wenv L R S W) (m other : gmap L R S) w,
  Forall (fun c => match c with
    | CHashL s l => s = hash_builder other /\ In l (lefts m)
    | CHashR s r => s = hash_builder other /\ In r (rights m)
    | CEqL a b => In a (lefts other) /\ In b (lefts m)
    | CEqR a b => In a (rights other) /\ In b (rights m)
    | CNeL _ _ | CNeR _ _ => False
    end) (eq_calls E m other w).
Proof.
  intros L R S W E m other w. unfold eq_calls.
  match goal with |- Forall ?ok _ => assert (H := map_eq_seen E ok m other) end.
  match type of H with ?a -> ?b -> _ => assert (HA : a); [|assert (HB : b)] end.
  - intros x Hx. split; auto. intros e He. split; [apply (in_map l_value), He|exact Hx].
  - intros x Hx. split; auto. intros e He. split; [apply (in_map r_value), He|exact Hx].
  - specialize (H HA HB (w, []) (Forall_nil _)).
    destruct (w_map_eq _ _ _ _); cbn [res_state]; [apply H|exact H].
Qed.

(* two groups, one of them of two, and a lone right item; hasher 3 *)
Definition seen_map : gmap N N N :=
  fst (w_run (with_hasher 3 0 0) (calls
    [([], Insert 1 10); ([], Insert 3 10); ([], InsertRight 20); ([], Insert 2 30)])).
(* the table shows hashbrown looking at every bucket with the same hash, and more *)
Example C153_calls_case :
  tame told_env /\ lefts seen_map = [3; 1; 2] /\ rights seen_map = [20; 10; 30] /\
  user_calls told_env seen_map (Insert 1 20) [] =
    [CHashL 3 1; CHashR 3 20; CEqL 2 1; CEqL 1 1; CEqR 30 20; CEqR 10 20; CEqR 20 20] /\
  (* the removed group goes into a HashSet *)
  user_calls told_env seen_map (RemoveRight 10) [] =
    [CHashR 3 10; CEqR 30 10; CEqR 10 10; CHashL 3 1; CHashL 3 3; CEqL 3 1] /\
  (* both tables grow *)
  user_calls told_env seen_map (Insert 4 40) [] =
    [CHashL 3 4; CHashR 3 40; CEqL 2 4; CEqL 1 4; CEqL 3 4; CEqR 30 40; CEqR 10 40; CEqR 20 40;
     CHashL 3 3; CHashL 3 1; CHashL 3 2; CHashR 3 20; CHashR 3 10; CHashR 3 30] /\
  (* a wrong answer of ==, then a panic *)
  user_calls told_env seen_map (Insert 1 10) [Some true; None] =
    [CHashL 3 1; CHashR 3 10; CEqL 2 1; CEqR 30 10] /\
  user_calls told_env seen_map (SwapRight 10 11) [] = [CHashR 3 10; CEqR 30 10; CEqR 10 10; CHashR 3 11] /\
  user_calls told_env seen_map (RetainUnpaired unit (fun x _ => (x, Some true)) tt) [] =
    [CHashR 3 20; CEqR 30 20; CEqR 10 20; CEqR 20 20] /\
  user_calls told_env seen_map IterAll [] = [].
Proof. split; [apply told_tame|]. vm_compute. auto 12. Qed.
Example C153_lookups_case :
  user_calls told_env seen_map (GetRight 1) [] = CHashL 3 1 :: List.map (fun b => CEqL b 1) [2; 1] /\
  user_calls told_env seen_map (GetLeftIter 10) [] = CHashR 3 10 :: List.map (fun b => CEqR b 10) [30; 10] /\
  user_calls told_env seen_map (IsRightPaired 7) [None] = CHashR 3 7 :: List.map (fun b => CEqR b 7) [].
Proof. vm_compute. auto. Qed.
(* a map with another hasher *)
Example C153_eq_case :
  let other := fst (w_run (with_hasher 4 0 0) (calls
    [([], Insert 5 50); ([], Insert 3 10); ([], Insert 2 30)])) in
  eq_calls told_env seen_map other [] =
    [CHashR 4 20; CEqR 30 20; CEqR 50 20; CEqR 10 20; CHashL 4 1; CHashR 4 10; CEqL 2 1; CEqL 5 1;
     CEqL 3 1; CEqR 30 10; CEqR 50 10; CEqR 10 10].
Proof. vm_compute. reflexivity. Qed.
Example C153_unchanged_case :
  w_step (logged told_env) seen_map (Insert 1 10) ([Some true; None], []) =
  w_step told_env seen_map (Insert 1 10) [Some true; None] /\
  snd (w_step told_env seen_map (Insert 1 10) [Some true; None]) = OPanic.
Proof. vm_compute. auto. Qed.
Print Assumptions C153_calls.
Print Assumptions C153_unchanged.
Print Assumptions C153_lookups.
Print Assumptions C153_eq.
