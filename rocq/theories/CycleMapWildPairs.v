(* CycleMap with user code that does as it likes (Wild.v): two items handed back as a pair came
   in as a pair.  drain() starts the ids again from 0 (C63, C91), so it must leave nothing behind. *)
From Coq Require Import List NArith Lia Bool Permutation.
From Verif Require Import Closures Prelude RawTable Optionals ListFacts CycleMap CycleMapHistory CycleMapAny
  TableFacts Conserve CycleMapConserve Faults Wild CycleMapWild CycleMapWildProps Concrete.
Import ListNotations.
Open Scope N_scope.

(* the pairs a call hands over *)
Definition inserted {L R} (o : xop L R) : list (L * R) :=
  match o with
  | Call (Insert l r) => [(l, r)]
  | Call (SwapLeftOrInsert _ n t) => [(n, t)]
  | Call (SwapRightOrInsert _ n t) => [(t, n)]
  | Call (Extend xs) => xs
  | _ => []
  end.
(* the items a call hands over to take the place of another *)
Definition swapped_l {L R} (o : xop L R) : list L :=
  match o with
  | Call (SwapLeft _ n) | Call (SwapLeftChecked _ _ n) | Call (SwapLeftOrInsert _ n _) => [n]
  | _ => []
  end.
Definition swapped_r {L R} (o : xop L R) : list R :=
  match o with
  | Call (SwapRight _ n) | Call (SwapRightChecked _ _ n) | Call (SwapRightOrInsert _ n _) => [n]
  | _ => []
  end.
(* l and r came in together, or in the place of items that did *)
Inductive kin {L R} (ops : list (xop L R)) : L -> R -> Prop :=
| kin_given : forall l r, In (l, r) (flat_map inserted ops) -> kin ops l r
| kin_left : forall l r n, kin ops l r -> In n (flat_map swapped_l ops) -> kin ops n r
| kin_right : forall l r n, kin ops l r -> In n (flat_map swapped_r ops) -> kin ops l n.
(* the pairs a call hands back *)
Definition somes {A} (o : option A) : list A := match o with Some a => [a] | None => [] end.
Definition pairs_of {L R} (a : out L R) : list (L * R) :=
  match a with
  | OPair o => somes o
  | OIns d => somes (op_get_left d) ++ somes (op_get_right d)
  | OSwapL d => somes (op_get_right d)
  | OSwapR d => somes (op_get_right d)
  | OItems is _ => flat_map somes is
  | _ => []
  end.
Definition drains {L R} (o : xop L R) : bool :=
  match o with DrainN _ | Call DrainAll => true | _ => false end.
Definition xids {L R} (o : xop L R) : N := match o with Call o => ids o | DrainN _ => 0 end.
Fixpoint xbudget {L R} (ops : list (xop L R)) : N :=
  match ops with [] => 0 | o :: t => xids o + xbudget t end.

Definition tags {A} (t : table (mapping_pair A)) : list (A * N) := map (fun x => (value (snd x), pid (snd x))) (slots t).

Lemma tags_remove_at : forall {A} lo (t : table (mapping_pair A)) i e, t_entry t i = Some e ->
  In (value e, pid e) (tags t) /\ incl (tags (t_remove_at lo t i)) (tags t).
Proof.
  intros A lo t i e H. unfold t_entry in H. destruct (nth_error (slots t) i) as [[h x]|] eqn:X; [|discriminate].
  injection H as <-. assert (Y := X). apply nth_error_In in Y. apply remove_nth_perm in X. split.
  - unfold tags. apply in_map_iff. exists (h, x). auto.
  - intros z Hz. unfold tags in *. apply in_map_iff in Hz as (y & <- & Hy). apply in_map_iff. exists y. split; auto.
    eapply Permutation_in; [symmetry; exact X|]. right. exact Hy.
Qed.
Lemma tags_remove_entry : forall {A} lo (t : table (mapping_pair A)) h q e t', t_remove_entry lo t h q = Some (e, t') ->
  In (value e, pid e) (tags t) /\ incl (tags t') (tags t).
Proof.
  intros A lo t h q e t' H. unfold t_remove_entry in H. destruct (t_find _ _ _ _); [|discriminate].
  destruct (t_entry t n) eqn:X; [|discriminate]. injection H as <- <-. apply tags_remove_at; auto.
Qed.
Lemma find_holds : forall {A} lo (t : table A) h q i, t_find lo t h q = Some i ->
  exists e, t_entry t i = Some e /\ q e = true.
Proof.
  intros A lo t h q i H. unfold t_find in H. apply find_some in H as [_ H]. unfold t_entry.
  destruct (nth_error (slots t) i) as [[g e]|]; [|discriminate]. exists e. auto.
Qed.
Lemma remove_entry_holds : forall {A} lo (t : table A) h q e t', t_remove_entry lo t h q = Some (e, t') -> q e = true.
Proof.
  intros A lo t h q e t' H. unfold t_remove_entry in H. destruct (t_find _ _ _ _) as [i|] eqn:X; [|discriminate].
  apply find_holds in X as (e' & X & Y). rewrite X in H. injection H as <- _. auto.
Qed.
Lemma tags_modify : forall {A} (t : table (mapping_pair A)) i h,
  tags (t_modify t i (fun p => MP (value p) h (pid p))) = tags t.
Proof.
  intros A t i h. unfold tags, t_modify. cbn [slots]. revert i.
  induction (slots t) as [|[g x] s IH]; intros [|i]; simpl; auto. rewrite IH. auto.
Qed.
Lemma tags_entries : forall {A} (t : table (mapping_pair A)), tags t = map (fun e => (value e, pid e)) (entries t).
Proof. intros. unfold tags, entries. rewrite map_map. auto. Qed.
Lemma tags_perm : forall {A} (t t' : table (mapping_pair A)), Permutation (entries t') (entries t) ->
  incl (tags t') (tags t).
Proof.
  intros A t t' H x Hx. rewrite tags_entries in *. eapply Permutation_in; [apply Permutation_map, H|auto].
Qed.
Lemma tags_lost : forall {A} (t t' : table (mapping_pair A)),
  (exists lost, Permutation (entries t' ++ lost) (entries t)) -> incl (tags t') (tags t).
Proof.
  intros A t t' [lost H] x Hx. rewrite tags_entries in *. eapply Permutation_in; [apply Permutation_map, H|].
  rewrite map_app. apply in_or_app; auto.
Qed.

Section Pairs.
  Context {L R S W : Type} (E : wenv L R S W).
  Hypothesis TE : tame E.
  Notation map := (cmap L R S).
  Notation B := (calm_env E).
  Notation FM A := (M (W * cmap L R S) A).
  Notation TL m := (tags (left_set m)).
  Notation TR m := (tags (right_set m)).

  (* m' is m without some of its entries *)
  Definition less (m m' : map) : Prop :=
    incl (TL m') (TL m) /\ incl (TR m') (TR m) /\ counter m' = counter m.
  Lemma less_refl : forall m, less m m.
  Proof. intros m. split; [|split]; auto using incl_refl. Qed.
  Lemma less_trans : forall a b c, less a b -> less b c -> less a c.
  Proof.
    intros a b c (H1 & H2 & H3) (K1 & K2 & K3). split; [|split]; [eapply incl_tran; eauto|eapply incl_tran; eauto|congruence].
  Qed.

  (* a call that only removes entries; Q relates the map before to the result *)
  Definition shrinks {A} (c : FM A) (Q : map -> A -> Prop) : Prop :=
    forall s, match c s with
              | Ret s' a => less (snd s) (snd s') /\ Q (snd s) a
              | Panic s' => less (snd s) (snd s')
              end.
  Definition any {A} : map -> A -> Prop := fun _ _ => True.
  Lemma sh_ret : forall {A} (a : A) (Q : map -> A -> Prop), (forall m, Q m a) -> shrinks (ret a) Q.
  Proof. intros A a Q H s. split; auto using less_refl. Qed.
  Lemma sh_panic : forall {A} Q, shrinks (@panic _ A) Q.
  Proof. intros A Q s. apply less_refl. Qed.
  Lemma sh_unwrap : forall {A} (o : option A), shrinks (unwrap o) (fun _ a => o = Some a).
  Proof. intros A [a|]; [apply sh_ret; auto|apply sh_panic]. Qed.
  Lemma sh_bind : forall {A C} (c : FM A) (k : A -> FM C) Q1 Q2 (Q : map -> C -> Prop),
    shrinks c Q1 -> (forall a, shrinks (k a) (Q2 a)) ->
    (forall m m1 a b, Q1 m a -> less m m1 -> Q2 a m1 b -> Q m b) -> shrinks (bind c k) Q.
  Proof.
    intros A C c k Q1 Q2 Q H1 H2 H s. unfold bind. specialize (H1 s). destruct (c s) as [s1 a|s1]; auto.
    destruct H1 as [H1 H1']. specialize (H2 a s1). destruct (k a s1) as [s2 b|s2].
    - destruct H2 as [H2 H2']. split; [eapply less_trans; eauto|eapply H; eauto].
    - eapply less_trans; eauto.
  Qed.
  (* the first part may have any result *)
  Lemma sh_seq : forall {A C} (c : FM A) (k : A -> FM C) Q,
    shrinks c any -> (forall a, shrinks (k a) Q) -> (forall m m1 b, less m m1 -> Q m1 b -> Q m b) ->
    shrinks (bind c k) Q.
  Proof.
    intros A C c k Q H1 H2 H. apply (sh_bind c k any (fun _ => Q) Q); auto. intros m m1 a b _. apply H.
  Qed.
  Lemma sh_weaken : forall {A} (c : FM A) (Q Q' : map -> A -> Prop), shrinks c Q -> (forall m a, Q m a -> Q' m a) -> shrinks c Q'.
  Proof. intros A c Q Q' H K s. specialize (H s). destruct (c s); auto. destruct H; auto. Qed.
  Lemma sh_look : forall {A} (f : map -> M W A), shrinks (w_look f) any.
  Proof.
    intros A f [w m]. unfold w_look. cbn [fst snd]. destruct (f m w); cbn [snd]; [split; [|exact I]|]; apply less_refl.
  Qed.
  Lemma sh_calmly : forall {A} (c : M map A) Q,
    (forall m, match c m with Ret m' a => less m m' /\ Q m a | Panic m' => less m m' end) -> shrinks (w_calmly c) Q.
  Proof.
    intros A c Q H [w m]. specialize (H m). unfold w_calmly, w_with. cbn [fst snd]. destruct (c m); auto.
  Qed.

  Lemma sh_left_remove : forall h l,
    shrinks (w_left_remove_entry E h l) (fun m o => forall e, o = Some e -> In (value e, pid e) (TL m)).
  Proof.
    intros h l [w m]. unfold w_left_remove_entry, bind, w_look, w_calmly, w_with, getst, putst, ret. cbn [fst snd].
    destruct (w_remove_entry _ _ _ _ _) as [w' [[e t]|]|w'] eqn:X; cbn [fst snd].
    - apply wremove_entry in X as (i & X & ->). apply (tags_remove_at (w_lo E)) in X as [X1 X2]. split.
      + split; [|split]; auto using incl_refl.
      + intros e' H. injection H as <-. auto.
    - split; [apply less_refl|discriminate].
    - apply less_refl.
  Qed.
  Lemma sh_right_remove : forall h r,
    shrinks (w_right_remove_entry E h r) (fun m o => forall e, o = Some e -> In (value e, pid e) (TR m)).
  Proof.
    intros h l [w m]. unfold w_right_remove_entry, bind, w_look, w_calmly, w_with, getst, putst, ret. cbn [fst snd].
    destruct (w_remove_entry _ _ _ _ _) as [w' [[e t]|]|w'] eqn:X; cbn [fst snd].
    - apply wremove_entry in X as (i & X & ->). apply (tags_remove_at (w_lo E)) in X as [X1 X2]. split.
      + split; [|split]; auto using incl_refl.
      + intros e' H. injection H as <-. auto.
    - split; [apply less_refl|discriminate].
    - apply less_refl.
  Qed.
  Lemma less_left : forall m t, incl (tags t) (TL m) -> less m (set_left t m).
  Proof. intros. split; [|split]; auto using incl_refl. Qed.
  Lemma less_right : forall m t, incl (tags t) (TR m) -> less m (set_right t m).
  Proof. intros. split; [|split]; auto using incl_refl. Qed.
  (* the partner is found by the id *)
  Lemma calm_right_remove : forall h g i (m : map),
    match right_remove_entry B h (hash_and_id g i) m with
    | Ret m' o => less m m' /\ forall e, o = Some e -> In (value e, i) (TR m)
    | Panic m' => less m m'
    end.
  Proof.
    intros h g i m. unfold right_remove_entry, bind, getst, putst, ret.
    destruct (t_remove_entry _ _ _ _) as [[e t]|] eqn:X; [|split; [apply less_refl|discriminate]].
    assert (Y := tags_remove_entry _ _ _ _ _ _ X). destruct Y as [Y1 Y2].
    split; [apply less_right; auto|]. intros e' H. injection H as <-.
    apply remove_entry_holds in X. unfold hash_and_id in X. apply andb_prop in X as [X _].
    apply N.eqb_eq in X. subst i. auto.
  Qed.
  Lemma calm_left_remove : forall h g i (m : map),
    match left_remove_entry B h (hash_and_id g i) m with
    | Ret m' o => less m m' /\ forall e, o = Some e -> In (value e, i) (TL m)
    | Panic m' => less m m'
    end.
  Proof.
    intros h g i m. unfold left_remove_entry, bind, getst, putst, ret.
    destruct (t_remove_entry _ _ _ _) as [[e t]|] eqn:X; [|split; [apply less_refl|discriminate]].
    assert (Y := tags_remove_entry _ _ _ _ _ _ X). destruct Y as [Y1 Y2].
    split; [apply less_left; auto|]. intros e' H. injection H as <-.
    apply remove_entry_holds in X. unfold hash_and_id in X. apply andb_prop in X as [X _].
    apply N.eqb_eq in X. subst i. auto.
  Qed.

  (* a removed pair had one id *)
  Definition together (m : map) (o : option (L * R)) : Prop :=
    forall l r, o = Some (l, r) -> exists i, In (l, i) (TL m) /\ In (r, i) (TR m).
  Lemma together_less : forall m m1 o, less m m1 -> together m1 o -> together m o.
  Proof. intros m m1 o (H1 & H2 & _) H l r Q. destruct (H l r Q) as (i & A & A'). exists i. auto. Qed.
  Lemma together_none : forall m, together m None.
  Proof. intros m l r H. discriminate. Qed.
  Hint Resolve together_none : core.

  Lemma sh_remove_via_left : forall l, shrinks (w_remove_via_left E l) together.
  Proof.
    intros l. apply sh_seq; [apply sh_look| |apply together_less]. intros h.
    eapply (sh_bind _ _ _ (fun o m x => match o with
      | Some e => forall l r, x = Some (l, r) -> l = value e /\ In (r, pid e) (TR m)
      | None => x = None end)); [apply sh_left_remove| |].
    - intros [e|]; [|apply sh_ret; auto].
      eapply (sh_bind _ _ (fun m o => forall e', o = Some e' -> In (value e', pid e) (TR m))
                (fun o m x => forall l r, x = Some (l, r) -> l = value e /\ exists e', o = Some e' /\ r = value e')).
      + apply sh_calmly, calm_right_remove.
      + intros o. eapply sh_bind with (Q2 := fun e' m x => x = Some (value e, value e')); [apply sh_unwrap|intros; apply sh_ret; auto|].
        intros m m1 e' x -> _ -> l' r' Q. injection Q as <- <-. eauto.
      + intros m m1 o x H _ K l' r' Q. destruct (K l' r' Q) as (-> & e' & -> & ->). auto.
    - intros m m1 [e|] x H (_ & HR & _) K l' r' Q; [|subst; discriminate].
      destruct (K l' r' Q) as [-> K']. exists (pid e). split; [apply H; auto|apply HR; auto].
  Qed.
  Lemma sh_remove_via_right : forall r, shrinks (w_remove_via_right E r) together.
  Proof.
    intros r. apply sh_seq; [apply sh_look| |apply together_less]. intros h.
    eapply (sh_bind _ _ _ (fun o m x => match o with
      | Some e => forall l r, x = Some (l, r) -> r = value e /\ In (l, pid e) (TL m)
      | None => x = None end)); [apply sh_right_remove| |].
    - intros [e|]; [|apply sh_ret; auto].
      eapply (sh_bind _ _ (fun m o => forall e', o = Some e' -> In (value e', pid e) (TL m))
                (fun o m x => forall l r, x = Some (l, r) -> r = value e /\ exists e', o = Some e' /\ l = value e')).
      + apply sh_calmly, calm_left_remove.
      + intros o. eapply sh_bind with (Q2 := fun e' m x => x = Some (value e', value e)); [apply sh_unwrap|intros; apply sh_ret; auto|].
        intros m m1 e' x -> _ -> l' r' Q. injection Q as <- <-. eauto.
      + intros m m1 o x H _ K l' r' Q. destruct (K l' r' Q) as (-> & e' & -> & ->). auto.
    - intros m m1 [e|] x H (HL & _ & _) K l' r' Q; [|subst; discriminate].
      destruct (K l' r' Q) as [-> K']. exists (pid e). split; [apply HL; auto|apply H; auto].
  Qed.
  Lemma sh_remove : forall l r, shrinks (w_remove E l r) together.
  Proof.
    intros. apply sh_seq; [apply sh_look| |apply together_less].
    intros [|]; [apply sh_remove_via_left|apply sh_ret; auto].
  Qed.
  Lemma sh_swap_left_check : forall o n h, shrinks (w_swap_left_eq_check E o n h) together.
  Proof.
    intros. apply sh_seq; [apply sh_look| |apply together_less]. intros [e|]; [|apply sh_ret; auto].
    apply sh_seq; [apply sh_look| |apply together_less].
    intros [|]; [apply sh_remove_via_left|apply sh_ret; auto].
  Qed.
  Lemma sh_swap_right_check : forall o n h, shrinks (w_swap_right_eq_check E o n h) together.
  Proof.
    intros. apply sh_seq; [apply sh_look| |apply together_less]. intros [e|]; [|apply sh_ret; auto].
    apply sh_seq; [apply sh_look| |apply together_less].
    intros [|]; [apply sh_remove_via_right|apply sh_ret; auto].
  Qed.
  Lemma sh_any : forall {A} (c : FM A) Q, shrinks c Q -> shrinks c any.
  Proof. intros A c Q H. eapply sh_weaken; [exact H|]. intros; exact I. Qed.
  Lemma sh_then : forall {A C} (c : FM A) (k : A -> FM C),
    shrinks c any -> (forall a, shrinks (k a) any) -> shrinks (bind c k) any.
  Proof. intros. apply sh_seq; auto. Qed.
  (* the removals of retain *)
  Lemma less_hashes : forall a b i (m : map),
    match remove_via_hashes_and_id B a b i m with Ret m' _ | Panic m' => less m m' end.
  Proof.
    intros a b i m. unfold remove_via_hashes_and_id, bind at 1. assert (X := calm_left_remove a b i m).
    destruct (left_remove_entry _ _ _ m) as [m1 [e|]|m1]; [|destruct X; auto|auto]. destruct X as [X _].
    unfold bind at 1. assert (Y := calm_right_remove b a i m1).
    destruct (right_remove_entry _ _ _ m1) as [m2 [e'|]|m2]; cbn; [destruct Y as [Y _]| destruct Y as [Y _]|];
      eapply less_trans; eauto.
  Qed.
  Lemma less_drop_all : forall l (m : map), match drop_all B l m with Ret m' _ | Panic m' => less m m' end.
  Proof.
    induction l as [|[[a b] i] l IH]; intros m; [apply less_refl|]. cbn [drop_all]. unfold bind.
    assert (X := less_hashes a b i m). destruct (remove_via_hashes_and_id _ _ _ _ m) as [m1 x|m1]; auto.
    specialize (IH m1). destruct (drop_all B l m1); eapply less_trans; eauto.
  Qed.
  Lemma sh_retain : forall {X} (f : X -> L -> R -> X * verdict) x, shrinks (w_retain E f x) any.
  Proof.
    intros. apply sh_then; [apply sh_look|]. intros [x' l|x']; [|apply sh_panic].
    apply sh_calmly. intros m. assert (Y := less_drop_all l m). destruct (drop_all B l m); auto. split; auto. exact I.
  Qed.
  Lemma sh_on_left : forall {A} (c : S -> table (mapping_pair L) -> W -> res (W * table (mapping_pair L)) A),
    (forall s t w, match c s t w with Ret (_, t') _ | Panic (_, t') => incl (tags t') (tags t) end) ->
    shrinks (on_left c) any.
  Proof.
    intros A c H [w m]. unfold on_left. cbn [fst snd]. specialize (H (hash_builder m) (left_set m) w).
    destruct (c _ _ _) as [[w' t'] a|[w' t']]; cbn [snd]; [split; [|exact I]|]; apply less_left; auto.
  Qed.
  Lemma sh_on_right : forall {A} (c : S -> table (mapping_pair R) -> W -> res (W * table (mapping_pair R)) A),
    (forall s t w, match c s t w with Ret (_, t') _ | Panic (_, t') => incl (tags t') (tags t) end) ->
    shrinks (on_right c) any.
  Proof.
    intros A c H [w m]. unfold on_right. cbn [fst snd]. specialize (H (hash_builder m) (right_set m) w).
    destruct (c _ _ _) as [[w' t'] a|[w' t']]; cbn [snd]; [split; [|exact I]|]; apply less_right; auto.
  Qed.
  Lemma tags_resize : forall {A} (t : table (mapping_pair A)) z (hs : mapping_pair A -> M W N) w,
    match w_resize (w_lo E) (w_fault E) t z hs w with Ret (_, t') _ | Panic (_, t') => incl (tags t') (tags t) end.
  Proof.
    intros. assert (X := wresize_entries _ _ (proj1 TE) (proj2 TE) t z hs w).
    destruct (w_resize _ _ _ _ _ _) as [[w' t'] []|[w' t']]; [apply tags_perm|apply tags_lost]; auto.
  Qed.
  Lemma tags_try_resize : forall {A} (t : table (mapping_pair A)) n (hs : mapping_pair A -> M W N) w,
    match w_try_resize (w_lo E) (w_fault E) t n hs w with Ret (_, t') _ | Panic (_, t') => incl (tags t') (tags t) end.
  Proof.
    intros. assert (X := wtry_resize_entries _ _ (proj1 TE) (proj2 TE) t n hs w).
    destruct (w_try_resize _ _ _ _ _ _) as [[w' t'] b|[w' t']]; [apply tags_perm|apply tags_lost]; auto.
  Qed.
  Lemma sh_resize_both : forall z, shrinks (w_resize_both E z) any.
  Proof. intros. apply sh_then; [apply sh_on_left|intros _; apply sh_on_right]; intros; apply tags_resize. Qed.
  Lemma sh_shrink_to_fit : shrinks (w_shrink_to_fit E) any.
  Proof.
    apply sh_then; [apply sh_look|]. intros n. apply sh_then; [apply sh_on_left; intros; apply tags_resize|].
    intros _. apply sh_then; [apply sh_look|]. intros n'. apply sh_on_right; intros; apply tags_resize.
  Qed.
  Lemma sh_try_reserve : forall n, shrinks (w_try_reserve E n) any.
  Proof.
    intros. apply sh_then; [apply sh_on_left; intros; apply tags_try_resize|].
    intros [|]; [apply sh_on_right; intros; apply tags_try_resize|apply sh_ret; intros; exact I].
  Qed.

  (* drain_filter *)
  Definition df_less (d d' : @df_inner L R) : Prop :=
    incl (tags (df_left d')) (tags (df_left d)) /\ incl (tags (df_right d')) (tags (df_right d)).
  Definition df_together (d : @df_inner L R) (o : option (L * R)) : Prop :=
    forall l r, o = Some (l, r) -> exists i, In (l, i) (tags (df_left d)) /\ In (r, i) (tags (df_right d)).
  Lemma df_next_less : forall {X} (f : X -> L -> R -> X * verdict) n st, match df_next_fuel B f n st with
    | Ret st' a => df_less (fst st) (fst st') /\ df_together (fst st) a
    | Panic st' => df_less (fst st) (fst st')
    end.
  Proof.
    intros X f. assert (DR : forall d, df_less d d) by (intros; split; apply incl_refl).
    induction n as [|n IH]; intros [d x]; cbn [df_next_fuel fst].
    all: destruct (t_entry (df_left d) (df_pos d)) as [e|] eqn:Y; [|split; [auto|discriminate]].
    all: destruct (t_find _ _ _ _) as [i|] eqn:T; [|split; apply incl_refl].
    all: apply find_holds in T as (e' & T & J); rewrite T; apply N.eqb_eq in J.
    all: destruct (f x _ _) as [x' [[|]|]]; [| |split; apply incl_refl].
    1,3: apply (tags_remove_at (lo B)) in Y as [Y1 Y2]; apply (tags_remove_at (lo B)) in T as [T1 T2];
         split; [split; auto|]; intros l r Q; injection Q as <- <-; exists (pid e); split; auto; rewrite J; auto.
    - split; apply incl_refl.
    - apply (IH (DF (df_left d) (Datatypes.S (df_pos d)) (df_right d), x')).
  Qed.
  Lemma df_less_trans : forall a b c, df_less a b -> df_less b c -> df_less a c.
  Proof. intros a b c [H1 H2] [K1 K2]. split; eapply incl_tran; eauto. Qed.
  Lemma df_nexts_less : forall {X} (f : X -> L -> R -> X * verdict) n st, match df_nexts B f n st with
    | Ret st' is => df_less (fst st) (fst st') /\ Forall (df_together (fst st)) is
    | Panic st' => df_less (fst st) (fst st')
    end.
  Proof.
    intros X f. induction n as [|n IH]; intros st; cbn [df_nexts]; [split; [split; apply incl_refl|constructor]|].
    assert (Y := df_next_less f (df_remaining (fst st)) st). unfold df_next.
    destruct (df_next_fuel _ _ _ _) as [d1 a|d1]; auto. destruct Y as [Y1 Y2].
    specialize (IH d1). destruct (df_nexts B f n d1) as [d2 is|d2]; [destruct IH as [I1 I2]|]; [split|].
    - eapply df_less_trans; eauto.
    - constructor; auto. eapply Forall_impl; [|exact I2]. intros o H l r Q. destruct (H l r Q) as (i & A & A').
      exists i. split; apply Y1; auto.
    - eapply df_less_trans; eauto.
  Qed.
  Lemma df_drop_less : forall {X} (f : X -> L -> R -> X * verdict) n st, match df_drop_fuel B f n st with
    | Ret st' _ | Panic st' => df_less (fst st) (fst st')
    end.
  Proof.
    intros X f. induction n as [|n IH]; intros st; cbn [df_drop_fuel];
      assert (Y := df_next_less f (df_remaining (fst st)) st); unfold df_next;
      destruct (df_next_fuel _ _ _ _) as [d1 [a|]|d1]; try (destruct Y; auto; fail); try exact Y.
    destruct Y as [Y _]. specialize (IH d1). destruct (df_drop_fuel B f n d1); eapply df_less_trans; eauto.
  Qed.
  Lemma df_end_less : forall (m : map) d, df_less (drain_filter m) d -> less m (df_end m d).
  Proof. intros m d [H1 H2]. split; [|split]; auto. Qed.

  (* drain: the pairs it yields have one id; what stays on the right was there *)
  Definition dr_together (d : @drain_t L R) (o : option (L * R)) : Prop :=
    forall l r, o = Some (l, r) ->
      exists i, In (l, i) (List.map (fun x => (value (snd x), pid (snd x))) (di_left d)) /\ In (r, i) (tags (di_right d)).
  Lemma drain_nexts_together : forall n d, match drain_nexts B n d with
    | Ret d' is => Forall (dr_together d) is
    | Panic _ => True
    end.
  Proof.
    induction n as [|n IH]; intros d; cbn [drain_nexts]; [constructor|].
    unfold drain_next. destruct (di_left d) as [|[h lp] rest] eqn:D.
    - specialize (IH d). destruct (drain_nexts B n d); auto. constructor; auto. intros l r Q. discriminate.
    - destruct (t_remove_entry _ _ _ _) as [[rp t]|] eqn:X; [|exact I].
      assert (J := remove_entry_holds _ _ _ _ _ _ X). apply N.eqb_eq in J.
      apply (tags_remove_entry (lo B)) in X as [X1 X2].
      specialize (IH (Drain rest t)). destruct (drain_nexts B n (Drain rest t)); auto. constructor.
      + intros l r Q. injection Q as <- <-. exists (pid lp). rewrite D. split; [left; reflexivity|]. rewrite J. auto.
      + eapply Forall_impl; [|exact IH]. intros o K l r Q. destruct (K l r Q) as (i & A & A'). exists i. rewrite D.
        split; [right; exact A|apply X2; exact A'].
  Qed.

  (* ---- calls that add entries ---- *)
  Variable P : L -> R -> Prop.
  (* entries with one id are a pair in the sense of P; no id is at or above the counter *)
  Definition good (m : map) : Prop :=
    (forall l i, In (l, i) (TL m) -> i < counter m) /\
    (forall r i, In (r, i) (TR m) -> i < counter m) /\
    (forall l r i, In (l, i) (TL m) -> In (r, i) (TR m) -> P l r).
  Definition inv (c : N) (m : map) : Prop := good m /\ counter m <= c.
  Lemma good_less : forall m m', good m -> less m m' -> good m'.
  Proof.
    intros m m' (G1 & G2 & G3) (H1 & H2 & H3). split; [|split].
    - intros l i H. rewrite H3. eauto.
    - intros l i H. rewrite H3. eauto.
    - intros l r i A A'. eauto.
  Qed.
  Lemma inv_less : forall c m m', inv c m -> less m m' -> inv c m'.
  Proof.
    intros c m m' [G H] X. split; [eapply good_less; eauto|]. destruct X as (_ & _ & ->). auto.
  Qed.
  Lemma inv_le : forall c c' m, inv c m -> c <= c' -> inv c' m.
  Proof. intros c c' m [G H] X. split; auto. lia. Qed.

  Definition hoare {A} (J : map -> Prop) (c : FM A) (Q : A -> map -> Prop) (K : map -> Prop) : Prop :=
    forall s, J (snd s) -> match c s with Ret s' a => Q a (snd s') | Panic s' => K (snd s') end.
  Lemma h_bind : forall {A C} J (c : FM A) (k : A -> FM C) Q1 Q K,
    hoare J c Q1 K -> (forall a, hoare (Q1 a) (k a) Q K) -> hoare J (bind c k) Q K.
  Proof.
    intros A C J c k Q1 Q K H1 H2 s HJ. unfold bind. specialize (H1 s HJ). destruct (c s) as [s1 a|s1]; auto.
    apply H2; auto.
  Qed.
  Lemma h_ret : forall {A} (J : map -> Prop) (a : A) (Q : A -> map -> Prop) K, (forall m, J m -> Q a m) -> hoare J (ret a) Q K.
  Proof. intros A J a Q K H s HJ. apply H; auto. Qed.
  Lemma h_panic : forall {A} (J K : map -> Prop) Q, (forall m, J m -> K m) -> hoare J (@panic _ A) Q K.
  Proof. intros A J K Q H s HJ. apply H; auto. Qed.
  Lemma h_conseq : forall {A} (J J' : map -> Prop) (c : FM A) (Q Q' : A -> map -> Prop) (K K' : map -> Prop), hoare J c Q K ->
    (forall m, J' m -> J m) -> (forall a m, Q a m -> Q' a m) -> (forall m, K m -> K' m) -> hoare J' c Q' K'.
  Proof.
    intros A J J' c Q Q' K K' H H1 H2 H3 s HJ. specialize (H s (H1 _ HJ)). destruct (c s); auto.
  Qed.
  Lemma h_pure : forall {A} (X : Prop) (J : map -> Prop) (c : FM A) Q K, (X -> hoare J c Q K) ->
    hoare (fun m => J m /\ X) c Q K.
  Proof. intros A X J c Q K H s [HJ HX]. apply H; auto. Qed.
  (* a call that only removes, from a state in which J holds of all smaller maps *)
  Lemma h_shrinks : forall {A} (c : FM A) Q (J : map -> Prop), shrinks c Q -> (forall m m', J m -> less m m' -> J m') ->
    hoare J c (fun a m => J m /\ exists m0, J m0 /\ Q m0 a) J.
  Proof.
    intros A c Q J H ST s HJ. specialize (H s). destruct (c s) as [s1 a|s1]; [|eapply ST; eauto].
    destruct H. split; [eapply ST; eauto|eauto].
  Qed.
  Lemma h_any : forall {A} (c : FM A) (J : map -> Prop), shrinks c any -> (forall m m', J m -> less m m' -> J m') ->
    hoare J c (fun _ m => J m) J.
  Proof.
    intros. eapply h_conseq; [apply h_shrinks; eauto| | |]; cbv beta; intuition.
  Qed.
  Definition okp (o : option (L * R)) : Prop := forall l r, o = Some (l, r) -> P l r.
  Lemma h_together : forall (c : FM (option (L * R))) n, shrinks c together ->
    hoare (inv n) c (fun o m => inv n m /\ okp o) (inv n).
  Proof.
    intros c n H. eapply h_conseq; [apply (h_shrinks c together (inv n)); [exact H|apply inv_less]| | |]; cbv beta; auto.
    intros o m (I & m0 & I0 & T). split; auto. intros l r Q. destruct (T l r Q) as (i & A & A').
    destruct I0 as [(_ & _ & G) _]. eauto.
  Qed.
  (* the state is weakened at a panic *)
  Lemma h_up : forall {A} (J : map -> Prop) (c : FM A) Q n n', hoare J c Q (inv n) -> n <= n' -> hoare J c Q (inv n').
  Proof. intros. eapply h_conseq; eauto. intros; eapply inv_le; eauto. Qed.
  Lemma h_look : forall {A} (f : map -> M W A) (J K : map -> Prop), (forall m, J m -> K m) ->
    hoare J (w_look f) (fun _ => J) K.
  Proof. intros A f J K H [w m] HJ. unfold w_look. cbn [fst snd] in *. destruct (f m w); cbn [snd]; auto. Qed.

  Lemma h_left_insert : forall h e (J : map -> Prop) (K : map -> Prop),
    (forall m m', J m -> less m m' -> K m') ->
    hoare J (w_left_insert E h e)
      (fun _ m' => exists m, J m /\ (forall x, In x (TL m') -> x = (value e, pid e) \/ In x (TL m)) /\
                             TR m' = TR m /\ counter m' = counter m) K.
  Proof.
    intros h e J K HK [w m] HJ. unfold w_left_insert, on_left. cbn [fst snd] in *.
    assert (X := fun hs => winsert_entries (W := W) _ _ (proj1 TE) (proj2 TE) (left_set m) h e hs w).
    match goal with |- context [w_insert _ _ _ _ _ ?hs _] => specialize (X hs) end.
    destruct (w_insert _ _ _ _ _ _ _) as [[w' t'] []|[w' t']]; cbn [snd].
    - exists m. repeat split; auto. intros x Hx. cbn [left_set set_left] in Hx. rewrite tags_entries in *.
      eapply (Permutation_in x (Permutation_map _ X)) in Hx. destruct Hx as [<-|Hx]; auto.
    - eapply HK; eauto. apply less_left, tags_lost, X.
  Qed.
  Lemma h_right_insert : forall h e (J : map -> Prop) (K : map -> Prop),
    (forall m m', J m -> less m m' -> K m') ->
    hoare J (w_right_insert E h e)
      (fun _ m' => exists m, J m /\ (forall x, In x (TR m') -> x = (value e, pid e) \/ In x (TR m)) /\
                             TL m' = TL m /\ counter m' = counter m) K.
  Proof.
    intros h e J K HK [w m] HJ. unfold w_right_insert, on_right. cbn [fst snd] in *.
    assert (X := fun hs => winsert_entries (W := W) _ _ (proj1 TE) (proj2 TE) (right_set m) h e hs w).
    match goal with |- context [w_insert _ _ _ _ _ ?hs _] => specialize (X hs) end.
    destruct (w_insert _ _ _ _ _ _ _) as [[w' t'] []|[w' t']]; cbn [snd].
    - exists m. repeat split; auto. intros x Hx. cbn [right_set set_right] in Hx. rewrite tags_entries in *.
      eapply (Permutation_in x (Permutation_map _ X)) in Hx. destruct Hx as [<-|Hx]; auto.
    - eapply HK; eauto. apply less_right, tags_lost, X.
  Qed.

  Definition okins (d : insert_optional L R) : Prop := okp (op_get_left d) /\ okp (op_get_right d).
  (* after the id c has been taken: nothing has it yet *)
  Definition fresh (c n : N) (m : map) : Prop :=
    inv n m /\ c < counter m /\ (forall l i, In (l, i) (TL m) -> i <> c) /\ (forall r i, In (r, i) (TR m) -> i <> c).
  Definition half (l : L) (c n : N) (m : map) : Prop :=
    inv n m /\ c < counter m /\ (forall l', In (l', c) (TL m) -> l' = l) /\ (forall r i, In (r, i) (TR m) -> i <> c).
  Lemma h_insert : forall l r n, P l r -> n + 1 < two64 ->
    hoare (inv n) (w_insert_pair E l r) (fun d m => inv (n + 1) m /\ okins d) (inv (n + 1)).
  Proof.
    intros l r n HP HN. assert (LE : n <= n + 1) by lia.
    eapply h_bind; [eapply h_up; [apply h_together, sh_remove_via_left|exact LE]|]. intros a. apply h_pure; intro OA.
    eapply h_bind; [eapply h_up; [apply h_together, sh_remove_via_right|exact LE]|]. intros b. apply h_pure; intro OB.
    eapply h_bind; [apply h_look; intros; eapply inv_le; eauto|]. intros lh.
    eapply h_bind; [apply h_look; intros; eapply inv_le; eauto|]. intros rh.
    eapply h_bind with (Q1 := fun c m => inv n m /\ c = counter m).
    { intros [w m] I. cbn. auto. }
    intros c. eapply h_bind with (Q1 := fun _ => fresh c (n + 1)).
    { intros [w m] [I Q]. cbn [snd] in I, Q. subst c. unfold w_calmly, w_with, incr_counter, bind, getst. cbn [fst snd].
      destruct I as [(G1 & G2 & G3) G4]. unfold u64_incr.
      assert (LT : (counter m + 1 <? two64) = true) by (apply N.ltb_lt; lia).
      change (CycleMap.counter m) with (counter m). rewrite LT. cbn.
      split; [split; [split; [|split]|]|split; [|split]]; cbn; eauto; try lia.
      - intros x i H. specialize (G1 x i H). lia.
      - intros x i H. specialize (G2 x i H). lia.
      - intros x i H. specialize (G1 x i H). lia.
      - intros x i H. specialize (G2 x i H). lia. }
    intros _. eapply h_bind with (Q1 := fun _ => half l c (n + 1)).
    { eapply h_conseq with (J := fresh c (n + 1)); [apply (h_left_insert _ _ _ (inv (n + 1)))| | |]; auto.
      - intros m m' (I & _) X. eapply inv_less; eauto.
      - intros _ m' (m & ([(G1 & G2 & G3) G4] & LT & F1 & F2) & HL & HR & HC). cbn [value pid] in HL.
        split; [split; [split; [|split]|]|split; [|split]]; rewrite ?HC, ?HR; eauto; try lia.
        + intros x i H. apply HL in H as [H|H]; eauto. injection H as -> ->. lia.
        + intros x y i H H'. apply HL in H as [H|H]; eauto. injection H as -> ->. exfalso. apply (F2 _ _ H'); auto.
        + intros x H. apply HL in H as [H|H]; [congruence|]. exfalso. apply (F1 _ _ H); auto. }
    intros _. eapply h_bind with (Q1 := fun _ => inv (n + 1)).
    { eapply h_conseq with (J := half l c (n + 1)); [apply (h_right_insert _ _ _ (inv (n + 1)))| | |]; auto.
      - intros m m' (I & _) X. eapply inv_less; eauto.
      - intros _ m' (m & ([(G1 & G2 & G3) G4] & LT & F1 & F2) & HR & HL & HC). cbn [value pid] in HR.
        split; [split; [|split]|]; rewrite ?HC, ?HL; eauto; try lia.
        + intros x i H. apply HR in H as [H|H]; eauto. injection H as -> ->. lia.
        + intros x y i H H'. apply HR in H' as [H'|H']; eauto. injection H' as -> ->. apply F1 in H. subst; auto. }
    intros _. apply h_ret. intros m I. split; auto. split; intros x y Q.
    - apply OA. destruct a as [[? ?]|], b as [[? ?]|]; cbn in Q; congruence.
    - apply OB. destruct a as [[? ?]|], b as [[? ?]|]; cbn in Q; congruence.
  Qed.

  (* the item with id i may be replaced by l *)
  Definition may_left (l : L) (i n : N) (m : map) : Prop :=
    inv n m /\ i < counter m /\ forall r, In (r, i) (TR m) -> P l r.
  Definition may_right (r : R) (i n : N) (m : map) : Prop :=
    inv n m /\ i < counter m /\ forall l, In (l, i) (TL m) -> P l r.
  Lemma may_left_less : forall l i n m m', may_left l i n m -> less m m' -> may_left l i n m'.
  Proof.
    intros l i n m m' (I & LT & H) X. split; [eapply inv_less; eauto|]. destruct X as (_ & X2 & X3).
    rewrite X3. split; auto.
  Qed.
  Lemma may_right_less : forall l i n m m', may_right l i n m -> less m m' -> may_right l i n m'.
  Proof.
    intros l i n m m' (I & LT & H) X. split; [eapply inv_less; eauto|]. destruct X as (X1 & _ & X3).
    rewrite X3. split; auto.
  Qed.
  Lemma h_may_left : forall {A} (c : FM A) x i n, shrinks c any ->
    hoare (may_left x i n) c (fun _ => may_left x i n) (inv n).
  Proof.
    intros A c x i n H. apply (h_conseq _ _ _ _ _ _ _ (h_any c (may_left x i n) H (may_left_less x i n))); auto.
    intros m (I & _); auto.
  Qed.
  Lemma h_may_right : forall {A} (c : FM A) x i n, shrinks c any ->
    hoare (may_right x i n) c (fun _ => may_right x i n) (inv n).
  Proof.
    intros A c x i n H. apply (h_conseq _ _ _ _ _ _ _ (h_any c (may_right x i n) H (may_right_less x i n))); auto.
    intros m (I & _); auto.
  Qed.
  Lemma entry_tag : forall {A} (e : mapping_pair A) t, In e (List.map snd (slots t)) -> In (value e, pid e) (tags t).
  Proof. intros A e t H. rewrite tags_entries. apply (in_map (fun e => (value e, pid e))). exact H. Qed.

  Lemma h_swap_left : forall old new n, (forall l r, P l r -> P new r) ->
    hoare (inv n) (w_swap_left E old new) (fun d m => inv n m /\ okp (op_get_right d)) (inv n).
  Proof.
    intros old new n HP. assert (O0 : okp None) by (intros l r H; discriminate).
    eapply h_bind; [apply h_look; auto|]. intros nh.
    eapply h_bind; [apply h_together, sh_swap_left_check|]. intros a. apply h_pure; intro OA.
    eapply h_bind; [apply h_look; auto|]. intros oh.
    eapply h_bind with (Q1 := fun o m => match o with Some e => may_left new (pid e) n m | None => inv n m end).
    { intros [w m] I. cbn [snd] in I. unfold w_look. cbn [fst snd].
      destruct (find_left E m oh old w) as [w' [e|]|w'] eqn:X; cbn [snd]; auto.
      apply wget_entry, entry_tag in X. assert (I' := I). destruct I as [(G1 & G2 & G3) G4].
      split; auto. split; eauto. }
    intros [lp|]; [|apply h_ret; auto].
    eapply h_bind with (Q1 := fun _ => may_left new (pid lp) n).
    { apply h_may_left. apply sh_calmly. intros m. unfold bind, getst, putst. destruct (t_find _ _ _ _); simpl; [|apply less_refl].
      split; [|exact I]. apply less_right. rewrite tags_modify. apply incl_refl. }
    intros _. eapply h_bind with (Q1 := fun _ => may_left new (pid lp) n).
    { apply h_may_left. eapply sh_any, sh_left_remove. }
    intros o. eapply h_bind with (Q1 := fun _ => may_left new (pid lp) n).
    { destruct o; [apply h_ret; auto|apply h_panic]. intros m (I & _); auto. }
    intros e. eapply h_bind with (Q1 := fun _ => inv n).
    { eapply h_conseq with (J := may_left new (pid lp) n); [apply (h_left_insert _ _ _ (inv n))| | |]; auto.
      - intros m m' (I & _) X. eapply inv_less; eauto.
      - intros _ m' (m & ([(G1 & G2 & G3) G4] & LT & F) & HL & HR & HC). cbn [value pid] in HL.
        split; [split; [|split]|]; rewrite ?HC, ?HR; eauto.
        + intros x i H. apply HL in H as [H|H]; eauto. injection H as -> ->. auto.
        + intros x y i H H'. apply HL in H as [H|H]; eauto. injection H as -> ->. auto. }
    intros _. apply h_ret. intros m I. split; auto. destruct a; auto.
  Qed.
  Lemma h_swap_right : forall old new n, (forall l r, P l r -> P l new) ->
    hoare (inv n) (w_swap_right E old new) (fun d m => inv n m /\ okp (op_get_right d)) (inv n).
  Proof.
    intros old new n HP. assert (O0 : okp None) by (intros l r H; discriminate).
    eapply h_bind; [apply h_look; auto|]. intros nh.
    eapply h_bind; [apply h_together, sh_swap_right_check|]. intros a. apply h_pure; intro OA.
    eapply h_bind; [apply h_look; auto|]. intros oh.
    eapply h_bind with (Q1 := fun o m => match o with Some e => may_right new (pid e) n m | None => inv n m end).
    { intros [w m] I. cbn [snd] in I. unfold w_look. cbn [fst snd].
      destruct (find_right E m oh old w) as [w' [e|]|w'] eqn:X; cbn [snd]; auto.
      apply wget_entry, entry_tag in X. assert (I' := I). destruct I as [(G1 & G2 & G3) G4].
      split; auto. split; eauto. }
    intros [rp|]; [|apply h_ret; auto].
    eapply h_bind with (Q1 := fun _ => may_right new (pid rp) n).
    { apply h_may_right. apply sh_calmly. intros m. unfold bind, getst. destruct (t_find _ _ _ _); simpl; [|apply less_refl].
      split; [|exact I]. apply less_refl. }
    intros i. eapply h_bind; [apply h_look; intros m (I & _); auto|]. intros nh2.
    eapply h_bind with (Q1 := fun _ => may_right new (pid rp) n).
    { apply h_may_right. apply sh_calmly. intros m. unfold bind, getst, putst. split; [|exact I].
      apply less_left. rewrite tags_modify. apply incl_refl. }
    intros _. eapply h_bind with (Q1 := fun _ => may_right new (pid rp) n).
    { apply h_may_right. eapply sh_any, sh_right_remove. }
    intros o. eapply h_bind with (Q1 := fun _ => may_right new (pid rp) n).
    { destruct o; [apply h_ret; auto|apply h_panic]. intros m (I & _); auto. }
    intros e. eapply h_bind with (Q1 := fun _ => inv n).
    { eapply h_conseq with (J := may_right new (pid rp) n); [apply (h_right_insert _ _ _ (inv n))| | |]; auto.
      - intros m m' (I & _) X. eapply inv_less; eauto.
      - intros _ m' (m & ([(G1 & G2 & G3) G4] & LT & F) & HR & HL & HC). cbn [value pid] in HR.
        split; [split; [|split]|]; rewrite ?HC, ?HL; eauto.
        + intros x j H. apply HR in H as [H|H]; eauto. injection H as -> ->. auto.
        + intros x y j H H'. apply HR in H' as [H'|H']; eauto. injection H' as -> ->. auto. }
    intros _. apply h_ret. intros m I. split; auto. destruct a; auto.
  Qed.
  Lemma h_swap_left_checked : forall old ex new n, (forall l r, P l r -> P new r) ->
    hoare (inv n) (w_swap_left_checked E old ex new) (fun d m => inv n m /\ okp (op_get_right d)) (inv n).
  Proof.
    intros. eapply h_bind; [apply h_look; auto|]. intros [|]; [apply h_swap_left; auto|apply h_ret].
    intros m I. split; auto. intros l r Q; discriminate.
  Qed.
  Lemma h_swap_right_checked : forall old ex new n, (forall l r, P l r -> P l new) ->
    hoare (inv n) (w_swap_right_checked E old ex new) (fun d m => inv n m /\ okp (op_get_right d)) (inv n).
  Proof.
    intros. eapply h_bind; [apply h_look; auto|]. intros [|]; [apply h_swap_right; auto|apply h_ret].
    intros m I. split; auto. intros l r Q; discriminate.
  Qed.
  Lemma h_swap_left_or_insert : forall old new t n, (forall l r, P l r -> P new r) -> P new t -> n + 1 < two64 ->
    hoare (inv n) (w_swap_left_or_insert E old new t) (fun d m => inv (n + 1) m /\ okp (op_get_right d)) (inv (n + 1)).
  Proof.
    intros old new t n H H' HN. assert (LE : forall m, inv n m -> inv (n + 1) m) by (intros; eapply inv_le; eauto; lia).
    eapply h_bind; [apply h_look; auto|]. intros h. eapply h_bind; [apply h_look; auto|]. intros [e|].
    - eapply h_conseq; [apply (h_swap_left old new n); exact H| | |]; cbv beta; auto; intros d m [I O]; auto.
    - eapply h_bind; [apply h_insert; auto|]. intros d. apply h_ret. intros m [I [_ O]]. split; auto.
      intros l r Q. apply O. destruct d; cbn in *; auto.
  Qed.
  Lemma h_swap_right_or_insert : forall old new t n, (forall l r, P l r -> P l new) -> P t new -> n + 1 < two64 ->
    hoare (inv n) (w_swap_right_or_insert E old new t) (fun d m => inv (n + 1) m /\ okp (op_get_right d)) (inv (n + 1)).
  Proof.
    intros old new t n H H' HN. assert (LE : forall m, inv n m -> inv (n + 1) m) by (intros; eapply inv_le; eauto; lia).
    eapply h_bind; [apply h_look; auto|]. intros h. eapply h_bind; [apply h_look; auto|]. intros [e|].
    - eapply h_conseq; [apply (h_swap_right old new n); exact H| | |]; cbv beta; auto; intros d m [I O]; auto.
    - eapply h_bind; [apply h_insert; auto|]. intros d. destruct d; try (apply h_panic; intros m [I _]; auto; fail);
        apply h_ret; intros m [I [_ O]]; split; auto.
  Qed.
  Lemma h_extend : forall xs n, (forall l r, In (l, r) xs -> P l r) -> n + N.of_nat (length xs) < two64 ->
    hoare (inv n) (w_extend E xs) (fun _ => inv (n + N.of_nat (length xs))) (inv (n + N.of_nat (length xs))).
  Proof.
    induction xs as [|[a b] xs IH]; intros n H HN; cbn [w_extend length] in *.
    - apply h_ret. intros m I. eapply inv_le; eauto. lia.
    - replace (n + N.of_nat (Datatypes.S (length xs))) with (n + 1 + N.of_nat (length xs)) in * by lia.
      eapply h_bind with (Q1 := fun _ => inv (n + 1)).
      + eapply h_conseq; [apply (h_insert a b n); [apply H; left; auto|lia]| | |]; cbv beta; auto.
        * intros d m [I _]; auto.
        * intros m I. eapply inv_le; eauto. lia.
      + intros _. apply IH; auto. intros; apply H; right; auto.
  Qed.

  Notation okout a := (forall l r, In (l, r) (pairs_of a) -> P l r).
  Lemma via_inv : forall {A} (k : A -> out L R) (c : FM A) Q n n' m w, hoare (inv n) c Q (inv n') -> inv n m ->
    (forall a m, Q a m -> inv n' m /\ okout (k a)) ->
    inv n' (fst (w_via k c m w)) /\ okout (snd (w_via k c m w)).
  Proof.
    intros A k c Q n n' m w H I X. specialize (H (w, m) I). unfold w_via.
    destruct (c (w, m)) as [[w' m'] a|[w' m']]; cbn [fst snd] in *; auto. split; auto. intros l r [].
  Qed.
  Lemma somes_in : forall o l r, In (l, r) (@somes (L * R) o) -> o = Some (l, r).
  Proof. intros [x|] l r; cbn; [intros [->|[]]; auto|intros []]. Qed.

  Lemma drain_inv : forall k m n, inv n m ->
    let (m', a) := match drain_nexts B k (drain m) with
                   | Ret d is => (drain_end B m d, OItems is false)
                   | Panic d => (drain_end B m d, OPanic)
                   end in
    (iter_right m' = [] -> inv n m') /\ okout a.
  Proof.
    intros k m n [(_ & _ & G) _].
    assert (N0 : forall d, iter_right (drain_end B m d) = [] -> inv n (drain_end B m d)).
    { intros d Q. split; [|cbn; lia]. unfold iter_right in Q. unfold good, tags. rewrite Q. cbn. split; [|split]; intros; contradiction. }
    assert (Y := drain_nexts_together k (drain m)). destruct (drain_nexts B k (drain m)) as [d is|d]; split; auto.
    - intros l r Z. cbn [pairs_of] in Z. apply in_flat_map in Z as (o & X1 & X2). rewrite Forall_forall in Y.
      destruct (Y o X1 l r (somes_in _ _ _ X2)) as (i & A & A'). eapply G; eauto.
    - intros l r [].
  Qed.
  Lemma xstep_inv : forall o m w n, (drains o = true -> iter_right (fst (w_xstep E m o w)) = []) ->
    (forall l r, In (l, r) (inserted o) -> P l r) ->
    (forall x l r, In x (swapped_l o) -> P l r -> P x r) -> (forall x l r, In x (swapped_r o) -> P l r -> P l x) ->
    inv n m -> n + xids o < two64 ->
    inv (n + xids o) (fst (w_xstep E m o w)) /\ okout (snd (w_xstep E m o w)).
  Proof.
    intros o m w n D GI GL GR I0 HN. destruct o as [o|k].
    2: { cbn [w_xstep xstep xids] in *. rewrite N.add_0_r. assert (Y := drain_inv k m n I0).
         destruct (drain_nexts B k (drain m)); cbn [fst snd] in *; destruct Y; split; auto. }
    assert (RD : forall {A} (k : A -> out L R) (f : map -> M W A), (forall a, pairs_of (k a) = []) ->
      inv (n + 0) (fst (w_via k (w_look f) m w)) /\ okout (snd (w_via k (w_look f) m w))).
    { intros A k f Z. rewrite N.add_0_r. eapply via_inv; [apply (h_look f (inv n) (inv n)); auto|exact I0|]. intros a m' I. split; auto. rewrite Z. intros l r []. }
    assert (SH : forall {A} (k : A -> out L R) (c : FM A), shrinks c any -> (forall a, pairs_of (k a) = []) ->
      inv (n + 0) (fst (w_via k c m w)) /\ okout (snd (w_via k c m w))).
    { intros A k c H Z. rewrite N.add_0_r. eapply via_inv; [apply (h_any c (inv n)); [auto|apply inv_less]|exact I0|].
      intros a m' I. split; auto. rewrite Z. intros l r []. }
    assert (TG : forall c, shrinks c together ->
      inv (n + 0) (fst (w_via OPair c m w)) /\ okout (snd (w_via OPair c m w))).
    { intros c H. rewrite N.add_0_r. eapply via_inv; [apply (h_together c n); exact H|exact I0|]. intros a m' [I O]. split; auto.
      intros l r X. apply O, somes_in, X. }
    assert (SA : forall m', m' = m -> forall a, pairs_of a = [] -> inv (n + 0) m' /\ okout a).
    { intros m' -> a Z. rewrite Z, N.add_0_r. split; auto. intros l r []. }
    destruct o; cbn [w_xstep w_step xids ids inserted swapped_l swapped_r] in *;
      try (apply RD; reflexivity; fail); try (apply SA; reflexivity; fail).
    - eapply via_inv; [apply h_insert; auto; apply GI; left; auto|exact I0|]. intros d m' [I [O1 O2]]. split; auto.
      intros a b X. cbn [pairs_of] in X. apply in_app_or in X as [X|X]; apply somes_in in X; auto.
    - apply TG, sh_remove.
    - apply TG, sh_remove_via_left.
    - apply TG, sh_remove_via_right.
    - rewrite N.add_0_r. eapply via_inv; [apply h_swap_left; intros; eapply GL; eauto; left; auto|exact I0|].
      intros d m' [I O]. split; auto. intros a b X. apply O, somes_in, X.
    - rewrite N.add_0_r. eapply via_inv; [apply h_swap_left_checked; intros; eapply GL; eauto; left; auto|exact I0|].
      intros d m' [I O]. split; auto. intros a b X. apply O, somes_in, X.
    - eapply via_inv; [apply h_swap_left_or_insert; auto; [intros; eapply GL; eauto; left; auto|apply GI; left; auto]|exact I0|].
      intros d m' [I O]. split; auto. intros a b X. apply O, somes_in, X.
    - rewrite N.add_0_r. eapply via_inv; [apply h_swap_right; intros; eapply GR; eauto; left; auto|exact I0|].
      intros d m' [I O]. split; auto. intros a b X. apply O, somes_in, X.
    - rewrite N.add_0_r. eapply via_inv; [apply h_swap_right_checked; intros; eapply GR; eauto; left; auto|exact I0|].
      intros d m' [I O]. split; auto. intros a b X. apply O, somes_in, X.
    - eapply via_inv; [apply h_swap_right_or_insert; auto; [intros; eapply GR; eauto; left; auto|apply GI; left; auto]|exact I0|].
      intros d m' [I O]. split; auto. intros a b X. apply O, somes_in, X.
    - cbn [step]. destruct (collect _ _ _); apply SA; auto.
    - cbn [step]. destruct (collect _ _ _); apply SA; auto.
    - eapply via_inv; [apply h_extend; auto|exact I0|]. intros a m' I. split; auto. intros l r [].
    - apply SH; [apply sh_retain|auto].
    - (* drain *)
      cbn [drains step] in *. rewrite N.add_0_r. assert (Y := drain_inv (Datatypes.S (len m)) m n I0).
      destruct (drain_nexts B _ (drain m)); cbn [fst snd] in *; destruct Y; split; auto.
    - (* drain_filter *)
      rewrite N.add_0_r. cbn [step].
      match goal with |- context [df_nexts _ ?f ?k ?st] => assert (Y := df_nexts_less f k st) end.
      destruct (df_nexts _ _ _ _) as [[d x'] is|[d x']]; cbn [fst] in Y.
      + destruct Y as [Y1 Y2].
        assert (OK : forall pn, okout (OItems is pn)).
        { intros pn l r Z. cbn [pairs_of] in Z. apply in_flat_map in Z as (o & X1 & X2). rewrite Forall_forall in Y2.
          destruct (Y2 o X1 l r (somes_in _ _ _ X2)) as (i & A & A'). destruct I0 as [(_ & _ & G) _]. eapply G; eauto. }
        destruct leak; [split; [|apply OK]; eapply inv_less; [exact I0|]; apply df_end_less; auto|].
        assert (Z := df_drop_less f (df_remaining d) (d, x')). unfold df_drop. cbn [fst] in *.
        destruct (df_drop_fuel _ _ _ _) as [[d' ?] ?|[d' ?]]; cbn [fst snd] in *;
          (split; [|apply OK]); (eapply inv_less; [exact I0|]); apply df_end_less; eapply df_less_trans; eauto.
      + assert (Z := df_drop_less f (df_remaining d) (d, x')). unfold df_drop. cbn [fst] in *.
        destruct (df_drop_fuel _ _ _ _) as [[d' ?] ?|[d' ?]]; cbn [fst snd] in *;
          (split; [|intros l r []]); (eapply inv_less; [exact I0|]); apply df_end_less; eapply df_less_trans; eauto.
    - rewrite N.add_0_r. split; [|intros l r []]. eapply inv_less; [exact I0|]. cbn.
      split; [|split]; [intros x []|intros x []|auto].
    - rewrite N.add_0_r. split; [|intros l r []]. exact (inv_less n m (clone m) I0 (less_refl m)).
    - apply SH; [apply sh_resize_both|auto].
    - apply SH; [apply sh_shrink_to_fit|auto].
    - apply SH; [apply sh_resize_both|auto].
    - apply SH; [apply sh_try_reserve|auto].
  Qed.
End Pairs.

(* every drain() leaves a map in which iter_right lists nothing (iter_left then never does) *)
Fixpoint drained_dry {L R S W} (m : cmap L R S) (cs : list (wenv L R S W * W * xop L R)) : Prop :=
  match cs with
  | [] => True
  | (E, w, o) :: t => let m' := fst (w_xstep E m o w) in
                      (drains o = true -> iter_right m' = []) /\ drained_dry m' t
  end.

Lemma xrun_inv : forall {L R S W} (P : L -> R -> Prop) (cs : list (wenv L R S W * W * xop L R)) m n,
  Forall (fun c => tame (fst (fst c))) cs -> drained_dry m cs ->
  (forall l r, In (l, r) (flat_map inserted (ops_of cs)) -> P l r) ->
  (forall x l r, In x (flat_map swapped_l (ops_of cs)) -> P l r -> P x r) ->
  (forall x l r, In x (flat_map swapped_r (ops_of cs)) -> P l r -> P l x) ->
  inv P n m -> n + xbudget (ops_of cs) < two64 ->
  forall l r, In (l, r) (flat_map pairs_of (snd (w_xrun m cs))) -> P l r.
Proof.
  intros L R S W P. induction cs as [|[[E w] o] cs IH]; intros m n HT HD HI HL HR I HN l r H; [destruct H|].
  cbn [w_xrun ops_of map snd flat_map xbudget] in *. fold (ops_of cs) in *.
  cbn [drained_dry] in HD. destruct HD as [HD HD'].
  assert (X := xstep_inv E (Forall_inv HT) P o m w n HD).
  destruct (w_xstep E m o w) as [m1 a]. cbn [fst snd] in X. destruct X as [X1 X2]; auto.
  - intros; apply HI, in_or_app; auto.
  - intros; eapply HL; eauto; apply in_or_app; auto.
  - intros; eapply HR; eauto; apply in_or_app; auto.
  - lia.
  - specialize (IH m1 (n + xids o) (Forall_inv_tail HT) HD').
    destruct (w_xrun m1 cs) as [m2 ws]. cbn [snd flat_map] in *. apply in_app_or in H as [H|H]; auto.
    apply IH; auto.
    + intros; apply HI, in_or_app; auto.
    + intros; eapply HL; eauto; apply in_or_app; auto.
    + intros; eapply HR; eauto; apply in_or_app; auto.
    + lia.
Qed.

(* Whatever user code does: the two items of a pair that the map hands back came in as a pair,
   or in the place of items that did.  Histories in which every drain() leaves the right side
   empty. *)
Theorem C135_pairs_given_partial : forall {L R S W} (cs : list (wenv L R S W * W * xop L R)) s ll lr,
  Forall (fun c => tame (fst (fst c))) cs ->
  drained_dry (with_hasher s ll lr) cs ->
  xbudget (ops_of cs) < two64 ->
  forall l r, In (l, r) (flat_map pairs_of (snd (w_xrun (with_hasher s ll lr) cs))) -> kin (ops_of cs) l r.
Proof.
  intros L R S W cs s ll lr HT HD HN. apply (xrun_inv (kin (ops_of cs)) cs _ 0); auto.
  - intros; apply kin_given; auto.
  - intros; eapply kin_left; eauto.
  - intros; eapply kin_right; eauto.
  - split; [split; [|split]|]; cbn; try intros ? ? []; try intros ? ? ? []; lia.
Qed.

(* swap_left(1, 9) takes out 1 but gives 9 the partner of 3, and 3 none *)
Example C135_case :
  let cs := calls
    [([], Call (Insert 1 10)); ([], Call (Insert 3 20)); ([], Call DrainAll);
     ([], Call (Insert 1 10)); ([], Call (Insert 3 20)); ([], Call (Insert 5 30));
     (List.map Some [false; false; false; false; false; true; false; true], Call (SwapLeft 1 9));
     ([], Call (RemoveViaLeft 9)); ([], Call (RemoveViaRight 30)); ([], Call (RemoveViaLeft 3))] in
  Forall (fun c => tame (fst (fst c))) cs /\ drained_dry (with_hasher 0 0 0) cs /\
  xbudget (ops_of cs) < two64 /\
  snd (w_xrun (with_hasher 0 0 0) cs) =
    [OIns Neither; OIns Neither; OItems [Some (1, 10); Some (3, 20); None] false;
     OIns Neither; OIns Neither; OIns Neither; OSwapL (SomeLeft 1); OPair (Some (9, 20)); OPair (Some (5, 30)); OPanic].
Proof. split; [apply told_all|]. split; [vm_compute; repeat split; auto; discriminate|]. split; vm_compute; reflexivity. Qed.

(* drain() starts the ids again from 0, also when an item without a partner is left *)
Theorem C135_drain_refuted : exists (cs : list (wenv N N N (list (option bool)) * list (option bool) * xop N N)) l r,
  Forall (fun c => tame (fst (fst c))) cs /\ xbudget (ops_of cs) < two64 /\
  In (l, r) (flat_map pairs_of (snd (w_xrun (with_hasher 0 0 0) cs))) /\ ~ kin (ops_of cs) l r.
Proof.
  exists (calls [([], Call (Insert 1 10)); ([Some true], Call (RemoveViaLeft 4)); ([], DrainN 0);
                 ([], Call (Insert 5 50)); ([], Call (Insert 4 60)); ([], Call (RemoveViaLeft 5))]), 5, 10.
  split; [apply told_all|]. split; [vm_compute; reflexivity|]. split; [vm_compute; auto|]. intros H.
  assert (X : forall l r, kin (ops_of (calls [([], Call (Insert 1 10)); ([Some true], Call (RemoveViaLeft 4)); ([], DrainN 0);
                 ([], Call (Insert 5 50)); ([], Call (Insert 4 60)); ([], Call (RemoveViaLeft 5))])) l r -> l = 5 -> r = 50).
  { intros l r K. induction K as [l r K|l r n K IH X|l r n K IH X]; [|destruct X|destruct X].
    cbn in K. repeat (destruct K as [K|K]; [injection K; intros; subst; congruence|]). destruct K. }
  specialize (X _ _ H eq_refl). discriminate X.
Qed.

Print Assumptions C135_pairs_given_partial.
Print Assumptions C135_drain_refuted.
