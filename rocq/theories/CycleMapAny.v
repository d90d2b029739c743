(* CycleMap: what holds after any history of calls at all: drain iterators dropped before
   their end, any number of ids taken (wrapped counters included), panics caught.
   C01 gives much more for the other histories; after these the pairing may be damaged (C15,
   C25), but the two sides are still sets. *)
From Coq Require Import List NArith Lia Bool Permutation PeanoNat.
From Verif Require Import Closures Prelude RawTable Optionals CycleMap ListFacts TableFacts SoundTables
  CycleMapSpec CycleMapHistory IterFacts Concrete.
Import ListNotations.
Open Scope N_scope.

(* [DrainN n]: drain(), n calls of next (fewer if one panics), then the iterator is gone,
   dropped or leaked.  [Call o]: a call of CycleMapHistory. *)
Inductive xop (L R : Type) : Type :=
| Call (o : op L R)
| DrainN (n : nat).
Arguments Call {L R}. Arguments DrainN {L R}.

Section AnyRun.
  Context {L R S : Type}.
  Variable E : env L R S.
  Notation map := (cmap L R S).

  Definition xstep (m : map) (o : xop L R) : map * out L R :=
    match o with
    | Call o => step E m o
    | DrainN n =>
        match drain_nexts E n (drain m) with
        | Ret d is => (drain_end E m d, OItems is false)
        | Panic d => (drain_end E m d, OPanic)
        end
    end.
  Fixpoint xrun (m : map) (ops : list (xop L R)) : map * list (out L R) :=
    match ops with
    | [] => (m, [])
    | o :: t => let (m', w) := xstep m o in
                let (m'', ws) := xrun m' t in (m'', w :: ws)
    end.
  (* any map that a program can get hold of *)
  Definition obtainable (m : map) : Prop :=
    exists s ll lr ops, m = fst (xrun (with_hasher s ll lr) ops).
End AnyRun.

(* the items a call hands over to the map *)
Definition given_l {L R} (o : xop L R) : list L :=
  match o with
  | Call (Insert l _) | Call (SwapLeft _ l) | Call (SwapLeftChecked _ _ l)
  | Call (SwapLeftOrInsert _ l _) | Call (SwapRightOrInsert _ _ l) => [l]
  | Call (Extend xs) => List.map fst xs
  | _ => []
  end.
Definition given_r {L R} (o : xop L R) : list R :=
  match o with
  | Call (Insert _ r) | Call (SwapRight _ r) | Call (SwapRightChecked _ _ r)
  | Call (SwapRightOrInsert _ r _) | Call (SwapLeftOrInsert _ _ r) => [r]
  | Call (Extend xs) => List.map snd xs
  | _ => []
  end.

Section Any.
  Context {L R S : Type}.
  Variable E : env L R S.
  Hypothesis OK : lawful E.
  Notation map := (cmap L R S).
  Variable GL : L -> Prop.
  Variable GR : R -> Prop.
  Variable s : S.

  Let lok := lo_ok E OK.
  Let el := eqL_equiv E OK.
  Let er := eqR_equiv E OK.
  Notation soundL := (sound (@value L) (eqL E) (hashL E s) GL).
  Notation soundR := (sound (@value R) (eqR E) (hashR E s) GR).
  Notation absL k m := (absent (@value L) (eqL E) k (left_set m)).
  Notation absR k m := (absent (@value R) (eqR E) k (right_set m)).

  Definition Inv (m : map) : Prop :=
    hash_builder m = s /\ soundL (left_set m) /\ soundR (right_set m).
  (* nothing equal to the items of ls (rs) is in the map *)
  Definition ab (ls : list L) (rs : list R) (m : map) : Prop :=
    Forall (fun k => absL k m) ls /\ Forall (fun k => absR k m) rs.
  Notation hoare := (hoare Inv).
  Notation keeps := (keeps Inv).

  Lemma ab_nil : forall m, ab [] [] m.
  Proof. split; constructor. Qed.
  Lemma h_start : forall {A} (c : M map A) Q, hoare (ab [] []) c (fun _ => Q) -> keeps c.
  Proof. intros. eapply h_keeps; [exact H|]. intros; apply ab_nil. Qed.
  (* ---- the table operations ---- *)
  Lemma l_remove_any : forall h p ls rs, hoare (ab ls rs) (left_remove_entry E h p) (fun _ => ab ls rs).
  Proof.
    intros h p ls rs m I1 A. pose proof I1 as (H1 & H2 & H3). pose proof A as [A1 A2]. unfold left_remove_entry, bind, getst.
    destruct (t_remove_entry _ _ _ _) as [[x t]|] eqn:Q; simpl; [|split; assumption].
    split; [split; [assumption|split; [|assumption]]; eapply sound_remove_entry; eauto|].
    split; auto. simpl. eapply Forall_impl; [|exact A1]. intros k Ak. simpl in Ak.
    eapply absent_remove_entry; eauto.
  Qed.
  Lemma r_remove_any : forall h p ls rs, hoare (ab ls rs) (right_remove_entry E h p) (fun _ => ab ls rs).
  Proof.
    intros h p ls rs m I1 A. pose proof I1 as (H1 & H2 & H3). pose proof A as [A1 A2]. unfold right_remove_entry, bind, getst.
    destruct (t_remove_entry _ _ _ _) as [[x t]|] eqn:Q; simpl; [|split; assumption].
    split; [split; [assumption|split; [assumption|]]; eapply sound_remove_entry; eauto|].
    split; auto. simpl. eapply Forall_impl; [|exact A2]. intros k Ak. simpl in Ak.
    eapply absent_remove_entry; eauto.
  Qed.
  Lemma l_remove_key : forall k ls rs,
    hoare (ab ls rs) (left_remove_entry E (hashL E s k) (equivalent_key (eqL E) k)) (fun _ => ab (k :: ls) rs).
  Proof.
    intros k ls rs m I1 A. assert (K := l_remove_any (hashL E s k) (equivalent_key (eqL E) k) ls rs m I1 A).
    destruct I1 as (H1 & H2 & H3). revert K. unfold left_remove_entry, bind, getst.
    assert (X := remove_key _ lok _ _ el _ (hashL_ok E OK s) _ (left_set m) k (equivalent_key (eqL E) k)
                   (fun _ => eq_refl) H2).
    destruct (t_remove_entry _ _ _ _) as [[x t]|]; simpl.
    - intros [I1 [A1 A2]]. split; auto. split; auto. constructor; auto. apply X.
    - intros [I1 [A1 A2]]. split; auto. split; auto.
  Qed.
  Lemma r_remove_key : forall k ls rs,
    hoare (ab ls rs) (right_remove_entry E (hashR E s k) (equivalent_key (eqR E) k)) (fun _ => ab ls (k :: rs)).
  Proof.
    intros k ls rs m I1 A. assert (K := r_remove_any (hashR E s k) (equivalent_key (eqR E) k) ls rs m I1 A).
    destruct I1 as (H1 & H2 & H3). revert K. unfold right_remove_entry, bind, getst.
    assert (X := remove_key _ lok _ _ er _ (hashR_ok E OK s) _ (right_set m) k (equivalent_key (eqR E) k)
                   (fun _ => eq_refl) H3).
    destruct (t_remove_entry _ _ _ _) as [[x t]|]; simpl.
    - intros [I1 [A1 A2]]. split; auto. split; auto. constructor; auto. apply X.
    - intros [I1 [A1 A2]]. split; auto. split; auto.
  Qed.
  Lemma l_insert : forall k h i ls rs, GL k ->
    hoare (ab (k :: ls) rs) (left_insert E (hashL E s k) (MP k h i)) (fun _ => ab [] rs).
  Proof.
    intros k h i ls rs GK m (H1 & H2 & H3) [A1 A2]. unfold left_insert, bind, getst, putst. simpl.
    split; [|split; auto]. split; [auto|]. split; auto. rewrite H1.
    apply (sound_insert _ lok (@value L) _ el (hashL E s) GL (left_set m) (MP k h i)); auto.
    inversion A1; auto.
  Qed.
  Lemma r_insert : forall k h i ls rs, GR k ->
    hoare (ab ls (k :: rs)) (right_insert E (hashR E s k) (MP k h i)) (fun _ => ab ls []).
  Proof.
    intros k h i ls rs GK m (H1 & H2 & H3) [A1 A2]. unfold right_insert, bind, getst, putst. simpl.
    split; [|split; auto]. split; [auto|]. split; auto. rewrite H1.
    apply (sound_insert _ lok (@value R) _ er (hashR E s) GR (right_set m) (MP k h i)); auto.
    inversion A2; auto.
  Qed.
  Lemma l_get : forall m k, Inv m ->
    match t_get (lo E) (left_set m) (hashL E s k) (equivalent_key (eqL E) k) with
    | Some a => eqL E k (value a) = true /\ In (value a) (t_values (@value L) (left_set m))
    | None => absL k m
    end.
  Proof. intros m k (H1 & H2 & H3). eapply get_key; eauto. apply (hashL_ok E OK). Qed.
  Lemma r_get : forall m k, Inv m ->
    match t_get (lo E) (right_set m) (hashR E s k) (equivalent_key (eqR E) k) with
    | Some a => eqR E k (value a) = true /\ In (value a) (t_values (@value R) (right_set m))
    | None => absR k m
    end.
  Proof. intros m k (H1 & H2 & H3). eapply get_key; eauto. apply (hashR_ok E OK). Qed.
  Lemma hb : forall m, Inv m -> hash_builder m = s.
  Proof. intros m H. apply H. Qed.

  (* ---- the functions ---- *)
  Lemma rvl : forall k ls rs, hoare (ab ls rs) (remove_via_left E k) (fun _ => ab (k :: ls) rs).
  Proof.
    intros k ls rs. unfold remove_via_left. apply h_getst. intros m Hm _. rewrite (hb _ Hm). apply h_any.
    eapply h_then; [apply l_remove_key|]. intros [lp|]; [|apply h_retx; auto].
    eapply h_then; [apply r_remove_any|]. intros ro. apply h_unwrap_then. intros. apply h_retx; auto.
  Qed.
  Lemma rvr : forall k ls rs, hoare (ab ls rs) (remove_via_right E k) (fun _ => ab ls (k :: rs)).
  Proof.
    intros k ls rs. unfold remove_via_right. apply h_getst. intros m Hm _. rewrite (hb _ Hm). apply h_any.
    eapply h_then; [apply r_remove_key|]. intros [lp|]; [|apply h_retx; auto].
    eapply h_then; [apply l_remove_any|]. intros ro. apply h_unwrap_then. intros. apply h_retx; auto.
  Qed.
  Lemma remove_any : forall l r, hoare (ab [] []) (remove E l r) (fun _ => ab [] []).
  Proof.
    intros l r. unfold remove. apply h_getst. intros m Hm _. destruct (are_paired E m l r).
    - apply h_any. eapply h_weaken; [apply (rvl _ [] [])|auto|]. intros; apply ab_nil.
    - apply h_retx. tauto.
  Qed.
  Lemma incr_any : forall ls rs, hoare (ab ls rs) (incr_counter E) (fun _ => ab ls rs).
  Proof.
    intros ls rs. unfold incr_counter. apply h_getst. intros m Hm A. apply h_any. apply h_unwrap_then.
    intros c _ m' I1 A1. simpl. split; assumption.
  Qed.
  Lemma insert_any : forall l r, GL l -> GR r -> hoare (ab [] []) (insert E l r) (fun _ => ab [] []).
  Proof.
    intros l r Gl Gr. unfold insert. eapply h_then; [apply rvl|]. intros o1.
    eapply h_then; [apply rvr|]. intros o2. apply h_getst. intros m Hm A. rewrite (hb _ Hm). apply h_any.
    eapply h_then; [apply incr_any|]. intros _.
    eapply h_then; [apply l_insert; auto|]. intros _.
    eapply h_then; [apply r_insert; auto|]. intros _. apply h_retx; auto.
  Qed.

  Lemma eqc_l : forall old new,
    hoare (ab [] []) (swap_left_eq_check E old new (hashL E s new))
      (fun _ m => eqL E new old = true \/ ab [new] [] m).
  Proof.
    intros old new. unfold swap_left_eq_check. apply h_getst. intros m Hm A.
    assert (X := l_get m new Hm).
    destruct (t_get (lo E) (left_set m) (hashL E s new) (equivalent_key (eqL E) new)) as [x|].
    - destruct (eqL E new old); simpl.
      + apply h_retx. auto.
      + apply h_any. eapply h_weaken; [apply (rvl _ [] [])|auto|]. auto.
    - apply h_retx. intros m' [-> _]. right. split; auto.
  Qed.
  Lemma eqc_r : forall old new,
    hoare (ab [] []) (swap_right_eq_check E old new (hashR E s new))
      (fun _ m => eqR E new old = true \/ ab [] [new] m).
  Proof.
    intros old new. unfold swap_right_eq_check. apply h_getst. intros m Hm A.
    assert (X := r_get m new Hm).
    destruct (t_get (lo E) (right_set m) (hashR E s new) (equivalent_key (eqR E) new)) as [x|].
    - destruct (eqR E new old); simpl.
      + apply h_retx. auto.
      + apply h_any. eapply h_weaken; [apply (rvr _ [] [])|auto|]. auto.
    - apply h_retx. intros m' [-> _]. right. split; auto.
  Qed.
  (* the old item removed, the new one may go in *)
  Lemma abl_eq : forall old new ls rs m, eqL E new old = true -> ab (old :: ls) rs m -> ab (new :: ls) rs m.
  Proof.
    intros old new ls rs m Q [A1 A2]. split; auto. inversion A1; subst. constructor; auto.
    intros x Hx. rewrite (eqb_replace_l _ el _ _ _ Q). auto.
  Qed.
  Lemma abr_eq : forall old new ls rs m, eqR E new old = true -> ab ls (old :: rs) m -> ab ls (new :: rs) m.
  Proof.
    intros old new ls rs m Q [A1 A2]. split; auto. inversion A2; subst. constructor; auto.
    intros x Hx. rewrite (eqb_replace_l _ er _ _ _ Q). auto.
  Qed.
  Lemma l_remove_old : forall old new,
    hoare (fun m => eqL E new old = true \/ ab [new] [] m)
      (left_remove_entry E (hashL E s old) (equivalent_key (eqL E) old)) (fun _ => ab [new] []).
  Proof.
    intros old new m I1 [Q|A].
    - assert (X := l_remove_key old [] [] m I1 (ab_nil m)).
      destruct (left_remove_entry _ _ _ _) as [m' a|m']; [|auto]. destruct X. split; auto. eapply abl_eq; eauto.
    - assert (X := l_remove_key old [new] [] m I1 A).
      destruct (left_remove_entry _ _ _ _) as [m' a|m']; [|auto]. destruct X as [X1 [X2 X3]]. split; auto.
      inversion X2; subst. split; auto.
  Qed.
  Lemma r_remove_old : forall old new,
    hoare (fun m => eqR E new old = true \/ ab [] [new] m)
      (right_remove_entry E (hashR E s old) (equivalent_key (eqR E) old)) (fun _ => ab [] [new]).
  Proof.
    intros old new m I1 [Q|A].
    - assert (X := r_remove_key old [] [] m I1 (ab_nil m)).
      destruct (right_remove_entry _ _ _ _) as [m' a|m']; [|auto]. destruct X. split; auto. eapply abr_eq; eauto.
    - assert (X := r_remove_key old [] [new] m I1 A).
      destruct (right_remove_entry _ _ _ _) as [m' a|m']; [|auto]. destruct X as [X1 [X2 X3]]. split; auto.
      inversion X3; subst. split; auto.
  Qed.
  Lemma inv_modify_l : forall m i f, (forall x, value (f x) = value x) -> Inv m ->
    Inv (set_left (t_modify (left_set m) i f) m).
  Proof.
    intros m i f F (H1 & H2 & H3). split; [assumption|]. split; [|assumption].
    simpl. apply sound_modify; auto.
  Qed.
  Lemma inv_modify_r : forall m i f, (forall x, value (f x) = value x) -> Inv m ->
    Inv (set_right (t_modify (right_set m) i f) m).
  Proof.
    intros m i f F (H1 & H2 & H3). split; [assumption|]. split; [assumption|].
    simpl. apply sound_modify; auto.
  Qed.
  Lemma swap_left_any : forall old new, GL new -> hoare (ab [] []) (swap_left E old new) (fun _ => ab [] []).
  Proof.
    intros old new Gn. unfold swap_left. apply h_getst. intros m0 H0 _. apply h_any. rewrite (hb _ H0).
    eapply h_then; [apply eqc_l|]. intros eo. apply h_getst. intros m Hm A. rewrite (hb _ Hm).
    destruct (t_get (lo E) (left_set m) (hashL E s old) (equivalent_key (eqL E) old)) as [lp|];
      [|apply h_retx; intros; apply ab_nil].
    apply h_unwrap_then. intros i Hi.
    eapply h_put_then with (P' := fun m => eqL E new old = true \/ ab [new] [] m).
    - apply inv_modify_r; auto.
    - destruct A as [A|[A1 A2]]; auto. right. split; auto.
    - eapply h_then; [apply l_remove_old|]. intros o. apply h_unwrap_then. intros p _.
      eapply h_then; [apply l_insert; auto|]. intros _. apply h_retx; auto.
  Qed.
  Lemma swap_right_any : forall old new, GR new -> hoare (ab [] []) (swap_right E old new) (fun _ => ab [] []).
  Proof.
    intros old new Gn. unfold swap_right. apply h_getst. intros m0 H0 _. apply h_any. rewrite (hb _ H0).
    eapply h_then; [apply eqc_r|]. intros eo. apply h_getst. intros m Hm A. rewrite (hb _ Hm).
    destruct (t_get (lo E) (right_set m) (hashR E s old) (equivalent_key (eqR E) old)) as [lp|];
      [|apply h_retx; intros; apply ab_nil].
    apply h_unwrap_then. intros i Hi.
    eapply h_put_then with (P' := fun m => eqR E new old = true \/ ab [] [new] m).
    - apply inv_modify_l; auto.
    - destruct A as [A|[A1 A2]]; auto. right. split; auto.
    - eapply h_then; [apply r_remove_old|]. intros o. apply h_unwrap_then. intros p _.
      eapply h_then; [apply r_insert; auto|]. intros _. apply h_retx; auto.
  Qed.
  Lemma swap_left_checked_any : forall old ex new, GL new ->
    hoare (ab [] []) (swap_left_checked E old ex new) (fun _ => ab [] []).
  Proof.
    intros. unfold swap_left_checked. apply h_getst. intros m Hm _.
    destruct (negb _); [apply h_retx; tauto|apply h_any, swap_left_any; auto].
  Qed.
  Lemma swap_right_checked_any : forall old ex new, GR new ->
    hoare (ab [] []) (swap_right_checked E old ex new) (fun _ => ab [] []).
  Proof.
    intros. unfold swap_right_checked. apply h_getst. intros m Hm _.
    destruct (negb _); [apply h_retx; tauto|apply h_any, swap_right_any; auto].
  Qed.
  Lemma swap_left_or_insert_any : forall old new r, GL new -> GR r ->
    hoare (ab [] []) (swap_left_or_insert E old new r) (fun _ => ab [] []).
  Proof.
    intros. unfold swap_left_or_insert. apply h_getst. intros m Hm _. apply h_any.
    destruct (t_get _ _ _ _); [apply swap_left_any; auto|].
    eapply h_then; [apply insert_any; auto|]. intros d. apply h_retx; auto.
  Qed.
  Lemma swap_right_or_insert_any : forall old new l, GR new -> GL l ->
    hoare (ab [] []) (swap_right_or_insert E old new l) (fun _ => ab [] []).
  Proof.
    intros. unfold swap_right_or_insert. apply h_getst. intros m Hm _. apply h_any.
    destruct (t_get _ _ _ _); [apply swap_right_any; auto|].
    eapply h_then; [apply insert_any; auto|]. intros [| | |]; try (apply h_retx; auto); apply h_panic.
  Qed.
  Lemma extend_any : forall xs, Forall GL (List.map fst xs) -> Forall GR (List.map snd xs) ->
    hoare (ab [] []) (extend E xs) (fun _ => ab [] []).
  Proof.
    induction xs as [|[a b] xs IH]; simpl; intros F1 F2; [apply h_retx; auto|].
    inversion F1; inversion F2; subst. eapply h_then; [apply insert_any; auto|]. auto.
  Qed.
  Lemma drop_all_any : forall xs, hoare (ab [] []) (drop_all E xs) (fun _ => ab [] []).
  Proof.
    induction xs as [|[[a b] i] xs IH]; simpl; [apply h_retx; auto|].
    eapply h_then with (Q := ab [] []); [|intros _; exact IH]. unfold remove_via_hashes_and_id.
    eapply h_then; [apply l_remove_any|]. intros [lp|]; [|apply h_retx; auto].
    eapply h_then; [apply r_remove_any|]. intros ro. apply h_unwrap_then. intros. apply h_retx; auto.
  Qed.
  Lemma retain_any : forall {X} (f : X -> L -> R -> X * verdict) m x, Inv m ->
    match retain E f (m, x) with Ret (m', _) _ | Panic (m', _) => Inv m' end.
  Proof.
    intros X f m x I1. unfold retain. destruct (retain_scan _ _ _ _ _ _) as [x' l|x']; auto.
    assert (D := drop_all_any l m I1 (ab_nil m)). destruct (drop_all E l m); tauto.
  Qed.
  Lemma clear_any : keeps (clear E).
  Proof. intros m (H1 & H2 & H3) _. split; [|exact I]. split; [assumption|]. split; apply sound_nil. Qed.
  Lemma resize_any : forall n, keeps (resize_both E n).
  Proof.
    intros n m (H1 & H2 & H3) _. simpl. split; [|exact I].
    split; [assumption|]. simpl. rewrite H1. split.
    - eapply sound_perm; [exact el| |exact H2]. symmetry. apply t_resize_perm; auto. apply H2.
    - eapply sound_perm; [exact er| |exact H3]. symmetry. apply t_resize_perm; auto. apply H3.
  Qed.
  Lemma shrink_to_fit_any : keeps (shrink_to_fit E).
  Proof.
    intros m (H1 & H2 & H3) _. simpl. split; [|exact I].
    split; [assumption|]. simpl. rewrite H1. split.
    - eapply sound_perm; [exact el| |exact H2]. symmetry. apply t_resize_perm; auto. apply H2.
    - eapply sound_perm; [exact er| |exact H3]. symmetry. apply t_resize_perm; auto. apply H3.
  Qed.
  Lemma try_reserve_any : forall n, keeps (try_reserve E n).
  Proof.
    intros n m (H1 & H2 & H3) _. unfold try_reserve. cbv [bind getst putst ret].
    assert (P1 := t_try_resize_perm _ lok (left_set m) n (make_hasher_l E (hash_builder m))).
    destruct (t_try_resize _ (left_set m) _ _) as [ok1 t1].
    destruct ok1; simpl.
    - assert (P2 := t_try_resize_perm _ lok (right_set m) n (make_hasher_r E (hash_builder m))).
      destruct (t_try_resize _ (right_set m) _ _) as [ok2 t2]. split; [|exact I].
      rewrite H1 in *. split; [assumption|]. split.
      + eapply sound_perm; [exact el| |exact H2]. symmetry. apply P1, H2.
      + eapply sound_perm; [exact er| |exact H3]. symmetry. apply P2, H3.
    - split; [|exact I]. rewrite H1 in *. split; [assumption|]. split; [|assumption].
      eapply sound_perm; [exact el| |exact H2]. symmetry. apply P1, H2.
  Qed.
  Lemma drain_any : forall n d, soundR (di_right d) ->
    match drain_nexts E n d with Ret d' _ | Panic d' => soundR (di_right d') end.
  Proof.
    induction n; simpl; intros d H; auto. unfold drain_next.
    destruct (di_left d) as [|[h lp] rest] eqn:Q.
    - specialize (IHn d H). destruct (drain_nexts E n d); auto.
    - destruct (t_remove_entry _ _ _ _) as [[rp t]|] eqn:RE; simpl; auto.
      eapply sound_remove_entry in RE; eauto.
      specialize (IHn (Drain rest t) RE). destruct (drain_nexts E n _); auto.
  Qed.
  Section DF.
    Context {X : Type}.
    Variable f : X -> L -> R -> X * verdict.
    Definition dinv (st : df_inner * X) : Prop := soundL (df_left (fst st)) /\ soundR (df_right (fst st)).
    Lemma df_next_any : forall fuel st, dinv st ->
      match df_next_fuel E f fuel st with Ret st' _ | Panic st' => dinv st' end.
    Proof.
      induction fuel; intros [d x] H; simpl;
        destruct (t_entry _ _) as [lp|]; auto;
        destruct (t_find _ _ _ _) as [i|]; auto;
        destruct (t_entry _ _) as [rp|]; auto;
        destruct (f x _ _) as [x' [[]|]]; auto;
        try (destruct H; split; apply sound_remove_at; assumption).
      apply IHfuel. assumption.
    Qed.
    Lemma df_nexts_any : forall n st, dinv st ->
      match df_nexts E f n st with Ret st' _ | Panic st' => dinv st' end.
    Proof.
      induction n; simpl; intros st H; auto. unfold df_next.
      assert (X1 := df_next_any (df_remaining (fst st)) st H).
      destruct (df_next_fuel _ _ _ _) as [st' a|st']; auto.
      specialize (IHn st' X1). destruct (df_nexts E f n st'); auto.
    Qed.
    Lemma df_drop_any : forall fuel st, dinv st ->
      match df_drop_fuel E f fuel st with Ret st' _ | Panic st' => dinv st' end.
    Proof.
      induction fuel; simpl; intros st H; unfold df_next;
        assert (X1 := df_next_any (df_remaining (fst st)) st H);
        destruct (df_next_fuel _ _ _ _) as [st' [a|]|st']; auto.
      apply IHfuel; auto.
    Qed.
  End DF.

  Lemma via_any : forall {A} (k : A -> out L R) (c : M map A) m, keeps c -> Inv m -> Inv (fst (via k (c m))).
  Proof. intros A k c m H I1. specialize (H m I1 I). destruct (c m); simpl; tauto. Qed.
  Lemma seen_any : forall {A} (k : A -> out L R) m o, Inv m -> Inv (fst (seen (A:=A) m k o)).
  Proof. intros A k m [a|] I1; auto. Qed.

  Lemma xstep_any : forall o m, Forall GL (given_l o) -> Forall GR (given_r o) -> Inv m -> Inv (fst (xstep E m o)).
  Proof.
    intros [o|n] m FL FR I1.
    - destruct o; simpl in FL, FR; cbn [xstep step]; auto;
        try (apply seen_any; assumption);
        try (apply via_any;
             [first [apply clear_any|apply resize_any|apply shrink_to_fit_any|apply try_reserve_any|eapply h_start]
             |assumption]);
        repeat match goal with
               | H : Forall _ [_] |- _ => inversion H; clear H; subst
               | H : Forall _ [] |- _ => clear H
               end.
      + apply insert_any; auto.
      + apply remove_any.
      + apply rvl.
      + apply rvr.
      + apply swap_left_any; auto.
      + apply swap_left_checked_any; auto.
      + apply swap_left_or_insert_any; auto.
      + apply swap_right_any; auto.
      + apply swap_right_checked_any; auto.
      + apply swap_right_or_insert_any; auto.
      + apply extend_any; auto.
      + assert (X1 := retain_any f m x I1). destruct (retain E f (m, x)) as [[m' x'] a|[m' x']]; auto.
      + assert (D := drain_any (Datatypes.S (len m)) (drain m) (proj2 (proj2 I1))).
        destruct I1 as (H1 & _). revert D.
        destruct (drain_nexts _ _ _) as [d a|d]; intros D; (split; [assumption|split; [apply sound_nil|assumption]]).
      + assert (D := df_nexts_any f n (drain_filter m, x) (proj2 I1)).
        destruct I1 as (H1 & _).
        assert (Z : forall d (x' : X), dinv (d, x') -> Inv (df_end m d))
          by (intros d x' [Z1 Z2]; split; [assumption|split; assumption]).
        destruct (df_nexts E f n (drain_filter m, x)) as [[d x'] a|[d x']].
        * destruct leak; [eapply Z; eauto|].
          assert (D2 := df_drop_any f (df_remaining d) (d, x') D). unfold df_drop.
          simpl fst in *. destruct (df_drop_fuel _ _ _ _) as [[d' x2] a2|[d' x2]]; eapply Z; eauto.
        * assert (D2 := df_drop_any f (df_remaining d) (d, x') D). unfold df_drop.
          simpl fst in *. destruct (df_drop_fuel _ _ _ _) as [[d' x2] a2|[d' x2]]; eapply Z; eauto.
    - simpl. assert (D := drain_any n (drain m) (proj2 (proj2 I1))). destruct I1 as (H1 & _).
      destruct (drain_nexts _ _ _) as [d a|d]; (split; [assumption|split; [apply sound_nil|assumption]]).
  Qed.
End Any.

Section AnyProps.
  Context {L R S : Type}.
  Variable E : env L R S.
  Hypothesis OK : lawful E.
  Notation map := (cmap L R S).
  Notation "a =L b" := (eqL E a b = true) (at level 70).
  Notation "a =R b" := (eqR E a b = true) (at level 70).

  (* the items a for loop over iter_left() (iter_right()) yields *)
  Definition lefts (m : map) (ls : list L) : Prop :=
    collect single_next (single_len (iter_left m)) (iter_left m) = Done ls.
  Definition rights (m : map) (rs : list R) : Prop :=
    collect single_next (single_len (iter_right m)) (iter_right m) = Done rs.

  Lemma single_all : forall {T} (it : list (N * mapping_pair T)),
    collect single_next (single_len it) it = Done (List.map (fun x => value (snd x)) it).
  Proof. induction it as [|[h x] it IH]; simpl in *; auto. rewrite IH. reflexivity. Qed.
  Lemma lefts_are : forall m ls, lefts m ls <-> ls = t_values (@value L) (left_set m).
  Proof.
    intros m ls. unfold lefts. rewrite single_all. unfold iter_left, t_values. split; [congruence|]. intros ->. auto.
  Qed.
  Lemma rights_are : forall m rs, rights m rs <-> rs = t_values (@value R) (right_set m).
  Proof.
    intros m rs. unfold rights. rewrite single_all. unfold iter_right, t_values. split; [congruence|]. intros ->. auto.
  Qed.

  Lemma inv_new : forall GL GR s ll lr, Inv E GL GR s (with_hasher s ll lr).
  Proof. intros. split; [reflexivity|]. split; apply sound_nil. Qed.
  Lemma xrun_any : forall GL GR s ops m, Forall GL (flat_map given_l ops) -> Forall GR (flat_map given_r ops) ->
    Inv E GL GR s m -> Inv E GL GR s (fst (xrun E m ops)).
  Proof.
    intros GL GR s. induction ops as [|o ops IH]; simpl; intros m FL FR I1; auto.
    apply Forall_app in FL as [FL1 FL2]. apply Forall_app in FR as [FR1 FR2].
    assert (X := xstep_any E OK GL GR s o m FL1 FR1 I1). destruct (xstep E m o) as [m1 w].
    specialize (IH m1 FL2 FR2 X). destruct (xrun E m1 ops). auto.
  Qed.
  Lemma Forall_top : forall {A} (l : list A), Forall (fun _ => True) l.
  Proof. induction l; auto. Qed.
  Notation Top := (fun _ => True).
  Lemma obtainable_inv : forall m, obtainable E m -> exists s, Inv E Top Top s m.
  Proof.
    intros m (s & ll & lr & ops & ->). exists s. apply xrun_any; try apply Forall_top. apply inv_new.
  Qed.

  Lemma contains_l : forall s m l, Inv E Top Top s m ->
    (contains_left E m l = true <-> exists l', In l' (t_values (@value L) (left_set m)) /\ l =L l').
  Proof.
    intros s m l I1. pose proof I1 as (H1 & H2 & H3). unfold contains_left. rewrite H1.
    rewrite <- (found_iff _ (lo_ok E OK) _ _ _ (hashL_ok E OK s) _ (left_set m) l (equivalent_key (eqL E) l)
                  (fun _ => eq_refl) H2).
    destruct (t_get _ _ _ _); split; intros H; eauto; [discriminate|destruct H; discriminate].
  Qed.
  Lemma contains_r : forall s m r, Inv E Top Top s m ->
    (contains_right E m r = true <-> exists r', In r' (t_values (@value R) (right_set m)) /\ r =R r').
  Proof.
    intros s m l I1. pose proof I1 as (H1 & H2 & H3). unfold contains_right. rewrite H1.
    rewrite <- (found_iff _ (lo_ok E OK) _ _ _ (hashR_ok E OK s) _ (right_set m) l (equivalent_key (eqR E) l)
                  (fun _ => eq_refl) H3).
    destruct (t_get _ _ _ _); split; intros H; eauto; [discriminate|destruct H; discriminate].
  Qed.
  Lemma t_get_In : forall {A} (t : table A) h p a, t_get (lo E) t h p = Some a -> exists h', In (h', a) (slots t) /\ p a = true.
  Proof.
    unfold t_get, t_entry. intros A t h p a H. destruct (t_find _ _ _ _) as [i|] eqn:F; [|discriminate].
    apply t_find_some in F as (h' & x & N1 & N2). rewrite N1 in H. inversion H; subst.
    apply nth_error_In in N1. eauto.
  Qed.

  Lemma inv_sides : forall s m, Inv E Top Top s m -> exists ls rs,
    lefts m ls /\ rights m rs /\ distinct (eqL E) ls /\ distinct (eqR E) rs /\
    len m = length ls /\ (is_empty m = true <-> ls = []) /\
    (forall l, contains_left E m l = true <-> exists l', In l' ls /\ l =L l') /\
    (forall r, contains_right E m r = true <-> exists r', In r' rs /\ r =R r') /\
    (forall l r, get_right E m l = Some r -> contains_left E m l = true /\ In r rs) /\
    (forall l r, get_left E m r = Some l -> contains_right E m r = true /\ In l ls) /\
    (forall l r, are_paired E m l r = true -> contains_left E m l = true /\ contains_right E m r = true).
  Proof.
    intros s m I1. pose proof I1 as (H1 & (_ & H2 & _) & (_ & H3 & _)).
    exists (t_values (@value L) (left_set m)), (t_values (@value R) (right_set m)).
    refine (conj _ (conj _ (conj H2 (conj H3 (conj _ (conj _ (conj _ (conj _ (conj _ (conj _ _)))))))))).
    - apply lefts_are. reflexivity.
    - apply rights_are. reflexivity.
    - unfold len, t_len, t_values. rewrite map_length. reflexivity.
    - unfold is_empty, len, t_len, t_values. destruct (slots (left_set m)); simpl; split; congruence.
    - intros l. apply (contains_l s); auto.
    - intros r. apply (contains_r s); auto.
    - intros l r. unfold get_right, get_right_q, contains_left.
      destruct (t_get _ (left_set m) _ _) as [lp|] eqn:G1; [|discriminate].
      destruct (t_get _ (right_set m) _ _) as [rp|] eqn:G2; [|discriminate].
      intros Q. inversion Q; subst. split; auto. apply t_get_In in G2 as (h' & G2 & _).
      apply in_map_iff. exists (h', rp). auto.
    - intros l r. unfold get_left, get_left_q, contains_right.
      destruct (t_get _ (right_set m) _ _) as [rp|] eqn:G1; [|discriminate].
      destruct (t_get _ (left_set m) _ _) as [lp|] eqn:G2; [|discriminate].
      intros Q. inversion Q; subst. split; auto. apply t_get_In in G2 as (h' & G2 & _).
      apply in_map_iff. exists (h', lp). auto.
    - intros l r. unfold are_paired, contains_left, contains_right.
      destruct (t_get _ (left_set m) _ _); [|discriminate]. destruct (t_get _ (right_set m) _ _); [auto|discriminate].
  Qed.

  (* C72: whatever was done to the map, each side is a set of pairwise non-equal items, and
     iterators, membership tests, len() and lookups agree about what is in it. *)
  Theorem C72_sides : forall m, obtainable E m -> exists ls rs,
    lefts m ls /\ rights m rs /\ distinct (eqL E) ls /\ distinct (eqR E) rs /\
    len m = length ls /\ (is_empty m = true <-> ls = []) /\
    (forall l, contains_left E m l = true <-> exists l', In l' ls /\ l =L l') /\
    (forall r, contains_right E m r = true <-> exists r', In r' rs /\ r =R r') /\
    (forall l r, get_right E m l = Some r -> contains_left E m l = true /\ In r rs) /\
    (forall l r, get_left E m r = Some l -> contains_right E m r = true /\ In l ls) /\
    (forall l r, are_paired E m l r = true -> contains_left E m l = true /\ contains_right E m r = true).
  Proof. intros m OB. destruct (obtainable_inv m OB) as [s I1]. exact (inv_sides s m I1). Qed.

  (* every item in the map is one that some call handed over *)
  Theorem C72_given : forall s ll lr ops ls rs,
    lefts (fst (xrun E (with_hasher s ll lr) ops)) ls -> rights (fst (xrun E (with_hasher s ll lr) ops)) rs ->
    incl ls (flat_map given_l ops) /\ incl rs (flat_map given_r ops).
  Proof.
    intros s ll lr ops ls rs HL HR. apply lefts_are in HL. apply rights_are in HR. subst.
    destruct (xrun_any (fun l => In l (flat_map given_l ops)) (fun r => In r (flat_map given_r ops)) s ops
                (with_hasher s ll lr)) as (_ & (_ & _ & F1) & (_ & _ & F2)).
    - apply Forall_forall; auto.
    - apply Forall_forall; auto.
    - apply inv_new.
    - rewrite Forall_forall in F1, F2. split; auto.
  Qed.

  (* an insertion that returns has taken effect *)
  Theorem C72_insert : forall m l r m' d, obtainable E m -> insert E l r m = Ret m' d ->
    are_paired E m' l r = true /\
    (exists ls rs, lefts m' ls /\ rights m' rs /\ In l ls /\ In r rs).
  Proof.
    intros m l r m' d OB Q. destruct (obtainable_inv m OB) as [s I1]. unfold insert in Q.
    assert (X1 := rvl E OK Top Top s l [] [] m I1 (ab_nil E m)).
    unfold bind at 1 in Q. destruct (remove_via_left E l m) as [m1 o1|m1]; [|discriminate]. destruct X1 as [I2 A1].
    assert (X2 := rvr E OK Top Top s r [l] [] m1 I2 A1).
    unfold bind at 1 in Q. destruct (remove_via_right E r m1) as [m2 o2|m2]; [|discriminate]. destruct X2 as [I3 A2].
    unfold bind at 1, getst at 1 in Q.
    assert (X3 := incr_any E Top Top s [l] [r] m2 I3 A2).
    unfold bind at 1 in Q. destruct (incr_counter E m2) as [m3 o3|m3]; [|discriminate]. destruct X3 as [I4 A3].
    rewrite (hb _ _ _ _ _ I3) in Q.
    pose proof (l_insert E OK Top Top s l (hashR E s r) (counter m2) [] [r] Logic.I m3 I4 A3) as X4.
    unfold bind at 1 in Q.
    assert (IL : In (hashL E s l, MP l (hashR E s r) (counter m2))
                    (slots (t_insert (lo E) (left_set m3) (hashL E s l) (MP l (hashR E s r) (counter m2)) (make_hasher_l E s)))).
    { eapply Permutation_in; [symmetry; apply (t_insert_perm _ (lo_ok E OK)); apply I4|left; reflexivity]. }
    unfold left_insert in Q, X4. cbv [bind getst putst] in X4. destruct X4 as [I5 A4].
    rewrite (hb _ _ _ _ _ I4) in I5, A4. cbv [bind getst putst] in Q. rewrite (hb _ _ _ _ _ I4) in Q.
    remember (set_left _ m3) as m4 eqn:M4.
    pose proof (r_insert E OK Top Top s r (hashL E s l) (counter m2) [] [] Logic.I m4 I5 A4) as X5.
    assert (IR : In (hashR E s r, MP r (hashL E s l) (counter m2))
                    (slots (t_insert (lo E) (right_set m4) (hashR E s r) (MP r (hashL E s l) (counter m2)) (make_hasher_r E s)))).
    { eapply Permutation_in; [symmetry; apply (t_insert_perm _ (lo_ok E OK)); apply I5|left; reflexivity]. }
    unfold right_insert, bind, getst, putst, ret in Q, X5. destruct X5 as [I6 _].
    rewrite (hb _ _ _ _ _ I5) in Q, I6. inversion Q. subst m' d. clear Q.
    assert (ML : left_set m4 = t_insert (lo E) (left_set m3) (hashL E s l) (MP l (hashR E s r) (counter m2)) (make_hasher_l E s))
      by (subst m4; reflexivity).
    rewrite <- ML in IL. clear M4 ML. remember (set_right _ m4) as m5 eqn:M5.
    assert (E1 : left_set m5 = left_set m4) by (subst; auto). rewrite <- E1 in IL.
    assert (E2 : right_set m5 = t_insert (lo E) (right_set m4) (hashR E s r) (MP r (hashL E s l) (counter m2)) (make_hasher_r E s))
      by (subst; auto). rewrite <- E2 in IR.
    pose proof I6 as (B1 & B2 & B3). split.
    - unfold are_paired. rewrite B1.
      rewrite (get_there _ (lo_ok E OK) _ _ (eqL_equiv E OK) _ (hashL_ok E OK s) _ (left_set m5) l
                 (equivalent_key (eqL E) l) _ _ (fun _ => eq_refl) B2 IL (equiv_refl _ (eqL_equiv E OK) l)).
      rewrite (get_there _ (lo_ok E OK) _ _ (eqR_equiv E OK) _ (hashR_ok E OK s) _ (right_set m5) r
                 (equivalent_key (eqR E) r) _ _ (fun _ => eq_refl) B3 IR (equiv_refl _ (eqR_equiv E OK) r)).
      simpl. rewrite !N.eqb_refl. reflexivity.
    - exists (t_values (@value L) (left_set m5)), (t_values (@value R) (right_set m5)).
      split; [apply lefts_are; auto|]. split; [apply rights_are; auto|]. split; apply in_map_iff.
      + exists (hashL E s l, MP l (hashR E s r) (counter m2)). auto.
      + exists (hashR E s r, MP r (hashL E s l) (counter m2)). auto.
  Qed.

  (* a removal has removed the item, also when it panicked *)
  Theorem C72_remove : forall m l r, obtainable E m ->
    contains_left E (res_state (remove_via_left E l m)) l = false /\
    contains_right E (res_state (remove_via_right E r m)) r = false.
  Proof.
    intros m l r OB. destruct (obtainable_inv m OB) as [s I1]. split.
    - unfold remove_via_left. unfold bind at 1, getst. rewrite (hb _ _ _ _ _ I1).
      assert (X := l_remove_key E OK Top Top s l [] [] m I1 (ab_nil E m)).
      unfold bind at 1. destruct (left_remove_entry E _ _ m) as [m1 [lp|]|m1] eqn:Q1.
      + destruct X as [I2 A1]. assert (Y := r_remove_any E Top Top s (phash lp) (hash_and_id (hashL E s l) (pid lp)) [l] [] m1 I2 A1).
        unfold bind. destruct (right_remove_entry E _ _ m1) as [m2 ro|m2] eqn:Q2; [|exfalso; clear - Q2].
        * destruct Y as [I3 [A2 _]]. inversion A2; subst.
          assert (C : contains_left E m2 l = false).
          { destruct (contains_left E m2 l) eqn:C; auto. apply (contains_l s _ _ I3) in C as (l' & C1 & C2).
            rewrite (H1 _ C1) in C2. discriminate. }
          destruct ro; exact C.
        * unfold right_remove_entry, bind, getst in Q2. destruct (t_remove_entry _ _ _ _) as [[? ?]|]; discriminate.
      + destruct X as [I3 [A2 _]]. inversion A2; subst. simpl.
        destruct (contains_left E m1 l) eqn:C; auto. apply (contains_l s _ _ I3) in C as (l' & C1 & C2).
        rewrite (H1 _ C1) in C2. discriminate.
      + exfalso. clear - Q1. unfold left_remove_entry, bind, getst in Q1. destruct (t_remove_entry _ _ _ _) as [[? ?]|]; discriminate.
    - unfold remove_via_right. unfold bind at 1, getst. rewrite (hb _ _ _ _ _ I1).
      assert (X := r_remove_key E OK Top Top s r [] [] m I1 (ab_nil E m)).
      unfold bind at 1. destruct (right_remove_entry E _ _ m) as [m1 [lp|]|m1] eqn:Q1.
      + destruct X as [I2 A1]. assert (Y := l_remove_any E Top Top s (phash lp) (hash_and_id (hashR E s r) (pid lp)) [] [r] m1 I2 A1).
        unfold bind. destruct (left_remove_entry E _ _ m1) as [m2 ro|m2] eqn:Q2; [|exfalso; clear - Q2].
        * destruct Y as [I3 [_ A2]]. inversion A2; subst.
          assert (C : contains_right E m2 r = false).
          { destruct (contains_right E m2 r) eqn:C; auto. apply (contains_r s _ _ I3) in C as (l' & C1 & C2).
            rewrite (H1 _ C1) in C2. discriminate. }
          destruct ro; exact C.
        * unfold left_remove_entry, bind, getst in Q2. destruct (t_remove_entry _ _ _ _) as [[? ?]|]; discriminate.
      + destruct X as [I3 [_ A2]]. inversion A2; subst. simpl.
        destruct (contains_right E m1 r) eqn:C; auto. apply (contains_r s _ _ I3) in C as (l' & C1 & C2).
        rewrite (H1 _ C1) in C2. discriminate.
      + exfalso. clear - Q1. unfold right_remove_entry, bind, getst in Q1. destruct (t_remove_entry _ _ _ _) as [[? ?]|]; discriminate.
  Qed.
End AnyProps.

(* Cases: two of three pairs survive a drain dropped after one step as orphaned right items;
   the ids start again at 0, so that the pair inserted next shares its id with an orphan.
   All hashes collide: get_right finds the orphan, iteration and removals go wrong. *)
Definition wild_history : list (xop item item) :=
  [Call (Insert (it 1) (it 1)); Call (Insert (it 2) (it 2)); Call (Insert (it 3) (it 3)); DrainN 1;
   Call (Insert (it 4) (it 4)); Call (Insert (it 5) (it 5)); Call (Insert (it 4) (it 6));
   Call (RemoveViaRight (it 3)); Call (Insert (it 7) (it 5)); Call (SwapLeft (it 7) (it 8))].
Definition wild : cmap item item N := fst (xrun env_collide (with_hasher 0 0 0) wild_history).
Lemma wild_obtainable : obtainable env_collide wild.
Proof. exists 0, 0, 0, wild_history. reflexivity. Qed.
(* the pairing is broken, the sides are not *)
Example C72_case : exists ls rs, obtainable env_collide wild /\
  lefts wild ls /\ rights wild rs /\ ls = [it 8] /\ rs = [it 6; it 4; it 5] /\
  contains_right env_collide wild (it 6) = true /\ get_left env_collide wild (it 6) = None /\
  contains_right env_collide wild (it 3) = false /\ len wild = 1%nat.
Proof.
  exists [it 8], [it 6; it 4; it 5]. split; [exact wild_obtainable|].
  repeat (split; [vm_compute; reflexivity|]). vm_compute. reflexivity.
Qed.
Example C72_given_case : flat_map given_l wild_history =
  [it 1; it 2; it 3; it 4; it 5; it 4; it 7; it 8].
Proof. vm_compute. reflexivity. Qed.
(* an insertion into the damaged map; the removal panics and still removes *)
Example C72_insert_case : exists m' d, insert env_collide (it 9) (it 6) (fst (xstep env_collide wild (Call (RemoveViaRight (it 6)))))
  = Ret m' d /\ d = Neither /\ are_paired env_collide m' (it 9) (it 6) = true /\ len m' = 2%nat.
Proof. eexists. eexists. split; [vm_compute; reflexivity|]. vm_compute. auto. Qed.
Example C72_remove_case : exists m', remove_via_right env_collide (it 6) wild = Panic m' /\
  contains_right env_collide wild (it 6) = true /\ contains_right env_collide m' (it 6) = false.
Proof. eexists. split; [vm_compute; reflexivity|]. vm_compute. auto. Qed.

Print Assumptions C72_sides.
Print Assumptions C72_given.
Print Assumptions C72_insert.
Print Assumptions C72_remove.
