(* PartialCycleMap with an Eq that is not an equivalence: theorems. *)
From Coq Require Import List NArith Lia Bool Permutation PeanoNat.
From Verif Require Import Closures Prelude RawTable Optionals PartialCycleMap ListFacts TableFacts
  IterFacts PartialSpec PartialHistory PartialProofs PartialProofs2 PartialProofs3 PartialProofs4
  PartialProofs6 PartialProofs7 PartialLax PartialLaxProofs PartialLaxProofs2 PartialLaxProofs3
  PartialLaxProofs4 Concrete.
From Verif Require CycleMapLaxProps.
Import ListNotations.
Open Scope N_scope.

Section Step.
  Context {L R S : Type} (E : env L R S) (OK : lax E).
  Notation WRep := (WRep E).
  Notation eL := (eqL E).
  Notation eR := (eqR E).
  Notation zent := (N * optional_pair L R)%type.

  Lemma takes_l : forall q (Z : list zent) o Z', takes (at_l E q) Z o Z' ->
    takes (@has_l L R eL q) (map snd Z) (option_map snd o) (map snd Z').
  Proof. intros. apply (takes_snd (has_l eL q)); auto. Qed.
  Lemma takes_r : forall q (Z : list zent) o Z', takes (at_r E q) Z o Z' ->
    takes (@has_r L R eR q) (map snd Z) (option_map snd o) (map snd Z').
  Proof. intros. apply (takes_snd (has_r eR q)); auto. Qed.
  Lemma picks_l : forall q (Z : list zent) o Z', takes (at_l E q) Z o Z' ->
    picks (@has_l L R eL q) (map snd Z) (option_map snd o).
  Proof. intros q Z o Z' H. exists (map snd Z'). apply takes_l; auto. Qed.
  Lemma picks_r : forall q (Z : list zent) o Z', takes (at_r E q) Z o Z' ->
    picks (@has_r L R eR q) (map snd Z) (option_map snd o).
  Proof. intros q Z o Z' H. exists (map snd Z'). apply takes_r; auto. Qed.

  Lemma swap_left_lax : forall s c m Z old new, WRep s c m Z ->
    exists m' d Z', swap_left E old new m = Ret m' d /\ WRep s c m' Z' /\
      lax_swap_left eL (map snd Z) old new (map snd Z') d.
  Proof.
    intros s c m Z old new H.
    destruct (swap_left_w E OK s c m Z old new H) as (m' & a & Z1 & b & Z2 & A & B & K).
    assert (A' : if eL new old then option_map snd a = None /\ Permutation (map snd Z) (map snd Z1)
                 else takes (@has_l L R eL new) (map snd Z) (option_map snd a) (map snd Z1)).
    { destruct (eL new old); [|apply takes_l; auto]. destruct A as [-> A]. split; auto.
      apply Permutation_map; auto. }
    destruct b as [z|]; destruct K as [K1 K2].
    - eexists m', _, _. split; [exact K1|]. split; [exact K2|].
      exists (option_map snd a), (map snd Z1), (Some (snd z)), (map snd Z2).
      split; [auto|]. split; [apply (takes_l old Z1 (Some z)); auto|]. cbn. auto.
    - eexists m', _, _. split; [exact K1|]. split; [exact K2|].
      exists (option_map snd a), (map snd Z1), None, (map snd Z2).
      split; [auto|]. split; [apply (takes_l old Z1 None); auto|]. cbn. auto.
  Qed.
  Lemma swap_right_lax : forall s c m Z old new, WRep s c m Z ->
    exists m' d Z', swap_right E old new m = Ret m' d /\ WRep s c m' Z' /\
      lax_swap_right eR (map snd Z) old new (map snd Z') d.
  Proof.
    intros s c m Z old new H.
    destruct (swap_right_w E OK s c m Z old new H) as (m' & a & Z1 & b & Z2 & A & B & K).
    assert (A' : if eR new old then option_map snd a = None /\ Permutation (map snd Z) (map snd Z1)
                 else takes (@has_r L R eR new) (map snd Z) (option_map snd a) (map snd Z1)).
    { destruct (eR new old); [|apply takes_r; auto]. destruct A as [-> A]. split; auto.
      apply Permutation_map; auto. }
    destruct b as [z|]; destruct K as [K1 K2].
    - eexists m', _, _. split; [exact K1|]. split; [exact K2|].
      exists (option_map snd a), (map snd Z1), (Some (snd z)), (map snd Z2).
      split; [auto|]. split; [apply (takes_r old Z1 (Some z)); auto|]. cbn. auto.
    - eexists m', _, _. split; [exact K1|]. split; [exact K2|].
      exists (option_map snd a), (map snd Z1), None, (map snd Z2).
      split; [auto|]. split; [apply (takes_r old Z1 None); auto|]. cbn. auto.
  Qed.

  Lemma drain_filter_lax : forall {X} (f : X -> optional_pair L R -> X * verdict) x n leak s c m Z,
    WRep s c m Z -> lax_guard E m (DrainFilter X f x n leak) ->
    exists Z', lax_step eL eR (map snd Z) (DrainFilter X f x n leak) (map snd Z')
        (snd (step E m (DrainFilter X f x n leak))) /\
      WRep s c (fst (step E m (DrainFilter X f x n leak))) Z'.
  Proof.
    intros X f x n leak s c m Z H G. cbn [lax_guard] in G.
    assert (D := di_start E OK f s c m Z H G). assert (D0 := df_nexts_w E OK f n true s Z _ x D).
    cbn [step]. destruct (df_nexts E f n (drain_filter m, x)) as [[d1 x1] is|[d1 x1]].
    - destruct D0 as (T & Z1 & k & P1 & -> & LN & D1 & AC1 & FI1). destruct leak.
      + exists Z1. cbn [fst snd]. split; [|eapply di_end; eauto].
        exists (map snd T), []. cbn [app]. split; [rewrite <- map_app; apply Permutation_map; auto|].
        split. { rewrite app_nil_r. intros e He. apply in_map_iff in He as (z & <- & Hz). apply AC1; auto. }
        exists k. split; auto. split; auto. split; auto. split; [discriminate|].
        intros [K|K] _; [|discriminate]. intros e He. apply in_map_iff in He as (z & <- & Hz).
        apply (FI1 eq_refl K z Hz).
      + assert (D2 := df_drop_all E OK f true s Z1 d1 x1 D1).
        destruct (df_drop E f (d1, x1)) as [[d2 x2] []|[d2 x2]]; destruct D2 as (U & Z2 & P2 & D2 & AC2 & FI2);
          exists Z2; cbn [fst snd];
          (assert (PP : Permutation Z ((T ++ U) ++ Z2))
             by (rewrite <- app_assoc; etransitivity; [exact P1|]; apply Permutation_app_head; auto));
          (split; [|eapply di_end; [| |exact D2]; eauto]);
          exists (map snd T), (map snd U);
          (split; [rewrite app_assoc, <- !map_app; apply Permutation_map; auto|]);
          (split; [rewrite <- map_app; intros e He; apply in_map_iff in He as (z & <- & Hz);
                   apply in_app_iff in Hz as [Hz|Hz]; [apply AC1|apply AC2]; auto|]);
          exists k; (split; [auto|]); (split; [auto|]); (split; [discriminate|]); split; try discriminate; auto.
        intros _ _ e He. apply in_map_iff in He as (z & <- & Hz). apply (FI2 eq_refl z Hz).
    - destruct D0 as (T & Z1 & P1 & D1 & AC1 & PA).
      assert (D2 := df_drop_all E OK f false s Z1 d1 x1 D1).
      destruct (df_drop E f (d1, x1)) as [[d2 x2] []|[d2 x2]]; destruct D2 as (U & Z2 & P2 & D2 & AC2 & FI2);
        exists Z2; cbn [fst snd];
        (assert (PP : Permutation Z ((T ++ U) ++ Z2))
           by (rewrite <- app_assoc; etransitivity; [exact P1|]; apply Permutation_app_head; auto));
        (split; [|eapply di_end; [| |exact D2]; eauto]);
        exists (map snd T), (map snd U);
        (split; [rewrite app_assoc, <- !map_app; apply Permutation_map; auto|]);
        (split; [rewrite <- map_app; intros e He; apply in_map_iff in He as (z & <- & Hz);
                 apply in_app_iff in Hz as [Hz|Hz]; [apply AC1|apply AC2]; auto|exact PA]).
  Qed.

  Ltac fin H := cbn [via fst snd]; split; [|split; [exact H|lia]].
  Lemma step_lax : forall s c m Z o, WRep s c m Z -> c + ids o < two64 -> lax_guard E m o ->
    exists Z' c', lax_step eL eR (map snd Z) o (map snd Z') (snd (step E m o)) /\
      WRep s c' (fst (step E m o)) Z' /\ c' <= c + ids o.
  Proof.
    intros s c m Z o H B G.
    destruct o; try (cbn [lax_guard] in G); cbn [ids] in *; try cbn [step].
    - destruct (ins_spec E OK s c m Z l r H) as (m' & d & Z' & -> & H' & T); [lia|].
      exists Z', (c + 1). fin H'. exists d; auto.
    - destruct (ins_left_spec E OK s c m Z l H) as (m' & d & Z' & -> & H' & T); [lia|].
      exists Z', (c + 1). fin H'. exists d; auto.
    - destruct (ins_right_spec E OK s c m Z r H) as (m' & d & Z' & -> & H' & T); [lia|].
      exists Z', (c + 1). fin H'. exists d; auto.
    - destruct (pair_w E OK s c m Z l r H) as (m' & f & Q & Z' & v & EN & H' & -> & K).
      exists Z', c. fin H'. exists f, Q. split; auto.
      destruct f as [?|[] []|]; destruct K as [K ->]; auto.
    - destruct (pair_forced_w E OK s c m Z l r H) as (m' & c' & f & Q & Z' & v & EN & H' & C1 & C2 & -> & K); [lia|].
      exists Z', c'. fin H'. exists f, Q. split; auto. destruct f; destruct K as [K ->]; auto.
    - destruct (pair_forced_remove_w E OK s c m Z l r H) as (m' & c' & f & Q & Z' & v & EN & H' & C1 & C2 & -> & K); [lia|].
      exists Z', c'. fin H'. exists f, Q. split; auto. destruct f; destruct K as [K ->]; auto.
    - destruct (unpair_w E OK s c m Z l r H) as (m' & c' & f & Q & Z' & v & EN & H' & C1 & C2 & -> & K); [lia|auto|].
      exists Z', c'. fin H'. exists f, Q. split; auto. destruct f; destruct K as [K ->]; auto.
    - destruct (remove_w E OK s c m Z l r H) as (m' & f & Q & Z' & EN & H' & K).
      assert (K' : exists v, remove E l r m = Ret m' v /\ match f with
        | Same x => Permutation (map snd Z') Q /\ v = both_items x
        | _ => Permutation (map snd Z') (map snd Z) /\ v = None
        end) by (destruct f; destruct K; eauto).
      destruct K' as (v & -> & K'). exists Z', c. fin H'. exists f, Q. split; auto.
      destruct f; destruct K' as [K' ->]; auto.
    - destruct (remove_left_w E OK s c m Z l H) as (m' & o & Z' & -> & T & H').
      eexists _, c. fin H'. exists (option_map snd o), (map snd Z').
      split; [apply takes_l; auto|]. split; auto. rewrite map_app. apply Permutation_app_tail.
      destruct o as [z|]; cbn; auto. unfold rest_l. rewrite map_map. cbn. rewrite map_id. auto.
    - destruct (remove_right_w E OK s c m Z r H) as (m' & o & Z' & -> & T & H').
      eexists _, c. fin H'. exists (option_map snd o), (map snd Z').
      split; [apply takes_r; auto|]. split; auto. rewrite map_app. apply Permutation_app_tail.
      destruct o as [z|]; cbn; auto. unfold rest_r. rewrite map_map. cbn. rewrite map_id. auto.
    - destruct (remove_via_left_w E OK s c m Z l H) as (m' & o & Z' & -> & H' & T).
      exists Z', c. fin H'. exists (option_map snd o). split; auto. apply takes_l; auto.
    - destruct (remove_via_right_w E OK s c m Z r H) as (m' & o & Z' & -> & H' & T).
      exists Z', c. fin H'. exists (option_map snd o). split; auto. apply takes_r; auto.
    - destruct (swap_left_lax s c m Z old new H) as (m' & d & Z' & -> & H' & T).
      exists Z', c. fin H'. exists d; auto.
    - unfold swap_left_checked. mrun.
      destruct (are_paired_w E OK s c m Z old expected H) as (f & Q & EN & ->).
      destruct (is_same f) eqn:SF; cbn [negb].
      + destruct (swap_left_lax s c m Z old new H) as (m' & d & Z' & -> & H' & T).
        exists Z', c. fin H'. exists f, Q. split; auto. rewrite SF. exists d; auto.
      + exists Z, c. fin H. exists f, Q. split; auto. rewrite SF. auto.
    - unfold swap_left_or_insert. mrun. rewrite (w_hb _ _ _ _ _ H), get_as_mut.
      destruct (get_right_w E OK s c m Z old H) as (o & Z1 & T1 & IS & _).
      assert (IS' : is_some (option_map snd (t_get_mut E (left_set m) (hashL E s old) (equivalent_key eL old)))
                    = is_some o) by (rewrite <- IS; destruct (t_get_mut E (left_set m) _ _); auto).
      rewrite IS'. assert (PK := picks_l old Z o Z1 T1). destruct o as [z|]; cbn [is_some].
      + destruct (swap_left_lax s c m Z old new H) as (m' & d & Z' & -> & H' & T).
        exists Z', c. fin H'. exists (Some (snd z)). split; auto. exists d; auto.
      + destruct (ins_spec E OK s c m Z new to_insert H) as (m' & d & Z' & -> & H' & T); [lia|].
        exists Z', (c + 1). split; [|split; [destruct d as [[] []]; exact H'|lia]].
        exists None. split; auto. exists d. split; auto. destruct d as [[] []]; auto.
    - destruct (swap_right_lax s c m Z old new H) as (m' & d & Z' & -> & H' & T).
      exists Z', c. fin H'. exists d; auto.
    - unfold swap_right_checked. mrun.
      destruct (are_paired_w E OK s c m Z expected old H) as (f & Q & EN & ->).
      destruct (is_same f) eqn:SF; cbn [negb].
      + destruct (swap_right_lax s c m Z old new H) as (m' & d & Z' & -> & H' & T).
        exists Z', c. fin H'. exists f, Q. split; auto. rewrite SF. exists d; auto.
      + exists Z, c. fin H. exists f, Q. split; auto. rewrite SF. auto.
    - unfold swap_right_or_insert. mrun. rewrite (w_hb _ _ _ _ _ H), get_as_mut.
      destruct (get_left_w E OK s c m Z old H) as (o & Z1 & T1 & IS & _).
      assert (IS' : is_some (option_map snd (t_get_mut E (right_set m) (hashR E s old) (equivalent_key eR old)))
                    = is_some o) by (rewrite <- IS; destruct (t_get_mut E (right_set m) _ _); auto).
      rewrite IS'. assert (PK := picks_r old Z o Z1 T1). destruct o as [z|]; cbn [is_some].
      + destruct (swap_right_lax s c m Z old new H) as (m' & d & Z' & -> & H' & T).
        exists Z', c. fin H'. exists (Some (snd z)). split; auto. exists d; auto.
      + destruct (ins_spec E OK s c m Z to_insert new H) as (m' & d & Z' & -> & H' & T); [lia|].
        exists Z', (c + 1). split; [|split; [destruct d as [[] []]; exact H'|lia]].
        exists None. split; auto. exists d. split; auto. destruct d as [[] []]; auto.
    - destruct (are_paired_w E OK s c m Z l r H) as (f & Q & EN & EQ). rewrite EQ.
      exists Z, c. fin H. split; eauto.
    - destruct (is_left_paired_w E OK s c m Z l H) as (o & Z' & T & EQ & _). rewrite EQ.
      exists Z, c. fin H. split; auto. exists (option_map snd o).
      split; [eapply picks_l; eauto|destruct o; auto].
    - destruct (is_right_paired_w E OK s c m Z r H) as (o & Z' & T & EQ & _). rewrite EQ.
      exists Z, c. fin H. split; auto. exists (option_map snd o).
      split; [eapply picks_r; eauto|destruct o; auto].
    - destruct (is_left_paired_w E OK s c m Z l H) as (o & Z' & T & _ & EQ). rewrite EQ.
      exists Z, c. fin H. split; auto. exists (option_map snd o).
      split; [eapply picks_l; eauto|destruct o; auto].
    - destruct (is_right_paired_w E OK s c m Z r H) as (o & Z' & T & _ & EQ). rewrite EQ.
      exists Z, c. fin H. split; auto. exists (option_map snd o).
      split; [eapply picks_r; eauto|destruct o; auto].
    - destruct (get_left_w E OK s c m Z r H) as (o & Z' & T & _ & EQ & _). rewrite EQ.
      exists Z, c. fin H. split; auto. exists (option_map snd o). split; [eapply picks_r; eauto|auto].
    - destruct (get_right_w E OK s c m Z l H) as (o & Z' & T & _ & EQ & _). rewrite EQ.
      exists Z, c. fin H. split; auto. exists (option_map snd o). split; [eapply picks_l; eauto|auto].
    - exists Z, c. fin H. exists (map snd Z). split; auto. split; auto. rewrite (len_left_w E s c m Z H); auto.
    - exists Z, c. fin H. exists (map snd Z). split; auto. split; auto. rewrite (len_right_w E s c m Z H); auto.
    - exists Z, c. fin H. exists (map snd Z). split; auto. split; auto. rewrite (is_empty_w E s c m Z H); auto.
    - destruct (iter_all_w E OK s c m Z H) as (Q & es & -> & PQ & F & _). exists Z, c. cbn [seen]. fin H.
      split; auto. exists Q, es; auto.
    - destruct (paired_all_w E OK s c m Z H) as (Q & -> & PQ & _). exists Z, c. cbn [seen]. fin H.
      exists (map snd Z). split; auto. split; auto. exists Q; auto.
    - destruct (unpaired_all_w E s c m Z H) as (Q & -> & PQ & _). exists Z, c. cbn [seen]. fin H.
      exists (map snd Z). split; auto. split; auto. exists Q; auto.
    - destruct (iter_left_w E s c m Z H) as (Q & -> & PQ). exists Z, c. cbn [seen]. fin H.
      exists (map snd Z). split; auto. split; auto. exists Q; auto.
    - destruct (iter_right_w E s c m Z H) as (Q & -> & PQ). exists Z, c. cbn [seen]. fin H.
      exists (map snd Z). split; auto. split; auto. exists Q; auto.
    - rewrite extend_pairs_as.
      destruct (extend_w E OK (map (fun p => SomeBoth (fst p) (snd p)) xs) s c m Z H)
        as (m' & c' & Z' & -> & C1 & C2 & H' & X); rewrite ?map_length in *; [lia|].
      exists Z', c'. fin H'. split; auto.
    - destruct (extend_w E OK xs s c m Z H) as (m' & c' & Z' & -> & C1 & C2 & H' & X); [lia|].
      exists Z', c'. fin H'. split; auto.
    - destruct (retain_w E OK f x s c m Z H) as (m' & Z' & w & -> & H' & K). exists Z', c. fin H'. exact K.
    - destruct (retain_paired_w E OK f x s c m Z H G) as (m' & Z' & w & -> & H' & K). exists Z', c. fin H'. exact K.
    - destruct (retain_unpaired_w E OK f x s c m Z H G) as (m' & Z' & w & -> & H' & K). exists Z', c. fin H'. exact K.
    - destruct (drain_w E OK s c m Z n H) as (Q & w & d & d' & PQ & IW & LW & -> & -> & H').
      exists [], c. fin H'. exists []. split; auto. split; auto. exists Q, w. auto.
    - destruct (drain_filter_lax f x n leak s c m Z H G) as (Z' & K & H'). exists Z', c.
      split; [exact K|]. split; [exact H'|lia].
    - destruct (clear_w E s c m Z H) as (m' & -> & H'). exists [], c. fin H'. exists []. split; auto. cbn. auto.
    - exists Z, c. unfold clone. destruct m. fin H. exists (map snd Z). cbn. auto.
    - unfold shrink_to_left. match goal with |- context [resize_left E ?n] =>
        destruct (resize_left_w E OK s c m Z n H) as (m' & EQ & H') end.
      exists Z, c. rewrite EQ. fin H'. exists (map snd Z). cbn. auto.
    - unfold shrink_to_right. match goal with |- context [resize_right E ?n] =>
        destruct (resize_right_w E OK s c m Z n H) as (m' & EQ & H') end.
      exists Z, c. rewrite EQ. fin H'. exists (map snd Z). cbn. auto.
    - destruct (shrink_to_fit_w E OK s c m Z H) as (m' & EQ & H').
      exists Z, c. rewrite EQ. fin H'. exists (map snd Z). cbn. auto.
    - unfold reserve_left. match goal with |- context [resize_left E ?n] =>
        destruct (resize_left_w E OK s c m Z n H) as (m' & EQ & H') end.
      exists Z, c. rewrite EQ. fin H'. exists (map snd Z). cbn. auto.
    - unfold reserve_right. match goal with |- context [resize_right E ?n] =>
        destruct (resize_right_w E OK s c m Z n H) as (m' & EQ & H') end.
      exists Z, c. rewrite EQ. fin H'. exists (map snd Z). cbn. auto.
    - destruct (try_reserve_left_w E OK s c m Z n H) as (m' & b & -> & H').
      exists Z, c. fin H'. exists (map snd Z). cbn. eauto.
    - destruct (try_reserve_right_w E OK s c m Z n H) as (m' & b & -> & H').
      exists Z, c. fin H'. exists (map snd Z). cbn. eauto.
  Qed.
End Step.

(* every call of a history has a hash-respecting Eq, and they agree on the hashes *)
Definition odd_calls {L R S} (hL : S -> L -> N) (hR : S -> R -> N) (cs : list (env L R S * op L R)) : Prop :=
  Forall (fun c => lax (fst c) /\ hashL (fst c) = hL /\ hashR (fst c) = hR) cs.

Lemma wrep_env : forall {L R S} (E E' : env L R S) s c m Z,
  hashL E = hashL E' -> hashR E = hashR E' -> WRep E s c m Z -> WRep E' s c m Z.
Proof.
  intros L R S E E' s c m Z HL HR H. destruct H. constructor; auto.
  - unfold slotL in *. rewrite <- HL, <- HR. auto.
  - unfold slotR in *. rewrite <- HL, <- HR. auto.
Qed.

Lemma run_lax : forall {L R S} hL hR (cs : list (env L R S * op L R)) (E : env L R S) s c m Z,
  odd_calls hL hR cs -> lax_guarded m cs -> hashL E = hL -> hashR E = hR ->
  WRep E s c m Z -> c + budget (map snd cs) < two64 ->
  exists Z' c', lax_run (map snd Z) cs (map snd Z') (snd (run_with m cs)) /\
    WRep E s c' (fst (run_with m cs)) Z' /\ c' <= c + budget (map snd cs).
Proof.
  intros L R S hL hR. induction cs as [|[E1 o] cs IH]; intros E s c m Z HC G HL HR H B.
  - exists Z, c. split; [constructor|]. split; [auto|simpl; lia].
  - inversion HC as [|? ? (OK & HL1 & HR1) HC']; subst. cbn [fst] in *. cbn [map snd budget] in B.
    destruct G as [G1 G2].
    destruct (step_lax E1 OK s c m Z o) as (Z1 & c1 & S1 & H1 & C1); [|lia|auto|].
    { eapply wrep_env; [| |exact H]; congruence. }
    cbn [run_with]. destruct (step E1 m o) as [m1 w]. cbn [fst snd] in *.
    destruct (IH E s c1 m1 Z1) as (Z2 & c2 & S2 & H2 & C2); auto.
    { eapply wrep_env; [| |exact H1]; congruence. } { lia. }
    destruct (run_with m1 cs) as [m2 ws]. cbn [fst snd] in *.
    exists Z2, c2. split; [econstructor; eauto|]. split; [auto|]. cbn [map snd budget]. lia.
Qed.
Lemma wrep_new : forall {L R S} (E : env L R S) s ll lr, WRep E s 0 (with_hasher s ll lr) [].
Proof. intros. constructor; simpl; auto; [constructor|intros ? []]. Qed.

(* ---- C130: the entries survive any Eq ---- *)
(* E: the Eq in force when the map is looked at *)
Theorem C130_entries_survive_any_eq : forall {L R S} hL hR (cs : list (env L R S * op L R)) (E : env L R S) s ll lr,
  odd_calls hL hR ((E, IterPairedAll) :: cs) -> lax_guarded (with_hasher s ll lr) cs ->
  budget (map snd cs) < two64 ->
  let m := fst (run_with (with_hasher s ll lr) cs) in
  exists P, lax_run [] cs P (snd (run_with (with_hasher s ll lr) cs)) /\ ~ In Neither P /\
    len_left m = length (lefts P) /\ len_right m = length (rights P) /\
    (exists ls, collect single_next (single_len (iter_left m)) (iter_left m) = Done ls /\
       Permutation ls (lefts P)) /\
    (exists rs, collect single_next (single_len (iter_right m)) (iter_right m) = Done rs /\
       Permutation rs (rights P)) /\
    (exists ps, paired_rest E m (iter_paired m) = Done ps /\ Permutation ps (s_pairs P)) /\
    (exists es, unpaired_rest (iter_unpaired m) = Done es /\ Permutation es (s_unpaired P)).
Proof.
  intros L R S hL hR cs E s ll lr HC G B m.
  destruct (Forall_inv HC) as (OK & HL & HR). cbn [fst] in *. apply Forall_inv_tail in HC.
  destruct (run_lax hL hR cs E s 0 _ [] HC G HL HR (wrep_new E s ll lr)) as (Z & c & W & H & _); [lia|].
  fold m in H. exists (map snd Z). split; [exact W|]. split; [apply (w_nn _ _ _ _ _ H)|].
  split; [eapply len_left_w; eauto|]. split; [eapply len_right_w; eauto|].
  destruct (iter_left_w E s c m Z H) as (ls & E1 & P1).
  destruct (iter_right_w E s c m Z H) as (rs & E2 & P2).
  destruct (paired_all_w E OK s c m Z H) as (ps & E3 & P3 & _).
  destruct (unpaired_all_w E s c m Z H) as (es & E4 & P4 & _). eauto 12.
Qed.

(* the calls that may panic at all *)
Definition touchy {L R} (o : op L R) : bool :=
  match o with
  | Retain _ _ _ | RetainPaired _ _ _ | RetainUnpaired _ _ _ | DrainFilter _ _ _ _ _
  | SwapLeftOrInsert _ _ _ | SwapRightOrInsert _ _ _ => true
  | _ => false
  end.
Lemma lax_no_panic : forall {L R} (eL : L -> L -> bool) (eR : R -> R -> bool) P o P' w,
  lax_step eL eR P o P' w -> touchy o = false -> w <> OPanic.
Proof.
  intros L R eL eR P o P' w H T. destruct o; try discriminate T; cbn in H;
    repeat match goal with
           | K : exists _, _ |- _ => destruct K
           | K : _ /\ _ |- _ => destruct K
           | f : found _ |- _ => destruct f
           | K : context [match ?x with _ => _ end] |- _ => destruct x
           end; subst; discriminate.
Qed.
Theorem C130_no_panic : forall {L R S} hL hR (cs : list (env L R S * op L R)) s ll lr,
  odd_calls hL hR cs -> lax_guarded (with_hasher s ll lr) cs -> budget (map snd cs) < two64 ->
  Forall2 (fun c w => touchy (snd c) = false -> w <> OPanic) cs
    (snd (run_with (with_hasher s ll lr) cs)).
Proof.
  intros L R S hL hR cs s ll lr HC G B. destruct cs as [|[E o] cs]; [constructor|].
  destruct (Forall_inv HC) as (OK & HL & HR). cbn [fst] in *.
  destruct (run_lax hL hR _ E s 0 _ [] HC G HL HR (wrep_new E s ll lr)) as (Z & c & H & _); [lia|].
  revert H. generalize (snd (run_with (with_hasher s ll lr) ((E, o) :: cs))) (map snd (@nil (N * optional_pair L R))).
  generalize ((E, o) :: cs) (map snd Z). clear. intros cs P2 ws P0 H.
  induction H; constructor; auto. cbn [snd]. eapply lax_no_panic; eauto.
Qed.

(* ---- C131: iter, retain_paired, retain_unpaired ---- *)
(* every stored left (right) item equals itself and no other stored left (right) item *)
Definition apart_l {L R} (eL : L -> L -> bool) (P : list (optional_pair L R)) : Prop :=
  forall z z' a a', In z P -> In z' P -> op_get_left z = Some a -> op_get_left z' = Some a' ->
    (eL a a' = true <-> z = z').
Definition apart_r {L R} (eR : R -> R -> bool) (P : list (optional_pair L R)) : Prop :=
  forall z z' a a', In z P -> In z' P -> op_get_right z = Some a -> op_get_right z' = Some a' ->
    (eR a a' = true <-> z = z').

Lemma picks_apart : forall {L R} (eL : L -> L -> bool) (P : list (optional_pair L R)) z l o,
  apart_l eL P -> In z P -> op_get_left z = Some l -> picks (has_l eL l) P o -> o = Some z.
Proof.
  intros L R eL P z l o TA I Hl (P1 & T). assert (SZ := proj2 (TA z z l l I I Hl Hl) eq_refl).
  destruct o as [y|].
  - destruct T as [T2 T1]. unfold has_l in T2. destruct (op_get_left y) as [a|] eqn:Ha; [|discriminate].
    assert (Iy : In y P) by (eapply Permutation_in; [symmetry; exact T1|left; auto]).
    rewrite (proj1 (TA z y l a I Iy Hl Ha) T2). auto.
  - destruct T as [T1 T2]. specialize (T1 z I). unfold has_l in T1. rewrite Hl in T1. congruence.
Qed.
Lemma picks_apart_r : forall {L R} (eR : R -> R -> bool) (P : list (optional_pair L R)) z r o,
  apart_r eR P -> In z P -> op_get_right z = Some r -> picks (has_r eR r) P o -> o = Some z.
Proof.
  intros L R eR P z r o TA I Hl (P1 & T). assert (SZ := proj2 (TA z z r r I I Hl Hl) eq_refl).
  destruct o as [y|].
  - destruct T as [T2 T1]. unfold has_r in T2. destruct (op_get_right y) as [a|] eqn:Ha; [|discriminate].
    assert (Iy : In y P) by (eapply Permutation_in; [symmetry; exact T1|left; auto]).
    rewrite (proj1 (TA z y r a I Iy Hl Ha) T2). auto.
  - destruct T as [T1 T2]. specialize (T1 z I). unfold has_r in T1. rewrite Hl in T1. congruence.
Qed.
Lemma shown_apart : forall {L R} (eL : L -> L -> bool) (P Q es : list (optional_pair L R)),
  apart_l eL P -> incl Q P -> Forall2 (shown_as eL P) Q es -> es = Q.
Proof.
  intros L R eL P Q es TA I F. induction F as [|z e Q es (l & o & Hl & PK & ->) F IH]; auto.
  assert (Iz : In z P) by (apply I; left; auto).
  rewrite (picks_apart eL P z l o TA Iz Hl PK). f_equal.
  - destruct z; simpl in *; congruence.
  - apply IH. intros x Hx; apply I; right; auto.
Qed.

Lemma in_pairs : forall {L R} (P : list (optional_pair L R)) a b, In (a, b) (s_pairs P) -> In (SomeBoth a b) P.
Proof.
  intros L R P a b H. apply in_flat_map in H as (e & He & X). destruct e; simpl in X; try easy.
  destruct X as [X|[]]. congruence.
Qed.
Lemma in_unpaired : forall {L R} (P : list (optional_pair L R)) e, In e (s_unpaired P) ->
  In e P /\ is_both e = false.
Proof. intros L R P e H. apply filter_In in H as [A B]. split; auto. destruct e; auto. Qed.

(* What iter() shows for any Eq.  If the left items can be told apart it shows exactly the
   entries with a left item, and retain_paired meets its precondition; if the right items can
   be told apart too, so does retain_unpaired. *)
Theorem C131_iter_and_retain_any_eq_partial :
  forall {L R S} hL hR (cs : list (env L R S * op L R)) (E : env L R S) s ll lr,
  odd_calls hL hR ((E, IterAll) :: cs) -> lax_guarded (with_hasher s ll lr) cs ->
  budget (map snd cs) < two64 ->
  let m := fst (run_with (with_hasher s ll lr) cs) in
  exists P es, lax_run [] cs P (snd (run_with (with_hasher s ll lr) cs)) /\
    iter_all E m = Done es /\
    (exists Q, Permutation Q (filter has_left_item P) /\ Forall2 (shown_as (eqL E) P) Q es) /\
    (apart_l (eqL E) P ->
       Permutation es (filter has_left_item P) /\
       (forall X f x, lax_guard E m (RetainPaired X f x)) /\
       (apart_r (eqR E) P -> forall X f x, lax_guard E m (RetainUnpaired X f x))).
Proof.
  intros L R S hL hR cs E s ll lr HC G B m.
  destruct (Forall_inv HC) as (OK & HL & HR). cbn [fst] in *. apply Forall_inv_tail in HC.
  destruct (run_lax hL hR cs E s 0 _ [] HC G HL HR (wrep_new E s ll lr)) as (Z & c & W & H & _); [lia|].
  fold m in H. destruct (iter_all_w E OK s c m Z H) as (Q & es & E1 & PQ & F & _).
  exists (map snd Z), es. split; [exact W|]. split; [auto|]. split; [eauto|]. intros TA. split; [|split].
  - assert (es = Q); [|subst; auto]. eapply shown_apart; eauto. intros x Hx.
    apply (Permutation_in _ PQ) in Hx. apply filter_In in Hx. tauto.
  - intros X f x ps l r E3 I C. destruct (paired_all_w E OK s c m Z H) as (ps' & E3' & P3 & _).
    rewrite E3' in E3. injection E3 as ->. apply (Permutation_in _ P3), in_pairs in I.
    destruct (get_right_w E OK s c m Z l H) as (o & Z1 & T1 & _ & EQ & _). rewrite EQ.
    apply picks_l in T1. rewrite (picks_apart (eqL E) (map snd Z) (SomeBoth l r) l _ TA I eq_refl T1). auto.
  - intros TR X f x es' E4. destruct (unpaired_all_w E s c m Z H) as (es2 & E4' & P4 & _).
    rewrite E4' in E4. injection E4 as ->. split.
    + intros l I. apply (Permutation_in _ P4), in_unpaired in I as [I _].
      destruct (is_left_paired_w E OK s c m Z l H) as (o & Z1 & T1 & EQ & _). rewrite EQ.
      apply picks_l in T1. assert (K := picks_apart (eqL E) (map snd Z) (SomeLeft l) l _ TA I eq_refl T1).
      destruct o as [z|]; auto. cbn in K. injection K as ->. auto.
    + intros r I. apply (Permutation_in _ P4), in_unpaired in I as [I _].
      destruct (is_right_paired_w E OK s c m Z r H) as (o & Z1 & T1 & EQ & _). rewrite EQ.
      apply picks_r in T1. assert (K := picks_apart_r (eqR E) (map snd Z) (SomeRight r) r _ TR I eq_refl T1).
      destruct o as [z|]; auto. cbn in K. injection K as ->. auto.
Qed.

(* ---- cases ---- *)
Notation odd_env := CycleMapLaxProps.odd_env.
Notation nan_eq := CycleMapLaxProps.nan_eq.
Notation le_eq := CycleMapLaxProps.le_eq.
Definition say {A} (b : A -> bool) : unit -> A -> unit * verdict := fun _ a => (tt, Some (b a)).

(* NaNs on the left, then calls under another Eq *)
Definition odd_history : list (env N N N * op N N) :=
  let e1 := odd_env nan_eq lo_wild in let e2 := odd_env le_eq lo_h7 in
  [(e1, Insert 0 10); (e1, InsertLeft 0); (e1, Insert 3 21); (e1, RemoveViaLeft 0);
   (e2, InsertRight 23); (e2, SwapRight 10 0); (e2, Pair 0 22); (e2, PairForced 1 23); (e1, Unpair 3 23);
   (e1, RetainPaired unit (say (fun p => fst p =? 5)) tt);
   (e2, RetainUnpaired unit (say (fun e => match e with SomeRight _ => true | _ => false end)) tt);
   (e2, DrainFilter unit (say (fun e => match e with SomeBoth _ _ => true | _ => false end)) tt 2 false);
   (e1, IterUnpairedAll)].
Lemma odd_history_calls : odd_calls (fun s a => s + a mod 2) (fun s a => s + a mod 2) odd_history.
Proof.
  repeat (apply Forall_cons; [split; [apply CycleMapLaxProps.odd_env_lax;
    auto using CycleMapLaxProps.nan_eq_mod, CycleMapLaxProps.le_eq_mod, lo_wild_ok, lo_h7_ok|auto]|]).
  apply Forall_nil.
Qed.
Lemma odd_history_guarded : lax_guarded (with_hasher 7 0 0) odd_history.
Proof.
  unfold odd_history. cbn [lax_guarded lax_guard]. repeat split.
  - (* retain_paired *)
    intros ps l r A I C. vm_compute in A. injection A as <-.
    destruct I as [X|[]]; injection X as <- <-; vm_compute in C; discriminate.
  - (* retain_unpaired *)
    vm_compute in H. injection H as <-. intros l I.
    repeat (destruct I as [I|I]; [injection I as <- || discriminate; vm_compute; auto|]). destruct I.
  - vm_compute in H. injection H as <-. intros r I.
    repeat (destruct I as [I|I]; [injection I as <- || discriminate; vm_compute; auto|]). destruct I.
  - (* drain_filter *)
    intros ps y l r _ _. discriminate.
Qed.
Example C130_case :
  odd_calls (fun s a => s + a mod 2) (fun s a => s + a mod 2)
    ((odd_env nan_eq lo_wild, IterPairedAll) :: odd_history) /\
  lax_guarded (with_hasher 7 0 0) odd_history /\ budget (map snd odd_history) < two64 /\
  snd (run_with (with_hasher 7 0 0) odd_history) =
    [OIns (Neither, Neither); OEntry Neither; OIns (Neither, Neither); OEntry Neither;
     OEntry Neither; OSwapR (SomeLeft 10); OBool false; OEntry (SomeRight 21); OBool true;
     OUnit; OUnit; OItems [Some (SomeBoth 0 0); None] false;
     OEntries [SomeLeft 0; SomeLeft 3; SomeRight 21]].
Proof.
  split; [|split; [exact odd_history_guarded|vm_compute; auto]].
  apply Forall_cons; [|exact odd_history_calls].
  split; [apply CycleMapLaxProps.nan_lax|auto].
Qed.
(* some contents whose left and right items can be told apart by an Eq that is no equivalence *)
Example C131_case : let P := [SomeBoth 4 21; SomeLeft 3; SomeRight 8] in
  apart_l (fun a b => (a =? b) || (b =? 0)) P /\ apart_r (fun a b => (a =? b) || (b =? 0)) P /\
  ~ apart_l le_eq [SomeBoth 4 21; SomeLeft 2].
Proof.
  cbn zeta. split; [|split].
  - intros z z' a a' H H' A A'. simpl in H, H'.
    destruct H as [<-|[<-|[<-|[]]]]; destruct H' as [<-|[<-|[<-|[]]]]; simpl in A, A';
      try discriminate; injection A as <-; injection A' as <-; simpl; split; auto; discriminate.
  - intros z z' a a' H H' A A'. simpl in H, H'.
    destruct H as [<-|[<-|[<-|[]]]]; destruct H' as [<-|[<-|[<-|[]]]]; simpl in A, A';
      try discriminate; injection A as <-; injection A' as <-; simpl; split; auto; discriminate.
  - intros K. assert (X : SomeLeft 2 = SomeBoth 4 21); [|discriminate].
    apply (K (SomeLeft 2) (SomeBoth 4 21) 2 4); simpl; auto.
Qed.

(* With an Eq that is not symmetric: iter() shows a pair that nobody made.  retain_paired,
   told to drop (0,10), keeps it and drops the right item 21 of the other pair; the left item 4
   stays behind, not unpaired, and iter_paired() panics.  retain_unpaired, told to drop the
   unpaired left item 0, keeps it and drops the left item of the pair (4,21); removing 21
   then panics. *)
Theorem C131_iter_and_retain_any_eq_refuted : exists E : env N N N, lax E /\
  let run ops := run E (with_hasher 0 0 0) ops in
  snd (run [Insert 0 11; Insert 4 21; IterAll])
    = [OIns (Neither, Neither); OIns (Neither, Neither); OEntries [SomeBoth 0 21; SomeBoth 4 21]] /\
  snd (run [Insert 0 10; Insert 4 21; RetainPaired unit (say (fun p => fst p =? 0)) tt;
            IterLeftAll; IterRightAll; IterPairedAll; IterUnpairedAll])
    = [OIns (Neither, Neither); OIns (Neither, Neither); OUnit;
       OLs [0; 4]; ORs [10]; OPanic; OEntries []] /\
  snd (run [InsertLeft 0; Insert 4 21;
            RetainUnpaired unit (say (fun e => match e with SomeLeft 0 => true | _ => false end)) tt;
            IterLeftAll; IterRightAll; IterPairedAll; IterUnpairedAll; RemoveViaRight 21])
    = [OEntry Neither; OIns (Neither, Neither); OUnit;
       OLs [0]; ORs [21]; OPairs []; OEntries [SomeLeft 0]; OPanic].
Proof.
  exists (odd_env le_eq lo_wild). split; [apply CycleMapLaxProps.le_lax|]. vm_compute. repeat split.
Qed.

Print Assumptions C130_entries_survive_any_eq.
Print Assumptions C130_no_panic.
Print Assumptions C131_iter_and_retain_any_eq_partial.
Print Assumptions C131_iter_and_retain_any_eq_refuted.
