(* PartialCycleMap: what size_hint() says at every position of every iterator (property C43). *)
From Coq Require Import List NArith Lia Bool Permutation PeanoNat.
From Verif Require Import Hints Closures Prelude RawTable Optionals PartialCycleMap ListFacts TableFacts
  PartialSpec PartialHistory IterFacts PartialProofs PartialProofs2 PartialProofs3 PartialProofs4
  PartialProofs5 PartialProofs6 PartialProofs7 PartialProofs8 PartialHistoryProofs Concrete
  PartialProps PartialProps2 PartialProps3.
Import ListNotations.
Open Scope nat_scope.

Definition paired_slot {T} (x : N * mapping_pair T) : bool :=
  match phash (snd x) with Some _ => true | None => false end.
Definition lone_slot {T} (x : N * mapping_pair T) : bool := negb (paired_slot x).

Section Hints.
  Context {L R S : Type}.
  Variable E : env L R S.
  Hypothesis OK : lawful E.
  Notation entry := (optional_pair L R).
  Notation no_left := (fun e : entry => negb (has_left_item e)).
  Notation lone := (fun e : entry => negb (is_both e)).
  Lemma paired_next_behind : forall m it o it', paired_next E m it = Done (o, it') -> it' = behind paired_slot 1 it.
  Proof.
    intros m it. induction it as [|[h l] it IH]; intros o it' H; cbn [paired_next behind] in *; [congruence|].
    assert (X : paired_slot (h, l) = match phash l with Some _ => true | None => false end) by reflexivity.
    rewrite X. destruct (phash l).
    - destruct (get_via_hashes_and_id _ _ _ _ _); [|discriminate]. inversion H; subst. destruct it'; auto.
    - eapply IH; eauto.
  Qed.
  Lemma unpaired_next_behind : forall it o it', @unpaired_next L R it = Done (o, it') -> fst it' = behind lone_slot 1 (fst it).
  Proof.
    intros [it rt] o it' H. unfold unpaired_next in H. cbn [fst snd] in *. revert o it' H.
    induction it as [|[h l] it IH]; intros o it' H; cbn [unpaired_next_l behind] in *.
    - destruct (unpaired_next_r rt). inversion H; auto.
    - assert (X : lone_slot (h, l) = match phash l with Some _ => false | None => true end)
        by (unfold lone_slot, paired_slot; cbn [snd]; destruct (phash l); auto).
      rewrite X. destruct (phash l).
      + eapply IH; eauto.
      + inversion H; subst. cbn [fst]. destruct it; auto.
  Qed.
  Lemma paired_nexts_behind : forall m n it o it', nexts (paired_next E m) n it = Done (o, it') -> it' = behind paired_slot n it.
  Proof.
    intros m. induction n as [|n IH]; intros it o it' H; cbn [nexts] in H; [inversion H; rewrite behind_0; auto|].
    destruct (paired_next E m it) as [[a i]|] eqn:X; [|discriminate]. apply paired_next_behind in X.
    destruct (nexts _ n i) as [[b j]|] eqn:Y; [|discriminate]. apply IH in Y. inversion H; subst.
    symmetry. apply behind_S.
  Qed.
  Lemma unpaired_nexts_behind : forall n it o it', nexts (@unpaired_next L R) n it = Done (o, it') ->
    fst it' = behind lone_slot n (fst it).
  Proof.
    induction n as [|n IH]; intros it o it' H; cbn [nexts] in H; [inversion H; rewrite behind_0; auto|].
    destruct (unpaired_next it) as [[a i]|] eqn:X; [|discriminate]. apply unpaired_next_behind in X.
    destruct (nexts _ n i) as [[b j]|] eqn:Y; [|discriminate]. apply IH in Y. inversion H; subst.
    rewrite Y, X. symmetry. apply behind_S.
  Qed.
  (* the left table and the entries with a left item, in its order *)
  Lemma behind_slots : forall s (p : N * mapping_pair L -> bool) (q : entry -> bool),
    (forall z a, op_get_left (snd z) = Some a ->
       p (hashL E s a, MP a (option_map (hashR E s) (op_get_right (snd z))) (fst z)) = q (snd z)) ->
    forall (Y : list (N * entry)) n,
    length (behind p n (flat_map (slotL E s) Y)) = length (behind q n (filter has_left_item (map snd Y))).
  Proof.
    intros s p q H. induction Y as [|z Y IH]; intros n; cbn [flat_map map filter]; [rewrite !behind_nil; auto|].
    unfold has_left_item at 1. destruct (op_get_left (snd z)) as [a|] eqn:Ha.
    - rewrite (slotL_some E s z a Ha). cbn [app]. destruct n as [|n].
      + specialize (IH O). cbn [behind length] in *. destruct (flat_map _ _), (filter _ _); cbn [behind length] in *; lia.
      + cbn [behind]. rewrite (H z a Ha). apply IH.
    - rewrite (slotL_none E s z Ha). apply IH.
  Qed.

  Lemma drain_nexts_left : forall n d d' o, drain_nexts E n d = Ret d' o ->
    length (di_left d') = length (di_left d) - n.
  Proof.
    induction n as [|n IH]; intros d d' o H; cbn [drain_nexts] in H; [inversion H; lia|].
    assert (ST : forall a d2, drain_next E d = Ret d2 a -> length (di_left d2) = length (di_left d) - 1).
    { intros a d2 G. unfold drain_next in G. destruct (di_left d) as [|[h lp] rest].
      - destruct (slots (di_right d)) as [|[h rp] t]; inversion G; auto.
      - destruct (phash lp) as [h'|].
        + destruct (t_remove_entry _ _ _ _) as [[rp t]|]; inversion G; subst; simpl; lia.
        + inversion G; subst; simpl; lia. }
    destruct (drain_next E d) as [d2 a|d2]; [|discriminate].
    destruct (drain_nexts E n d2) as [d3 o3|d3] eqn:F; [|discriminate].
    inversion H; subst. apply IH in F. rewrite F, (ST _ _ eq_refl). lia.
  Qed.

  (* ---- C43 (false in general, see the C43_*_refuted) ----
     O: the entries with a left item in the order of iter().  iter and drain count these, and so
     miss the unpaired right item that drain may yield last.  iter_paired counts also the unpaired
     ones among them, iter_unpaired also the paired ones, and none of the right items. *)
  Theorem C43_exact_partial : forall room m, reachable E room m ->
    exists P O, contents E m P /\ iter_all E m = Done O /\ Permutation O (filter has_left_item P) /\
    forall n,
      (exists it, nexts (iter_next E m) n (iter m) = Done (firstn n (map Some O) ++ repeat None (n - length O), it) /\
         iter_size_hint it = exactly (length O - n)) /\
      (exists out it rest, nexts (paired_next E m) n (iter_paired m) = Done (out, it) /\
         paired_rest E m it = Done rest /\ length rest = length (filter is_both P) - n /\
         paired_size_hint it = exactly (length (behind is_both n O))) /\
      (exists out it rest, nexts unpaired_next n (iter_unpaired m) = Done (out, it) /\
         unpaired_rest it = Done rest /\ length rest = length (filter lone P) - n /\
         unpaired_size_hint it = exactly (length (behind lone n O))) /\
      (exists w d, incl w (filter no_left P) /\ length w = Nat.min 1 (length (filter no_left P)) /\
         drain_nexts E n (drain m) = Ret d (firstn n (map Some (O ++ w)) ++ repeat None (n - length (O ++ w))) /\
         drain_size_hint d = exactly (length O - n)).
  Proof.
    intros room m HR. assert (H := HR). apply (reachable_view E OK) in H as (s & c & P & V & H & B).
    assert (HH := H). destruct H as (Z & H & PZ).
    destruct (rep_order_l E _ _ _ _ H) as (Y & PY & SL).
    set (O := filter has_left_item (map snd Y)).
    assert (VI0 : view_iter E s Z (iter m) O).
    { exists Y. split; [|split; auto]. intros y Hy. eapply Permutation_in; [symmetry; eauto|auto]. }
    assert (LV : forall it l, view_iter E s Z it l -> length it = length l).
    { intros it l (W & _ & -> & ->). rewrite filter_left_length, (lefts_length E s). auto. }
    assert (IA : iter_all E m = Done O).
    { unfold iter_all. eapply collect_as; [apply (iter_steps E OK s c m Z H)|exact VI0|]. rewrite (LV _ _ VI0). auto. }
    assert (PO : Permutation O (filter has_left_item P)).
    { subst O P. apply filter_perm, Permutation_map. symmetry. auto. }
    exists P, O. do 3 (split; [assumption|]). intros n.
    destruct (C38_iterators E OK room m HR) as (Q & UL & UR & ls & rs & V' & _ & _ & IP & IU & _).
    assert (EP : P = map (fun p => SomeBoth (fst p) (snd p)) Q ++ map SomeLeft UL ++ map SomeRight UR).
    { destruct V as (a & b & X1 & X2 & ->), V' as (a' & b' & X3 & X4 & ->). congruence. }
    assert (G : forall T (g : T -> entry) (p : entry -> bool) k l, (forall x, p (g x) = k) ->
              length (filter p (map g l)) = if k then length l else 0).
    { clear. intros T g p k l H. induction l as [|x l IH]; cbn [map filter length]; [destruct k; auto|].
      rewrite H. destruct k; cbn [length]; lia. }
    assert (F1 : length (filter is_both P) = length Q).
    { rewrite EP, !filter_app, !app_length, (G _ _ is_both true), !(G _ _ is_both false) by reflexivity. lia. }
    assert (F2 : length (filter lone P) = length (map SomeLeft UL ++ map (@SomeRight L R) UR)).
    { rewrite EP, !filter_app, !app_length, (G _ _ lone false), !(G _ _ lone true), !map_length by reflexivity. lia. }
    split; [|split; [|split]].
    - destruct (nexts_as _ _ (iter_steps E OK s c m Z H) n (iter m) O VI0) as (it & EQ & VI).
      exists it. split; [exact EQ|]. unfold iter_size_hint, exactly. rewrite (LV _ _ VI), skipn_length. auto.
    - destruct (IP n) as (it & EQ & LN). unfold paired_len in LN.
      destruct (paired_rest E m it) as [rest|] eqn:X; [|discriminate]. cbn [omap] in LN. injection LN as LN.
      do 3 eexists. split; [exact EQ|]. split; [exact X|]. split; [lia|].
      apply paired_nexts_behind in EQ. unfold paired_size_hint, exactly. rewrite EQ. unfold iter_paired. rewrite SL.
      rewrite (behind_slots s paired_slot is_both); [reflexivity|].
      intros [i e] a Ha. destruct e; cbn in *; auto; discriminate.
    - destruct (IU n) as (it & EQ & LN). unfold unpaired_len in LN.
      destruct (unpaired_rest it) as [rest|] eqn:X; [|discriminate]. cbn [omap] in LN. injection LN as LN.
      do 3 eexists. split; [exact EQ|]. split; [exact X|]. split; [rewrite F2; lia|].
      apply unpaired_nexts_behind in EQ. unfold unpaired_size_hint, exactly. rewrite EQ. unfold iter_unpaired. cbn [fst]. rewrite SL.
      rewrite (behind_slots s lone_slot lone); [reflexivity|].
      intros [i e] a Ha. destruct e; cbn in *; auto; discriminate.
    - destruct (drain_ok E OK s c m P n HH) as (Q' & w & d & d' & EA & PQ & IW & NW & LW & EN & _).
      assert (Q' = O) as -> by congruence.
      destruct (repr_bij E _ _ _ _ HH) as (_ & _ & NN).
      rewrite rights_no_left in LW by auto.
      exists w, d. split; [|split; [exact LW|split; [exact EN|]]].
      { intros e He. apply filter_In. split; auto. rewrite NW; auto. }
      unfold drain_size_hint, exactly. rewrite (drain_nexts_left _ _ _ _ EN). unfold drain. cbn [di_left].
      rewrite <- (LV _ _ VI0). reflexivity.
  Qed.
End Hints.

(* pm1 holds three pairs, two unpaired left items and three unpaired right ones *)
Example C43_exact_case :
  reachable env_collide 1 pm1 /\
  map (fun n => match nexts (iter_next env_collide pm1) n (iter pm1) with
                | Done (_, it) => iter_size_hint it | Panicked => exactly 99 end) [0; 2; 9]
    = [exactly 5; exactly 3; exactly 0] /\
  map (fun n => match nexts (paired_next env_collide pm1) n (iter_paired pm1) with
                | Done (_, it) => (paired_size_hint it, match paired_rest env_collide pm1 it with
                                                        | Done l => length l | Panicked => 99 end)
                | Panicked => (exactly 99, 99) end) [0; 1; 2; 3]
    = [(exactly 5, 3); (exactly 4, 2); (exactly 3, 1); (exactly 2, 0)] /\
  map (fun n => match nexts unpaired_next n (iter_unpaired pm1) with
                | Done (_, it) => (unpaired_size_hint it, match unpaired_rest it with
                                                          | Done l => length l | Panicked => 99 end)
                | Panicked => (exactly 99, 99) end) [0; 1; 2; 3]
    = [(exactly 5, 5); (exactly 1, 4); (exactly 0, 3); (exactly 0, 2)] /\
  map (fun n => match drain_nexts env_collide n (drain pm1) with
                | Ret d _ => drain_size_hint d | Panic d => exactly 99 end) [0; 4; 5]
    = [exactly 5; exactly 1; exactly 0].
Proof.
  split; [apply pm1_reachable; reflexivity|].
  repeat (split; [vm_compute; reflexivity|]); vm_compute; reflexivity.
Qed.

Print Assumptions C43_exact_partial.
