(* GroupMap: the iterators of one map agree on the order (C157). *)
From Coq Require Import List NArith Lia Bool Permutation PeanoNat.
From Verif Require Import Closures Prelude RawTable GroupMap ListFacts IterFacts GroupSpec GroupHistory GroupProofs GroupProofs2
  GroupProofs3 GroupProofs4 GroupProofs5 GroupProofs6 GroupHistoryProofs Concrete GroupProps GroupProps2.
Import ListNotations.
Open Scope N_scope.

Section Order.
  Context {L R S : Type} (E : env L R S) (OK : lawful E).
  Let ER := eqR_equiv _ OK.
  Notation map := (gmap L R S).

  (* the items of one group *)
  Definition listed (g : R * list L) : list (option L * R) :=
    match snd g with
    | [] => [(None, fst g)]
    | ls => List.map (fun l => (Some l, fst g)) ls
    end.
  Definition no_lefts (g : R * list L) : bool := match snd g with [] => true | _ => false end.

  (* iter() goes through the right items in the order of iter_right(), through each group in the
     order of get_left_iter(); iter_unpaired() yields the empty groups in that order; iter_left()
     yields the left items in the order of iter_paired(). *)
  Theorem C157_group : forall room m, reachable E room m ->
    exists gs ps,
      right_rest (iter_right m) = Done (List.map fst gs) /\
      (forall g, In g gs -> exists it, get_left_iter E m (fst g) = Some it /\ pair_rest E m it = Done (snd g)) /\
      iter_rest E m (iter m) = Done (flat_map listed gs) /\
      unpaired_rest (iter_unpaired m) = Done (List.map fst (filter no_lefts gs)) /\
      paired_rest E m (iter_paired m) = Done ps /\
      left_rest (iter_left m) = Done (List.map fst ps).
  Proof.
    intros room m HR. apply (reachable_repr E OK) in HR as (s & lc & rc & G & HH & B1 & B2).
    assert (CL := tame_all_clean E OK _ _ _ _ _ _ HH).
    assert (LK := tame_all_linked E OK _ _ _ _ _ _ HH).
    destruct HH as (A & D & B & H & -> & _).
    assert (RZ := linked_rids E OK _ _ _ _ _ _ _ H LK).
    assert (CZ := clean_cleans E OK _ _ _ _ _ _ _ H CL).
    destruct (order_l E _ _ _ _ _ _ _ H) as (X & PX & QX).
    destruct (order_r E _ _ _ _ _ _ _ H) as (Y & PY & QY).
    assert (IX : incl X A) by (intros z Hz; eapply Permutation_in; [symmetry; eauto|auto]).
    assert (IY : incl Y B) by (intros z Hz; eapply Permutation_in; [symmetry; eauto|auto]).
    destruct (groups_exist E _ _ _ _ _ _ _ H CZ Y IY) as (gs & GY & GG).
    set (sh := fun g : zright R * list (zleft L R) => (y_r (fst g), List.map z_l (snd g))).
    exists (List.map sh gs), (List.map z_pair X).
    split; [|split; [|split; [|split; [|split]]]].
    - unfold right_rest. eapply collect_as; [apply (right_steps E s)| |].
      + exists Y. split; [exact QY|]. rewrite <- GY, !map_map. auto.
      + unfold iter_right. rewrite QY, <- GY, !map_length. auto.
    - intros g Hg. apply in_map_iff in Hg as (g' & <- & Hg). destruct (GG g' Hg) as (Q1 & Q2 & Q3).
      assert (Hy : In (fst g') B) by (apply IY; rewrite <- GY; apply in_map; auto).
      apply perm_in_cons in Hy as [B' P].
      assert (H' := rep_perm E OK _ _ _ _ _ _ _ _ _ (Permutation_refl A) P H).
      exists (List.map (pkey E s) (snd g')). unfold sh. cbn [fst snd]. split.
      + unfold get_left_iter, get_left_iter_q.
        change (t_get (lo E) (right_set m) (hashR E (hash_builder m) (y_r (fst g'))) (equivalent_key_right (eqR E) (y_r (fst g'))))
          with (find_right E m (y_r (fst g'))).
        rewrite (find_right_some E OK _ _ _ _ _ _ _ _ (y_r (fst g')) H').
        * cbn [option_map]. rewrite <- Q1. reflexivity.
        * apply equiv_refl. exact ER.
        * assert (Q := rep_eqr _ _ _ _ _ _ _ _ H'). simpl in Q. apply distinct_cons in Q as [Q _].
          intros x Hx. apply Q. apply in_map; auto.
      + unfold pair_rest. eapply collect_as; [apply (pair_steps E OK _ _ _ _ _ _ _ H)| |rewrite !map_length; auto].
        exists (snd g'). split; auto. intros z Hz. apply (Permutation_in _ Q2) in Hz. apply filter_In in Hz. tauto.
    - assert (EQ : flat_map listed (List.map sh gs) = flat_map gitems gs).
      { clear - GG. induction gs as [|g gs IH]; auto. cbn [List.map flat_map]. f_equal.
        - destruct (GG g (or_introl eq_refl)) as (_ & _ & Q3). unfold listed, gitems, sh. cbn [fst snd].
          destruct (snd g) as [|z zs]; auto. cbn [List.map].
          rewrite (Q3 z (or_introl eq_refl)). f_equal. rewrite map_map. apply map_ext_in.
          intros x Hx. rewrite (Q3 x); auto. right. auto.
        - apply IH. intros g' Hg. apply GG. right. auto. }
      rewrite EQ. unfold iter_rest.
      eapply collect_as; [apply (iter_steps E OK _ _ _ _ _ _ _ H RZ)| |].
      + exists [], gs. split; [intros z []|]. split; auto. split; auto. split; auto.
        unfold iter. cbn [right_iter]. rewrite GY. auto.
      + unfold iter_bound, iter. cbn [left_iter right_iter]. rewrite QY, <- GY. clear - GG. rewrite Nat.add_0_l.
        induction gs as [|g gs IH]; auto. cbn [List.map flat_map fold_right].
        rewrite app_length. apply Nat.add_le_mono.
        * destruct (GG g (or_introl eq_refl)) as (Q1 & _ & _). cbn [slotR snd r_pairs].
          unfold gitems. apply (f_equal (@length _)) in Q1. unfold hs_elems in Q1.
          rewrite !map_length in Q1. unfold t_len. cbn [snd GroupProofs.slotR r_pairs].
          destruct (snd g); simpl in *; [lia|]. rewrite map_length. lia.
        * apply IH. intros g' Hg. apply GG; right; auto.
    - unfold unpaired_rest, iter_unpaired. rewrite QY, <- GY. clear - GG. rewrite !map_length.
      assert (K : forall n, (length gs <= n)%nat ->
        collect unpaired_next n (List.map (slotR E s) (List.map fst gs)) = Done (List.map fst (filter no_lefts (List.map sh gs)))).
      { induction gs as [|g gs IH]; intros n LE.
        - destruct n; reflexivity.
        - assert (GG' : forall g', In g' gs -> good E A s g') by (intros g' Hg; apply GG; right; auto).
          destruct (GG g (or_introl eq_refl)) as (Q1 & _ & _).
          assert (EM : set_is_empty (y_tab (fst g)) = no_lefts (sh g)).
          { apply (f_equal (@length _)) in Q1. unfold hs_elems in Q1. rewrite !map_length in Q1.
            unfold set_is_empty, t_len, no_lefts, sh. cbn [snd]. rewrite Q1. destruct (snd g); auto. }
          cbn [List.map filter]. destruct n as [|n]; [cbn in LE; lia|].
          cbn [length] in LE. specialize (IH GG').
          destruct (no_lefts (sh g)) eqn:NL.
          + cbn [collect unpaired_next GroupProofs.slotR r_pairs]. rewrite EM.
            rewrite IH by lia. reflexivity.
          + rewrite <- (IH (Datatypes.S n)) by lia. cbn [collect unpaired_next GroupProofs.slotR r_pairs]. rewrite EM. reflexivity. }
      apply K. auto.
    - unfold paired_rest. eapply collect_as; [apply (paired_steps E OK _ _ _ _ _ _ _ H RZ)|exists X; auto|].
      unfold iter_paired. rewrite QX, !map_length. auto.
    - unfold left_rest. eapply collect_as; [apply (left_steps E s)| |].
      + exists X. split; [exact QX|]. rewrite map_map. auto.
      + unfold iter_left. rewrite QX, !map_length. auto.
  Qed.

  (* a closure writing down what it is shown, and answering g *)
  Definition logging {T} (g : list T -> T -> bool) (log : list T) (e : T) : list T * verdict :=
    (log ++ [e], Some (g log e)).
  Lemma s_filter_logging : forall T (g : list T -> T -> bool) l log,
    exists yes no, s_filter (logging g) log l = (log ++ l, yes, no, false).
  Proof.
    intros T g. induction l as [|e l IH]; intros log; cbn [s_filter]; [rewrite app_nil_r; eauto|].
    destruct (IH (log ++ [e])) as (yes & no & Q). unfold logging at 1. rewrite Q, <- app_assoc.
    destruct (g log e); eauto.
  Qed.
  (* retain_paired() and retain_unpaired() show their closure what iter_paired() and
     iter_unpaired() yield, each once and in that order, whatever it answers *)
  Theorem C157_group_retain : forall room m, reachable E room m ->
    (forall g, exists ps m', paired_rest E m (iter_paired m) = Done ps /\
       retain_paired E (logging g) (m, []) = Ret (m', ps) tt) /\
    (forall g, exists us m', unpaired_rest (iter_unpaired m) = Done us /\
       retain_unpaired E (logging g) (m, []) = Ret (m', us) tt).
  Proof.
    intros room m H. split; intros g.
    - destruct (C56_retain_paired_partial E OK (logging g) [] room m H) as (rs & ps & V & W).
      destruct (s_filter_logging _ g ps []) as (yes & no & Q). rewrite Q in W.
      destruct W as (m' & _ & _ & W & _). exists ps, m'. split; [apply V|exact W].
    - destruct (C56_retain_unpaired_partial E OK (logging g) [] room m H) as (rs & ps & U & V & EU & _ & W).
      destruct (s_filter_logging _ g U []) as (yes & no & Q). rewrite Q in W.
      destruct W as (m' & _ & _ & W & _). exists U, m'. split; [exact EU|exact W].
  Qed.
End Order.
Example C157_group_case : lawful env_collide /\ reachable env_collide 1 gmc /\
  right_rest (iter_right gmc) = Done [it 40; it 10; it 30; it 70; it 90] /\
  iter_rest env_collide gmc (iter gmc) =
    Done [(None, it 40); (Some (it 7), it 10); (Some (it 1), it 10); (Some (it 8), it 10);
          (Some (it 6), it 30); (Some (it 5), it 30); (Some (it 2), it 30); (None, it 70); (None, it 90)] /\
  match get_left_iter env_collide gmc (it 30) with
  | Some i => pair_rest env_collide gmc i = Done [it 6; it 5; it 2]
  | None => False
  end /\
  unpaired_rest (iter_unpaired gmc) = Done [it 40; it 70; it 90] /\
  paired_rest env_collide gmc (iter_paired gmc) =
    Done [(it 7, it 10); (it 5, it 30); (it 1, it 10); (it 2, it 30); (it 6, it 30); (it 8, it 10)] /\
  left_rest (iter_left gmc) = Done [it 7; it 5; it 1; it 2; it 6; it 8].
Proof.
  split; [exact env_collide_ok|]. split; [apply gm1_reachable; [simpl; auto|reflexivity]|]. vm_compute. repeat split.
Qed.
Example C157_group_retain_case :
  match retain_unpaired env_collide (logging (fun log _ => Nat.even (length log))) (gmc, []) with
  | Ret (m, log) _ => log = [it 40; it 70; it 90] /\
      contains_right env_collide m (it 40) = false /\ contains_right env_collide m (it 70) = true
  | _ => False
  end.
Proof. vm_compute. repeat split. Qed.

Print Assumptions C157_group.
Print Assumptions C157_group_retain.
