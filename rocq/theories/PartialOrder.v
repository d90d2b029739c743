(* PartialCycleMap: the iterators of one map agree on the order (C157). *)
From Coq Require Import List NArith Lia Bool Permutation.
From Verif Require Import Closures Prelude RawTable Optionals PartialCycleMap ListFacts IterFacts PartialSpec PartialHistory PartialProofs
  PartialProofs2 PartialProofs3 PartialProofs4 PartialProofs5 PartialProofs6 PartialProofs7 PartialProofs8
  PartialHistoryProofs Concrete PartialProps PartialProps2.
Import ListNotations.
Open Scope N_scope.

Section Order.
  Context {L R S : Type} (E : env L R S) (OK : lawful E).
  Notation map := (pmap L R S).
  Notation entry := (optional_pair L R).

  (* what an entry says about its left item *)
  Definition left_of (x : entry) : list L :=
    match x with SomeLeft l | SomeBoth l _ => [l] | _ => [] end.
  Definition pair_of (x : entry) : list (L * R) := match x with SomeBoth l r => [(l, r)] | _ => [] end.
  Definition alone (x : entry) : bool := match x with SomeLeft _ => true | _ => false end.

  Lemma single_all : forall T (it : list (N * mapping_pair T)),
    collect single_next (single_len it) it = Done (List.map (fun x => value (snd x)) it).
  Proof.
    intros T it. unfold single_len. induction it as [|[k x] it IH]; auto.
    cbn [collect single_next length List.map snd]. rewrite IH. auto.
  Qed.

  (* iter_left() yields the left items of iter(), iter_paired() its pairs, and iter_unpaired()
     first its unpaired left items, then the unpaired ones of the right items of iter_right(),
     each in the same order. *)
  Theorem C157_pmap : forall room m, reachable E room m ->
    exists O rs, iter_all E m = Done O /\
      collect single_next (single_len (iter_right m)) (iter_right m) = Done rs /\
      collect single_next (single_len (iter_left m)) (iter_left m) = Done (flat_map left_of O) /\
      paired_rest E m (iter_paired m) = Done (flat_map pair_of O) /\
      unpaired_rest (iter_unpaired m) = Done (filter alone O ++
        List.map SomeRight (filter (fun r => negb (is_right_paired E m r)) rs)).
  Proof.
    intros room m H. apply (reachable_repr E OK) in H as (s & c & P & (Z & H & ->) & B).
    destruct (rep_order_l _ _ _ _ _ H) as (Y & PY & SL).
    destruct (rep_order_r _ _ _ _ _ H) as (Y' & PY' & SR).
    assert (I : incl Y Z) by (intros y Hy; eapply Permutation_in; [symmetry; exact PY|auto]).
    assert (I' : incl Y' Z) by (intros y Hy; eapply Permutation_in; [symmetry; exact PY'|auto]).
    exists (filter has_left_item (List.map snd Y)), (rights (List.map snd Y')).
    assert (F1 : forall K : list entry, lefts K = flat_map left_of (filter has_left_item K)).
    { unfold lefts. induction K as [|e K IH]; auto. destruct e; cbn; auto; f_equal; auto. }
    assert (F2 : forall K : list entry, s_pairs K = flat_map pair_of (filter has_left_item K)).
    { unfold s_pairs. induction K as [|e K IH]; auto. destruct e; cbn; auto; f_equal; auto. }
    assert (F3 : forall K : list entry, filter is_sl K = filter alone (filter has_left_item K)).
    { induction K as [|e K IH]; auto. destruct e; cbn; auto; f_equal; auto. }
    split; [|split; [|split; [|split]]].
    - unfold iter_all, iter. rewrite SL. eapply collect_as; [apply (iter_steps E OK s c m Z H)|exists Y; auto|].
      rewrite filter_left_length, <- (lefts_length E s). auto.
    - rewrite single_all. f_equal. unfold iter_right. rewrite SR. apply (slots_rights E s).
    - rewrite single_all. f_equal. unfold iter_left. rewrite SL, <- F1. apply (slots_lefts E s).
    - unfold paired_rest, iter_paired. rewrite SL, <- F2.
      eapply collect_as; [apply (paired_steps E OK s c m Z H)|exists Y; auto|].
      rewrite (lefts_length E s). apply s_pairs_length.
    - unfold unpaired_rest, iter_unpaired. rewrite SL, SR, <- F3. cbn [fst snd].
      assert (Q : List.map SomeRight (filter (fun r => negb (is_right_paired E m r)) (rights (List.map snd Y')))
                  = filter (@is_sr L R) (List.map snd Y')).
      { clear - OK H I'. induction Y' as [|y W IH]; auto.
        assert (IW : incl W Z) by (intros x Hx; apply I'; right; auto). specialize (IH IW).
        assert (Hy := I' y (or_introl eq_refl)). unfold rights in *. cbn [List.map flat_map filter].
        assert (ID := is_right_paired_spec E OK s c m (List.map snd Z)). 
        assert (D := rep_bij _ _ _ _ _ H).
        assert (Hp : In (snd y) (List.map snd Z)) by (apply in_map; auto).
        destruct (snd y) as [|l|r|l r] eqn:Ey; cbn [op_get_right opt_list app filter is_sr]; auto.
        + rewrite (ID r) by (exists Z; auto).
          destruct (s_is_right_paired (eqR E) (List.map snd Z) r) eqn:SP; [exfalso|cbn [negb List.map]; f_equal; auto].
          apply existsb_exists in SP as (x & Hx & SP). apply andb_true_iff in SP as [S1 S2].
          assert (F1 := find_r_in (eqL E) (eqR E) (eqL_equiv _ OK) (eqR_equiv _ OK) _ r x D Hx S1).
          assert (F2 := find_r_in (eqL E) (eqR E) (eqL_equiv _ OK) (eqR_equiv _ OK) _ r (SomeRight r) D Hp (equiv_refl _ (eqR_equiv _ OK) r)).
          rewrite F1 in F2. inversion F2; subst x. discriminate.
        + rewrite (ID r) by (exists Z; auto).
          assert (SP : s_is_right_paired (eqR E) (List.map snd Z) r = true).
          { apply existsb_exists. exists (SomeBoth l r). split; auto. cbn.
            rewrite (equiv_refl _ (eqR_equiv _ OK) r). auto. }
          rewrite SP. auto. }
      rewrite Q. eapply collect_as; [apply (unpaired_steps E s)|exists Y, Y'; auto|].
      rewrite app_length, (lefts_length E s), (rights_length E s).
      assert (X := is_sl_lefts (List.map snd Y)). assert (X' := is_sr_rights (List.map snd Y')). lia.
  Qed.

  (* drain() yields the entries of iter() in the order of iter(), then at most one unpaired right item. *)
  Theorem C157_pmap_drain : forall room m n, reachable E room m ->
    exists O w d, iter_all E m = Done O /\ (length w <= 1)%nat /\
      (forall e, In e w -> exists r, e = SomeRight r /\ contains_right E m r = true /\ is_right_paired E m r = false) /\
      drain_nexts E n (drain m) = Ret d (firstn n (List.map Some (O ++ w)) ++ repeat None (n - length (O ++ w))).
  Proof.
    intros room m n H. apply (reachable_repr E OK) in H as (s & c & P & H & B).
    destruct (drain_ok E OK s c m P n H) as (O & w & d & d' & EO & _ & IW & NW & LW & EN & _ & _).
    exists O, w, d. split; auto. split; [rewrite LW; apply PeanoNat.Nat.le_min_l|]. split; auto.
    intros e He. assert (D := repr_bij E _ _ _ _ H). assert (Hp := IW e He).
    assert (NL := NW e He). destruct e as [|l|r|l r]; try discriminate.
    - exfalso. apply (proj2 (proj2 D)). auto.
    - exists r. split; auto. rewrite (contains_right_spec E OK s c m P r H), (is_right_paired_spec E OK s c m P r H).
      assert (RR : has_r (eqR E) r (@SomeRight L R r) = true) by apply (equiv_refl _ (eqR_equiv _ OK) r).
      split; [apply existsb_exists; exists (SomeRight r); auto|].
      destruct (s_is_right_paired (eqR E) P r) eqn:SP; auto. exfalso.
      apply existsb_exists in SP as (x & Hx & SP). apply andb_true_iff in SP as [S1 S2].
      assert (F1 := find_r_in (eqL E) (eqR E) (eqL_equiv _ OK) (eqR_equiv _ OK) _ r x D Hx S1).
      assert (F2 := find_r_in (eqL E) (eqR E) (eqL_equiv _ OK) (eqR_equiv _ OK) _ r (SomeRight r) D Hp RR).
      rewrite F1 in F2. inversion F2; subst x. discriminate.
  Qed.

  (* a closure writing down what it is shown, and answering g *)
  Definition logging {T} (g : list T -> T -> bool) (log : list T) (e : T) : list T * verdict :=
    (log ++ [e], Some (g log e)).
  Lemma s_filter_logging : forall T (g : list T -> T -> bool) l log,
    exists yes no, s_filter (logging g) log l = (log ++ l, yes, no, false).
  Proof.
    intros T g. induction l as [|e l IH]; intros log; cbn [s_filter]; [rewrite app_nil_r; eauto|].
    destruct (IH (log ++ [e])) as (yes & no & Q). unfold logging at 1. rewrite Q, <- app_assoc.
    destruct (g log e); eauto.
  Qed.
  (* retain(), retain_paired() and retain_unpaired() show their closure what iter(), iter_paired()
     and iter_unpaired() yield, each once and in that order, whatever it answers *)
  Theorem C157_pmap_retain : forall room m, reachable E room m ->
    (forall g, exists O m', iter_all E m = Done O /\ retain E (logging g) (m, []) = Ret (m', O) tt) /\
    (forall g, exists O m', paired_rest E m (iter_paired m) = Done O /\
       retain_paired E (logging g) (m, []) = Ret (m', O) tt) /\
    (forall g, exists O m', unpaired_rest (iter_unpaired m) = Done O /\
       retain_unpaired E (logging g) (m, []) = Ret (m', O) tt).
  Proof.
    intros room m H. apply (reachable_repr E OK) in H as (s & c & P & H & B).
    split; [|split]; intros g.
    - destruct (retain_ok E OK (logging g) s c m P [] H) as (O & EO & _ & W).
      destruct (s_filter_logging _ g O []) as (yes & no & Q). rewrite Q in W. destruct W as (m' & W & _). eauto.
    - destruct (retain_paired_ok E OK (logging g) s c m P [] H) as (O & EO & _ & W).
      destruct (s_filter_logging _ g O []) as (yes & no & Q). rewrite Q in W. destruct W as (m' & W & _). eauto.
    - destruct (retain_unpaired_ok E OK (logging g) s c m P [] H) as (O & EO & _ & W).
      destruct (s_filter_logging _ g O []) as (yes & no & Q). rewrite Q in W. destruct W as (m' & W & _). eauto.
  Qed.

  (* drain_filter() shows its closure the entries of iter() in that order, then the right items in
     the order of iter_right() (not those of pairs already taken; the right item of a pair that was
     kept is shown once more, on its own: on_visit, C40), and yields what it takes in that order *)
  Theorem C157_pmap_filter : forall {X} (f : X -> entry -> X * verdict) x room m n,
    reachable E room m -> spares_pairs E m f ->
    exists O W, iter_all E m = Done O /\
      collect single_next (single_len (iter_right m)) (iter_right m) = Done (rights W) /\
    forall x' taken others,
      s_filter (on_visit (eqR E) f) (x, []) (List.map VE O ++ List.map VR W) = (x', taken, others, false) ->
      exists d x1 d',
        df_nexts E f n (drain_filter m, x)
          = Ret (d, x1) (firstn n (List.map Some (List.map shown taken)) ++ repeat None (n - length taken)) /\
        df_drop E f (d, x1) = Ret (d', fst x') tt.
  Proof.
    intros X f x room m n H G. apply (reachable_repr E OK) in H as (s & c & P & H & B).
    assert (SP := spares_all E OK f s c m P H G).
    destruct (dfa_start E OK f s c m P H SP) as (Q & W & EQ0 & PQ & EW & PW & D).
    exists Q, W. split; auto. split; [rewrite single_all, EW; auto|]. intros x' taken others F.
    assert (N := df_nexts_ok E OK f n s c m _ _ _ _ x D). rewrite F in N.
    destruct N as (d & x1 & kept' & rest' & D' & N).
    assert (DR := df_drop_ok E OK f s c m d _ kept' rest' (fst x1) D').
    rewrite <- surjective_pairing in DR.
    destruct (s_filter (on_visit (eqR E) f) x1 rest') as [[[x2 t2] o2] pn2].
    destruct DR as (d' & DR & H'). destruct N as [N _]. destruct N as [N EQ]; auto.
    injection EQ as -> -> EK ->. exists d, (fst x1), d'. split; auto.
  Qed.
End Order.

Example C157_pmap_case : lawful env_collide /\ reachable env_collide 1 pm1 /\
  iter_all env_collide pm1 = Done
    [SomeBoth (it 5) (it 50); SomeBoth (it 3) (it 30); SomeBoth (it 1) (it 20); SomeLeft (it 2); SomeLeft (it 4)] /\
  collect single_next (single_len (iter_right pm1)) (iter_right pm1) =
    Done [it 50; it 30; it 10; it 20; it 40; it 60] /\
  collect single_next (single_len (iter_left pm1)) (iter_left pm1) = Done [it 5; it 3; it 1; it 2; it 4] /\
  paired_rest env_collide pm1 (iter_paired pm1) = Done [(it 5, it 50); (it 3, it 30); (it 1, it 20)] /\
  unpaired_rest (iter_unpaired pm1) =
    Done [SomeLeft (it 2); SomeLeft (it 4); SomeRight (it 10); SomeRight (it 40); SomeRight (it 60)].
Proof.
  split; [exact env_collide_ok|]. split; [apply pm1_reachable; reflexivity|]. vm_compute. repeat split.
Qed.
Example C157_pmap_retain_case :
  match retain_unpaired env_collide (logging (fun log _ => Nat.even (length log))) (pm1, []) with
  | Ret (m, log) _ =>
      log = [SomeLeft (it 2); SomeLeft (it 4); SomeRight (it 10); SomeRight (it 40); SomeRight (it 60)] /\
      contains_left env_collide m (it 2) = false /\ contains_left env_collide m (it 4) = true
  | _ => False
  end.
Proof. vm_compute. repeat split. Qed.
Example C157_pmap_filter_case :
  (forall l r, get_left env_collide pm1 r = Some l -> p_some (SomeRight r) = false) /\
  match df_nexts env_collide (logging (fun _ => p_some)) 5 (drain_filter pm1, []) with
  | Ret (d, log) out =>
      out = [Some (SomeBoth (it 3) (it 30)); Some (SomeLeft (it 2)); Some (SomeRight (it 10)); Some (SomeRight (it 60)); None] /\
      log = [SomeBoth (it 5) (it 50); SomeBoth (it 3) (it 30); SomeBoth (it 1) (it 20); SomeLeft (it 2); SomeLeft (it 4);
             SomeRight (it 50); SomeRight (it 10); SomeRight (it 20); SomeRight (it 40); SomeRight (it 60)]
  | _ => False
  end.
Proof. split; [apply C40_case|]. vm_compute. repeat split. Qed.

Print Assumptions C157_pmap.
Print Assumptions C157_pmap_drain.
Print Assumptions C157_pmap_retain.
Print Assumptions C157_pmap_filter.
