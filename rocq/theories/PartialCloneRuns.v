(* PartialCycleMap: which calls of Clone clone() makes, and what it builds from their answers, when Clone
   of the items and of the hasher has a state of its own and may panic (property C143). *)
From Coq Require Import List NArith Lia Bool Permutation PeanoNat.
From Verif Require Import Closures IterFacts Prelude RawTable Optionals PartialCycleMap ListFacts TableFacts PartialSpec
  PartialHistory PartialProofs PartialProofs2 PartialProofs6 PartialProofs7 PartialHistoryProofs Concrete
  PartialProps PartialProps2 PartialProps3 Clones PartialClone CloneRuns.
Import ListNotations.
Open Scope N_scope.

Section Model.
  Context {L R S Y : Type}.
  (* Clone of L, R and S: a state, None for a panic *)
  Variables (cl : Y -> L -> Y * option L) (cr : Y -> R -> Y * option R) (cs : Y -> S -> Y * option S).
  Notation st := (Y * list (event L R S))%type.

  (* src/partial_cycle_map.rs:2476-2484 *)
  Definition mp_put {T} (e : mapping_pair T) (v : T) : mapping_pair T := MP v (phash e) (pid e).

  (* src/partial_cycle_map.rs:1704-1718: left_set, right_set, hash_builder, in this order *)
  Definition clone_run (m : pmap L R S) (s : st) : st * option (pmap L R S) :=
    match tables_run cl cr cs value mp_put value mp_put (left_set m) (right_set m) (hash_builder m) s with
    | (s', Some (tl, tr, hb)) => (s', Some (PM hb (counter m) tl tr))
    | (s', None) => (s', None)
    end.
End Model.

Section Proofs.
  Context {L R S Y : Type}.
  Variable E : env L R S.
  Hypothesis OK : lawful E.
  Variables (cl : Y -> L -> Y * option L) (cr : Y -> R -> Y * option R) (cs : Y -> S -> Y * option S).
  Implicit Types (m : pmap L R S).
  Let EL := eqL_equiv _ OK.
  Let ER := eqR_equiv _ OK.

  Definition lefts_of m : list L := map (fun x => value (snd x)) (slots (left_set m)).
  Definition rights_of m : list R := map (fun x => value (snd x)) (slots (right_set m)).

  Lemma clone_run_record : forall m y,
    match clone_run cl cr cs m (y, []) with
    | ((_, log), Some m') => exists ps qs,
        log = record CloneL ps ++ record CloneR qs ++ [CloneS (hash_builder m) (Some (hash_builder m'))] /\
        map fst ps = lefts_of m /\ map snd ps = lefts_of m' /\
        map fst qs = rights_of m /\ map snd qs = rights_of m' /\
        (forall p, In p ps -> exists y y', cl y (fst p) = (y', Some (snd p))) /\
        (forall p, In p qs -> exists y y', cr y (fst p) = (y', Some (snd p))) /\
        (exists y y', cs y (hash_builder m) = (y', Some (hash_builder m'))) /\
        forall gl gr, (forall p, In p ps -> gl (fst p) = snd p) -> (forall p, In p qs -> gr (fst p) = snd p) ->
          m' = clone_with gl gr (fun _ => hash_builder m') m
    | ((_, log), None) =>
        broken_off (map (fun l => inl (inl l)) (lefts_of m) ++ map (fun r => inl (inr r)) (rights_of m) ++
                    [inr (hash_builder m)]) log
    end.
  Proof.
    intros m y. unfold clone_run.
    assert (H := tables_record cl cr cs value mp_put (fun _ _ => eq_refl) value mp_put (fun _ _ => eq_refl)
                   (left_set m) (right_set m) (hash_builder m) y).
    destruct (tables_run cl cr cs value mp_put value mp_put (left_set m) (right_set m) (hash_builder m) (y, []))
      as [[y' log] [[[tl tr] hb]|]]; [|exact H].
    destruct H as (ps & qs & H1 & H2 & H3 & H4 & H5 & H6 & H7 & H8 & H9). exists ps, qs.
    repeat (split; [assumption|]). intros gl gr GL GR. destruct (H9 gl gr GL GR) as [-> ->]. reflexivity.
  Qed.

  (* C143, any map and any Clone.  Clone is called once for each left item, in the order of
     iter_left(), then once for each right item, in the order of iter_right(), then once for the
     hasher; the new map holds what these calls returned, in the same order.  If a call panics it is
     the last one. *)
  Theorem C143_calls : forall m y, exists ls rs,
    collect single_next (single_len (iter_left m)) (iter_left m) = Done ls /\
    collect single_next (single_len (iter_right m)) (iter_right m) = Done rs /\
    match clone_run cl cr cs m (y, []) with
    | ((_, log), Some m') => exists ls' rs',
        collect single_next (single_len (iter_left m')) (iter_left m') = Done ls' /\
        collect single_next (single_len (iter_right m')) (iter_right m') = Done rs' /\
        length ls' = length ls /\ length rs' = length rs /\
        log = map (fun p => CloneL (fst p) (Some (snd p))) (combine ls ls') ++
              map (fun p => CloneR (fst p) (Some (snd p))) (combine rs rs') ++
              [CloneS (hash_builder m) (Some (hash_builder m'))]
    | ((_, log), None) =>
        broken_off (map (fun l => inl (inl l)) ls ++ map (fun r => inl (inr r)) rs ++ [inr (hash_builder m)]) log
    end.
  Proof.
    intros m y. exists (lefts_of m), (rights_of m).
    assert (CO : forall T (t : table (mapping_pair T)),
      collect single_next (single_len (slots t)) (slots t) = Done (map (fun x => value (snd x)) (slots t))).
    { intros T t. apply collect_single. }
    split; [apply CO|]. split; [apply CO|].
    assert (H := clone_run_record m y).
    destruct (clone_run cl cr cs m (y, [])) as [[y' log] [m'|]]; [|exact H].
    destruct H as (ps & qs & -> & L1 & L2 & R1 & R2 & _ & _ & _ & F).
    exists (lefts_of m'), (rights_of m'). split; [apply CO|]. split; [apply CO|].
    rewrite <- L1, <- L2, <- R1, <- R2, !map_length. repeat (split; [auto; fail|]).
    assert (CB : forall A B (l : list (A * B)), combine (map fst l) (map snd l) = l).
    { induction l as [|[]]; cbn; congruence. }
    rewrite !CB. auto.
  Qed.

  (* the entry x' of the clone holds what the calls for the items of x returned *)
  Definition entry_cloned (log : list (event L R S)) (x x' : optional_pair L R) : Prop :=
    match x, x' with
    | SomeLeft l, SomeLeft l' => In (CloneL l (Some l')) log
    | SomeRight r, SomeRight r' => In (CloneR r (Some r')) log
    | SomeBoth l r, SomeBoth l' r' => In (CloneL l (Some l')) log /\ In (CloneR r (Some r')) log
    | _, _ => False
    end.
  (* C143 on reachable maps, when Clone returns items equal to the original and a hasher that hashes
     alike: the new map equals the original in both directions and is from then on the map of what
     the calls for the items of each entry returned. *)
  Variable hc : S -> S.
  Hypothesis HC : hasher_clones E hc.
  Hypothesis CL : forall y x y' x', cl y x = (y', Some x') -> eqL E x x' = true.
  Hypothesis CR : forall y x y' x', cr y x = (y', Some x') -> eqR E x x' = true.
  Hypothesis CS : forall y x y' x', cs y x = (y', Some x') -> x' = hc x.
  Theorem C143_clone : forall room m y y' log m', reachable E room m ->
    clone_run cl cr cs m (y, []) = ((y', log), Some m') ->
    map_eq E m m' = Done true /\ map_eq E m' m = Done true /\
    exists P P', contents E m P /\ contents E m' P' /\ Forall2 (entry_cloned log) P P' /\
      behaves_as E room m' P'.
  Proof.
    intros room m y y' log m' RM RUN. assert (H := clone_run_record m y). rewrite RUN in H.
    destruct H as (ps & qs & -> & L1 & L2 & R1 & R2 & XL & XR & (y1 & y2 & XS) & F).
    assert (PL : forall p, In p ps -> eqL E (fst p) (snd p) = true).
    { intros p I. destruct (XL p I) as (a & b & X). apply (CL _ _ _ _ X). }
    assert (PR : forall p, In p qs -> eqR E (fst p) (snd p) = true).
    { intros p I. destruct (XR p I) as (a & b & X). apply (CR _ _ _ _ X). }
    destruct (reachable_view E OK room m RM) as (s & c & P & V & H & B).
    assert (L4 : Permutation (lefts_of m) (lefts P)) by exact (iter_left_ok E s c m P H).
    assert (R4 : Permutation (rights_of m) (rights P)) by exact (iter_right_ok E s c m P H).
    destruct (repr_bij E _ _ _ _ H) as (BL & BR & BN).
    assert (DL : distinct (eqL E) (map fst ps)).
    { rewrite L1. eapply distinct_perm; [exact EL|apply Permutation_sym; exact L4|exact BL]. }
    assert (DR : distinct (eqR E) (map fst qs)).
    { rewrite R1. eapply distinct_perm; [exact ER|apply Permutation_sym; exact R4|exact BR]. }
    assert (GL := pick_at (eqL E) EL ps DL). assert (GR := pick_at (eqR E) ER qs DR).
    specialize (F _ _ GL GR). apply CS in XS. rewrite XS in F.
    assert (M' : m' = clone_with (pick (eqL E) ps) (pick (eqR E) qs) hc m) by exact F.
    destruct (C85_clone E OK _ _ _ (pick_clones _ EL ps PL) (pick_clones _ ER qs PR) HC room m RM)
      as (Q1 & Q2 & P0 & V0 & V' & BH). rewrite <- M' in *.
    split; auto. split; auto. exists P0, (map (clone_entry (pick (eqL E) ps) (pick (eqR E) qs)) P0).
    split; auto. split; auto. split; auto.
    assert (P0 = P) as ->.
    { destruct V as (Q & U & A1 & A2 & ->). destruct V0 as (Q' & U' & A1' & A2' & ->). congruence. }
    assert (SL : forall x l, In x P -> op_get_left x = Some l ->
      In (CloneL l (Some (pick (eqL E) ps l)))
         (record CloneL ps ++ record CloneR qs ++ [CloneS (hash_builder m) (Some (hash_builder m'))])).
    { intros x l I X. assert (J : In l (map fst ps)).
      { rewrite L1. eapply Permutation_in; [apply Permutation_sym; exact L4|apply in_lefts; eauto]. }
      apply in_map_iff in J as (a & <- & A). rewrite (GL a A). apply in_app_iff. left.
      unfold record. apply in_map_iff. exists a. auto. }
    assert (SR : forall x r, In x P -> op_get_right x = Some r ->
      In (CloneR r (Some (pick (eqR E) qs r)))
         (record CloneL ps ++ record CloneR qs ++ [CloneS (hash_builder m) (Some (hash_builder m'))])).
    { intros x r I X. assert (J : In r (map fst qs)).
      { rewrite R1. eapply Permutation_in; [apply Permutation_sym; exact R4|apply in_rights; eauto]. }
      apply in_map_iff in J as (a & <- & A). rewrite (GR a A). apply in_app_iff. right. apply in_app_iff. left.
      unfold record. apply in_map_iff. exists a. auto. }
    assert (NN : forall x, In x P -> x <> Neither) by (intros x I ->; auto).
    clear - SL SR NN. induction P as [|x P IH]; [constructor|]. cbn [map]. constructor.
    - assert (I : In x (x :: P)) by (left; auto). specialize (NN x I). destruct x as [|l|r|l r]; cbn [clone_entry entry_cloned].
      + destruct NN; auto.
      + apply (SL _ _ I). reflexivity.
      + apply (SR _ _ I). reflexivity.
      + split; [apply (SL _ _ I)|apply (SR _ _ I)]; reflexivity.
    - apply IH; intros; [eapply SL|eapply SR|apply NN]; eauto; right; auto.
  Qed.
End Proofs.

Example C143_case : reachable env_parity 5 pmp1 /\
  iter_all env_parity pmp1 =
    Done [SomeLeft (6, 0); SomeBoth (3, 0) (30, 0); SomeLeft (2, 0); SomeBoth (1, 0) (20, 0)] /\
  (* four left and four right items, nine calls; Clone numbers the copies *)
  (exists m' log, clone_run numbered numbered reseeded pmp1 (10, []) = ((19, log), Some m') /\
     length log = 9%nat /\
     iter_all env_parity m' =
       Done [SomeLeft (6, 10); SomeBoth (3, 11) (30, 15); SomeLeft (2, 12); SomeBoth (1, 13) (20, 16)] /\
     hash_builder m' = 9) /\
  (* the copy of the first right item panics: five calls *)
  (exists log, clone_run numbered numbered reseeded pmp1 (5, []) = ((10, log ++ [CloneR (61, 0) None]), None) /\
     length log = 4%nat).
Proof.
  split; [exact pmp1_reachable|]. split; [vm_compute; reflexivity|]. split.
  { do 2 eexists. split; [vm_compute; reflexivity|]. vm_compute. repeat split; reflexivity. }
  exists (firstn 4 (snd (fst (clone_run numbered numbered reseeded pmp1 (5, []))))). vm_compute. auto.
Qed.

Print Assumptions C143_calls.
Print Assumptions C143_clone.
