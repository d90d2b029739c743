(* CycleMap: which calls of Clone clone() makes, and what it builds from their answers, when Clone
   of the items and of the hasher has a state of its own and may panic (property C142). *)
From Coq Require Import List NArith Lia Bool Permutation PeanoNat.
From Verif Require Import Closures Prelude RawTable Optionals CycleMap ListFacts TableFacts CycleMapSpec
  CycleMapHistory CycleMapProofs CycleMapProofs2 CycleMapProofs3 CycleMapHistoryProofs Concrete
  CycleMapProps CycleMapProps2 CycleMapProps3 Clones CycleMapClone CloneRuns.
Import ListNotations.
Open Scope N_scope.

Section Model.
  Context {L R S Y : Type}.
  (* Clone of L, R and S: a state, None for a panic *)
  Variables (cl : Y -> L -> Y * option L) (cr : Y -> R -> Y * option R) (cs : Y -> S -> Y * option S).
  Notation st := (Y * list (event L R S))%type.

  (* src/cycle_map.rs:1460-1468 *)
  Definition mp_put {T} (e : mapping_pair T) (v : T) : mapping_pair T := MP v (phash e) (pid e).

  (* src/cycle_map.rs:1100-1114: left_set, right_set, hash_builder, in this order *)
  Definition clone_run (m : cmap L R S) (s : st) : st * option (cmap L R S) :=
    match tables_run cl cr cs value mp_put value mp_put (left_set m) (right_set m) (hash_builder m) s with
    | (s', Some (tl, tr, hb)) => (s', Some (CM hb (counter m) tl tr))
    | (s', None) => (s', None)
    end.
End Model.

Section Proofs.
  Context {L R S Y : Type}.
  Variable E : env L R S.
  Hypothesis OK : lawful E.
  Variables (cl : Y -> L -> Y * option L) (cr : Y -> R -> Y * option R) (cs : Y -> S -> Y * option S).
  Implicit Types (m : cmap L R S).
  Let EL := eqL_equiv _ OK.
  Let ER := eqR_equiv _ OK.

  Definition lefts_of m : list L := map (fun x => value (snd x)) (slots (left_set m)).
  Definition rights_of m : list R := map (fun x => value (snd x)) (slots (right_set m)).

  Lemma clone_run_record : forall m y,
    match clone_run cl cr cs m (y, []) with
    | ((_, log), Some m') => exists ps qs,
        log = record CloneL ps ++ record CloneR qs ++ [CloneS (hash_builder m) (Some (hash_builder m'))] /\
        map fst ps = lefts_of m /\ map snd ps = lefts_of m' /\
        map fst qs = rights_of m /\ map snd qs = rights_of m' /\
        (forall p, In p ps -> exists y y', cl y (fst p) = (y', Some (snd p))) /\
        (forall p, In p qs -> exists y y', cr y (fst p) = (y', Some (snd p))) /\
        (exists y y', cs y (hash_builder m) = (y', Some (hash_builder m'))) /\
        forall gl gr, (forall p, In p ps -> gl (fst p) = snd p) -> (forall p, In p qs -> gr (fst p) = snd p) ->
          m' = clone_with gl gr (fun _ => hash_builder m') m
    | ((_, log), None) =>
        broken_off (map (fun l => inl (inl l)) (lefts_of m) ++ map (fun r => inl (inr r)) (rights_of m) ++
                    [inr (hash_builder m)]) log
    end.
  Proof.
    intros m y. unfold clone_run.
    assert (H := tables_record cl cr cs value mp_put (fun _ _ => eq_refl) value mp_put (fun _ _ => eq_refl)
                   (left_set m) (right_set m) (hash_builder m) y).
    destruct (tables_run cl cr cs value mp_put value mp_put (left_set m) (right_set m) (hash_builder m) (y, []))
      as [[y' log] [[[tl tr] hb]|]]; [|exact H].
    destruct H as (ps & qs & H1 & H2 & H3 & H4 & H5 & H6 & H7 & H8 & H9). exists ps, qs.
    repeat (split; [assumption|]). intros gl gr GL GR. destruct (H9 gl gr GL GR) as [-> ->]. reflexivity.
  Qed.

  (* C142, any map and any Clone.  Clone is called once for each left item, in the order of
     iter_left(), then once for each right item, in the order of iter_right(), then once for the
     hasher; the new map holds what these calls returned, in the same order.  If a call panics it is
     the last one. *)
  Theorem C142_calls : forall m y, exists ls rs,
    collect single_next (single_len (iter_left m)) (iter_left m) = Done ls /\
    collect single_next (single_len (iter_right m)) (iter_right m) = Done rs /\
    match clone_run cl cr cs m (y, []) with
    | ((_, log), Some m') => exists ls' rs',
        collect single_next (single_len (iter_left m')) (iter_left m') = Done ls' /\
        collect single_next (single_len (iter_right m')) (iter_right m') = Done rs' /\
        length ls' = length ls /\ length rs' = length rs /\
        log = map (fun p => CloneL (fst p) (Some (snd p))) (combine ls ls') ++
              map (fun p => CloneR (fst p) (Some (snd p))) (combine rs rs') ++
              [CloneS (hash_builder m) (Some (hash_builder m'))]
    | ((_, log), None) =>
        broken_off (map (fun l => inl (inl l)) ls ++ map (fun r => inl (inr r)) rs ++ [inr (hash_builder m)]) log
    end.
  Proof.
    intros m y. exists (lefts_of m), (rights_of m).
    assert (CO : forall T (t : table (mapping_pair T)),
      collect single_next (single_len (slots t)) (slots t) = Done (map (fun x => value (snd x)) (slots t))).
    { intros T t. apply collect_single. }
    split; [apply CO|]. split; [apply CO|].
    assert (H := clone_run_record m y).
    destruct (clone_run cl cr cs m (y, [])) as [[y' log] [m'|]]; [|exact H].
    destruct H as (ps & qs & -> & L1 & L2 & R1 & R2 & _ & _ & _ & F).
    exists (lefts_of m'), (rights_of m'). split; [apply CO|]. split; [apply CO|].
    rewrite <- L1, <- L2, <- R1, <- R2, !map_length. repeat (split; [auto; fail|]).
    assert (CB : forall A B (l : list (A * B)), combine (map fst l) (map snd l) = l).
    { induction l as [|[]]; cbn; congruence. }
    rewrite !CB. auto.
  Qed.

  (* C142 on reachable maps, when Clone returns items equal to the original and a hasher that hashes
     alike: the new map equals the original in both directions and is from then on the map of what
     the calls for the items of each pair returned. *)
  Variable hc : S -> S.
  Hypothesis HC : hasher_clones E hc.
  Hypothesis CL : forall y x y' x', cl y x = (y', Some x') -> eqL E x x' = true.
  Hypothesis CR : forall y x y' x', cr y x = (y', Some x') -> eqR E x x' = true.
  Hypothesis CS : forall y x y' x', cs y x = (y', Some x') -> x' = hc x.
  Theorem C142_clone : forall room m y y' log m', reachable E room m ->
    clone_run cl cr cs m (y, []) = ((y', log), Some m') ->
    map_eq E m m' = Done true /\ map_eq E m' m = Done true /\
    exists P P', contents E m P /\ contents E m' P' /\
      Forall2 (fun p p' => In (CloneL (fst p) (Some (fst p'))) log /\ In (CloneR (snd p) (Some (snd p'))) log) P P' /\
      behaves_as E room m' P'.
  Proof.
    intros room m y y' log m' RM RUN. assert (H := clone_run_record m y). rewrite RUN in H.
    destruct H as (ps & qs & -> & L1 & L2 & R1 & R2 & XL & XR & (y1 & y2 & XS) & F).
    assert (PL : forall p, In p ps -> eqL E (fst p) (snd p) = true).
    { intros p I. destruct (XL p I) as (a & b & X). apply (CL _ _ _ _ X). }
    assert (PR : forall p, In p qs -> eqR E (fst p) (snd p) = true).
    { intros p I. destruct (XR p I) as (a & b & X). apply (CR _ _ _ _ X). }
    destruct (C02_single_copy_len E OK room m RM) as (P & VP & BL & BR & _ & _ & (ls & L3 & L4) & (rs & R3 & R4)).
    unfold single_len in L3, R3. rewrite collect_single in L3. rewrite collect_single in R3. inversion L3; subst ls. inversion R3; subst rs.
    fold (lefts_of m) in L4. fold (rights_of m) in R4.
    assert (DL : distinct (eqL E) (map fst ps)).
    { rewrite L1. eapply distinct_perm; [exact EL|apply Permutation_sym; exact L4|exact BL]. }
    assert (DR : distinct (eqR E) (map fst qs)).
    { rewrite R1. eapply distinct_perm; [exact ER|apply Permutation_sym; exact R4|exact BR]. }
    assert (GL := pick_at (eqL E) EL ps DL). assert (GR := pick_at (eqR E) ER qs DR).
    specialize (F _ _ GL GR). apply CS in XS. rewrite XS in F.
    assert (M' : m' = clone_with (pick (eqL E) ps) (pick (eqR E) qs) hc m) by exact F.
    destruct (C84_clone E OK _ _ _ (pick_clones _ EL ps PL) (pick_clones _ ER qs PR) HC room m RM)
      as (Q1 & Q2 & P0 & V0 & V' & B). rewrite <- M' in *.
    split; auto. split; auto. exists P0, (map (clone_pair (pick (eqL E) ps) (pick (eqR E) qs)) P0).
    split; auto. split; auto. split; auto.
    assert (P0 = P) as -> by (unfold contents in *; congruence).
    assert (SUB : forall p, In p P -> In (fst p) (map fst ps) /\ In (snd p) (map fst qs)).
    { intros p I. rewrite L1, R1. split.
      - eapply Permutation_in; [apply Permutation_sym; exact L4|apply in_map; auto].
      - eapply Permutation_in; [apply Permutation_sym; exact R4|apply in_map; auto]. }
    clear - SUB GL GR. induction P as [|p P IH]; [constructor|]. cbn [map]. constructor.
    - destruct (SUB p (or_introl eq_refl)) as [A B]. apply in_map_iff in A as (a & A1 & A2).
      apply in_map_iff in B as (b & B1 & B2). unfold clone_pair. cbn [fst snd]. rewrite <- A1, <- B1, GL, GR by auto.
      split; apply in_app_iff; [left|right; apply in_app_iff; left];
        unfold record; apply in_map_iff; [exists a|exists b]; auto.
    - apply IH. intros q I. apply SUB. right; auto.
  Qed.
End Proofs.

Example C142_case : reachable env_parity 5 mp1 /\
  iter_all env_parity mp1 = Done [(it 5, it 50); (it 4, it 30); (it 1, it 20)] /\
  (* three pairs, seven calls *)
  (exists m' log, clone_run numbered numbered reseeded mp1 (1, []) = ((8, log), Some m') /\
     length log = 7%nat /\
     iter_all env_parity m' = Done [((5, 1), (50, 4)); ((4, 2), (30, 6)); ((1, 3), (20, 5))] /\
     get_right env_parity m' (it' 4) = Some (30, 6) /\ hash_builder m' = 9) /\
  (* the copy of the second right item panics: five calls *)
  clone_run numbered numbered reseeded mp1 (5, []) =
    ((10, [CloneL (it 5) (Some (5, 5)); CloneL (it 4) (Some (4, 6)); CloneL (it 1) (Some (1, 7));
           CloneR (it 50) (Some (50, 8)); CloneR (it 20) None]), None) /\
  (* the hasher comes last *)
  (exists log, clone_run numbered numbered reseeded mp1 (3, []) = ((10, log ++ [CloneS 7 None]), None)).
Proof.
  split; [exact mp1_reachable|]. split; [vm_compute; reflexivity|]. split.
  { do 2 eexists. split; [vm_compute; reflexivity|]. vm_compute. repeat split; reflexivity. }
  split; [vm_compute; reflexivity|].
  exists (firstn 6 (snd (fst (clone_run numbered numbered reseeded mp1 (3, []))))). vm_compute. reflexivity.
Qed.

Print Assumptions C142_calls.
Print Assumptions C142_clone.
