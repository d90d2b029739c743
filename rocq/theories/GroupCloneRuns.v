(* GroupMap: which calls of Clone clone() makes, and what it builds from their answers, when Clone
   of the items and of the hasher has a state of its own and may panic (property C144). *)
From Coq Require Import List NArith Lia Bool Permutation PeanoNat.
From Verif Require Import Closures Prelude RawTable GroupMap ListFacts TableFacts GroupSpec
  GroupHistory GroupProofs GroupProofs5 GroupHistoryProofs Concrete GroupProps GroupProps3 Clones GroupClone CloneRuns.
Import ListNotations.
Open Scope N_scope.

Section Model.
  Context {L R S Y : Type}.
  (* Clone of L, R and S: a state, None for a panic *)
  Variables (cl : Y -> L -> Y * option L) (cr : Y -> R -> Y * option R) (cs : Y -> S -> Y * option S).
  Notation st := (Y * list (event L R S))%type.

  (* src/group_map.rs:1708-1717 *)
  Definition li_put {T} (e : left_item T) (v : T) : left_item T := LI v (l_hash e) (l_rid e) (l_id e).
  (* src/group_map.rs:1750-1758; the clone of the set calls no user code *)
  Definition ri_put {T} (e : right_item T) (v : T) : right_item T := RI v (r_pairs e) (r_id e).

  (* src/group_map.rs:1024-1039: left_set, right_set, hash_builder, in this order *)
  Definition clone_run (m : gmap L R S) (s : st) : st * option (gmap L R S) :=
    match tables_run cl cr cs l_value li_put r_value ri_put (left_set m) (right_set m) (hash_builder m) s with
    | (s', Some (tl, tr, hb)) => (s', Some (GM hb (left_counter m) (right_counter m) tl tr))
    | (s', None) => (s', None)
    end.
End Model.

Section Proofs.
  Context {L R S Y : Type}.
  Variable E : env L R S.
  Hypothesis OK : lawful E.
  Variables (cl : Y -> L -> Y * option L) (cr : Y -> R -> Y * option R) (cs : Y -> S -> Y * option S).
  Implicit Types (m : gmap L R S).
  Let EL := eqL_equiv _ OK.
  Let ER := eqR_equiv _ OK.

  Definition stored_l m : list L := map (fun x => l_value (snd x)) (slots (left_set m)).
  Definition stored_r m : list R := map (fun x => r_value (snd x)) (slots (right_set m)).

  Lemma all_l : forall it : list (N * left_item L), left_rest it = Done (map (fun x => l_value (snd x)) it).
  Proof. unfold left_rest. induction it as [|[h x] it IH]; simpl in *; auto. rewrite IH. reflexivity. Qed.
  Lemma all_r : forall it : list (N * right_item R), right_rest it = Done (map (fun x => r_value (snd x)) it).
  Proof. unfold right_rest. induction it as [|[h x] it IH]; simpl in *; auto. rewrite IH. reflexivity. Qed.

  Lemma clone_run_record : forall m y,
    match clone_run cl cr cs m (y, []) with
    | ((_, log), Some m') => exists ps qs,
        log = record CloneL ps ++ record CloneR qs ++ [CloneS (hash_builder m) (Some (hash_builder m'))] /\
        map fst ps = stored_l m /\ map snd ps = stored_l m' /\
        map fst qs = stored_r m /\ map snd qs = stored_r m' /\
        (forall p, In p ps -> exists y y', cl y (fst p) = (y', Some (snd p))) /\
        (forall p, In p qs -> exists y y', cr y (fst p) = (y', Some (snd p))) /\
        (exists y y', cs y (hash_builder m) = (y', Some (hash_builder m'))) /\
        forall gl gr, (forall p, In p ps -> gl (fst p) = snd p) -> (forall p, In p qs -> gr (fst p) = snd p) ->
          m' = clone_with gl gr (fun _ => hash_builder m') m
    | ((_, log), None) =>
        broken_off (map (fun l => inl (inl l)) (stored_l m) ++ map (fun r => inl (inr r)) (stored_r m) ++
                    [inr (hash_builder m)]) log
    end.
  Proof.
    intros m y. unfold clone_run.
    assert (H := tables_record cl cr cs l_value li_put (fun _ _ => eq_refl) r_value ri_put (fun _ _ => eq_refl)
                   (left_set m) (right_set m) (hash_builder m) y).
    destruct (tables_run cl cr cs l_value li_put r_value ri_put (left_set m) (right_set m) (hash_builder m) (y, []))
      as [[y' log] [[[tl tr] hb]|]]; [|exact H].
    destruct H as (ps & qs & H1 & H2 & H3 & H4 & H5 & H6 & H7 & H8 & H9). exists ps, qs.
    repeat (split; [assumption|]). intros gl gr GL GR. destruct (H9 gl gr GL GR) as [-> ->]. reflexivity.
  Qed.

  (* C144, any map and any Clone.  Clone is called once for each left item, in the order of
     iter_left(), then once for each right item, in the order of iter_right(), then once for the
     hasher; the new map holds what these calls returned, in the same order.  If a call panics it is
     the last one. *)
  Theorem C144_calls : forall m y, exists ls rs,
    left_rest (iter_left m) = Done ls /\
    right_rest (iter_right m) = Done rs /\
    match clone_run cl cr cs m (y, []) with
    | ((_, log), Some m') => exists ls' rs',
        left_rest (iter_left m') = Done ls' /\
        right_rest (iter_right m') = Done rs' /\
        length ls' = length ls /\ length rs' = length rs /\
        log = map (fun p => CloneL (fst p) (Some (snd p))) (combine ls ls') ++
              map (fun p => CloneR (fst p) (Some (snd p))) (combine rs rs') ++
              [CloneS (hash_builder m) (Some (hash_builder m'))]
    | ((_, log), None) =>
        broken_off (map (fun l => inl (inl l)) ls ++ map (fun r => inl (inr r)) rs ++ [inr (hash_builder m)]) log
    end.
  Proof.
    intros m y. exists (stored_l m), (stored_r m).
    split; [apply all_l|]. split; [apply all_r|].
    assert (H := clone_run_record m y).
    destruct (clone_run cl cr cs m (y, [])) as [[y' log] [m'|]]; [|exact H].
    destruct H as (ps & qs & -> & L1 & L2 & R1 & R2 & _ & _ & _ & F).
    exists (stored_l m'), (stored_r m'). split; [apply all_l|]. split; [apply all_r|].
    rewrite <- L1, <- L2, <- R1, <- R2, !map_length. repeat (split; [auto; fail|]).
    assert (CB : forall A B (l : list (A * B)), combine (map fst l) (map snd l) = l).
    { induction l as [|[]]; cbn; congruence. }
    rewrite !CB. auto.
  Qed.

  (* C144 on reachable maps, when Clone returns items equal to the original and a hasher that hashes
     alike: the new map equals the original in both directions and is from then on the map of what
     the calls for its items returned, grouped alike. *)
  Variable hc : S -> S.
  Hypothesis HC : hasher_clones E hc.
  Hypothesis CL : forall y x y' x', cl y x = (y', Some x') -> eqL E x x' = true.
  Hypothesis CR : forall y x y' x', cr y x = (y', Some x') -> eqR E x x' = true.
  Hypothesis CS : forall y x y' x', cs y x = (y', Some x') -> x' = hc x.
  Theorem C144_clone : forall room m y y' log m', reachable E room m ->
    clone_run cl cr cs m (y, []) = ((y', log), Some m') ->
    map_eq E m m' = Done true /\ map_eq E m' m = Done true /\
    exists rs ps rs' ps', holds E m rs ps /\ holds E m' rs' ps' /\
      Forall2 (fun r r' => In (CloneR r (Some r')) log) rs rs' /\
      Forall2 (fun p p' => In (CloneL (fst p) (Some (fst p'))) log /\ In (CloneR (snd p) (Some (snd p'))) log) ps ps' /\
      answers E m' rs' ps' /\ follows E m' ps' /\ behaves_as E room m' (GC rs' ps').
  Proof.
    intros room m y y' log m' RM RUN. assert (H := clone_run_record m y). rewrite RUN in H.
    destruct H as (ps & qs & -> & L1 & L2 & R1 & R2 & XL & XR & (y1 & y2 & XS) & F).
    assert (PL : forall p, In p ps -> eqL E (fst p) (snd p) = true).
    { intros p I. destruct (XL p I) as (a & b & X). apply (CL _ _ _ _ X). }
    assert (PR : forall p, In p qs -> eqR E (fst p) (snd p) = true).
    { intros p I. destruct (XR p I) as (a & b & X). apply (CR _ _ _ _ X). }
    destruct (C47_single_copy E OK room m RM) as (rs & P & V & BL & BR & IN & AN & _).
    destruct (an_left _ _ _ _ AN) as (ls & L3 & L4). destruct (an_right _ _ _ _ AN) as (rs1 & R3 & R4).
    rewrite all_l in L3. rewrite all_r in R3. inversion L3. inversion R3.
    change (map (fun x => l_value (snd x)) (iter_left m)) with (stored_l m) in *.
    change (map (fun x => r_value (snd x)) (iter_right m)) with (stored_r m) in *.
    subst ls rs1.
    assert (DL : distinct (eqL E) (map fst ps)).
    { rewrite L1. eapply distinct_perm; [exact EL|apply Permutation_sym; exact L4|exact BL]. }
    assert (DR : distinct (eqR E) (map fst qs)).
    { rewrite R1. eapply distinct_perm; [exact ER|apply Permutation_sym; exact R4|exact BR]. }
    assert (GL := pick_at (eqL E) EL ps DL). assert (GR := pick_at (eqR E) ER qs DR).
    specialize (F _ _ GL GR). apply CS in XS. rewrite XS in F.
    assert (M' : m' = clone_with (pick (eqL E) ps) (pick (eqR E) qs) hc m) by exact F.
    destruct (C86_clone E OK _ _ _ (pick_clones _ EL ps PL) (pick_clones _ ER qs PR) HC room m RM)
      as (Q1 & Q2 & rs0 & P0 & V0 & V' & A' & F' & B'). rewrite <- M' in *.
    assert (rs0 = rs /\ P0 = P) as [-> ->] by (destruct V, V0; split; congruence).
    split; auto. split; auto.
    exists rs, P, (map (pick (eqR E) qs) rs), (map (clone_pair (pick (eqL E) ps) (pick (eqR E) qs)) P).
    split; auto. split; auto.
    set (log := record CloneL ps ++ record CloneR qs ++ [CloneS (hash_builder m) (Some (hash_builder m'))]).
    assert (SL : forall l, In l (map fst P) -> In (CloneL l (Some (pick (eqL E) ps l))) log).
    { intros l I. assert (J : In l (map fst ps)).
      { rewrite L1. eapply Permutation_in; [apply Permutation_sym; exact L4|auto]. }
      apply in_map_iff in J as (a & <- & A). rewrite (GL a A). apply in_app_iff. left.
      unfold record. apply in_map_iff. exists a. auto. }
    assert (SR : forall r, In r rs -> In (CloneR r (Some (pick (eqR E) qs r))) log).
    { intros r I. assert (J : In r (map fst qs)).
      { rewrite R1. eapply Permutation_in; [apply Permutation_sym; exact R4|auto]. }
      apply in_map_iff in J as (a & <- & A). rewrite (GR a A). apply in_app_iff. right. apply in_app_iff. left.
      unfold record. apply in_map_iff. exists a. auto. }
    assert (FA : forall T U (f : T -> U) (Q : T -> U -> Prop) l, (forall x, In x l -> Q x (f x)) -> Forall2 Q l (map f l)).
    { intros T U f Q l. induction l as [|x l IH]; intros X; cbn [map]; constructor.
      - apply X. left; auto.
      - apply IH. intros z I. apply X. right; auto. }
    split; [apply FA; auto|]. split; [|auto].
    apply FA. intros p I. cbn [clone_pair fst snd]. split; [apply SL, in_map; auto|apply SR, IN; auto].
  Qed.
End Proofs.

Example C144_case : reachable env_parity 5 (gm1 env_parity) /\
  paired_rest env_parity (gm1 env_parity) (iter_paired (gm1 env_parity)) =
    Done [(it 8, it 10); (it 7, it 10); (it 6, it 30); (it 5, it 30); (it 2, it 30); (it 1, it 10)] /\
  (* six left and five right items, twelve calls; Clone numbers the copies *)
  (exists m' log, clone_run numbered numbered reseeded (gm1 env_parity) (10, []) = ((22, log), Some m') /\
     length log = 12%nat /\
     paired_rest env_parity m' (iter_paired m') =
       Done [((8, 10), (10, 20)); ((7, 11), (10, 20)); ((6, 12), (30, 19)); ((5, 13), (30, 19)); ((2, 14), (30, 19));
             ((1, 15), (10, 20))] /\
     hash_builder m' = 9) /\
  (* the copy of the fifth left item panics *)
  (exists log, clone_run numbered numbered reseeded (gm1 env_parity) (5, []) = ((10, log ++ [CloneL (2, 0) None]), None) /\
     length log = 4%nat).
Proof.
  split; [apply gm1_reachable; [simpl; auto|reflexivity]|]. split; [vm_compute; reflexivity|]. split.
  { do 2 eexists. split; [vm_compute; reflexivity|]. vm_compute. repeat split; reflexivity. }
  exists (firstn 4 (snd (fst (clone_run numbered numbered reseeded (gm1 env_parity) (5, []))))). vm_compute. auto.
Qed.

Print Assumptions C144_calls.
Print Assumptions C144_clone.
