(* Histories of public GroupMap calls, on the model and on the spec. *)
From Coq Require Import List NArith Lia Bool Permutation.
From Verif Require Import Closures Prelude RawTable GroupMap ListFacts GroupSpec.
Import ListNotations.
Open Scope N_scope.

(* One call of the public API.  Closures carry a captured state of any type X and may panic
   (verdict None).  Iterators are run to their end. *)
Inductive op (L R : Type) : Type :=
| Insert (l : L) (r : R)
| InsertRemove (l : L) (r : R)
| InsertLeft (l : L) (r : R)
| InsertRight (r : R)
| SwapRight (old new : R)
| SwapRightRemove (old new : R)
| Pair (l : L) (r : R)
| Remove (l : L) (r : R)
| RemoveLeft (l : L)
| RemoveRight (r : R)
| IsRightPaired (r : R)
| ArePaired (l : L) (r : R)
| ContainsLeft (l : L)
| ContainsRight (r : R)
| GetRight (l : L)
| GetLeftIter (r : R)
| IterAll
| IterPairedAll
| IterUnpairedAll
| IterLeftAll
| IterRightAll
| RetainPaired (X : Type) (f : X -> L * R -> X * verdict) (x : X)
| RetainUnpaired (X : Type) (f : X -> R -> X * verdict) (x : X)
| ExtendPairs (xs : list (L * R))
| Extend (xs : list (option L * R))
| Clear
| CloneSelf            (* continue with the clone *)
| LenLeft
| LenRight
| IsEmpty.
Arguments Insert {L R}. Arguments InsertRemove {L R}. Arguments InsertLeft {L R}.
Arguments InsertRight {L R}. Arguments SwapRight {L R}. Arguments SwapRightRemove {L R}.
Arguments Pair {L R}. Arguments Remove {L R}. Arguments RemoveLeft {L R}.
Arguments RemoveRight {L R}. Arguments IsRightPaired {L R}. Arguments ArePaired {L R}.
Arguments ContainsLeft {L R}. Arguments ContainsRight {L R}. Arguments GetRight {L R}.
Arguments GetLeftIter {L R}. Arguments IterAll {L R}. Arguments IterPairedAll {L R}.
Arguments IterUnpairedAll {L R}. Arguments IterLeftAll {L R}. Arguments IterRightAll {L R}.
Arguments RetainPaired {L R}. Arguments RetainUnpaired {L R}. Arguments ExtendPairs {L R}.
Arguments Extend {L R}. Arguments Clear {L R}. Arguments CloneSelf {L R}.
Arguments LenLeft {L R}. Arguments LenRight {L R}. Arguments IsEmpty {L R}.

(* What the caller sees. *)
Inductive out (L R : Type) : Type :=
| OUnit
| OPanic
| OBool (b : bool)
| ONat (n : nat)
| OL (l : option L)
| OR (r : option R)
| OGroup (g : option (list L * R))
| OInsRem (d : option L * option (list L * R))
| OLsO (o : option (list L))
| OItems (is : list (option L * R))
| OPairs (ps : list (L * R))
| OLs (ls : list L)
| ORs (rs : list R).
Arguments OUnit {L R}. Arguments OPanic {L R}. Arguments OBool {L R}. Arguments ONat {L R}.
Arguments OL {L R}. Arguments OR {L R}. Arguments OGroup {L R}. Arguments OInsRem {L R}.
Arguments OLsO {L R}. Arguments OItems {L R}. Arguments OPairs {L R}. Arguments OLs {L R}.
Arguments ORs {L R}.

Section Run.
  Context {L R S : Type}.
  Variable E : env L R S.
  Notation map := (gmap L R S).

  Definition via {A} (k : A -> out L R) (r : res map A) : map * out L R :=
    match r with Ret m a => (m, k a) | Panic m => (m, OPanic) end.
  Definition seen {A} (m : map) (k : A -> out L R) (o : outcome A) : map * out L R :=
    match o with Done a => (m, k a) | Panicked => (m, OPanic) end.
  Definition via_closure {X} (r : res (map * X) unit) : map * out L R :=
    match r with Ret mx _ => (fst mx, OUnit) | Panic mx => (fst mx, OPanic) end.

  Definition step (m : map) (o : op L R) : map * out L R :=
    match o with
    | Insert l r => via (fun _ => OUnit) (insert E l r m)
    | InsertRemove l r => via OInsRem (insert_remove E l r m)
    | InsertLeft l r => via OL (insert_left E l r m)
    | InsertRight r => via OGroup (insert_right E r m)
    | SwapRight old new => via (fun _ => OUnit) (swap_right E old new m)
    | SwapRightRemove old new => via OR (swap_right_remove E old new m)
    | Pair l r => via OBool (pair E l r m)
    | Remove l r => via OGroup (remove E l r m)
    | RemoveLeft l => via OL (remove_left E l m)
    | RemoveRight r => via OGroup (remove_right E r m)
    | IsRightPaired r => (m, OBool (is_right_paired E m r))
    | ArePaired l r => (m, OBool (are_paired E m l r))
    | ContainsLeft l => (m, OBool (contains_left E m l))
    | ContainsRight r => (m, OBool (contains_right E m r))
    | GetRight l => (m, OR (get_right E m l))
    | GetLeftIter r =>
        match get_left_iter E m r with
        | None => (m, OLsO None)
        | Some it => seen m (fun ls => OLsO (Some ls)) (pair_rest E m it)
        end
    | IterAll => seen m OItems (iter_rest E m (iter m))
    | IterPairedAll => seen m OPairs (paired_rest E m (iter_paired m))
    | IterUnpairedAll => seen m ORs (unpaired_rest (iter_unpaired m))
    | IterLeftAll => seen m OLs (left_rest (iter_left m))
    | IterRightAll => seen m ORs (right_rest (iter_right m))
    | RetainPaired X f x => via_closure (retain_paired E f (m, x))
    | RetainUnpaired X f x => via_closure (retain_unpaired E f (m, x))
    | ExtendPairs xs => via (fun _ => OUnit) (extend_pairs E xs m)
    | Extend xs => via (fun _ => OUnit) (extend E xs m)
    | Clear => via (fun _ => OUnit) (clear E m)
    | CloneSelf => (clone m, OUnit)
    | LenLeft => (m, ONat (len_left m))
    | LenRight => (m, ONat (len_right m))
    | IsEmpty => (m, OBool (is_empty m))
    end.

  Fixpoint run (m : map) (ops : list (op L R)) : map * list (out L R) :=
    match ops with
    | [] => (m, [])
    | o :: t => let (m', w) := step m o in
                let (m'', ws) := run m' t in (m'', w :: ws)
    end.

  (* upper bound on the ids a call takes from each of the two u64 counters *)
  Definition ids (o : op L R) : N :=
    match o with
    | Insert _ _ | InsertRemove _ _ | InsertLeft _ _ | InsertRight _ | SwapRight _ _
    | SwapRightRemove _ _ => 1
    | ExtendPairs xs => N.of_nat (length xs)
    | Extend xs => N.of_nat (length xs)
    | _ => 0
    end.
  Fixpoint budget (ops : list (op L R)) : N :=
    match ops with [] => 0 | o :: t => ids o + budget t end.

  (* every call of the history satisfies g in the state it is made in *)
  Fixpoint guarded (g : map -> op L R -> Prop) (m : map) (ops : list (op L R)) : Prop :=
    match ops with [] => True | o :: t => g m o /\ guarded g (fst (step m o)) t end.

  Definition item_op (x : option L * R) : op L R :=
    match fst x with Some l => Insert l (snd x) | None => InsertRight (snd x) end.
  Definition pair_op (x : L * R) : op L R := Insert (fst x) (snd x).
  (* extend is judged by the calls it makes *)
  Definition with_extend (g : map -> op L R -> Prop) (m : map) (o : op L R) : Prop :=
    match o with
    | ExtendPairs xs => guarded g m (List.map pair_op xs)
    | Extend xs => guarded g m (List.map item_op xs)
    | _ => g m o
    end.

  (* Calls that keep the map consistent:
     - insert(l,r): l, r are not paired together already; see C48.
     - swap_right(old,new), swap_right_remove(old,new): old has no left items, and new is not
       present (or is old itself, in swap_right_remove); see C50, C51.
     - retain_paired(f): f answers true to no pair of the map; see C56. *)
  Definition calm1 (m : map) (o : op L R) : Prop :=
    match o with
    | Insert l r => are_paired E m l r = false
    | SwapRight old new => contains_right E m old = true ->
        is_right_paired E m old = false /\ contains_right E m new = false
    | SwapRightRemove old new => contains_right E m old = true ->
        is_right_paired E m old = false /\ (contains_right E m new = false \/ eqR E old new = true)
    | RetainPaired X f x => forall Q y p, paired_rest E m (iter_paired m) = Done Q -> In p Q ->
        snd (f y p) <> Some true
    | _ => True
    end.
  Definition calm : map -> op L R -> Prop := with_extend calm1.

  (* Maps a user can obtain: any constructor (hasher s, unspecified initial layouts), then
     any calm history of calls, panics caught, and still [room] ids to go. *)
  Definition reachable (room : N) (m : map) : Prop :=
    exists s ll lr ops,
      budget ops + room < two64 /\ guarded calm (with_hasher s ll lr) ops /\
      m = fst (run (with_hasher s ll lr) ops).

  (* A wider class of histories, judged by what can be observed before each call: calls that
     follow the stored right id of l need [linked] (get_right finds a right item l is paired
     with), calls that walk the group of r need [clean] (get_left_iter(r) does not panic). *)
  Definition linked_at (m : map) (l : L) : Prop := contains_left E m l = true ->
    exists r, get_right E m l = Some r /\ are_paired E m l r = true.
  Definition clean_at (m : map) (r : R) : Prop :=
    forall it, get_left_iter E m r = Some it -> exists ls, pair_rest E m it = Done ls.
  Definition loose1 (m : map) (o : op L R) : Prop :=
    match o with
    | Insert l r => are_paired E m l r = false /\ linked_at m l
    | InsertRemove _ r | InsertRight r | RemoveRight r | IsRightPaired r | GetLeftIter r => clean_at m r
    | Remove l r => are_paired E m l r = true -> clean_at m r
    | Pair l r => contains_right E m r = true -> linked_at m l
    | GetRight l => linked_at m l
    | SwapRight old new =>
        if contains_right E m old
        then clean_at m old /\ contains_right E m new = false else clean_at m new
    | SwapRightRemove old new =>
        if contains_right E m old
        then clean_at m old /\ (contains_right E m new = false \/ eqR E old new = true)
        else clean_at m new
    | IterAll => (forall l, linked_at m l) /\ (forall r, clean_at m r)
    | IterPairedAll | RetainPaired _ _ _ => forall l, linked_at m l
    | IterUnpairedAll | RetainUnpaired _ _ _ => forall r, clean_at m r
    | _ => True
    end.
  Definition loose : map -> op L R -> Prop := with_extend loose1.
  (* calls that leave no dangling (hash, id) behind, and calls that leave no stale right id *)
  Definition tidy (m : map) (o : op L R) : Prop :=
    match o with
    | RetainPaired X f x => forall Q y p, paired_rest E m (iter_paired m) = Done Q -> In p Q ->
        snd (f y p) <> Some true
    | _ => True
    end.
  Definition steady (m : map) (o : op L R) : Prop :=
    match o with
    | SwapRight old _ | SwapRightRemove old _ =>
        contains_right E m old = true -> is_right_paired E m old = false
    | _ => True
    end.
  Definition loosely_reachable (room : N) (m : map) : Prop :=
    exists s ll lr ops,
      budget ops + room < two64 /\ guarded loose (with_hasher s ll lr) ops /\
      m = fst (run (with_hasher s ll lr) ops).
End Run.

(* The same calls on the hash-free contents. *)
Section SpecRun.
  Context {L R : Type} (eL : L -> L -> bool) (eR : R -> R -> bool).
  Notation contents := (contents L R).

  (* [s_step G o G' w]: call o on contents G may leave contents G' and return w.  The only
     freedom is the order in which iteration visits things (and that of a returned HashSet).
     retain_paired and retain_unpaired drop what the closure answers true to. *)
  Definition s_step (G : contents) (o : op L R) (G' : contents) (w : out L R) : Prop :=
    match o with
    | Insert l r => G' = s_insert eL eR G l r /\ w = OUnit
    | InsertRemove l r => G' = s_insert_remove eL eR G l r /\
        exists g, same_group g (snd (s_insert_remove_out eL eR G l r)) /\
          w = OInsRem (fst (s_insert_remove_out eL eR G l r), g)
    | InsertLeft l r => G' = s_insert_left eL eR G l r /\ w = OL (s_insert_left_out eL eR G l r)
    | InsertRight r => G' = s_insert_right eR G r /\
        exists g, same_group g (s_remove_right_out eR G r) /\ w = OGroup g
    | SwapRight old new => G' = s_swap_right eR G old new /\ w = OUnit
    | SwapRightRemove old new => G' = s_swap_right_remove eR G old new /\ w = OR (find_r eR G old)
    | Pair l r => G' = s_pair eL eR G l r /\ w = OBool (s_pair_out eL eR G l r)
    | Remove l r => G' = s_remove eL eR G l r /\
        exists g, same_group g (s_remove_out eL eR G l r) /\ w = OGroup g
    | RemoveLeft l => G' = s_remove_left eL G l /\ w = OL (s_remove_left_out eL G l)
    | RemoveRight r => G' = s_remove_right eR G r /\
        exists g, same_group g (s_remove_right_out eR G r) /\ w = OGroup g
    | IsRightPaired r => G' = G /\ w = OBool (s_is_right_paired eR G r)
    | ArePaired l r => G' = G /\ w = OBool (s_are_paired eL eR G l r)
    | ContainsLeft l => G' = G /\ w = OBool (s_contains_left eL G l)
    | ContainsRight r => G' = G /\ w = OBool (s_contains_right eR G r)
    | GetRight l => G' = G /\ w = OR (s_get_right eL G l)
    | GetLeftIter r => G' = G /\
        match s_get_left_iter eR G r with
        | None => w = OLsO None
        | Some g => exists Q, Permutation Q g /\ w = OLsO (Some Q)
        end
    | IterAll => G' = G /\ exists Q, Permutation Q (s_items eR G) /\ w = OItems Q
    | IterPairedAll => G' = G /\ exists Q, Permutation Q (g_pairs G) /\ w = OPairs Q
    | IterUnpairedAll => G' = G /\ exists Q, Permutation Q (s_unpaired eR G) /\ w = ORs Q
    | IterLeftAll => G' = G /\ exists Q, Permutation Q (List.map fst (g_pairs G)) /\ w = OLs Q
    | IterRightAll => G' = G /\ exists Q, Permutation Q (g_rights G) /\ w = ORs Q
    | RetainPaired X f x =>
        exists Q, Permutation Q (g_pairs G) /\
        let '(_, _, others, pn) := s_filter f x Q in
        if pn then G' = G /\ w = OPanic
        else G' = GC (g_rights G) others /\ w = OUnit
    | RetainUnpaired X f x =>
        exists Q, Permutation Q (s_unpaired eR G) /\
        let '(_, yes, _, pn) := s_filter f x Q in
        if pn then G' = G /\ w = OPanic
        else g_pairs G' = g_pairs G /\ Permutation (g_rights G) (yes ++ g_rights G') /\ w = OUnit
    | ExtendPairs xs =>
        G' = fold_left (fun G x => s_insert eL eR G (fst x) (snd x)) xs G /\ w = OUnit
    | Extend xs => G' = fold_left (s_insert_item eL eR) xs G /\ w = OUnit
    | Clear => G' = GC [] [] /\ w = OUnit
    | CloneSelf => G' = G /\ w = OUnit
    | LenLeft => G' = G /\ w = ONat (length (g_pairs G))
    | LenRight => G' = G /\ w = ONat (length (g_rights G))
    | IsEmpty => G' = G /\
        w = OBool (match g_rights G with [] => true | _ => false end)
    end.

  Inductive s_run : contents -> list (op L R) -> contents -> list (out L R) -> Prop :=
  | s_run_nil : forall G, s_run G [] G []
  | s_run_cons : forall G o G1 w ops G2 ws,
      s_step G o G1 w -> s_run G1 ops G2 ws -> s_run G (o :: ops) G2 (w :: ws).
End SpecRun.
