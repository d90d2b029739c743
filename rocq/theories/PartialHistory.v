(* Histories of public PartialCycleMap calls, on the model and on the list spec. *)
From Coq Require Import List NArith Lia Bool Permutation.
From Verif Require Import Closures Prelude RawTable Optionals PartialCycleMap ListFacts PartialSpec.
Import ListNotations.
Open Scope N_scope.

(* One call of the public API.  Closures carry a captured state of any type X and may panic
   (verdict None).
   [Drain n]: drain(), n calls of next, then the iterator is dropped.
   [DrainFilter f x n leak]: drain_filter(f), n calls of next, then the iterator is dropped
   (or leaked with mem::forget when leak = true).
   Leaking a DrainIter is left out. *)
Inductive op (L R : Type) : Type :=
| Insert (l : L) (r : R)
| InsertLeft (l : L)
| InsertRight (r : R)
| Pair (l : L) (r : R)
| PairForced (l : L) (r : R)
| PairForcedRemove (l : L) (r : R)
| Unpair (l : L) (r : R)
| Remove (l : L) (r : R)
| RemoveLeft (l : L)
| RemoveRight (r : R)
| RemoveViaLeft (l : L)
| RemoveViaRight (r : R)
| SwapLeft (old new : L)
| SwapLeftChecked (old : L) (expected : R) (new : L)
| SwapLeftOrInsert (old new : L) (to_insert : R)
| SwapRight (old new : R)
| SwapRightChecked (old : R) (expected : L) (new : R)
| SwapRightOrInsert (old new : R) (to_insert : L)
| ArePaired (l : L) (r : R)
| IsLeftPaired (l : L)
| IsRightPaired (r : R)
| ContainsLeft (l : L)
| ContainsRight (r : R)
| GetLeft (r : R)
| GetRight (l : L)
| LenLeft
| LenRight
| IsEmpty
| IterAll
| IterPairedAll
| IterUnpairedAll
| IterLeftAll
| IterRightAll
| ExtendPairs (xs : list (L * R))
| Extend (xs : list (optional_pair L R))
| Retain (X : Type) (f : X -> optional_pair L R -> X * verdict) (x : X)
| RetainPaired (X : Type) (f : X -> L * R -> X * verdict) (x : X)
| RetainUnpaired (X : Type) (f : X -> optional_pair L R -> X * verdict) (x : X)
| DrainN (n : nat)
| DrainFilter (X : Type) (f : X -> optional_pair L R -> X * verdict) (x : X) (n : nat) (leak : bool)
| Clear
| CloneSelf            (* continue with the clone *)
| ShrinkToLeft (n : N)
| ShrinkToRight (n : N)
| ShrinkToFit
| ReserveLeft (n : N)
| ReserveRight (n : N)
| TryReserveLeft (n : N)
| TryReserveRight (n : N).
Arguments Insert {L R}. Arguments InsertLeft {L R}. Arguments InsertRight {L R}.
Arguments Pair {L R}. Arguments PairForced {L R}. Arguments PairForcedRemove {L R}.
Arguments Unpair {L R}. Arguments Remove {L R}. Arguments RemoveLeft {L R}.
Arguments RemoveRight {L R}. Arguments RemoveViaLeft {L R}.
Arguments RemoveViaRight {L R}. Arguments SwapLeft {L R}. Arguments SwapLeftChecked {L R}.
Arguments SwapLeftOrInsert {L R}. Arguments SwapRight {L R}.
Arguments SwapRightChecked {L R}. Arguments SwapRightOrInsert {L R}.
Arguments ArePaired {L R}. Arguments IsLeftPaired {L R}. Arguments IsRightPaired {L R}.
Arguments ContainsLeft {L R}. Arguments ContainsRight {L R}.
Arguments GetLeft {L R}. Arguments GetRight {L R}. Arguments LenLeft {L R}. Arguments LenRight {L R}.
Arguments IsEmpty {L R}. Arguments IterAll {L R}. Arguments IterPairedAll {L R}.
Arguments IterUnpairedAll {L R}. Arguments IterLeftAll {L R}.
Arguments IterRightAll {L R}. Arguments ExtendPairs {L R}. Arguments Extend {L R}.
Arguments Retain {L R}. Arguments RetainPaired {L R}. Arguments RetainUnpaired {L R}.
Arguments DrainN {L R}. Arguments DrainFilter {L R}. Arguments Clear {L R}.
Arguments CloneSelf {L R}. Arguments ShrinkToLeft {L R}. Arguments ShrinkToRight {L R}.
Arguments ShrinkToFit {L R}. Arguments ReserveLeft {L R}. Arguments ReserveRight {L R}.
Arguments TryReserveLeft {L R}. Arguments TryReserveRight {L R}.

(* What the caller sees. *)
Inductive out (L R : Type) : Type :=
| OUnit
| OPanic
| OBool (b : bool)
| ONat (n : nat)
| OPair (p : option (L * R))
| OEntry (e : optional_pair L R)
| OIns (d : optional_pair L R * optional_pair L R)
| OSwapL (d : optional_pair L (optional_pair L R))
| OSwapR (d : optional_pair R (optional_pair L R))
| OL (l : option L)
| OR (r : option R)
| OPairs (ps : list (L * R))
| OEntries (es : list (optional_pair L R))
| OLs (ls : list L)
| ORs (rs : list R)
| OItems (is : list (option (optional_pair L R))) (panicked : bool).
Arguments OUnit {L R}. Arguments OPanic {L R}. Arguments OBool {L R}. Arguments ONat {L R}.
Arguments OPair {L R}. Arguments OEntry {L R}. Arguments OIns {L R}. Arguments OSwapL {L R}.
Arguments OSwapR {L R}. Arguments OL {L R}. Arguments OR {L R}. Arguments OPairs {L R}.
Arguments OEntries {L R}. Arguments OLs {L R}. Arguments ORs {L R}. Arguments OItems {L R}.

Section Run.
  Context {L R S : Type}.
  Variable E : env L R S.
  Notation map := (pmap L R S).

  Definition via {A} (k : A -> out L R) (r : res map A) : map * out L R :=
    match r with Ret m a => (m, k a) | Panic m => (m, OPanic) end.
  Definition seen {A} (m : map) (k : A -> out L R) (o : outcome A) : map * out L R :=
    match o with Done a => (m, k a) | Panicked => (m, OPanic) end.
  Definition via_closure {X} (r : res (map * X) unit) : map * out L R :=
    match r with Ret mx _ => (fst mx, OUnit) | Panic mx => (fst mx, OPanic) end.

  Definition step (m : map) (o : op L R) : map * out L R :=
    match o with
    | Insert l r => via OIns (insert E l r m)
    | InsertLeft l => via OEntry (insert_left E l m)
    | InsertRight r => via OEntry (insert_right E r m)
    | Pair l r => via OBool (pair E l r m)
    | PairForced l r => via OEntry (pair_forced E l r m)
    | PairForcedRemove l r => via OEntry (pair_forced_remove E l r m)
    | Unpair l r => via OBool (unpair E l r m)
    | Remove l r => via OPair (remove E l r m)
    | RemoveLeft l => via OL (remove_left E l m)
    | RemoveRight r => via OR (remove_right E r m)
    | RemoveViaLeft l => via OEntry (remove_via_left E l m)
    | RemoveViaRight r => via OEntry (remove_via_right E r m)
    | SwapLeft old new => via OSwapL (swap_left E old new m)
    | SwapLeftChecked old ex new => via OSwapL (swap_left_checked E old ex new m)
    | SwapLeftOrInsert old new ti => via OSwapL (swap_left_or_insert E old new ti m)
    | SwapRight old new => via OSwapR (swap_right E old new m)
    | SwapRightChecked old ex new => via OSwapR (swap_right_checked E old ex new m)
    | SwapRightOrInsert old new ti => via OSwapR (swap_right_or_insert E old new ti m)
    | ArePaired l r => (m, OBool (are_paired E m l r))
    | IsLeftPaired l => (m, OBool (is_left_paired E m l))
    | IsRightPaired r => (m, OBool (is_right_paired E m r))
    | ContainsLeft l => (m, OBool (contains_left E m l))
    | ContainsRight r => (m, OBool (contains_right E m r))
    | GetLeft r => (m, OL (get_left E m r))
    | GetRight l => (m, OR (get_right E m l))
    | LenLeft => (m, ONat (len_left m))
    | LenRight => (m, ONat (len_right m))
    | IsEmpty => (m, OBool (is_empty m))
    | IterAll => seen m OEntries (iter_all E m)
    | IterPairedAll => seen m OPairs (paired_rest E m (iter_paired m))
    | IterUnpairedAll => seen m OEntries (unpaired_rest (iter_unpaired m))
    | IterLeftAll => seen m OLs (collect single_next (single_len (iter_left m)) (iter_left m))
    | IterRightAll => seen m ORs (collect single_next (single_len (iter_right m)) (iter_right m))
    | ExtendPairs xs => via (fun _ => OUnit) (extend_pairs E xs m)
    | Extend xs => via (fun _ => OUnit) (extend E xs m)
    | Retain X f x => via_closure (retain E f (m, x))
    | RetainPaired X f x => via_closure (retain_paired E f (m, x))
    | RetainUnpaired X f x => via_closure (retain_unpaired E f (m, x))
    | DrainN n =>
        match drain_nexts E n (drain m) with
        | Ret d is =>
            match drain_drop E d with
            | Ret d' _ => (drain_end E m d', OItems is false)
            | Panic d' => (drain_end E m d', OItems is true)
            end
        | Panic d =>
            match drain_drop E d with Ret d' _ | Panic d' => (drain_end E m d', OPanic) end
        end
    | DrainFilter X f x n leak =>
        match df_nexts E f n (drain_filter m, x) with
        | Ret (d, x') is =>
            if leak then (df_end m d, OItems is false)
            else match df_drop E f (d, x') with
                 | Ret (d', _) _ => (df_end m d', OItems is false)
                 | Panic (d', _) => (df_end m d', OItems is true)
                 end
        | Panic (d, x') =>
            (* the panic unwinds through the iterator, whose Drop runs *)
            match df_drop E f (d, x') with
            | Ret (d', _) _ | Panic (d', _) => (df_end m d', OPanic)
            end
        end
    | Clear => via (fun _ => OUnit) (clear E m)
    | CloneSelf => (clone m, OUnit)
    | ShrinkToLeft n => via (fun _ => OUnit) (shrink_to_left E n m)
    | ShrinkToRight n => via (fun _ => OUnit) (shrink_to_right E n m)
    | ShrinkToFit => via (fun _ => OUnit) (shrink_to_fit E m)
    | ReserveLeft n => via (fun _ => OUnit) (reserve_left E n m)
    | ReserveRight n => via (fun _ => OUnit) (reserve_right E n m)
    | TryReserveLeft n => via OBool (try_reserve_left E n m)
    | TryReserveRight n => via OBool (try_reserve_right E n m)
    end.

  Fixpoint run (m : map) (ops : list (op L R)) : map * list (out L R) :=
    match ops with
    | [] => (m, [])
    | o :: t => let (m', w) := step m o in
                let (m'', ws) := run m' t in (m'', w :: ws)
    end.

  (* upper bound on the ids a call takes from the u64 counter *)
  Definition ids (o : op L R) : N :=
    match o with
    | Insert _ _ | InsertLeft _ | InsertRight _ | PairForced _ _ | PairForcedRemove _ _
    | Unpair _ _ | SwapLeftOrInsert _ _ _ | SwapRightOrInsert _ _ _ => 1
    | ExtendPairs xs => N.of_nat (length xs)
    | Extend xs => N.of_nat (length xs)
    | _ => 0
    end.
  Fixpoint budget (ops : list (op L R)) : N :=
    match ops with [] => 0 | o :: t => ids o + budget t end.

  (* Calls that keep the map consistent.
     - unpair(l,r): not both hashes compared by the code collide with those of the partners
       (unless l and r are paired together); see C32.
     - drain_filter(f): f does not answer true to the SomeRight of a paired item; see C40. *)
  Definition guard (m : map) (o : op L R) : Prop :=
    match o with
    | Unpair l r => forall a' b', get_right E m l = Some b' -> get_left E m r = Some a' ->
        hashL E (hash_builder m) a' = hashL E (hash_builder m) l ->
        hashR E (hash_builder m) b' = hashR E (hash_builder m) r ->
        are_paired E m l r = true
    | DrainFilter X f x n leak => forall Q y l r, iter_all E m = Done Q -> In (SomeBoth l r) Q ->
        snd (f y (SomeRight r)) <> Some true
    | _ => True
    end.
  Fixpoint guarded (m : map) (ops : list (op L R)) : Prop :=
    match ops with [] => True | o :: t => guard m o /\ guarded (fst (step m o)) t end.

  (* Maps a user can obtain: any constructor (hasher s, unspecified initial layouts), then
     any guarded history of calls, panics caught, and still [room] ids to go. *)
  Definition reachable (room : N) (m : map) : Prop :=
    exists s ll lr ops,
      budget ops + room < two64 /\ guarded (with_hasher s ll lr) ops /\
      m = fst (run (with_hasher s ll lr) ops).
End Run.

(* The same calls on a list of entries. *)
Section SpecRun.
  Context {L R : Type} (eL : L -> L -> bool) (eR : R -> R -> bool).
  Notation entry := (optional_pair L R).
  Notation entries := (list entry).

  (* [s_step P o P' w]: call o on contents P may leave contents P' and return w.  The only
     freedom is the order Q (W) in which iteration visits the left (right) table, which
     unpaired right item drain yields, whether try_reserve succeeds. *)
  Definition s_step (P : entries) (o : op L R) (P' : entries) (w : out L R) : Prop :=
    match o with
    | Insert l r => P' = s_insert eL eR P l r /\ w = OIns (s_insert_out eL eR P l r)
    | InsertLeft l => P' = s_insert_left eL P l /\ w = OEntry (or_neither (find_l eL P l))
    | InsertRight r => P' = s_insert_right eR P r /\ w = OEntry (or_neither (find_r eR P r))
    | Pair l r => P' = s_pair eL eR P l r /\ w = OBool (s_pair_out eL eR P l r)
    | PairForced l r => P' = s_pair_forced eL eR P l r /\ w = OEntry (s_pair_forced_out eL eR P l r)
    | PairForcedRemove l r =>
        P' = s_pair_forced_remove eL eR P l r /\ w = OEntry (s_pair_forced_out eL eR P l r)
    | Unpair l r => P' = s_unpair eL eR P l r /\ w = OBool (s_are_paired eL eR P l r)
    | Remove l r => P' = s_remove eL eR P l r /\ w = OPair (s_remove_out eL eR P l r)
    | RemoveLeft l => P' = s_remove_left eL P l /\ w = OL (s_remove_left_out eL P l)
    | RemoveRight r => P' = s_remove_right eR P r /\ w = OR (s_remove_right_out eR P r)
    | RemoveViaLeft l => P' = del_l eL P l /\ w = OEntry (or_neither (find_l eL P l))
    | RemoveViaRight r => P' = del_r eR P r /\ w = OEntry (or_neither (find_r eR P r))
    | SwapLeft old new =>
        P' = s_swap_left eL P old new /\ w = OSwapL (s_swap_left_out eL P old new)
    | SwapLeftChecked old ex new =>
        if s_are_paired eL eR P old ex
        then P' = s_swap_left eL P old new /\ w = OSwapL (s_swap_left_out eL P old new)
        else P' = P /\ w = OSwapL Neither
    | SwapLeftOrInsert old new ti =>
        if s_contains_left eL P old
        then P' = s_swap_left eL P old new /\ w = OSwapL (s_swap_left_out eL P old new)
        else P' = s_insert eL eR P new ti /\
             w = if s_contains_left eL P new then OPanic
                 else OSwapL (op_from_pair (None, find_r eR P ti))
    | SwapRight old new =>
        P' = s_swap_right eR P old new /\ w = OSwapR (s_swap_right_out eR P old new)
    | SwapRightChecked old ex new =>
        if s_are_paired eL eR P ex old
        then P' = s_swap_right eR P old new /\ w = OSwapR (s_swap_right_out eR P old new)
        else P' = P /\ w = OSwapR Neither
    | SwapRightOrInsert old new ti =>
        if s_contains_right eR P old
        then P' = s_swap_right eR P old new /\ w = OSwapR (s_swap_right_out eR P old new)
        else P' = s_insert eL eR P ti new /\
             w = if s_contains_right eR (del_l eL P ti) new then OPanic
                 else OSwapR (op_from_pair (None, find_l eL P ti))
    | ArePaired l r => P' = P /\ w = OBool (s_are_paired eL eR P l r)
    | IsLeftPaired l => P' = P /\ w = OBool (s_is_left_paired eL P l)
    | IsRightPaired r => P' = P /\ w = OBool (s_is_right_paired eR P r)
    | ContainsLeft l => P' = P /\ w = OBool (s_contains_left eL P l)
    | ContainsRight r => P' = P /\ w = OBool (s_contains_right eR P r)
    | GetLeft r => P' = P /\ w = OL (s_get_left eR P r)
    | GetRight l => P' = P /\ w = OR (s_get_right eL P l)
    | LenLeft => P' = P /\ w = ONat (length (lefts P))
    | LenRight => P' = P /\ w = ONat (length (rights P))
    | IsEmpty => P' = P /\ w = OBool (match P with [] => true | _ => false end)
    | IterAll => P' = P /\ exists Q, Permutation Q (filter has_left_item P) /\ w = OEntries Q
    | IterPairedAll => P' = P /\ exists Q, Permutation Q (s_pairs P) /\ w = OPairs Q
    | IterUnpairedAll => P' = P /\ exists Q, Permutation Q (s_unpaired P) /\ w = OEntries Q
    | IterLeftAll => P' = P /\ exists Q, Permutation Q (lefts P) /\ w = OLs Q
    | IterRightAll => P' = P /\ exists Q, Permutation Q (rights P) /\ w = ORs Q
    | ExtendPairs xs =>
        P' = fold_left (fun P x => s_insert eL eR P (fst x) (snd x)) xs P /\ w = OUnit
    | Extend xs => P' = fold_left (s_insert_entry eL eR) xs P /\ w = OUnit
    | Retain X f x =>
        exists Q, Permutation Q (filter has_left_item P) /\
        let '(_, _, others, pn) := s_filter f x Q in
        if pn then P' = P /\ w = OPanic
        else P' = others ++ filter (fun e => negb (has_left_item e)) P /\ w = OUnit
    | RetainPaired X f x =>
        exists Q, Permutation Q (s_pairs P) /\
        let '(_, _, others, pn) := s_filter f x Q in
        if pn then P' = P /\ w = OPanic
        else P' = List.map (fun p => SomeBoth (fst p) (snd p)) others ++ s_unpaired P /\ w = OUnit
    | RetainUnpaired X f x =>
        exists Q, Permutation Q (s_unpaired P) /\
        let '(_, _, others, pn) := s_filter f x Q in
        if pn then P' = P /\ w = OPanic
        else P' = others ++ filter is_both P /\ w = OUnit
    | DrainN n =>
        P' = [] /\
        exists Q y, Permutation Q (filter has_left_item P) /\
          incl y (filter (fun e => negb (has_left_item e)) P) /\
          length y = Nat.min 1 (length (filter (fun e => negb (has_left_item e)) P)) /\
          w = OItems (firstn n (List.map Some (Q ++ y)) ++ repeat None (n - length (Q ++ y))) false
    | DrainFilter X f x n leak =>
        exists Q W, Permutation Q (filter has_left_item P) /\
          Permutation W (filter (fun e => is_some (op_get_right e)) P) /\
        let visits := List.map VE Q ++ List.map VR W in
        let '(_, taken, others, pn) := s_filter (on_visit eR f) (x, []) visits in
        if pn && Nat.ltb (length taken) n then
          P' = flat_map keep (s_unwind (on_visit eR f) (x, []) visits) /\ w = OPanic
        else if leak then
          Permutation (firstn n (List.map shown taken) ++ P') P /\
          w = OItems (firstn n (List.map Some (List.map shown taken)) ++ repeat None (n - length taken)) false
        else
          P' = flat_map keep others /\
          w = OItems (firstn n (List.map Some (List.map shown taken)) ++ repeat None (n - length taken)) pn
    | Clear => P' = [] /\ w = OUnit
    | CloneSelf | ShrinkToLeft _ | ShrinkToRight _ | ShrinkToFit | ReserveLeft _ | ReserveRight _ =>
        P' = P /\ w = OUnit
    | TryReserveLeft _ | TryReserveRight _ => P' = P /\ exists b, w = OBool b
    end.

  Inductive s_run : entries -> list (op L R) -> entries -> list (out L R) -> Prop :=
  | s_run_nil : forall P, s_run P [] P []
  | s_run_cons : forall P o P1 w ops P2 ws,
      s_step P o P1 w -> s_run P1 ops P2 ws -> s_run P (o :: ops) P2 (w :: ws).
End SpecRun.
