(* Histories of public CycleMap calls, on the model and on the list spec. *)
From Coq Require Import List NArith Lia Bool Permutation.
From Verif Require Import Closures Prelude RawTable Optionals CycleMap ListFacts CycleMapSpec.
Import ListNotations.
Open Scope N_scope.

(* One call of the public API.  Closures (retain, drain_filter) carry a captured state of
   any type X and may panic (verdict None).
   [DrainAll]: drain() consumed by a for loop (next until None), then dropped.
   [DrainFilter f x n leak]: drain_filter(f), n calls of next, then the iterator is dropped
   (or leaked with mem::forget when leak = true). *)
Inductive op (L R : Type) : Type :=
| Insert (l : L) (r : R)
| Remove (l : L) (r : R)
| RemoveViaLeft (l : L)
| RemoveViaRight (r : R)
| SwapLeft (old new : L)
| SwapLeftChecked (old : L) (expected : R) (new : L)
| SwapLeftOrInsert (old new : L) (to_insert : R)
| SwapRight (old new : R)
| SwapRightChecked (old : R) (expected : L) (new : R)
| SwapRightOrInsert (old new : R) (to_insert : L)
| ArePaired (l : L) (r : R)
| ContainsLeft (l : L)
| ContainsRight (r : R)
| GetLeft (r : R)
| GetRight (l : L)
| Len
| IsEmpty
| IterAll
| IterLeftAll
| IterRightAll
| Extend (xs : list (L * R))
| Retain (X : Type) (f : X -> L -> R -> X * verdict) (x : X)
| DrainAll
| DrainFilter (X : Type) (f : X -> L -> R -> X * verdict) (x : X) (n : nat) (leak : bool)
| Clear
| CloneSelf            (* continue with the clone *)
| ShrinkTo (n : N)
| ShrinkToFit
| Reserve (n : N)
| TryReserve (n : N).
Arguments Insert {L R}. Arguments Remove {L R}. Arguments RemoveViaLeft {L R}.
Arguments RemoveViaRight {L R}. Arguments SwapLeft {L R}. Arguments SwapLeftChecked {L R}.
Arguments SwapLeftOrInsert {L R}. Arguments SwapRight {L R}.
Arguments SwapRightChecked {L R}. Arguments SwapRightOrInsert {L R}.
Arguments ArePaired {L R}. Arguments ContainsLeft {L R}. Arguments ContainsRight {L R}.
Arguments GetLeft {L R}. Arguments GetRight {L R}. Arguments Len {L R}.
Arguments IsEmpty {L R}. Arguments IterAll {L R}. Arguments IterLeftAll {L R}.
Arguments IterRightAll {L R}. Arguments Extend {L R}. Arguments Retain {L R}.
Arguments DrainAll {L R}. Arguments DrainFilter {L R}. Arguments Clear {L R}.
Arguments CloneSelf {L R}. Arguments ShrinkTo {L R}. Arguments ShrinkToFit {L R}.
Arguments Reserve {L R}. Arguments TryReserve {L R}.

(* What the caller sees. *)
Inductive out (L R : Type) : Type :=
| OUnit
| OPanic
| OBool (b : bool)
| ONat (n : nat)
| OPair (p : option (L * R))
| OIns (d : insert_optional L R)
| OSwapL (d : optional_pair L (L * R))
| OSwapR (d : optional_pair R (L * R))
| OL (l : option L)
| OR (r : option R)
| OPairs (ps : list (L * R))
| OLs (ls : list L)
| ORs (rs : list R)
| OItems (is : list (option (L * R))) (panicked : bool).
Arguments OUnit {L R}. Arguments OPanic {L R}. Arguments OBool {L R}. Arguments ONat {L R}.
Arguments OPair {L R}. Arguments OIns {L R}. Arguments OSwapL {L R}. Arguments OSwapR {L R}.
Arguments OL {L R}. Arguments OR {L R}. Arguments OPairs {L R}. Arguments OLs {L R}.
Arguments ORs {L R}. Arguments OItems {L R}.

Section Run.
  Context {L R S : Type}.
  Variable E : env L R S.
  Notation map := (cmap L R S).

  Definition via {A} (k : A -> out L R) (r : res map A) : map * out L R :=
    match r with Ret m a => (m, k a) | Panic m => (m, OPanic) end.
  Definition seen {A} (m : map) (k : A -> out L R) (o : outcome A) : map * out L R :=
    match o with Done a => (m, k a) | Panicked => (m, OPanic) end.

  Definition step (m : map) (o : op L R) : map * out L R :=
    match o with
    | Insert l r => via OIns (insert E l r m)
    | Remove l r => via OPair (remove E l r m)
    | RemoveViaLeft l => via OPair (remove_via_left E l m)
    | RemoveViaRight r => via OPair (remove_via_right E r m)
    | SwapLeft old new => via OSwapL (swap_left E old new m)
    | SwapLeftChecked old ex new => via OSwapL (swap_left_checked E old ex new m)
    | SwapLeftOrInsert old new ti => via OSwapL (swap_left_or_insert E old new ti m)
    | SwapRight old new => via OSwapR (swap_right E old new m)
    | SwapRightChecked old ex new => via OSwapR (swap_right_checked E old ex new m)
    | SwapRightOrInsert old new ti => via OSwapR (swap_right_or_insert E old new ti m)
    | ArePaired l r => (m, OBool (are_paired E m l r))
    | ContainsLeft l => (m, OBool (contains_left E m l))
    | ContainsRight r => (m, OBool (contains_right E m r))
    | GetLeft r => (m, OL (get_left E m r))
    | GetRight l => (m, OR (get_right E m l))
    | Len => (m, ONat (len m))
    | IsEmpty => (m, OBool (is_empty m))
    | IterAll => seen m OPairs (iter_all E m)
    | IterLeftAll => seen m OLs (collect single_next (single_len (iter_left m)) (iter_left m))
    | IterRightAll => seen m ORs (collect single_next (single_len (iter_right m)) (iter_right m))
    | Extend xs => via (fun _ => OUnit) (extend E xs m)
    | Retain X f x =>
        match retain E f (m, x) with
        | Ret (m', _) _ => (m', OUnit)
        | Panic (m', _) => (m', OPanic)
        end
    | DrainAll =>
        match drain_nexts E (Datatypes.S (len m)) (drain m) with
        | Ret d is => (drain_end E m d, OItems is false)
        | Panic d => (drain_end E m d, OPanic)
        end
    | DrainFilter X f x n leak =>
        match df_nexts E f n (drain_filter m, x) with
        | Ret (d, x') is =>
            if leak then (df_end m d, OItems is false)
            else match df_drop E f (d, x') with
                 | Ret (d', _) _ => (df_end m d', OItems is false)
                 | Panic (d', _) => (df_end m d', OItems is true)
                 end
        | Panic (d, x') =>
            (* the panic unwinds through the iterator, whose Drop runs *)
            match df_drop E f (d, x') with
            | Ret (d', _) _ | Panic (d', _) => (df_end m d', OPanic)
            end
        end
    | Clear => via (fun _ => OUnit) (clear E m)
    | CloneSelf => (clone m, OUnit)
    | ShrinkTo n => via (fun _ => OUnit) (shrink_to E n m)
    | ShrinkToFit => via (fun _ => OUnit) (shrink_to_fit E m)
    | Reserve n => via (fun _ => OUnit) (reserve E n m)
    | TryReserve n => via OBool (try_reserve E n m)
    end.

  Fixpoint run (m : map) (ops : list (op L R)) : map * list (out L R) :=
    match ops with
    | [] => (m, [])
    | o :: t => let (m', w) := step m o in
                let (m'', ws) := run m' t in (m'', w :: ws)
    end.

  (* upper bound on the ids a call takes from the u64 counter *)
  Definition ids (o : op L R) : N :=
    match o with
    | Insert _ _ | SwapLeftOrInsert _ _ _ | SwapRightOrInsert _ _ _ => 1
    | Extend xs => N.of_nat (length xs)
    | _ => 0
    end.
  Fixpoint budget (ops : list (op L R)) : N :=
    match ops with [] => 0 | o :: t => ids o + budget t end.

  (* Maps a user can obtain: any constructor (hasher s, unspecified initial layouts), then
     any history of calls, panics caught, and still [room] ids to go.  drain() is only used
     to the end (DrainAll); for the other uses see C15. *)
  Definition reachable (room : N) (m : map) : Prop :=
    exists s ll lr ops,
      budget ops + room < two64 /\ m = fst (run (with_hasher s ll lr) ops).
End Run.

(* The same calls on a list of pairs. *)
Section SpecRun.
  Context {L R : Type} (eL : L -> L -> bool) (eR : R -> R -> bool).
  Notation pairs := (list (L * R)).

  Definition s_insert_all (P xs : pairs) : pairs :=
    fold_left (fun P x => s_insert eL eR P (fst x) (snd x)) xs P.

  Definition uncurried {X} (f : X -> L -> R -> X * verdict) (x : X) (p : L * R)
    : X * option bool := f x (fst p) (snd p).

  (* [s_step P o P' w]: call o on contents P may leave contents P' and return w.  The only
     freedom is the order Q in which iteration visits the pairs, whether try_reserve
     succeeds. *)
  Definition s_step (P : pairs) (o : op L R) (P' : pairs) (w : out L R) : Prop :=
    match o with
    | Insert l r => P' = s_insert eL eR P l r /\ w = OIns (s_insert_out eL eR P l r)
    | Remove l r => P' = s_remove eL eR P l r /\ w = OPair (s_remove_out eL eR P l r)
    | RemoveViaLeft l => P' = del_l eL P l /\ w = OPair (find_l eL P l)
    | RemoveViaRight r => P' = del_r eR P r /\ w = OPair (find_r eR P r)
    | SwapLeft old new =>
        P' = s_swap_left eL P old new /\ w = OSwapL (s_swap_left_out eL P old new)
    | SwapLeftChecked old ex new =>
        if s_are_paired eL eR P old ex
        then P' = s_swap_left eL P old new /\ w = OSwapL (s_swap_left_out eL P old new)
        else P' = P /\ w = OSwapL Neither
    | SwapLeftOrInsert old new ti =>
        if s_contains_left eL P old
        then P' = s_swap_left eL P old new /\ w = OSwapL (s_swap_left_out eL P old new)
        else P' = s_insert eL eR P new ti /\
             w = OSwapL (op_map_left fst (s_insert_out eL eR P new ti))
    | SwapRight old new =>
        P' = s_swap_right eR P old new /\ w = OSwapR (s_swap_right_out eR P old new)
    | SwapRightChecked old ex new =>
        if s_are_paired eL eR P ex old
        then P' = s_swap_right eR P old new /\ w = OSwapR (s_swap_right_out eR P old new)
        else P' = P /\ w = OSwapR Neither
    | SwapRightOrInsert old new ti =>
        if s_contains_right eR P old
        then P' = s_swap_right eR P old new /\ w = OSwapR (s_swap_right_out eR P old new)
        else P' = s_insert eL eR P ti new /\
             w = if s_contains_left eL P ti then OPanic
                 else OSwapR (match find_r eR P new with
                              | Some p => SomeRight p | None => Neither end)
    | ArePaired l r => P' = P /\ w = OBool (s_are_paired eL eR P l r)
    | ContainsLeft l => P' = P /\ w = OBool (s_contains_left eL P l)
    | ContainsRight r => P' = P /\ w = OBool (s_contains_right eR P r)
    | GetLeft r => P' = P /\ w = OL (s_get_left eR P r)
    | GetRight l => P' = P /\ w = OR (s_get_right eL P l)
    | Len => P' = P /\ w = ONat (length P)
    | IsEmpty => P' = P /\ w = OBool (match P with [] => true | _ => false end)
    | IterAll => P' = P /\ exists Q, Permutation Q P /\ w = OPairs Q
    | IterLeftAll => P' = P /\ exists Q, Permutation Q P /\ w = OLs (List.map fst Q)
    | IterRightAll => P' = P /\ exists Q, Permutation Q P /\ w = ORs (List.map snd Q)
    | Extend xs => P' = s_insert_all P xs /\ w = OUnit
    | Retain X f x =>
        exists Q, Permutation Q P /\
        let '(_, yes, _, pn) := s_filter (uncurried f) x Q in
        if pn then P' = P /\ w = OPanic else P' = yes /\ w = OUnit
    | DrainAll =>
        P' = [] /\ exists Q, Permutation Q P /\ w = OItems (List.map Some Q ++ [None]) false
    | DrainFilter X f x n leak =>
        exists Q, Permutation Q P /\
        let '(_, taken, others, pn) := s_filter (uncurried f) x Q in
        if pn && Nat.ltb (length taken) n then
          P' = s_unwind (uncurried f) x Q /\ w = OPanic
        else if leak then
          Permutation (firstn n taken ++ P') P /\
          w = OItems (firstn n (List.map Some taken) ++ repeat None (n - length taken)) false
        else
          P' = others /\
          w = OItems (firstn n (List.map Some taken) ++ repeat None (n - length taken)) pn
    | Clear => P' = [] /\ w = OUnit
    | CloneSelf | ShrinkTo _ | ShrinkToFit | Reserve _ => P' = P /\ w = OUnit
    | TryReserve _ => P' = P /\ exists b, w = OBool b
    end.

  Inductive s_run : pairs -> list (op L R) -> pairs -> list (out L R) -> Prop :=
  | s_run_nil : forall P, s_run P [] P []
  | s_run_cons : forall P o P1 w ops P2 ws,
      s_step P o P1 w -> s_run P1 ops P2 ws -> s_run P (o :: ops) P2 (w :: ws).
End SpecRun.
