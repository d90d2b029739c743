(* Hash-free specification of a bijective map: a list of pairs, order irrelevant.
   No hashes, ids, tables or counters.  [eL], [eR] are the Eq of the items. *)
From Coq Require Import List NArith Bool Permutation.
From Verif Require Import Optionals ListFacts.
Import ListNotations.

Section Spec.
  Context {L R : Type} (eL : L -> L -> bool) (eR : R -> R -> bool).
  Implicit Types (P : list (L * R)) (l : L) (r : R).

  (* no left item twice, no right item twice *)
  Definition bijective P : Prop := distinct eL (map fst P) /\ distinct eR (map snd P).

  (* the stored pair holding an item equal to l / r *)
  Definition find_l P l : option (L * R) := find (fun p => eL l (fst p)) P.
  Definition find_r P r : option (L * R) := find (fun p => eR r (snd p)) P.
  (* the pairs not holding an item equal to l / r *)
  Definition del_l P l : list (L * R) := filter (fun p => negb (eL l (fst p))) P.
  Definition del_r P r : list (L * R) := filter (fun p => negb (eR r (snd p))) P.

  Definition s_get_right P l : option R := option_map snd (find_l P l).
  Definition s_get_left P r : option L := option_map fst (find_r P r).
  Definition s_contains_left P l : bool := existsb (fun p => eL l (fst p)) P.
  Definition s_contains_right P r : bool := existsb (fun p => eR r (snd p)) P.
  Definition s_are_paired P l r : bool := existsb (fun p => eL l (fst p) && eR r (snd p)) P.

  (* the pair of l, then what is left of the pair of r; then the new pair *)
  Definition s_insert P l r : list (L * R) := (l, r) :: del_r (del_l P l) r.
  Definition s_insert_out P l r : insert_optional L R :=
    op_from_pair (find_l P l, find_r (del_l P l) r).

  Definition s_remove P l r : list (L * R) := if s_are_paired P l r then del_l P l else P.
  Definition s_remove_out P l r : option (L * R) :=
    if s_are_paired P l r then find_l P l else None.

  (* swap_left: what the code does.  The pair of [new] goes first (unless new equals old),
     also when [old] turns out to be absent. *)
  Definition s_swap_left_evict P (old new : L) : option (L * R) :=
    if eL new old then None else find_l P new.
  Definition s_swap_left_base P (old new : L) : list (L * R) :=
    if eL new old then P else del_l P new.
  Definition s_swap_left P old new : list (L * R) :=
    match find_l P old with
    | Some (_, r) => (new, r) :: del_l (s_swap_left_base P old new) old
    | None => s_swap_left_base P old new
    end.
  Definition s_swap_left_out P old new : optional_pair L (L * R) :=
    match find_l P old with
    | Some (l, _) => op_from_pair (Some l, s_swap_left_evict P old new)
    | None => Neither
    end.

  Definition s_swap_right_evict P (old new : R) : option (L * R) :=
    if eR new old then None else find_r P new.
  Definition s_swap_right_base P (old new : R) : list (L * R) :=
    if eR new old then P else del_r P new.
  Definition s_swap_right P old new : list (L * R) :=
    match find_r P old with
    | Some (l, _) => (l, new) :: del_r (s_swap_right_base P old new) old
    | None => s_swap_right_base P old new
    end.
  Definition s_swap_right_out P old new : optional_pair R (L * R) :=
    match find_r P old with
    | Some (_, r) => op_from_pair (Some r, s_swap_right_evict P old new)
    | None => Neither
    end.

  (* same pairs up to Eq *)
  Definition same_pairs P P' : Prop :=
    (forall p, In p P -> exists p', In p' P' /\ eL (fst p) (fst p') = true /\ eR (snd p) (snd p') = true) /\
    (forall p', In p' P' -> exists p, In p P /\ eL (fst p) (fst p') = true /\ eR (snd p) (snd p') = true).
End Spec.
