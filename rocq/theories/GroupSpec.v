(* Hash-free specification of a GroupMap: the right items, and the pairs (left item, right
   item).  The order of both lists is irrelevant.  No hashes, ids, tables or counters.
   [eL], [eR] are the Eq of the items. *)
From Coq Require Import List Bool Permutation.
From Verif Require Import ListFacts.
Import ListNotations.

Record contents (L R : Type) := GC { g_rights : list R; g_pairs : list (L * R) }.
Arguments GC {L R} _ _.
Arguments g_rights {L R} _.
Arguments g_pairs {L R} _.

Section GSpec.
  Context {L R : Type} (eL : L -> L -> bool) (eR : R -> R -> bool).
  Notation contents := (contents L R).
  Implicit Types (G : contents).

  (* no left item twice, no right item twice, every left item belongs to a right item *)
  Definition grouping G : Prop :=
    distinct eL (map fst (g_pairs G)) /\ distinct eR (g_rights G) /\
    forall p, In p (g_pairs G) -> In (snd p) (g_rights G).

  Definition same G G' : Prop :=
    Permutation (g_rights G) (g_rights G') /\ Permutation (g_pairs G) (g_pairs G').

  Definition is_l (l : L) (p : L * R) : bool := eL l (fst p).
  Definition is_r (r : R) (p : L * R) : bool := eR r (snd p).

  Definition find_l G (l : L) : option (L * R) := find (is_l l) (g_pairs G).
  Definition find_r G (r : R) : option R := find (eR r) (g_rights G).
  (* the pairs of the other left items *)
  Definition del_l G (l : L) : list (L * R) := filter (fun p => negb (is_l l p)) (g_pairs G).
  (* the left items belonging to r *)
  Definition group G (r : R) : list L := map fst (filter (is_r r) (g_pairs G)).

  Definition s_get_right G l : option R := option_map snd (find_l G l).
  Definition s_get_left_iter G r : option (list L) := option_map (fun _ => group G r) (find_r G r).
  Definition s_contains_left G l : bool := existsb (is_l l) (g_pairs G).
  Definition s_contains_right G r : bool := existsb (eR r) (g_rights G).
  Definition s_are_paired G l r : bool := existsb (fun p => is_l l p && is_r r p) (g_pairs G).
  Definition s_is_right_paired G r : bool := existsb (is_r r) (g_pairs G).

  (* stored items equal to the arguments are kept *)
  Definition stored_l G l : L := match find_l G l with Some p => fst p | None => l end.
  Definition stored_r G r : R := match find_r G r with Some b => b | None => r end.
  Definition s_insert G l r : contents :=
    GC (if s_contains_right G r then g_rights G else r :: g_rights G)
       ((stored_l G l, stored_r G r) :: del_l G l).

  Definition s_remove_left G l : contents := GC (g_rights G) (del_l G l).
  Definition s_remove_left_out G l : option L := option_map fst (find_l G l).

  Definition s_remove_right G r : contents :=
    GC (filter (fun b => negb (eR r b)) (g_rights G))
       (filter (fun p => negb (is_r r p)) (g_pairs G)).
  Definition s_remove_right_out G r : option (list L * R) :=
    option_map (fun b => (group G r, b)) (find_r G r).

  Definition s_remove G l r : contents := if s_are_paired G l r then s_remove_right G r else G.
  Definition s_remove_out G l r : option (list L * R) :=
    if s_are_paired G l r then s_remove_right_out G r else None.

  Definition s_insert_remove G l r : contents :=
    let G' := s_remove_right (s_remove_left G l) r in
    GC (r :: g_rights G') ((l, r) :: g_pairs G').
  Definition s_insert_remove_out G l r : option L * option (list L * R) :=
    (s_remove_left_out G l, s_remove_right_out (s_remove_left G l) r).

  Definition s_insert_left G l r : contents :=
    match find_r G r with
    | Some b => GC (g_rights G) ((l, b) :: del_l G l)
    | None => G
    end.
  Definition s_insert_left_out G l r : option L :=
    match find_r G r with Some _ => s_remove_left_out G l | None => None end.

  Definition s_insert_right G r : contents :=
    let G' := s_remove_right G r in GC (r :: g_rights G') (g_pairs G').

  Definition s_pair G l r : contents :=
    match find_l G l, find_r G r with
    | Some p, Some b => GC (g_rights G) ((fst p, b) :: del_l G l)
    | _, _ => G
    end.
  Definition s_pair_out G l r : bool := s_contains_left G l && s_contains_right G r.

  (* the pairs of old now belong to new *)
  Definition repaired G (old new : R) : list (L * R) :=
    map (fun p => if is_r old p then (fst p, new) else p) (g_pairs G).
  Definition s_swap_right G old new : contents :=
    match find_r G old with
    | Some _ => GC (new :: g_rights G) (repaired G old new)
    | None => s_insert_right G new
    end.
  Definition s_swap_right_remove G old new : contents :=
    match find_r G old with
    | Some _ => GC (new :: filter (fun b => negb (eR old b)) (g_rights G)) (repaired G old new)
    | None => s_insert_right G new
    end.

  Definition s_unpaired G : list R :=
    filter (fun r => negb (s_is_right_paired G r)) (g_rights G).
  (* what a complete iteration shows *)
  Definition s_items G : list (option L * R) :=
    map (fun p => (Some (fst p), snd p)) (g_pairs G) ++ map (fun r => (None, r)) (s_unpaired G).

  Definition s_insert_item G (x : option L * R) : contents :=
    match fst x with Some l => s_insert G l (snd x) | None => s_insert_right G (snd x) end.

  (* same groups up to Eq *)
  Definition same_groups G G' : Prop :=
    (forall r, s_contains_right G r = s_contains_right G' r) /\
    (forall l r, s_are_paired G l r = s_are_paired G' l r).
End GSpec.

(* equal up to the order of the left items (a HashSet) *)
Definition same_group {L R} (o w : option (list L * R)) : Prop :=
  match o, w with
  | Some (ls, r), Some (ls', r') => Permutation ls ls' /\ r = r'
  | None, None => True
  | _, _ => False
  end.
