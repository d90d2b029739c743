(* Hash-free specification of a partial bijection: a list of entries, order irrelevant.  An
   entry is a pair (SomeBoth l r), an unpaired left (SomeLeft l) or an unpaired right
   (SomeRight r).  No hashes, ids, tables or counters.  [eL], [eR] are the Eq of the items. *)
From Coq Require Import List NArith Bool Permutation.
From Verif Require Import Prelude Optionals ListFacts.
Import ListNotations.

Definition opt_list {T} (o : option T) : list T := match o with Some x => [x] | None => [] end.

Section PSpec.
  Context {L R : Type} (eL : L -> L -> bool) (eR : R -> R -> bool).
  Notation entry := (optional_pair L R).
  Implicit Types (P : list entry) (l old new : L) (r : R) (x y : entry).

  Definition lefts P : list L := flat_map (fun x => opt_list (op_get_left x)) P.
  Definition rights P : list R := flat_map (fun x => opt_list (op_get_right x)) P.

  (* no left item twice, no right item twice, no empty entry *)
  Definition partial_bijection P : Prop :=
    distinct eL (lefts P) /\ distinct eR (rights P) /\ ~ In Neither P.

  (* the entry holds an item equal to l / r *)
  Definition has_l l x : bool := match op_get_left x with Some a => eL l a | None => false end.
  Definition has_r r x : bool := match op_get_right x with Some b => eR r b | None => false end.

  Definition find_l P l : option entry := find (has_l l) P.
  Definition find_r P r : option entry := find (has_r r) P.
  (* the other entries *)
  Definition del_l P l : list entry := filter (fun x => negb (has_l l x)) P.
  Definition del_r P r : list entry := filter (fun x => negb (has_r r x)) P.

  (* an absent entry is reported as Neither *)
  Definition or_neither (o : option entry) : entry := match o with Some x => x | None => Neither end.
  Definition bind_opt {A B} (o : option A) (f : A -> option B) : option B :=
    match o with Some a => f a | None => None end.

  Definition is_both x : bool := match x with SomeBoth _ _ => true | _ => false end.

  Definition s_get_right P l : option R := bind_opt (find_l P l) op_get_right.
  Definition s_get_left P r : option L := bind_opt (find_r P r) op_get_left.
  Definition s_contains_left P l : bool := existsb (has_l l) P.
  Definition s_contains_right P r : bool := existsb (has_r r) P.
  Definition s_are_paired P l r : bool := existsb (fun x => has_l l x && has_r r x) P.
  Definition s_is_left_paired P l : bool := existsb (fun x => has_l l x && is_both x) P.
  Definition s_is_right_paired P r : bool := existsb (fun x => has_r r x && is_both x) P.

  (* insert: the entry of l goes, then what is left of the entry of r *)
  Definition s_insert P l r : list entry := SomeBoth l r :: del_r (del_l P l) r.
  Definition s_insert_out P l r : entry * entry :=
    (or_neither (find_l P l), or_neither (find_r (del_l P l) r)).
  Definition s_insert_left P l : list entry := SomeLeft l :: del_l P l.
  Definition s_insert_right P r : list entry := SomeRight r :: del_r P r.

  (* what remains of an entry without its left / right item *)
  Definition without_left x : list entry :=
    match op_get_right x with Some r => [SomeRight r] | None => [] end.
  Definition without_right x : list entry :=
    match op_get_left x with Some l => [SomeLeft l] | None => [] end.

  (* joining two different entries holding l and r *)
  Definition join x y : list entry :=
    match op_get_left x, op_get_right y with Some a, Some b => [SomeBoth a b] | _, _ => [] end.

  Definition s_pair_out P l r : bool :=
    match find_l P l, find_r P r with Some (SomeLeft _), Some (SomeRight _) => true | _, _ => false end.
  Definition s_pair P l r : list entry :=
    match find_l P l, find_r P r with
    | Some (SomeLeft a), Some (SomeRight b) => SomeBoth a b :: del_r (del_l P l) r
    | _, _ => P
    end.

  Definition s_pair_forced P l r : list entry :=
    match find_l P l, find_r P r with
    | Some x, Some y =>
        if has_r r x then P
        else join x y ++ without_left x ++ without_right y ++ del_r (del_l P l) r
    | _, _ => P
    end.
  Definition s_pair_forced_remove P l r : list entry :=
    match find_l P l, find_r P r with
    | Some x, Some y => if has_r r x then P else join x y ++ del_r (del_l P l) r
    | _, _ => P
    end.
  (* the former partners *)
  Definition s_pair_forced_out P l r : entry :=
    match find_l P l, find_r P r with
    | Some x, Some y => if has_r r x then Neither else op_from_pair (op_get_left y, op_get_right x)
    | _, _ => Neither
    end.

  Definition s_unpair P l r : list entry :=
    match find_l P l with
    | Some x => if has_r r x then without_right x ++ without_left x ++ del_l P l else P
    | None => P
    end.

  Definition s_remove_left P l : list entry :=
    match find_l P l with Some x => without_left x ++ del_l P l | None => P end.
  Definition s_remove_left_out P l : option L := bind_opt (find_l P l) op_get_left.
  Definition s_remove_right P r : list entry :=
    match find_r P r with Some x => without_right x ++ del_r P r | None => P end.
  Definition s_remove_right_out P r : option R := bind_opt (find_r P r) op_get_right.

  Definition both_items x : option (L * R) :=
    match x with SomeBoth a b => Some (a, b) | _ => None end.
  Definition s_remove P l r : list entry := if s_are_paired P l r then del_l P l else P.
  Definition s_remove_out P l r : option (L * R) :=
    if s_are_paired P l r then bind_opt (find_l P l) both_items else None.

  Definition set_l new x : entry :=
    match x with SomeLeft _ => SomeLeft new | SomeBoth _ b => SomeBoth new b | _ => x end.
  Definition set_r (new : R) x : entry :=
    match x with SomeRight _ => SomeRight new | SomeBoth a _ => SomeBoth a new | _ => x end.

  (* swap_left: what the code does.  The entry of [new] goes first (unless new equals old),
     also when [old] turns out to be absent. *)
  Definition s_swap_left_base P old new : list entry := if eL new old then P else del_l P new.
  Definition s_swap_left P old new : list entry :=
    match find_l P old with
    | Some x => set_l new x :: del_l (s_swap_left_base P old new) old
    | None => s_swap_left_base P old new
    end.
  Definition s_swap_left_out P old new : optional_pair L entry :=
    match find_l P old with
    | Some x => op_from_pair (op_get_left x, if eL new old then None else find_l P new)
    | None => Neither
    end.
  Definition s_swap_right_base P (old new : R) : list entry := if eR new old then P else del_r P new.
  Definition s_swap_right P (old new : R) : list entry :=
    match find_r P old with
    | Some x => set_r new x :: del_r (s_swap_right_base P old new) old
    | None => s_swap_right_base P old new
    end.
  Definition s_swap_right_out P (old new : R) : optional_pair R entry :=
    match find_r P old with
    | Some x => op_from_pair (op_get_right x, if eR new old then None else find_r P new)
    | None => Neither
    end.

  (* inserting an OptionalPair *)
  Definition s_insert_entry P x : list entry :=
    match x with
    | Neither => P
    | SomeLeft l => s_insert_left P l
    | SomeRight r => s_insert_right P r
    | SomeBoth l r => s_insert P l r
    end.

  (* same items and pairings up to Eq *)
  Definition entry_eq x y : bool := op_eqb eL eR x y.
  Definition same_entries P P' : Prop :=
    (forall x, In x P -> exists y, In y P' /\ entry_eq x y = true) /\
    (forall y, In y P' -> exists x, In x P /\ entry_eq x y = true).

  Definition s_pairs P : list (L * R) := flat_map (fun x => opt_list (both_items x)) P.
  Definition s_unpaired P : list entry := filter (fun x => negb (is_both x)) P.
  Definition has_left_item x : bool := match op_get_left x with Some _ => true | None => false end.
End PSpec.

(* drain_filter as a list of visits. *)
(* VE e: the entry e, met in the left table; VR e: the right item of e, met in the right table *)
Inductive visit (T : Type) := VE (e : T) | VR (e : T).
Arguments VE {T} _.
Arguments VR {T} _.

Section Visits.
  Context {L R X : Type} (eR : R -> R -> bool).
  Notation entry := (optional_pair L R).
  Variable f : X -> entry -> X * verdict.

  (* the closure on visits; the second component of the state holds the entries answered true
     in the left table, whose right items are not met again *)
  Definition on_visit (xt : X * list entry) (v : visit entry) : (X * list entry) * verdict :=
    match v with
    | VE e => let '(x', b) := f (fst xt) e in
              ((x', match b with Some true => e :: snd xt | _ => snd xt end), b)
    | VR e => match op_get_right e with
              | Some r => if existsb (has_r eR r) (snd xt) then (xt, Some false)
                          else let '(x', b) := f (fst xt) (SomeRight r) in ((x', snd xt), b)
              | None => (xt, Some false)
              end
    end.
  (* what the iterator yields for a visit *)
  Definition shown (v : visit entry) : entry :=
    match v with
    | VE e => e
    | VR e => match op_get_right e with Some r => SomeRight r | None => e end
    end.
  (* the entries standing for visits that are not taken *)
  Definition keep (v : visit entry) : list entry :=
    match v with VE e => [e] | VR e => if has_left_item e then [] else [e] end.
End Visits.
