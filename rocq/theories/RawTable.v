(* hashbrown::raw::RawTable, modelled by contract (external crate, not in /repo).

   A table is the list of its full buckets in iteration order; each bucket holds
   an entry and the hash under which it was inserted.  [lay] is an opaque token
   standing for the physical layout (capacity, tombstones, control bytes).

   What hashbrown leaves open is left open here, by the oracles of [layout]:
   - [hb_probe lay h hashes]: the indices of buckets that a search for hash [h]
     inspects, in order.  Buckets with a different stored hash may be inspected
     (only 7 bits are compared), so the equality closure may be applied to them.
   - [hb_order]: the order of buckets after an insertion.
   - [hb_grow]: whether an insertion / reservation rehashes every entry with the
     hasher closure passed to it.
   - [hb_next]: evolution of the layout token.
   - [hb_cap], [hb_full]: RawTable::capacity (items + growth_left) and the capacity the
     allocation would have without tombstones (bucket_mask_to_capacity). *)
From Coq Require Import List NArith Lia Bool Permutation.
From Verif Require Import Prelude.
Import ListNotations.
Open Scope N_scope.

(* what happens to a table *)
Inductive sizing := Grow (additional : N) | Shrink (min_size : N).  (* reserve, shrink_to *)
Inductive change :=
| CInsert (h : N) (len : N)          (* insertion under hash h into a table of len buckets *)
| CErase (i : N)                     (* removal of the i-th full bucket *)
| CSize (z : sizing) (len : N)
| CClear.

Record layout := Layout {
  hb_probe : N -> N -> list N -> list nat;
  hb_order : forall A : Type, N -> list A -> list A;
  hb_grow : N -> bool;
  hb_next : N -> change -> N;
  hb_try : N -> bool;       (* does try_reserve succeed *)
  hb_new : N -> N;          (* layout made by with_capacity *)
  hb_cap : N -> N;
  hb_full : N -> N
}.

(* The contract assumed of hashbrown. *)
Record layout_ok (lo : layout) : Prop := {
  (* a search inspects every bucket stored under exactly the hash searched *)
  probe_complete : forall l h hs i,
    nth_error hs i = Some h -> In i (hb_probe lo l h hs);
  (* insertion and rehashing neither lose nor duplicate buckets *)
  order_perm : forall A l (xs : list A), Permutation (hb_order lo A l xs) xs
}.

Record table (A : Type) := Tbl { slots : list (N * A); lay : N }.
Arguments Tbl {A} _ _.
Arguments slots {A} _.
Arguments lay {A} _.

Fixpoint remove_nth {A} (i : nat) (l : list A) : list A :=
  match l, i with
  | [], _ => []
  | _ :: t, O => t
  | x :: t, S i' => x :: remove_nth i' t
  end.

Fixpoint update_nth {A} (i : nat) (f : A -> A) (l : list A) : list A :=
  match l, i with
  | [], _ => []
  | x :: t, O => f x :: t
  | x :: t, S i' => x :: update_nth i' f t
  end.

Section Table.
  Variable lo : layout.
  Context {A : Type}.

  (* RawTable::new; [l] is the (unspecified) initial layout *)
  Definition t_new (l : N) : table A := Tbl [] l.

  (* RawTable::with_capacity *)
  Definition t_with_capacity (n : N) : table A := t_new (hb_new lo n).

  (* RawTable::capacity *)
  Definition t_capacity (t : table A) : N := hb_cap lo (lay t).

  (* RawTable::len *)
  Definition t_len (t : table A) : nat := length (slots t).

  (* RawTable::find: index of the bucket found *)
  Definition t_find (t : table A) (h : N) (p : A -> bool) : option nat :=
    List.find (fun i => match nth_error (slots t) i with
                        | Some (_, e) => p e
                        | None => false
                        end)
              (hb_probe lo (lay t) h (map fst (slots t))).

  (* Bucket::as_ref *)
  Definition t_entry (t : table A) (i : nat) : option A :=
    match nth_error (slots t) i with Some (_, e) => Some e | None => None end.

  (* RawTable::get *)
  Definition t_get (t : table A) (h : N) (p : A -> bool) : option A :=
    match t_find t h p with Some i => t_entry t i | None => None end.

  (* Bucket::as_mut: assignment to (fields of) the entry of bucket i *)
  Definition t_modify (t : table A) (i : nat) (f : A -> A) : table A :=
    Tbl (update_nth i (fun s => (fst s, f (snd s))) (slots t)) (lay t).

  (* RawTable::remove / erase of bucket i *)
  Definition t_remove_at (t : table A) (i : nat) : table A :=
    Tbl (remove_nth i (slots t)) (hb_next lo (lay t) (CErase (N.of_nat i))).

  (* RawTable::remove_entry *)
  Definition t_remove_entry (t : table A) (h : N) (p : A -> bool) : option (A * table A) :=
    match t_find t h p with
    | Some i => match t_entry t i with
                | Some e => Some (e, t_remove_at t i)
                | None => None
                end
    | None => None
    end.

  Definition t_rehash (l : N) (hasher : A -> N) (s : list (N * A)) : list (N * A) :=
    if hb_grow lo l then map (fun x => (hasher (snd x), snd x)) s else s.

  (* RawTable::insert *)
  Definition t_insert (t : table A) (h : N) (e : A) (hasher : A -> N) : table A :=
    let l' := hb_next lo (lay t) (CInsert h (N.of_nat (t_len t))) in
    Tbl (hb_order lo _ l' ((h, e) :: t_rehash l' hasher (slots t))) l'.

  (* RawTable::reserve / shrink_to: may rehash and reorder, nothing else *)
  Definition t_resize (t : table A) (z : sizing) (hasher : A -> N) : table A :=
    let l' := hb_next lo (lay t) (CSize z (N.of_nat (t_len t))) in
    Tbl (hb_order lo _ l' (t_rehash l' hasher (slots t))) l'.

  (* RawTable::try_reserve: false = error, table untouched *)
  Definition t_try_resize (t : table A) (n : N) (hasher : A -> N) : bool * table A :=
    if hb_try lo (hb_next lo (lay t) (CSize (Grow n) (N.of_nat (t_len t))))
    then (true, t_resize t (Grow n) hasher) else (false, t).

  (* RawTable::clear; also the state left behind by a dropped or leaked RawDrain *)
  Definition t_clear (t : table A) : table A := Tbl [] (hb_next lo (lay t) CClear).
End Table.

(* hashbrown::HashSet<T>: the same table with the elements as entries
   ([heq], [hh]: Eq and Hash of the element type). *)
Section HashSet.
  Variable lo : layout.
  Context {A : Type}.
  Variable heq : A -> A -> bool.
  Variable hh : A -> N.

  (* HashSet::insert: an equal element already present is kept *)
  Definition hs_insert (t : table A) (x : A) : table A :=
    match t_find lo t (hh x) (heq x) with
    | Some _ => t
    | None => t_insert lo t (hh x) x hh
    end.

  (* HashSet::remove *)
  Definition hs_remove (t : table A) (x : A) : table A :=
    match t_remove_entry lo t (hh x) (heq x) with
    | Some (_, t') => t'
    | None => t
    end.

  (* HashSet::contains *)
  Definition hs_contains (t : table A) (x : A) : bool :=
    match t_find lo t (hh x) (heq x) with Some _ => true | None => false end.

  (* HashSet::iter / drain: elements in table order *)
  Definition hs_elems (t : table A) : list A := map snd (slots t).
End HashSet.

(* Types, Eq, Hash and hasher of a map with left items L, right items R and
   hasher state S (BuildHasher). *)
Record env (L R S : Type) := Env {
  eqL : L -> L -> bool;
  eqR : R -> R -> bool;
  hashL : S -> L -> N;     (* src/utils.rs:4-12 make_hash *)
  hashR : S -> R -> N;
  (* hash of GroupMap's (hash, id) pairs; every HashSet has a hasher of its own, here named
     by the id of the right item for which the set was created *)
  hashP : N -> N * N -> N;
  lo : layout;
  ovf : bool               (* arithmetic overflow checks on *)
}.
Arguments eqL {L R S} _ _ _.
Arguments eqR {L R S} _ _ _.
Arguments hashL {L R S} _ _ _.
Arguments hashR {L R S} _ _ _.
Arguments hashP {L R S} _ _ _.
Arguments lo {L R S} _.
Arguments ovf {L R S} _.

Record equivalence {T} (e : T -> T -> bool) : Prop := {
  equiv_refl : forall x, e x x = true;
  equiv_sym : forall x y, e x y = true -> e y x = true;
  equiv_trans : forall x y z, e x y = true -> e y z = true -> e x z = true
}.

(* The Eq/Hash contracts of the standard library and the RawTable contract. *)
Record lawful {L R S} (E : env L R S) : Prop := {
  eqL_equiv : equivalence (eqL E);
  eqR_equiv : equivalence (eqR E);
  hashL_ok : forall s x y, eqL E x y = true -> hashL E s x = hashL E s y;
  hashR_ok : forall s x y, eqR E x y = true -> hashR E s x = hashR E s y;
  lo_ok : layout_ok (lo E)
}.
