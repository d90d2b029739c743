(* GroupMap with items whose Eq is not an equivalence: what the calls then do.  As in
   CycleMapLax.v, only Hash must agree with Eq; Eq may be non-reflexive, asymmetric,
   intransitive, and different at every call.  As Eq cannot tell the right items apart, the
   specification gives each of them a tag; a left item has the tag of its right item. *)
From Coq Require Import List NArith Bool Permutation.
From Verif Require Import Closures Prelude RawTable GroupMap ListFacts GroupSpec GroupHistory.
From Verif Require CycleMapLax.
Import ListNotations.
Open Scope N_scope.

Notation lax := CycleMapLax.lax.
Notation takes := CycleMapLax.takes.
Notation picks := CycleMapLax.picks.

Record tagged (L R : Type) := GT { rights : list (N * R); lefts : list (N * L) }.
Arguments GT {L R} _ _.
Arguments rights {L R} _.
Arguments lefts {L R} _.

Section Lax.
  Context {L R : Type} (eL : L -> L -> bool) (eR : R -> R -> bool).
  Notation tagged := (tagged L R).
  Implicit Types (G : tagged) (t : N).

  (* a lookup of x asks the items of the map whether they equal x *)
  Definition on {T} (e : T -> T -> bool) (x : T) (p : N * T) : bool := e (snd p) x.
  Definition like G G' : Prop := Permutation (rights G') (rights G) /\ Permutation (lefts G') (lefts G).
  Definition fresh G t : Prop := ~ In t (map fst (rights G)).
  (* no tag twice; every left item has the tag of a right item *)
  Definition proper G : Prop := NoDup (map fst (rights G)) /\ incl (map fst (lefts G)) (map fst (rights G)).
  (* the left items with tag t *)
  Definition members G t : list L := map snd (filter (fun p => fst p =? t) (lefts G)).
  Definition s_pairs G : list (L * R) :=
    flat_map (fun q => map (fun l => (l, snd q)) (members G (fst q))) (rights G).
  Definition s_alone G : list R :=
    flat_map (fun q => match members G (fst q) with [] => [snd q] | _ => [] end) (rights G).
  Definition s_all G : list (option L * R) :=
    map (fun p => (Some (fst p), snd p)) (s_pairs G) ++ map (fun r => (None, r)) (s_alone G).

  (* a HashSet of the items, given in this order: an item that equals an earlier one is dropped *)
  Fixpoint gather (acc ls : list L) : list L :=
    match ls with
    | [] => acc
    | l :: t => gather (if existsb (eL l) acc then acc else acc ++ [l]) t
    end.

  Definition lax_insert G l r G' : Prop :=
    exists a A1 b t, takes (on eL l) (lefts G) a A1 /\ picks (on eR r) (rights G) b /\
      match b with
      | Some q => t = fst q /\ Permutation (rights G') (rights G)
      | None => fresh G t /\ Permutation (rights G') ((t, r) :: rights G)
      end /\
      Permutation (lefts G') ((t, match a with Some p => snd p | None => l end) :: A1).
  Definition lax_remove_left G l G' (w : option L) : Prop :=
    exists a A1, takes (on eL l) (lefts G) a A1 /\ w = option_map snd a /\
      Permutation (rights G') (rights G) /\ Permutation (lefts G') A1.
  (* the right item q goes, with its left items *)
  Definition remove_group G (q : option (N * R)) G' (w : option (list L * R)) : Prop :=
    match q with
    | None => like G G' /\ w = None
    | Some q =>
        Permutation (rights G) (q :: rights G') /\
        Permutation (lefts G') (filter (fun p => negb (fst p =? fst q)) (lefts G)) /\
        exists Q, Permutation Q (members G (fst q)) /\ w = Some (gather [] Q, snd q)
    end.
  Definition lax_remove_right G r G' (w : option (list L * R)) : Prop :=
    exists q, picks (on eR r) (rights G) q /\ remove_group G q G' w.
  Definition lax_insert_right G r G' (w : option (list L * R)) : Prop :=
    exists G1 t, lax_remove_right G r G1 w /\ fresh G1 t /\
      Permutation (rights G') ((t, r) :: rights G1) /\ Permutation (lefts G') (lefts G1).

  Inductive lax_extend : tagged -> list (option L * R) -> tagged -> Prop :=
  | lax_extend_nil : forall G G', like G G' -> lax_extend G [] G'
  | lax_extend_pair : forall G l r G1 xs G2,
      lax_insert G l r G1 -> lax_extend G1 xs G2 -> lax_extend G ((Some l, r) :: xs) G2
  | lax_extend_right : forall G r w G1 xs G2,
      lax_insert_right G r G1 w -> lax_extend G1 xs G2 -> lax_extend G ((None, r) :: xs) G2.

  Definition untagged (ts : list N) {T} (p : N * T) : bool := negb (existsb (N.eqb (fst p)) ts).

  Definition lax_step G (o : op L R) G' (w : out L R) : Prop :=
    match o with
    | Insert l r => lax_insert G l r G' /\ w = OUnit
    | InsertRemove l r =>
        exists G1 G2 a b t, lax_remove_left G l G1 a /\ lax_remove_right G1 r G2 b /\ fresh G2 t /\
          Permutation (rights G') ((t, r) :: rights G2) /\ Permutation (lefts G') ((t, l) :: lefts G2) /\
          w = OInsRem (a, b)
    | InsertLeft l r =>
        exists q, picks (on eR r) (rights G) q /\
        match q with
        | None => like G G' /\ w = OL None
        | Some q => exists G1 a, lax_remove_left G l G1 a /\ Permutation (rights G') (rights G) /\
            Permutation (lefts G') ((fst q, l) :: lefts G1) /\ w = OL a
        end
    | InsertRight r => exists g, lax_insert_right G r G' g /\ w = OGroup g
    | SwapRight old new =>
        w = OUnit /\ exists q, picks (on eR old) (rights G) q /\
        match q with
        | None => exists g, lax_insert_right G new G' g
        | Some _ => exists t, fresh G t /\ Permutation (rights G') ((t, new) :: rights G) /\
            Permutation (lefts G') (lefts G)
        end
    | SwapRightRemove old new =>
        exists q B1, takes (on eR old) (rights G) q B1 /\ w = OR (option_map snd q) /\
        match q with
        | None => exists g, lax_insert_right G new G' g
        | Some _ => exists t, fresh G t /\ Permutation (rights G') ((t, new) :: B1) /\
            Permutation (lefts G') (lefts G)
        end
    | Pair l r =>
        exists a A1 q, takes (on eL l) (lefts G) a A1 /\ picks (on eR r) (rights G) q /\
        match a, q with
        | Some p, Some q => Permutation (rights G') (rights G) /\
            Permutation (lefts G') ((fst q, snd p) :: A1) /\ w = OBool true
        | _, _ => like G G' /\ w = OBool false
        end
    | Remove l r =>
        exists a q, picks (on eL l) (lefts G) a /\ picks (on eR r) (rights G) q /\
        match a, q with
        | Some p, Some q =>
            if fst p =? fst q then exists g, remove_group G (Some q) G' g /\ w = OGroup g
            else like G G' /\ w = OGroup None
        | _, _ => like G G' /\ w = OGroup None
        end
    | RemoveLeft l => exists a, lax_remove_left G l G' a /\ w = OL a
    | RemoveRight r => exists g, lax_remove_right G r G' g /\ w = OGroup g
    | IsRightPaired r =>
        like G G' /\ exists q, picks (on eR r) (rights G) q /\
          w = OBool (match q with Some q => match members G (fst q) with [] => false | _ => true end
                                | None => false end)
    | ArePaired l r =>
        like G G' /\ exists a q, picks (on eL l) (lefts G) a /\ picks (on eR r) (rights G) q /\
          w = OBool (match a, q with Some p, Some q => fst p =? fst q | _, _ => false end)
    | ContainsLeft l => like G G' /\ exists a, picks (on eL l) (lefts G) a /\ w = OBool (is_some a)
    | ContainsRight r => like G G' /\ exists q, picks (on eR r) (rights G) q /\ w = OBool (is_some q)
    | GetRight l =>
        like G G' /\ exists a, picks (on eL l) (lefts G) a /\
        match a with
        | None => w = OR None
        | Some p => exists r, In (fst p, r) (rights G) /\ w = OR (Some r)
        end
    | GetLeftIter r =>
        like G G' /\ exists q, picks (on eR r) (rights G) q /\
        match q with
        | None => w = OLsO None
        | Some q => exists Q, Permutation Q (members G (fst q)) /\ w = OLsO (Some Q)
        end
    | IterAll => like G G' /\ exists Q, Permutation Q (s_all G) /\ w = OItems Q
    | IterPairedAll => like G G' /\ exists Q, Permutation Q (s_pairs G) /\ w = OPairs Q
    | IterUnpairedAll => like G G' /\ exists Q, Permutation Q (s_alone G) /\ w = ORs Q
    | IterLeftAll => like G G' /\ exists Q, Permutation Q (map snd (lefts G)) /\ w = OLs Q
    | IterRightAll => like G G' /\ exists Q, Permutation Q (map snd (rights G)) /\ w = ORs Q
    | RetainPaired X f x =>
        (* only for closures that answer true to no pair *)
        like G G' /\ exists Q, Permutation Q (s_pairs G) /\
          let '(_, _, _, pn) := s_filter f x Q in w = if pn then OPanic else OUnit
    | RetainUnpaired X f x =>
        (* For each right item to which the closure answered true, one right item that a lookup
           of it finds is removed, with its left items. *)
        exists Q, Permutation Q (s_alone G) /\
        let '(_, yes, _, pn) := s_filter f x Q in
        (w = OPanic /\ like G G' /\
           (pn = true \/ exists r, In r yes /\ forall q, In q (rights G) -> on eR r q = false)) \/
        (w = OUnit /\ pn = false /\ exists ts,
           Forall2 (fun r t => exists q, In q (rights G) /\ on eR r q = true /\ t = fst q) yes ts /\
           Permutation (rights G') (filter (untagged ts) (rights G)) /\
           Permutation (lefts G') (filter (untagged ts) (lefts G)))
    | ExtendPairs xs => lax_extend G (map (fun p => (Some (fst p), snd p)) xs) G' /\ w = OUnit
    | Extend xs => lax_extend G xs G' /\ w = OUnit
    | Clear => rights G' = [] /\ lefts G' = [] /\ w = OUnit
    | CloneSelf => like G G' /\ w = OUnit
    | LenLeft => like G G' /\ w = ONat (length (lefts G))
    | LenRight => like G G' /\ w = ONat (length (rights G))
    | IsEmpty => like G G' /\ w = OBool (match rights G with [] => true | _ => false end)
    end.
End Lax.

(* a history in which every call has an environment of its own *)
Section LaxRun.
  Context {L R S : Type}.
  Notation map := (gmap L R S).
  Notation call := (env L R S * op L R)%type.

  Fixpoint run_with (m : map) (cs : list call) : map * list (out L R) :=
    match cs with
    | [] => (m, [])
    | (E, o) :: t => let (m', w) := step E m o in
                     let (m'', ws) := run_with m' t in (m'', w :: ws)
    end.

  (* Calls that keep the map consistent whatever Eq is; see [calm1]. *)
  Definition lax_calm1 (E : env L R S) (m : map) (o : op L R) : Prop :=
    match o with
    | Insert l r => are_paired E m l r = false
    | SwapRight old _ | SwapRightRemove old _ =>
        contains_right E m old = true -> is_right_paired E m old = false
    | RetainPaired X f x => forall Q y p, paired_rest E m (iter_paired m) = Done Q -> In p Q ->
        snd (f y p) <> Some true
    | _ => True
    end.
  Definition lax_calm (E : env L R S) : map -> op L R -> Prop := with_extend E (lax_calm1 E).
  Fixpoint lax_guarded (m : map) (cs : list call) : Prop :=
    match cs with
    | [] => True
    | (E, o) :: t => lax_calm E m o /\ lax_guarded (fst (step E m o)) t
    end.

  Inductive lax_run : tagged L R -> list call -> tagged L R -> list (out L R) -> Prop :=
  | lax_run_nil : forall G, lax_run G [] G []
  | lax_run_cons : forall G E o G1 w cs G2 ws,
      lax_step (eqL E) (eqR E) G o G1 w -> lax_run G1 cs G2 ws ->
      lax_run G ((E, o) :: cs) G2 (w :: ws).
End LaxRun.
