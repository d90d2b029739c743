(* CycleMap with items whose Eq is not an equivalence: what the calls then do, on a list of
   pairs.  Only Hash must agree with Eq (equal items have equal hashes); Eq may be
   non-reflexive (a float that is NaN), asymmetric, intransitive, and different at every
   call (an item with interior mutability whose hash does not depend on it). *)
From Coq Require Import List NArith Bool Permutation.
From Verif Require Import Closures Prelude RawTable Optionals CycleMap CycleMapSpec CycleMapHistory.
Import ListNotations.
Open Scope N_scope.

(* what is left of [lawful] *)
Record lax {L R S} (E : env L R S) : Prop := {
  lax_l : forall s a b, eqL E a b = true -> hashL E s a = hashL E s b;
  lax_r : forall s a b, eqR E a b = true -> hashR E s a = hashR E s b;
  lax_lo : layout_ok (lo E)
}.

(* [takes p P o P']: o is some element of P meeting p, and P' the others; or no element
   meets p and P' is P *)
Definition takes {T} (p : T -> bool) (P : list T) (o : option T) (P' : list T) : Prop :=
  match o with
  | Some z => p z = true /\ Permutation P (z :: P')
  | None => (forall z, In z P -> p z = false) /\ Permutation P P'
  end.
Definition picks {T} (p : T -> bool) (P : list T) (o : option T) : Prop :=
  exists P', takes p P o P'.

Section Lax.
  Context {L R : Type} (eL : L -> L -> bool) (eR : R -> R -> bool).
  Notation pairs := (list (L * R)).
  Implicit Types P Q D : pairs.

  Definition onl (l : L) (z : L * R) : bool := eL l (fst z).
  Definition onr (r : R) (z : L * R) : bool := eR r (snd z).

  (* l and r are looked up separately; are_paired says whether both lookups end at the same
     pair z *)
  Definition meets P (l : L) (r : R) (o : option (L * R)) : Prop :=
    match o with
    | Some z => In z P /\ onl l z = true /\ onr r z = true
    | None => (forall z, In z P -> onl l z = false) \/ (forall z, In z P -> onr r z = false) \/
              exists z z' Q, Permutation P (z :: z' :: Q) /\ onl l z = true /\ onr r z' = true
    end.

  Definition lax_insert P l r P' (d : insert_optional L R) : Prop :=
    exists a P1 b P2, takes (onl l) P a P1 /\ takes (onr r) P1 b P2 /\
      Permutation P' ((l, r) :: P2) /\ d = op_from_pair (a, b).

  Definition lax_swap_left P (old new : L) P' (d : optional_pair L (L * R)) : Prop :=
    exists a P1 b P2,
      (if eL new old then a = None /\ Permutation P P1 else takes (onl new) P a P1) /\
      takes (onl old) P1 b P2 /\
      match b with
      | Some z => Permutation P' ((new, snd z) :: P2) /\ d = op_from_pair (Some (fst z), a)
      | None => Permutation P' P2 /\ d = Neither
      end.
  Definition lax_swap_right P (old new : R) P' (d : optional_pair R (L * R)) : Prop :=
    exists a P1 b P2,
      (if eR new old then a = None /\ Permutation P P1 else takes (onr new) P a P1) /\
      takes (onr old) P1 b P2 /\
      match b with
      | Some z => Permutation P' ((fst z, new) :: P2) /\ d = op_from_pair (Some (snd z), a)
      | None => Permutation P' P2 /\ d = Neither
      end.

  Inductive lax_extend : pairs -> list (L * R) -> pairs -> Prop :=
  | lax_extend_nil : forall P P', Permutation P P' -> lax_extend P [] P'
  | lax_extend_cons : forall P l r d P1 xs P2,
      lax_insert P l r P1 d -> lax_extend P1 xs P2 -> lax_extend P ((l, r) :: xs) P2.

  (* What iteration shows for the pair z: its own left item, and the right item of a pair
     found by looking that left item up. *)
  Definition shown P (z p : L * R) : Prop :=
    fst p = fst z /\ exists z', In z' P /\ onl (fst z) z' = true /\ snd p = snd z'.
  (* a left item that a lookup of itself does not find *)
  Definition lost P (l : L) : Prop :=
    In l (map fst P) /\ forall z, In z P -> onl l z = false.

  Definition lax_step P (o : op L R) P' (w : out L R) : Prop :=
    match o with
    | Insert l r => exists d, lax_insert P l r P' d /\ w = OIns d
    | Remove l r =>
        exists a, meets P l r a /\ w = OPair a /\
          Permutation P (match a with Some z => z :: P' | None => P' end)
    | RemoveViaLeft l => exists a, takes (onl l) P a P' /\ w = OPair a
    | RemoveViaRight r => exists a, takes (onr r) P a P' /\ w = OPair a
    | SwapLeft old new => exists d, lax_swap_left P old new P' d /\ w = OSwapL d
    | SwapLeftChecked old ex new =>
        exists a, meets P old ex a /\
        match a with
        | None => Permutation P P' /\ w = OSwapL Neither
        | Some _ => exists d, lax_swap_left P old new P' d /\ w = OSwapL d
        end
    | SwapLeftOrInsert old new ti =>
        exists a, picks (onl old) P a /\
        match a with
        | Some _ => exists d, lax_swap_left P old new P' d /\ w = OSwapL d
        | None => exists d, lax_insert P new ti P' d /\ w = OSwapL (op_map_left fst d)
        end
    | SwapRight old new => exists d, lax_swap_right P old new P' d /\ w = OSwapR d
    | SwapRightChecked old ex new =>
        exists a, meets P ex old a /\
        match a with
        | None => Permutation P P' /\ w = OSwapR Neither
        | Some _ => exists d, lax_swap_right P old new P' d /\ w = OSwapR d
        end
    | SwapRightOrInsert old new ti =>
        exists a, picks (onr old) P a /\
        match a with
        | Some _ => exists d, lax_swap_right P old new P' d /\ w = OSwapR d
        | None => exists d, lax_insert P ti new P' d /\
            w = match d with
                | Neither => OSwapR Neither
                | SomeRight p => OSwapR (SomeRight p)
                | _ => OPanic
                end
        end
    | ArePaired l r =>
        Permutation P P' /\
        exists a, meets P l r a /\ w = OBool (match a with Some _ => true | None => false end)
    | ContainsLeft l =>
        Permutation P P' /\
        exists a, picks (onl l) P a /\ w = OBool (match a with Some _ => true | None => false end)
    | ContainsRight r =>
        Permutation P P' /\
        exists a, picks (onr r) P a /\ w = OBool (match a with Some _ => true | None => false end)
    | GetLeft r => Permutation P P' /\ exists a, picks (onr r) P a /\ w = OL (option_map fst a)
    | GetRight l => Permutation P P' /\ exists a, picks (onl l) P a /\ w = OR (option_map snd a)
    | IterAll =>
        Permutation P P' /\
        ((w = OPanic /\ exists l, lost P l) \/
         (exists Q ps, Permutation Q P /\ Forall2 (shown P) Q ps /\ w = OPairs ps))
    | Extend xs => lax_extend P xs P' /\ w = OUnit
    | Retain X f x =>
        (* nothing is lost but pairs that the closure rejected, and nothing at all if it
           panics; the call panics only if the closure does or a lookup fails *)
        (w = OPanic /\ Permutation P P' /\
           ((exists l, lost P l) \/
            exists x l r x', In l (map fst P) /\ In r (map snd P) /\ f x l r = (x', None))) \/
        (w = OUnit /\ exists D, Permutation P (P' ++ D) /\
           forall z, In z D -> exists x l x', In l (map fst P) /\ onl l z = true /\
                               f x l (snd z) = (x', Some false))
    | _ =>
        (* calls that do not compare items: as for a lawful Eq *)
        exists P1, s_step eL eR P o P1 w /\ Permutation P1 P'
    end.
End Lax.

(* a history in which every call has an environment of its own *)
Section LaxRun.
  Context {L R S : Type}.
  Notation map := (cmap L R S).
  Notation call := (env L R S * op L R)%type.

  Fixpoint run_with (m : map) (cs : list call) : map * list (out L R) :=
    match cs with
    | [] => (m, [])
    | (E, o) :: t => let (m', w) := step E m o in
                     let (m'', ws) := run_with m' t in (m'', w :: ws)
    end.

  Inductive lax_run : list (L * R) -> list call -> list (L * R) -> list (out L R) -> Prop :=
  | lax_run_nil : forall P, lax_run P [] P []
  | lax_run_cons : forall P E o P1 w cs P2 ws,
      lax_step (eqL E) (eqR E) P o P1 w -> lax_run P1 cs P2 ws ->
      lax_run P ((E, o) :: cs) P2 (w :: ws).
End LaxRun.
