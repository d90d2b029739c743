(* PartialCycleMap with items whose Eq is not an equivalence: what the calls then do, on a
   list of entries.  As in CycleMapLax.v, only Hash must agree with Eq; Eq may be
   non-reflexive, asymmetric, intransitive, and different at every call. *)
From Coq Require Import List NArith Bool Permutation.
From Verif Require Import Closures Prelude RawTable Optionals PartialCycleMap ListFacts PartialSpec
  PartialHistory.
From Verif Require CycleMapLax.
Import ListNotations.
Open Scope N_scope.

Notation lax := CycleMapLax.lax.
Notation takes := CycleMapLax.takes.
Notation picks := CycleMapLax.picks.

(* where the lookups of a left and of a right item end *)
Inductive found (T : Type) := Same (x : T) | Two (x y : T) | Missing.
Arguments Same {T} _.
Arguments Two {T} _ _.
Arguments Missing {T}.

Section Lax.
  Context {L R : Type} (eL : L -> L -> bool) (eR : R -> R -> bool).
  Notation entry := (optional_pair L R).
  Notation entries := (list entry).
  Implicit Types (P Q D : entries) (y z e : entry).

  (* The lookups of l and r end at one entry; or at two entries x (holding the left item) and
     y (holding the right item); or one of them finds nothing.  Q: the other entries. *)
  Definition ends P (l : L) (r : R) (f : found entry) Q : Prop :=
    match f with
    | Same x => Permutation P (x :: Q) /\ has_l eL l x = true /\ has_r eR r x = true
    | Two x y => Permutation P (x :: y :: Q) /\ has_l eL l x = true /\ has_r eR r y = true
    | Missing => Permutation P Q /\
        ((forall z, In z P -> has_l eL l z = false) \/ (forall z, In z P -> has_r eR r z = false))
    end.
  Definition is_same (f : found entry) : bool := match f with Same _ => true | _ => false end.

  Definition lax_insert P l r P' (d : entry * entry) : Prop :=
    exists a P1 b P2, takes (has_l eL l) P a P1 /\ takes (has_r eR r) P1 b P2 /\
      Permutation P' (SomeBoth l r :: P2) /\ d = (or_neither a, or_neither b).
  Definition lax_insert_left P l P' (d : entry) : Prop :=
    exists a P1, takes (has_l eL l) P a P1 /\ Permutation P' (SomeLeft l :: P1) /\ d = or_neither a.
  Definition lax_insert_right P r P' (d : entry) : Prop :=
    exists a P1, takes (has_r eR r) P a P1 /\ Permutation P' (SomeRight r :: P1) /\ d = or_neither a.

  Definition lax_swap_left P (old new : L) P' (d : optional_pair L entry) : Prop :=
    exists a P1 b P2,
      (if eL new old then a = None /\ Permutation P P1 else takes (has_l eL new) P a P1) /\
      takes (has_l eL old) P1 b P2 /\
      match b with
      | Some z => Permutation P' (set_l new z :: P2) /\ d = op_from_pair (op_get_left z, a)
      | None => Permutation P' P2 /\ d = Neither
      end.
  Definition lax_swap_right P (old new : R) P' (d : optional_pair R entry) : Prop :=
    exists a P1 b P2,
      (if eR new old then a = None /\ Permutation P P1 else takes (has_r eR new) P a P1) /\
      takes (has_r eR old) P1 b P2 /\
      match b with
      | Some z => Permutation P' (set_r new z :: P2) /\ d = op_from_pair (op_get_right z, a)
      | None => Permutation P' P2 /\ d = Neither
      end.

  Inductive lax_extend : entries -> list entry -> entries -> Prop :=
  | lax_extend_nil : forall P P', Permutation P P' -> lax_extend P [] P'
  | lax_extend_neither : forall P xs P', lax_extend P xs P' -> lax_extend P (Neither :: xs) P'
  | lax_extend_left : forall P l d P1 xs P2,
      lax_insert_left P l P1 d -> lax_extend P1 xs P2 -> lax_extend P (SomeLeft l :: xs) P2
  | lax_extend_right : forall P r d P1 xs P2,
      lax_insert_right P r P1 d -> lax_extend P1 xs P2 -> lax_extend P (SomeRight r :: xs) P2
  | lax_extend_both : forall P l r d P1 xs P2,
      lax_insert P l r P1 d -> lax_extend P1 xs P2 -> lax_extend P (SomeBoth l r :: xs) P2.

  (* What iteration shows for the entry z, which has a left item: that item, with the right
     item of an entry found by looking the left item up. *)
  Definition shown_as P z e : Prop :=
    exists l a, op_get_left z = Some l /\ picks (has_l eL l) P a /\
      e = op_from_pair (Some l, bind_opt a op_get_right).
  (* the entries whose positions, counted from i, are not in js *)
  Fixpoint drop_at (i : nat) (js : list nat) P : entries :=
    match P with
    | [] => []
    | z :: t => if existsb (Nat.eqb i) js then drop_at (Datatypes.S i) js t
                else z :: drop_at (Datatypes.S i) js t
    end.
  (* retain, retain_paired, retain_unpaired.  shown: what the closure is shown, in this order.
     key a z: z is an entry that a lookup of a finds.  The call panics, changing nothing, only
     if the closure does or a lookup fails; otherwise it removes, for each a to which the
     closure answered true, one entry that a lookup of a finds (for two of them this can be
     the same entry). *)
  Definition lax_retain {X A} (f : X -> A -> X * verdict) (x : X) (shown : list A)
      (key : A -> entry -> Prop) P P' (w : out L R) : Prop :=
    let '(_, yes, _, pn) := s_filter f x shown in
    (w = OPanic /\ Permutation P' P /\
       (pn = true \/ exists a, In a yes /\ forall z, In z P -> ~ key a z)) \/
    (w = OUnit /\ pn = false /\ exists js,
       Forall2 (fun a j => exists z, nth_error P j = Some z /\ key a z) yes js /\
       Permutation P' (drop_at 0 js P)).

  Definition lax_step P (o : op L R) P' (w : out L R) : Prop :=
    match o with
    | Insert l r => exists d, lax_insert P l r P' d /\ w = OIns d
    | InsertLeft l => exists d, lax_insert_left P l P' d /\ w = OEntry d
    | InsertRight r => exists d, lax_insert_right P r P' d /\ w = OEntry d
    | Pair l r =>
        exists f Q, ends P l r f Q /\
        match f with
        | Two (SomeLeft a) (SomeRight b) => Permutation P' (SomeBoth a b :: Q) /\ w = OBool true
        | _ => Permutation P' P /\ w = OBool false
        end
    | PairForced l r =>
        exists f Q, ends P l r f Q /\
        match f with
        | Two x y => Permutation P' (join x y ++ without_left x ++ without_right y ++ Q) /\
                     w = OEntry (op_from_pair (op_get_left y, op_get_right x))
        | _ => Permutation P' P /\ w = OEntry Neither
        end
    | PairForcedRemove l r =>
        exists f Q, ends P l r f Q /\
        match f with
        | Two x y => Permutation P' (join x y ++ Q) /\
                     w = OEntry (op_from_pair (op_get_left y, op_get_right x))
        | _ => Permutation P' P /\ w = OEntry Neither
        end
    | Unpair l r =>
        exists f Q, ends P l r f Q /\
        match f with
        | Same x => Permutation P' (without_right x ++ without_left x ++ Q) /\ w = OBool true
        | _ => Permutation P' P /\ w = OBool false
        end
    | Remove l r =>
        exists f Q, ends P l r f Q /\
        match f with
        | Same x => Permutation P' Q /\ w = OPair (both_items x)
        | _ => Permutation P' P /\ w = OPair None
        end
    | RemoveLeft l =>
        exists a P1, takes (has_l eL l) P a P1 /\ w = OL (bind_opt a op_get_left) /\
          Permutation P' (match a with Some x => without_left x | None => [] end ++ P1)
    | RemoveRight r =>
        exists a P1, takes (has_r eR r) P a P1 /\ w = OR (bind_opt a op_get_right) /\
          Permutation P' (match a with Some x => without_right x | None => [] end ++ P1)
    | RemoveViaLeft l => exists a, takes (has_l eL l) P a P' /\ w = OEntry (or_neither a)
    | RemoveViaRight r => exists a, takes (has_r eR r) P a P' /\ w = OEntry (or_neither a)
    | SwapLeft old new => exists d, lax_swap_left P old new P' d /\ w = OSwapL d
    | SwapLeftChecked old ex new =>
        exists f Q, ends P old ex f Q /\
        if is_same f then exists d, lax_swap_left P old new P' d /\ w = OSwapL d
        else Permutation P' P /\ w = OSwapL Neither
    | SwapLeftOrInsert old new ti =>
        exists a, picks (has_l eL old) P a /\
        match a with
        | Some _ => exists d, lax_swap_left P old new P' d /\ w = OSwapL d
        | None => exists d, lax_insert P new ti P' d /\
            w = match d with
                | (Neither, Neither) => OSwapL Neither
                | (Neither, e) => OSwapL (SomeRight e)
                | _ => OPanic
                end
        end
    | SwapRight old new => exists d, lax_swap_right P old new P' d /\ w = OSwapR d
    | SwapRightChecked old ex new =>
        exists f Q, ends P ex old f Q /\
        if is_same f then exists d, lax_swap_right P old new P' d /\ w = OSwapR d
        else Permutation P' P /\ w = OSwapR Neither
    | SwapRightOrInsert old new ti =>
        exists a, picks (has_r eR old) P a /\
        match a with
        | Some _ => exists d, lax_swap_right P old new P' d /\ w = OSwapR d
        | None => exists d, lax_insert P ti new P' d /\
            w = match d with
                | (Neither, Neither) => OSwapR Neither
                | (e, Neither) => OSwapR (SomeRight e)
                | _ => OPanic
                end
        end
    | ArePaired l r => Permutation P' P /\ exists f Q, ends P l r f Q /\ w = OBool (is_same f)
    | IsLeftPaired l =>
        Permutation P' P /\ exists a, picks (has_l eL l) P a /\
          w = OBool (match a with Some x => is_both x | None => false end)
    | IsRightPaired r =>
        Permutation P' P /\ exists a, picks (has_r eR r) P a /\
          w = OBool (match a with Some x => is_both x | None => false end)
    | ContainsLeft l =>
        Permutation P' P /\ exists a, picks (has_l eL l) P a /\ w = OBool (is_some a)
    | ContainsRight r =>
        Permutation P' P /\ exists a, picks (has_r eR r) P a /\ w = OBool (is_some a)
    | GetLeft r =>
        Permutation P' P /\ exists a, picks (has_r eR r) P a /\ w = OL (bind_opt a op_get_left)
    | GetRight l =>
        Permutation P' P /\ exists a, picks (has_l eL l) P a /\ w = OR (bind_opt a op_get_right)
    | IterAll =>
        Permutation P' P /\
        exists Q es, Permutation Q (filter has_left_item P) /\ Forall2 (shown_as P) Q es /\
          w = OEntries es
    | ExtendPairs xs =>
        lax_extend P (List.map (fun p => SomeBoth (fst p) (snd p)) xs) P' /\ w = OUnit
    | Extend xs => lax_extend P xs P' /\ w = OUnit
    | Retain X f x =>
        exists Q es, Permutation Q (filter has_left_item P) /\ Forall2 (shown_as P) Q es /\
        lax_retain f x es
          (fun e z => exists l, op_get_left e = Some l /\ has_l eL l z = true /\
                                op_get_right e = op_get_right z) P P' w
    | RetainPaired X f x =>
        exists ps, Permutation ps (s_pairs P) /\
        lax_retain f x ps
          (fun p z => has_l eL (fst p) z = true /\ op_get_right z = Some (snd p)) P P' w
    | RetainUnpaired X f x =>
        exists Q, Permutation Q (s_unpaired P) /\
        lax_retain f x Q
          (fun e z => is_both z = false /\
                      match e with
                      | SomeLeft l => has_l eL l z = true
                      | SomeRight r => has_r eR r z = true
                      | _ => False
                      end) P P' w
    | DrainFilter X f x n leak =>
        (* T: the entries yielded; U: those taken by the Drop of the iterator *)
        exists T U, Permutation P (T ++ U ++ P') /\
          (forall e, In e (T ++ U) -> exists x x', f x e = (x', Some true)) /\
          match w with
          | OItems is pn => exists k,
              is = List.map Some T ++ repeat None k /\ length is = n /\
              (leak = true -> U = [] /\ pn = false) /\
              (pn = true -> exists x e x', f x e = (x', None)) /\
              (((0 < k)%nat \/ leak = false) -> pn = false -> forall e, In e P' ->
                 (has_left_item e = true -> exists x x', f x e = (x', Some false)) /\
                 (forall r, op_get_right e = Some r -> exists x x', f x (SomeRight r) = (x', Some false)))
          | OPanic => exists x e x', f x e = (x', None)
          | _ => False
          end
    | _ =>
        (* calls that do not compare items: as for a lawful Eq *)
        exists P1, s_step eL eR P o P1 w /\ Permutation P1 P'
    end.
End Lax.

(* a history in which every call has an environment of its own *)
Section LaxRun.
  Context {L R S : Type}.
  Notation map := (pmap L R S).
  Notation call := (env L R S * op L R)%type.

  Fixpoint run_with (m : map) (cs : list call) : map * list (out L R) :=
    match cs with
    | [] => (m, [])
    | (E, o) :: t => let (m', w) := step E m o in
                     let (m'', ws) := run_with m' t in (m'', w :: ws)
    end.

  (* Calls that keep the map consistent whatever Eq is.
     - unpair: as in [guard].
     - drain_filter(f): f does not answer true to the SomeRight of a paired item.
     - retain_paired: looking up the left item of a pair, if it finds anything, leads to the
       right item of that pair.
     - retain_unpaired: looking up an unpaired item does not find a paired one. *)
  Definition lax_guard (E : env L R S) (m : map) (o : op L R) : Prop :=
    match o with
    | Unpair l r => guard E m (Unpair l r)
    | DrainFilter X f x n leak => forall ps y l r, paired_rest E m (iter_paired m) = Done ps ->
        In (l, r) ps -> snd (f y (SomeRight r)) <> Some true
    | RetainPaired X f x => forall ps l r, paired_rest E m (iter_paired m) = Done ps ->
        In (l, r) ps -> contains_left E m l = true -> get_right E m l = Some r
    | RetainUnpaired X f x => forall es, unpaired_rest (iter_unpaired m) = Done es ->
        (forall l, In (SomeLeft l) es -> is_left_paired E m l = false) /\
        (forall r, In (SomeRight r) es -> is_right_paired E m r = false)
    | _ => True
    end.
  Fixpoint lax_guarded (m : map) (cs : list call) : Prop :=
    match cs with
    | [] => True
    | (E, o) :: t => lax_guard E m o /\ lax_guarded (fst (step E m o)) t
    end.

  Inductive lax_run : list (optional_pair L R) -> list call -> list (optional_pair L R) ->
      list (out L R) -> Prop :=
  | lax_run_nil : forall P, lax_run P [] P []
  | lax_run_cons : forall P E o P1 w cs P2 ws,
      lax_step (eqL E) (eqR E) P o P1 w -> lax_run P1 cs P2 ws ->
      lax_run P ((E, o) :: cs) P2 (w :: ws).
End LaxRun.
