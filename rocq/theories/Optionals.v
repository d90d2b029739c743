(* src/optionals.rs *)
From Coq Require Import Bool.

(* src/optionals.rs:22-35 *)
Inductive optional_pair (L R : Type) : Type :=
| Neither
| SomeLeft (l : L)
| SomeRight (r : R)
| SomeBoth (l : L) (r : R).
Arguments Neither {L R}.
Arguments SomeLeft {L R} _.
Arguments SomeRight {L R} _.
Arguments SomeBoth {L R} _ _.

(* src/optionals.rs:40 *)
Definition insert_optional (L R : Type) := optional_pair (L * R) (L * R).

Section Ops.
  Context {L R : Type}.

  (* src/optionals.rs:21 derived PartialEq, given the Eq of the components *)
  Definition op_eqb (eL : L -> L -> bool) (eR : R -> R -> bool)
      (x y : optional_pair L R) : bool :=
    match x, y with
    | Neither, Neither => true
    | SomeLeft a, SomeLeft b => eL a b
    | SomeRight a, SomeRight b => eR a b
    | SomeBoth a c, SomeBoth b d => eL a b && eR c d
    | _, _ => false
    end.

  (* src/optionals.rs:49-51; compares with Neither using the derived equality *)
  Definition op_is_none (eL : L -> L -> bool) (eR : R -> R -> bool)
      (x : optional_pair L R) : bool := op_eqb eL eR x Neither.
  (* src/optionals.rs:56-58 *)
  Definition op_is_some eL eR (x : optional_pair L R) : bool := negb (op_is_none eL eR x).

  (* src/optionals.rs:61-66 *)
  Definition op_get_left (x : optional_pair L R) : option L :=
    match x with SomeLeft l | SomeBoth l _ => Some l | _ => None end.
  (* src/optionals.rs:69-74 *)
  Definition op_get_right (x : optional_pair L R) : option R :=
    match x with SomeRight r | SomeBoth _ r => Some r | _ => None end.

  (* src/optionals.rs:87-100 *)
  Definition op_map {A B} (f : L -> A) (g : R -> B) (x : optional_pair L R)
      : optional_pair A B :=
    match x with
    | Neither => Neither
    | SomeLeft l => SomeLeft (f l)
    | SomeRight r => SomeRight (g r)
    | SomeBoth l r => SomeBoth (f l) (g r)
    end.
  (* src/optionals.rs:78-84; From::from of the component types are parameters *)
  Definition op_convert {A B} (fromL : L -> A) (fromR : R -> B) (x : optional_pair L R)
      : optional_pair A B := op_map (fun l => fromL l) (fun r => fromR r) x.
  (* src/optionals.rs:103-114 *)
  Definition op_map_left {A} (f : L -> A) (x : optional_pair L R) : optional_pair A R :=
    match x with
    | Neither => Neither
    | SomeRight r => SomeRight r
    | SomeLeft l => SomeLeft (f l)
    | SomeBoth l r => SomeBoth (f l) r
    end.
  (* src/optionals.rs:117-128 *)
  Definition op_map_right {A} (f : R -> A) (x : optional_pair L R) : optional_pair L A :=
    match x with
    | Neither => Neither
    | SomeLeft l => SomeLeft l
    | SomeRight r => SomeRight (f r)
    | SomeBoth l r => SomeBoth l (f r)
    end.
  (* src/optionals.rs:138-145 and 153-160; Clone of the components as parameters *)
  Definition op_cloned (cl : L -> L) (cr : R -> R) (x : optional_pair L R)
      : optional_pair L R :=
    match x with
    | Neither => Neither
    | SomeLeft l => SomeLeft (cl l)
    | SomeRight r => SomeRight (cr r)
    | SomeBoth l r => SomeBoth (cl l) (cr r)
    end.

  (* src/optionals.rs:186-199 *)
  Definition op_from_pair (x : option L * option R) : optional_pair L R :=
    match x with
    | (None, None) => Neither
    | (Some a, None) => SomeLeft a
    | (None, Some b) => SomeRight b
    | (Some a, Some b) => SomeBoth a b
    end.
  (* src/optionals.rs:201-214 *)
  Definition op_from_opt (x : option (option L * option R)) : optional_pair L R :=
    match x with
    | None | Some (None, None) => Neither
    | Some (Some a, None) => SomeLeft a
    | Some (None, Some b) => SomeRight b
    | Some (Some a, Some b) => SomeBoth a b
    end.
  (* src/optionals.rs:216-229 *)
  Definition op_to_pair (x : optional_pair L R) : option L * option R :=
    match x with
    | Neither => (None, None)
    | SomeLeft a => (Some a, None)
    | SomeRight b => (None, Some b)
    | SomeBoth a b => (Some a, Some b)
    end.
  (* src/optionals.rs:231-244 *)
  Definition op_to_opt (x : optional_pair L R) : option (option L * option R) :=
    match x with
    | Neither => None
    | SomeLeft a => Some (Some a, None)
    | SomeRight b => Some (None, Some b)
    | SomeBoth a b => Some (Some a, Some b)
    end.
End Ops.
