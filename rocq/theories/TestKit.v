(* Running the project's own tests in the model.

   /repo/tests and the examples in the doc comments of /repo/src are programs with assertions that
   hold of the Rust code.  CycleMapTests.v, PartialTests.v and GroupTests.v transcribe them and
   evaluate them in the model.  They are tests of the model, not proofs about the code: an
   assertion that failed here would show a function modelled wrongly.

   Strings and structs become numbers: "7", TestingStruct::from_value(7) and 7 are all 7 (left and
   right items are hashed differently).  println! and the assertions the type checker makes are
   left out.  A failed assertion is a panic, as in Rust. *)
From Coq Require Import List NArith Lia Bool.
From Verif Require Import Prelude RawTable Optionals Concrete Capacity FaultTables.
Import ListNotations.
Open Scope N_scope.

(* derived PartialEq of the types the tests compare *)
Class Same (A : Type) := same : A -> A -> bool.
#[global] Instance same_N : Same N := N.eqb.
#[global] Instance same_nat : Same nat := Nat.eqb.
#[global] Instance same_bool : Same bool := Bool.eqb.
#[global] Instance same_option {A} (e : Same A) : Same (option A) := fun x y =>
  match x, y with Some a, Some b => same a b | None, None => true | _, _ => false end.
#[global] Instance same_pair {A B} (e : Same A) (e' : Same B) : Same (A * B) := fun x y =>
  same (fst x) (fst y) && same (snd x) (snd y).
#[global] Instance same_op {A B} (e : Same A) (e' : Same B) : Same (optional_pair A B) := op_eqb e e'.
#[global] Instance same_io : Same (insert_optional N N) := op_eqb same same.
(* HashSets, as duplicate-free lists *)
#[global] Instance same_set : Same (list N) := fun xs ys =>
  Nat.eqb (length xs) (length ys) && forallb (fun x => existsb (N.eqb x) ys) xs.

Section Kit.
  Context {S : Type}.
  Definition assert (b : bool) : M S unit := if b then ret tt else panic.
  Definition assert_eq {A} {e : Same A} (x y : A) : M S unit := assert (same x y).
  (* assert!(p(&map)), assert_eq!(f(&map), v) *)
  Definition holds (p : S -> bool) : M S unit := m <- getst ;; assert (p m).
  Definition fails (p : S -> bool) : M S unit := m <- getst ;; assert (negb (p m)).
  Definition shows {A} {e : Same A} (f : S -> A) (v : A) : M S unit := m <- getst ;; assert_eq (f m) v.
  (* the same for calls that may panic *)
  Definition yields {A} {e : Same A} (f : S -> outcome A) (v : A) : M S unit :=
    a <- reading f ;; assert_eq a v.
  Definition gives {A} {e : Same A} (c : M S A) (v : A) : M S unit := a <- c ;; assert_eq a v.
  (* let mut map = ...; an end of the scope of the map used so far *)
  Definition start (r : res S unit) : M S unit := fun _ =>
    match r with Ret m _ => Ret m tt | Panic m => Panic m end.
  Definition calls {A} (c : M S A) : M S unit := c ;;; ret tt.
  Fixpoint for_each {A} (l : list A) (body : A -> M S unit) : M S unit :=
    match l with [] => ret tt | a :: t => body a ;;; for_each t body end.
  Definition passed (r : res S unit) : bool := match r with Ret _ _ => true | Panic _ => false end.
  (* a closure without state, passed to a call on (map, state of the closure) *)
  Definition stateless {A} (c : S * unit -> res (S * unit) A) : M S A := fun m =>
    match c (m, tt) with Ret (m', _) a => Ret m' a | Panic (m', _) => Panic m' end.
End Kit.
Definition answer {A} (f : A -> bool) : unit -> A -> unit * verdict := fun x a => (x, Some (f a)).
Definition range (a b : N) : list N := map (fun k => a + N.of_nat k) (seq 0 (N.to_nat (b - a))).
Definition twins (a b : N) : list (N * N) := map (fun i => (i, i)) (range a b).
Definition somes {A} (l : list (option A)) : list A :=
  flat_map (fun o => match o with Some a => [a] | None => [] end) l.
Definition okay {A} (o : outcome A) (p : A -> bool) : bool :=
  match o with Done a => p a | Panicked => false end.

(* The tables and hashes under which the tests are run: all hashes equal in a table that reorders
   itself; hashes that collide in their low bits; two hash values; distinct hashes in tables that
   keep count of their capacity. *)
Definition t_collide : env N N N :=
  Env _ _ _ N.eqb N.eqb (fun _ _ => 0) (fun _ _ => 0) (fun _ _ => 0) lo_wild true.
Definition t_spread : env N N N :=
  Env _ _ _ N.eqb N.eqb (fun s a => 3 * s + 64 * a) (fun s a => 5 * s + 7 * a)
      (fun i p => i + fst p + snd p) lo_h7 false.
Definition t_parity : env N N N :=
  Env _ _ _ N.eqb N.eqb (fun s a => (s + a) mod 2) (fun s a => (s + a) mod 2)
      (fun _ p => snd p mod 2) lo_h7 true.
Definition t_count : env N N N :=
  Env _ _ _ N.eqb N.eqb (fun s a => s + a) (fun s a => s + 11 * a) (fun _ p => snd p) lo_cap true.
Definition t_room : env N N N :=
  Env _ _ _ N.eqb N.eqb (fun s a => s + a) (fun s a => s + 11 * a) (fun _ p => snd p) lo_room false.
Definition worlds : list (env N N N) := [t_collide; t_spread; t_parity; t_count; t_room].
(* assertions about capacities are checked where the capacity is counted *)
Definition counting : list (env N N N) := [t_count; t_room].

Lemma N_equiv : equivalence N.eqb.
Proof.
  constructor; intros; rewrite ?N.eqb_eq in *; subst; auto.
Qed.
Lemma N_lawful : forall hl hr hp l o, layout_ok l -> lawful (Env N N N N.eqb N.eqb hl hr hp l o).
Proof.
  intros. constructor; simpl; auto using N_equiv; intros s x y K; apply N.eqb_eq in K; subst; auto.
Qed.
Lemma worlds_ok : Forall lawful worlds.
Proof.
  constructor; [|constructor; [|constructor; [|constructor; [|constructor; [|constructor]]]]];
    apply N_lawful; auto using lo_wild_ok, lo_h7_ok, lo_cap_layout_ok, lo_room_layout_ok.
Qed.
