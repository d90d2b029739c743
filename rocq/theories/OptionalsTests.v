(* /repo/tests/optionals_tests.rs, run in the model (see TestKit.v).  A string is its number plus
   1000; to_string adds 1000. *)
From Coq Require Import List NArith Lia Bool.
From Verif Require Import Prelude Optionals TestKit.
Import ListNotations.
Open Scope N_scope.

Notation op := (optional_pair N N).
Definition str (n : N) : N := 1000 + n.
Definition no : op := Neither.
Definition sl : op := SomeLeft 42.
Definition sr : op := SomeRight 84.
Definition sb : op := SomeBoth 42 84.
Definition keep := @op_cloned N N id id.

(* 7-10 *)
Example is_tests : op_is_some N.eqb N.eqb (SomeLeft 42 : op) = true.
Proof. reflexivity. Qed.
(* 13-17 *)
Example convert_test : op_convert str str sl = SomeLeft (str 42).
Proof. reflexivity. Qed.
(* 20-64 *)
Example map_tests :
  forallb (fun p => same (op_map str str (keep (fst p))) (snd p))
    [(no, Neither); (sl, SomeLeft (str 42)); (sr, SomeRight (str 84)); (sb, SomeBoth (str 42) (str 84))] &&
  forallb (fun p => same (op_map_left str (keep (fst p))) (snd p))
    [(no, Neither); (sl, SomeLeft (str 42)); (sr, SomeRight 84); (sb, SomeBoth (str 42) 84)] &&
  forallb (fun p => same (op_map_right str (keep (fst p))) (snd p))
    [(no, Neither); (sl, SomeLeft 42); (sr, SomeRight (str 84)); (sb, SomeBoth 42 (str 84))] = true.
Proof. vm_compute. reflexivity. Qed.
(* 67-92 *)
Example from_tests :
  forallb (fun x => same x (op_from_opt (op_to_opt (keep x))) && same x (op_from_pair (op_to_pair (keep x))))
    [no; sl; sr; sb] = true.
Proof. vm_compute. reflexivity. Qed.
