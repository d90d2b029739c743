(* Panic-aware outcomes and machine integers shared by all models. *)
From Coq Require Import List NArith Lia Bool.
Import ListNotations.
Open Scope N_scope.

(* Result of a Rust call taking [&mut S]: normal return with the new state, or
   a panic.  The state at the moment of the panic is kept because the caller can
   observe it with [catch_unwind]. *)
Inductive res (S A : Type) : Type :=
| Ret (s : S) (a : A)
| Panic (s : S).
Arguments Ret {S A} _ _.
Arguments Panic {S A} _.

(* Result of a Rust call taking [&self]: the state cannot change. *)
Inductive outcome (A : Type) : Type :=
| Done (a : A)
| Panicked.
Arguments Done {A} _.
Arguments Panicked {A}.

Definition M (S A : Type) : Type := S -> res S A.

Definition ret {S A} (a : A) : M S A := fun s => Ret s a.
Definition bind {S A B} (m : M S A) (f : A -> M S B) : M S B :=
  fun s => match m s with
           | Ret s' a => f a s'
           | Panic s' => Panic s'
           end.
Definition getst {S} : M S S := fun s => Ret s s.
Definition putst {S} (s : S) : M S unit := fun _ => Ret s tt.
Definition panic {S A} : M S A := fun s => Panic s.
(* [Option::unwrap] *)
Definition unwrap {S A} (o : option A) : M S A :=
  match o with Some a => ret a | None => panic end.
(* a read-only call made from a [&mut self] method *)
Definition reading {S A} (f : S -> outcome A) : M S A :=
  fun s => match f s with Done a => Ret s a | Panicked => Panic s end.

Notation "x <- m ;; k" := (bind m (fun x => k))
  (at level 61, m at next level, right associativity).
Notation "' p <- m ;; k" := (bind m (fun x => let p := x in k))
  (at level 61, p pattern, m at next level, right associativity).
Notation "m ;;; k" := (bind m (fun _ => k))
  (at level 61, right associativity).

Definition res_state {S A} (r : res S A) : S :=
  match r with Ret s _ => s | Panic s => s end.
Definition res_value {S A} (r : res S A) : option A :=
  match r with Ret _ a => Some a | Panic _ => None end.

Definition omap {A B} (f : A -> B) (o : outcome A) : outcome B :=
  match o with Done a => Done (f a) | Panicked => Panicked end.

(* u64 arithmetic: [x += 1].  With overflow checks (debug builds) the addition
   panics (None); without (release builds) it wraps. *)
Definition two64 : N := 2 ^ 64.
Definition u64_incr (checks : bool) (x : N) : option N :=
  if x + 1 <? two64 then Some (x + 1)
  else if checks then None else Some 0.

(* n calls of an iterator's [next], or fewer if one panics. *)
Section Iterators.
  Context {I A : Type}.
  Variable next : I -> outcome (option A * I).
  Fixpoint nexts (n : nat) (it : I) : outcome (list (option A) * I) :=
    match n with
    | O => Done ([], it)
    | S n' => match next it with
              | Panicked => Panicked
              | Done (a, it') =>
                  match nexts n' it' with
                  | Panicked => Panicked
                  | Done (l, it'') => Done (a :: l, it'')
                  end
              end
    end.

  (* a [for] loop / [collect]: call [next] until it returns None.  Running out of
     fuel is reported as Panicked (an error), never as a normal result. *)
  Fixpoint collect (fuel : nat) (it : I) : outcome (list A) :=
    match next it with
    | Panicked => Panicked
    | Done (None, _) => Done []
    | Done (Some a, it') =>
        match fuel with
        | O => Panicked
        | S fuel' => omap (cons a) (collect fuel' it')
        end
    end.
End Iterators.

(* Answer of a user closure [FnMut(..) -> bool] with captured state X. *)
Definition verdict := option bool.   (* None: the closure panicked *)
