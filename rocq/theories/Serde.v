(* src/serde.rs: serialization of CycleMap. *)
From Coq Require Import List NArith Lia Bool.
From Verif Require Import Prelude RawTable Optionals CycleMap.
Import ListNotations.
Open Scope N_scope.

(* serde::Serializer / SerializeSeq, reduced to what src/serde.rs uses: W is the sequence
   under construction, Doc the finished document; None is an error of the serializer. *)
Record seq_serializer (T W Doc : Type) := Ser {
  serialize_seq : option nat -> option W;
  serialize_element : W -> T -> option W;
  ser_end : W -> option Doc
}.
Arguments serialize_seq {T W Doc} _ _.
Arguments serialize_element {T W Doc} _ _ _.
Arguments ser_end {T W Doc} _ _.

Section Serde.
  Context {L R S : Type}.
  Variable E : env L R S.
  Notation map := (cmap L R S).

  (* src/serde.rs:77-88.  outer outcome: panic or not; inner option: serializer error (None) *)
  Section Serialize.
    Context {W Doc : Type}.
    Variable sz : seq_serializer (L * R) W Doc.
    Fixpoint serialize_loop (m : map) (fuel : nat) (it : iter_t (L := L)) (w : W) : outcome (option W) :=
      match iter_next E m it with
      | Panicked => Panicked
      | Done (None, _) => Done (Some w)
      | Done (Some p, it') =>
          match serialize_element sz w p with
          | None => Done None
          | Some w' => match fuel with
                       | O => Panicked        (* out of fuel *)
                       | Datatypes.S fuel' => serialize_loop m fuel' it' w'
                       end
          end
      end.
    Definition serialize (m : map) : outcome (option Doc) :=
      match serialize_seq sz (Some (len m)) with
      | None => Done None
      | Some w =>
          match serialize_loop m (length (iter m)) (iter m) w with
          | Panicked => Panicked
          | Done None => Done None
          | Done (Some w') => Done (ser_end sz w')
          end
      end.
  End Serialize.

  (* src/serde.rs:42-54.  The SeqAccess is the finite list of its answers: a decoded element
     (Some) or an error (None).  Its size_hint only chooses the initial capacity, i.e. the
     unspecified layouts ll, lr; for a hint too large for that see SerdeStream.v.
     s: Default::default() of the hasher. *)
  Fixpoint visit_loop (acc : list (option (L * R))) : M map bool :=
    match acc with
    | [] => ret true
    | None :: _ => ret false
    | Some (l, r) :: t => insert E l r ;;; visit_loop t
    end.
  Definition visit_seq (s : S) (ll lr : N) (acc : list (option (L * R))) : outcome (option map) :=
    match visit_loop acc (with_hasher s ll lr) with
    | Panic _ => Panicked
    | Ret m true => Done (Some m)
    | Ret _ false => Done None
    end.
End Serde.
