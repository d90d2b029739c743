(* CycleMap: the iterators of one map agree on the order (C157). *)
From Coq Require Import List NArith Lia Bool.
From Verif Require Import Closures Prelude RawTable CycleMap ListFacts CycleMapHistory Concrete CycleMapProps CycleMapProps2.
Import ListNotations.
Open Scope N_scope.

Section Order.
  Context {L R S : Type} (E : env L R S).
  Notation map := (cmap L R S).

  (* iter_left() yields the left items of the pairs of iter(), in the same order, on every map
     whose iter() does not panic. *)
  Theorem C157_cycle : forall (m : map) P, contents E m P ->
    collect single_next (single_len (iter_left m)) (iter_left m) = Done (List.map fst P).
  Proof.
    intros m. unfold contents, iter_all, iter, iter_left, single_len.
    induction (slots (left_set m)) as [|[k l] it IH]; intros P H.
    - inversion H. reflexivity.
    - cbn [collect iter_next length single_next omap] in *.
      destruct (get_right E m (value l)) as [r|]; [|discriminate].
      destruct (collect (iter_next E m) (length it) it) as [Q|]; [|discriminate].
      inversion H; subst P. rewrite (IH Q eq_refl). reflexivity.
  Qed.
End Order.

Example C157_cycle_case : contents env_collide m1 P1 /\
  collect single_next (single_len (iter_left m1)) (iter_left m1) = Done [it 4; it 1; it 5] /\
  (* the right items come in another order *)
  collect single_next (single_len (iter_right m1)) (iter_right m1) = Done [it 20; it 30; it 50].
Proof. vm_compute. repeat split. Qed.

Print Assumptions C157_cycle.
