(* OptionalPair: properties C61 and C62. *)
From Coq Require Import List NArith Bool.
From Verif Require Import Prelude RawTable Optionals.
Import ListNotations.

(* The specification view of an OptionalPair: which components it holds. *)
Definition holds_left {L R} (x : optional_pair L R) (l : L) : Prop :=
  x = SomeLeft l \/ exists r, x = SomeBoth l r.
Definition holds_right {L R} (x : optional_pair L R) (r : R) : Prop :=
  x = SomeRight r \/ exists l, x = SomeBoth l r.

Section Props.
  Context {L R : Type}.
  Implicit Types x y : optional_pair L R.

  Theorem C61_conversions :
    (forall x, op_from_pair (op_to_pair x) = x) /\
    (forall q : option L * option R, op_to_pair (op_from_pair q) = q) /\
    (forall x, op_from_opt (op_to_opt x) = x) /\
    (forall q : option (option L * option R),
       op_to_opt (op_from_opt q) = match q with Some (None, None) => None | _ => q end) /\
    (forall q : option L * option R, op_from_opt (Some q) = op_from_pair q) /\
    op_from_opt (None : option (option L * option R)) = Neither /\
    (forall x l, fst (op_to_pair x) = Some l <-> holds_left x l) /\
    (forall x r, snd (op_to_pair x) = Some r <-> holds_right x r).
  Proof.
    split; [intros [| | |]; auto|].
    split; [intros [[|] [|]]; auto|].
    split; [intros [| | |]; auto|].
    split; [intros [[[|] [|]]|]; auto|].
    split; [intros [[|] [|]]; auto|].
    split; [auto|].
    unfold holds_left, holds_right.
    split; intros x a; (split; [|intros [->|(q & ->)]; auto]);
      destruct x; simpl; intros H; try discriminate; injection H as ->; eauto.
  Qed.

  Theorem C62_observers : forall (eL : L -> L -> bool) (eR : R -> R -> bool) x,
    (op_is_none eL eR x = true <-> op_to_pair x = (None, None)) /\
    (op_is_some eL eR x = true <-> (exists l, holds_left x l) \/ (exists r, holds_right x r)) /\
    (forall l, op_get_left x = Some l <-> holds_left x l) /\
    (forall r, op_get_right x = Some r <-> holds_right x r).
  Proof.
    intros eL eR x. unfold op_is_some, op_is_none, holds_left, holds_right.
    split; [destruct x; simpl; split; congruence|].
    split.
    - destruct x; simpl; split; intros H; eauto 6; try discriminate.
      destruct H as [(l & [H|(r & H)])|(r & [H|(l & H)])]; discriminate.
    - split; intros a; (split; [|intros [->|(q & ->)]; auto]);
        destruct x; simpl; intros H; try discriminate; injection H as ->; eauto.
  Qed.

  (* map applies each function to the present component and keeps the variant *)
  Theorem C62_map : forall A B (f : L -> A) (g : R -> B) x,
    op_to_pair (op_map f g x) =
      (option_map f (fst (op_to_pair x)), option_map g (snd (op_to_pair x))) /\
    op_to_pair (op_map_left f x) = (option_map f (fst (op_to_pair x)), snd (op_to_pair x)) /\
    op_to_pair (op_map_right g x) = (fst (op_to_pair x), option_map g (snd (op_to_pair x))) /\
    op_convert f g x = op_map f g x.
  Proof. intros A B f g [| | |]; simpl; auto. Qed.

  Theorem C62_map_laws : forall A B C D (f : L -> A) (g : R -> B) (f' : A -> C) (g' : B -> D) x,
    op_map (fun l => l) (fun r => r) x = x /\
    op_map f' g' (op_map f g x) = op_map (fun l => f' (f l)) (fun r => g' (g r)) x /\
    op_map_right g (op_map_left f x) = op_map f g x /\
    op_map_left f (op_map_right g x) = op_map f g x.
  Proof. intros A B C D f g f' g' [| | |]; simpl; auto. Qed.

  Theorem C62_cloned : forall (cl : L -> L) (cr : R -> R) x,
    op_to_pair (op_cloned cl cr x) =
      (option_map cl (fst (op_to_pair x)), option_map cr (snd (op_to_pair x))) /\
    ((forall l, cl l = l) -> (forall r, cr r = r) -> op_cloned cl cr x = x).
  Proof. intros cl cr [| | |]; simpl; split; auto; intros H1 H2; rewrite ?H1, ?H2; auto. Qed.

  (* derived equality is an equivalence whenever those of the components are, and separates
     variants *)
  Theorem C62_equality : forall (eL : L -> L -> bool) (eR : R -> R -> bool), equivalence eL -> equivalence eR ->
    equivalence (op_eqb eL eR) /\
    forall x y, op_eqb eL eR x y = true <->
      match fst (op_to_pair x), fst (op_to_pair y) with
      | Some a, Some b => eL a b = true | None, None => True | _, _ => False end /\
      match snd (op_to_pair x), snd (op_to_pair y) with
      | Some a, Some b => eR a b = true | None, None => True | _, _ => False end.
  Proof.
    intros eL eR EL ER. split.
    - constructor.
      + intros [| | |]; simpl; auto; rewrite ?(equiv_refl _ EL), ?(equiv_refl _ ER); auto.
      + intros [| | |] [| | |]; simpl; auto; try apply (equiv_sym _ EL); try apply (equiv_sym _ ER).
        rewrite !andb_true_iff. intros [H1 H2]. split; [apply (equiv_sym _ EL)|apply (equiv_sym _ ER)]; auto.
      + intros [| | |] [| | |] [| | |]; simpl; auto; try discriminate;
          rewrite ?andb_true_iff; intros; repeat match goal with H : _ /\ _ |- _ => destruct H end;
          try split; try (eapply (equiv_trans _ EL); eassumption);
          try (eapply (equiv_trans _ ER); eassumption).
    - intros [| | |] [| | |]; simpl; rewrite ?andb_true_iff; intuition discriminate.
  Qed.
End Props.

(* concrete cases *)
Example C61_case :
  op_to_opt (op_from_pair (Some 3%N, @None bool)) = Some (Some 3%N, None) /\
  op_from_opt (Some (None, Some true)) = (SomeRight true : optional_pair N bool).
Proof. auto. Qed.
Example C62_case :
  op_map N.succ negb (SomeBoth 3%N true) = SomeBoth 4%N false /\
  op_map_left N.succ (SomeRight true) = SomeRight true /\
  op_is_none N.eqb Bool.eqb (SomeRight true) = false /\
  op_get_left (SomeBoth 3%N true) = Some 3%N.
Proof. auto. Qed.
Print Assumptions C61_conversions.
Print Assumptions C62_observers.
Print Assumptions C62_map.
Print Assumptions C62_map_laws.
Print Assumptions C62_cloned.
Print Assumptions C62_equality.
