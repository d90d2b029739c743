(* Invariants of calls, also of calls that panic (C148 to C150). *)
From Coq Require Import List NArith Bool.
From Verif Require Import Prelude Faults Wild.
Import ListNotations.

Section Leaves.
  Context {T : Type} (I : T -> Prop).
  (* [c] leaves the state with I, whether it returns or panics *)
  Definition leaves {A} (c : M T A) : Prop :=
    forall s, I s -> match c s with Ret s' _ => I s' | Panic s' => I s' end.
  Lemma leaves_ret : forall {A} (a : A), leaves (ret a).
  Proof. intros A a s H. exact H. Qed.
  Lemma leaves_panic : forall {A}, leaves (@panic T A).
  Proof. intros A s H. exact H. Qed.
  Lemma leaves_unwrap : forall {A} (o : option A), leaves (unwrap o).
  Proof. intros A [a|] s H; exact H. Qed.
  Lemma leaves_reading : forall {A} (f : T -> outcome A), leaves (reading f).
  Proof. intros A f s H. unfold reading. destruct (f s); exact H. Qed.
  Lemma leaves_put : forall s, I s -> leaves (putst s).
  Proof. intros s H t _. exact H. Qed.
  Lemma leaves_bind : forall {A B} (c : M T A) (f : A -> M T B),
    leaves c -> (forall a, leaves (f a)) -> leaves (bind c f).
  Proof.
    intros A B c f H1 H2 s H. unfold bind. specialize (H1 s H). destruct (c s); auto. apply H2; auto.
  Qed.
  Lemma leaves_get : forall {B} (f : T -> M T B), (forall s, I s -> leaves (f s)) -> leaves (bind getst f).
  Proof. intros B f H s X. exact (H s X s X). Qed.
End Leaves.

(* a predicate on the map, read on a world and a map *)
Definition of_map {W map : Type} (I : map -> Prop) (s : W * map) : Prop := I (snd s).

Section WildLeaves.
  Context {W map : Type} (I : map -> Prop).
  Notation J := (@of_map W map I).
  Lemma leaves_calmly : forall {A} (c : M map A), leaves I c -> leaves J (w_calmly c).
  Proof.
    intros A c H [w m] X. unfold of_map in *. cbn [snd] in X. unfold w_calmly, w_with. cbn [fst snd]. specialize (H m X).
    destruct (c m); exact H.
  Qed.
  Lemma leaves_look : forall {A} (f : map -> M W A), leaves J (w_look f).
  Proof. intros A f [w m] X. unfold w_look. cbn [fst snd]. destruct (f m w); exact X. Qed.
End WildLeaves.

(* bind by bind; functions are unfolded unless a lemma in the database says what they leave *)
Create HintDb lv.
Ltac head c := match c with ?f _ => head f | _ => c end.
Ltac lv1 :=
  lazymatch goal with
  | |- leaves _ (ret _) => apply leaves_ret
  | |- leaves _ panic => apply leaves_panic
  | |- leaves _ (unwrap _) => apply leaves_unwrap
  | |- leaves _ (reading _) => apply leaves_reading
  | |- leaves _ (w_look _) => apply leaves_look
  | |- leaves _ (bind getst _) => apply leaves_get; intros
  | |- leaves _ (bind _ _) => apply leaves_bind; [|intros]
  | |- leaves _ (putst _) => apply leaves_put; auto
  | |- leaves _ (w_calmly _) => apply leaves_calmly
  | |- leaves _ (match ?x with _ => _ end) => destruct x
  | |- leaves _ (let _ := _ in _) => cbv zeta
  | |- leaves _ ?c => first [solve [auto with lv nocore] | let h := head c in unfold h]
  end.
Ltac lv := intros; repeat (progress lv1).
