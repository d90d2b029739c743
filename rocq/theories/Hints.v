(* size_hint() of iterators that pass over items (properties C43 and C55). *)
From Coq Require Import List PeanoNat.
Import ListNotations.

(* ---- specification ---- *)
(* what is behind the n-th item with p: everything passed on the way to it is left out *)
Fixpoint behind {A} (p : A -> bool) (n : nat) (l : list A) : list A :=
  match n, l with
  | O, _ => l
  | _, [] => []
  | Datatypes.S n', x :: t => behind p (if p x then n' else n) t
  end.
(* a hint that gives a number as lower and as upper bound *)
Definition exactly (k : nat) : nat * option nat := (k, Some k).

Lemma behind_nil : forall {A} (p : A -> bool) n, behind p n [] = [].
Proof. destruct n; auto. Qed.
Lemma behind_0 : forall {A} (p : A -> bool) l, behind p 0 l = l.
Proof. destruct l; auto. Qed.
Lemma behind_S : forall {A} (p : A -> bool) n l, behind p (S n) l = behind p n (behind p 1 l).
Proof.
  intros A p n l. induction l as [|x l IH]; [rewrite !behind_nil; auto|].
  cbn [behind]. destruct (p x); [|exact IH]. destruct l; auto.
Qed.
Lemma behind_map : forall {A B} (p : A -> bool) (q : B -> bool) (g : A -> B) n l,
  (forall x, In x l -> q (g x) = p x) -> behind q n (map g l) = map g (behind p n l).
Proof.
  intros A B p q g n l. revert n. induction l as [|x l IH]; intros n H.
  - cbn [map]. rewrite !behind_nil. auto.
  - destruct n; auto. cbn [map behind]. rewrite (H x) by (left; auto). apply IH. intros y Hy. apply H. right; auto.
Qed.
