(* Iterators that behave like a list: one element per call of next, then None forever. *)
From Coq Require Import List NArith Lia Bool Permutation.
From Verif Require Import Prelude.
Import ListNotations.

Section Iter.
  Context {I A : Type} (next : I -> outcome (option A * I)) (V : I -> list A -> Prop).

  (* [V it l]: l is still to come from it *)
  Definition steps_as : Prop := forall it l, V it l ->
    match l with
    | [] => exists it', next it = Done (None, it') /\ V it' []
    | a :: t => exists it', next it = Done (Some a, it') /\ V it' t
    end.

  Lemma nexts_as : steps_as -> forall n it l, V it l ->
    exists it', nexts next n it = Done (firstn n (map Some l) ++ repeat None (n - length l), it')
                /\ V it' (skipn n l).
  Proof.
    intros H. induction n; intros it l HV.
    - exists it; auto.
    - assert (Q := H _ _ HV). destruct l as [|a t].
      + destruct Q as (it1 & E1 & V1). destruct (IHn _ _ V1) as (it2 & E2 & V2).
        exists it2. cbn [nexts]. rewrite E1, E2. rewrite !skipn_nil in *. split; auto.
        destruct n; auto.
      + destruct Q as (it1 & E1 & V1). destruct (IHn _ _ V1) as (it2 & E2 & V2).
        exists it2. cbn [nexts]. rewrite E1, E2. auto.
  Qed.

  Lemma collect_as : steps_as -> forall l fuel it, V it l -> (length l <= fuel)%nat ->
    collect next fuel it = Done l.
  Proof.
    intros H. induction l as [|a t IH]; intros fuel it HV HF; assert (Q := H _ _ HV); simpl in Q.
    - destruct Q as (it1 & E1 & _). destruct fuel; simpl; rewrite E1; auto.
    - destruct Q as (it1 & E1 & V1). destruct fuel as [|fuel]; [simpl in HF; lia|].
      simpl. rewrite E1. rewrite (IH fuel it1); auto. simpl in HF; lia.
  Qed.
End Iter.

(* a list whose elements come from a list of lists with at most one element each *)
Lemma flat_map_perm_inv : forall {A B} (f : A -> list B), (forall a, (length (f a) <= 1)%nat) ->
  forall l Z, Permutation l (flat_map f Z) -> exists Y, Permutation Z Y /\ l = flat_map f Y.
Proof.
  intros A B f Hf. induction l as [|b l IH]; intros Z P.
  - apply Permutation_nil in P. exists Z; auto.
  - assert (IN : In b (flat_map f Z)) by (eapply Permutation_in; [eauto|left; auto]).
    apply in_flat_map in IN as (z & Hz & Hb).
    assert (FZ : f z = [b]).
    { specialize (Hf z). destruct (f z) as [|x [|y t]]; simpl in *; try lia; destruct Hb as [->|[]]; auto. }
    apply in_split in Hz as (Z1 & Z2 & ->).
    assert (PM : Permutation (Z1 ++ z :: Z2) (z :: Z1 ++ Z2)) by (symmetry; apply Permutation_middle).
    rewrite (Permutation_flat_map f PM) in P. simpl in P. rewrite FZ in P. simpl in P.
    apply Permutation_cons_inv in P. destruct (IH _ P) as (Y & PY & ->).
    exists (z :: Y). split; [rewrite PM; auto|]. simpl. rewrite FZ. auto.
Qed.

Lemma flat_map_filter : forall {A B} (f : A -> list B) (p : A -> bool) l,
  (forall a, p a = false -> f a = []) -> flat_map f (filter p l) = flat_map f l.
Proof.
  induction l; simpl; intros H; auto. destruct (p a) eqn:P; simpl; rewrite IHl; auto.
  rewrite (H a P). auto.
Qed.
Lemma filter_split_perm : forall {A} (p : A -> bool) l,
  Permutation l (filter p l ++ filter (fun x => negb (p x)) l).
Proof.
  induction l; simpl; auto. destruct (p a); simpl.
  - constructor; auto.
  - etransitivity; [constructor; exact IHl|]. apply Permutation_middle.
Qed.
Lemma filter_map_comm : forall {A B} (g : A -> B) (p : B -> bool) l,
  filter p (map g l) = map g (filter (fun x => p (g x)) l).
Proof. induction l; simpl; auto. destruct (p (g a)); simpl; rewrite IHl; auto. Qed.
Lemma NoDup_app_r : forall {A} (l l' : list A), NoDup (l ++ l') -> NoDup l'.
Proof. induction l; simpl; intros l' H; auto. inversion H; auto. Qed.
