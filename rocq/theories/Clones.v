(* RawTable::clone with the Clone of its elements, which need not return identical values. *)
From Coq Require Import List NArith Bool Lia.
From Verif Require Import Prelude RawTable ListFacts Concrete.
Import ListNotations.
Open Scope N_scope.

(* RawTable::clone (hashbrown): same bucket count, the control bytes are copied, and every
   full bucket receives the clone of its element.  No element is hashed or compared. *)
Definition t_clone {A} (f : A -> A) (t : table A) : table A :=
  Tbl (map (fun x => (fst x, f (snd x))) (slots t)) (lay t).

Lemma t_clone_id : forall A (f : A -> A) (t : table A), (forall x, f x = x) -> t_clone f t = t.
Proof.
  intros A f [sl ly] H. unfold t_clone. simpl. f_equal.
  rewrite <- (map_id sl) at 2. apply map_ext. intros [h x]. simpl. rewrite H. auto.
Qed.

(* the relation between items and their clones: an Eq-equal value *)
Definition clones {T} (e : T -> T -> bool) (cl : T -> T) : Prop := forall x, e x (cl x) = true.

(* a cloned hasher builds the same hashers *)
Definition hasher_clones {L R S} (E : env L R S) (cs : S -> S) : Prop :=
  forall s, (forall l, hashL E (cs s) l = hashL E s l) /\ (forall r, hashR E (cs s) r = hashR E s r).

Lemma eqv_r : forall T (e : T -> T -> bool), equivalence e -> forall x y z,
  e y z = true -> e x z = e x y.
Proof.
  intros T e Q x y z H. apply eq_true_iff_eq. split; intros X.
  - apply (equiv_trans _ Q) with z; auto. apply (equiv_sym _ Q); auto.
  - apply (equiv_trans _ Q) with y; auto.
Qed.
Lemma eqv_l : forall T (e : T -> T -> bool), equivalence e -> forall x y z,
  e y z = true -> e z x = e y x.
Proof.
  intros T e Q x y z H. apply eq_true_iff_eq. split; intros X.
  - apply (equiv_trans _ Q) with z; auto.
  - apply (equiv_trans _ Q) with y; auto. apply (equiv_sym _ Q); auto.
Qed.

Lemma distinct_clone : forall T (e : T -> T -> bool) f (xs : list T), equivalence e ->
  clones e f -> distinct e xs -> distinct e (map f xs).
Proof.
  intros T e f xs EQ C. induction xs as [|x xs IH]; [simpl; auto|].
  intros D. simpl. apply distinct_cons in D as [D1 D2]. apply distinct_cons. split; auto.
  intros y Hy. apply in_map_iff in Hy as (z & <- & Hz).
  rewrite (eqv_r _ _ EQ _ _ _ (C z)), (eqv_l _ _ EQ _ _ _ (C x)). auto.
Qed.

Lemma find_map_clone : forall A (g : A -> A) (p q : A -> bool) xs, (forall x, p (g x) = q x) ->
  find p (map g xs) = option_map g (find q xs).
Proof.
  intros A g p q xs H. induction xs as [|x xs IH]; simpl; auto.
  rewrite H. destruct (q x); auto.
Qed.

(* searches in a cloned table, whatever the table holds *)
Lemma t_find_clone : forall lo A (f : A -> A) (p q : A -> bool) (t : table A) h,
  (forall x, p (f x) = q x) -> t_find lo (t_clone f t) h p = t_find lo t h q.
Proof.
  intros lo A f p q t h H. unfold t_find, t_clone. simpl. rewrite map_map. simpl.
  induction (hb_probe lo (lay t) h (map fst (slots t))) as [|i is IH]; simpl; auto.
  rewrite nth_error_map. destruct (nth_error (slots t) i) as [[k x]|]; simpl; [rewrite H|];
    rewrite IH; auto.
Qed.
Lemma t_get_clone : forall lo A (f : A -> A) (p q : A -> bool) (t : table A) h,
  (forall x, p (f x) = q x) ->
  t_get lo (t_clone f t) h p = option_map f (t_get lo t h q).
Proof.
  intros lo A f p q t h H. unfold t_get. rewrite (t_find_clone lo A f p q t h H).
  destruct (t_find lo t h q) as [i|]; auto. unfold t_entry, t_clone. simpl. rewrite nth_error_map.
  destruct (nth_error (slots t) i) as [[k x]|]; auto.
Qed.
Lemma t_get_ext : forall lo A (p q : A -> bool) (t : table A) h, (forall x, p x = q x) ->
  t_get lo t h p = t_get lo t h q.
Proof.
  intros lo A p q t h H. unfold t_get, t_find.
  induction (hb_probe lo (lay t) h (map fst (slots t))) as [|i is IH]; simpl; auto.
  destruct (nth_error (slots t) i) as [[k x]|]; auto. rewrite H. destruct (q x); auto.
Qed.
Lemma t_len_clone : forall A (f : A -> A) (t : table A), t_len (t_clone f t) = t_len t.
Proof. intros. unfold t_len, t_clone. simpl. apply map_length. Qed.

(* iterators in lockstep: one item of the one is one item of the other *)
Lemma collect_clone : forall I I' A A' (next : I -> outcome (option A * I))
    (next' : I' -> outcome (option A' * I')) (g : I -> I') (f : A -> A'),
  (forall it, next' (g it) = omap (fun x => (option_map f (fst x), g (snd x))) (next it)) ->
  forall n it, collect next' n (g it) = omap (map f) (collect next n it).
Proof.
  intros I I' A A' next next' g f H. induction n as [|n IH]; intros it; simpl; rewrite H;
    destruct (next it) as [[[x|] it']|]; simpl; auto.
  rewrite IH. destruct (collect next n it'); auto.
Qed.

(* for the cases: clones with another payload, a hasher changing its state when cloned *)
Definition mark (x : item) : item := (fst x, snd x + 7).
Definition reseed (s : N) : N := s + 2.

Lemma mark_clones : clones item_eq mark.
Proof. intros x. apply N.eqb_refl. Qed.
Lemma reseed_clones : hasher_clones env_parity reseed.
Proof.
  assert (X : forall s a, (reseed s + a) mod 2 = (s + a) mod 2).
  { intros s a. unfold reseed. replace (s + 2 + a) with (s + a + 1 * 2) by lia.
    apply N.mod_add. discriminate. }
  intros s; split; intros; apply X.
Qed.
