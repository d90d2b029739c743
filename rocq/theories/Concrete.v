(* Concrete environments used by the examples and counterexamples.  They also show that the
   contracts [layout_ok] and [lawful] can be met. *)
From Coq Require Import List NArith Lia Bool Permutation.
From Verif Require Import Prelude RawTable.
Import ListNotations.
Open Scope N_scope.

(* Searches look at every bucket, last first; insertion reverses the order; the table
   rehashes at every other layout. *)
Definition lo_wild : layout :=
  Layout (fun _ _ hs => rev (seq 0 (length hs)))
         (fun _ _ xs => rev xs)
         N.even
         (fun l c => l + match c with
                         | CInsert h _ => h
                         | CErase i => i
                         | CSize (Grow n) _ | CSize (Shrink n) _ => n
                         | CClear => 0
                         end + 1)
         N.odd
         (fun n => n) (fun l => l) (fun l => l).
(* Searches look at the buckets that agree in the low 7 bits of the hash, as hashbrown does;
   new buckets go to the front; every insertion rehashes. *)
Definition lo_h7 : layout :=
  Layout (fun _ h hs => filter (fun i => match nth_error hs i with
                                         | Some h' => N.land h 127 =? N.land h' 127
                                         | None => false end)
                               (seq 0 (length hs)))
         (fun _ _ xs => xs)
         (fun _ => true)
         (fun l _ => l)
         (fun _ => true)
         (fun n => n) (fun l => l) (fun l => l).

Lemma lo_wild_ok : layout_ok lo_wild.
Proof.
  constructor; simpl; intros.
  - apply -> in_rev. apply in_seq.
    assert (i < length hs)%nat by (apply nth_error_Some; congruence). lia.
  - symmetry. apply Permutation_rev.
Qed.
Lemma lo_h7_ok : layout_ok lo_h7.
Proof.
  constructor; simpl; intros.
  - apply filter_In. split.
    + apply in_seq. assert (i < length hs)%nat by (apply nth_error_Some; congruence). lia.
    + rewrite H. apply N.eqb_refl.
  - reflexivity.
Qed.

(* Items are (key, tag); Eq and Hash look at the key only, so equal items can be told
   apart by their tags. *)
Definition item := (N * N)%type.
Definition item_eq (a b : item) : bool := fst a =? fst b.
Lemma item_eq_equiv : equivalence item_eq.
Proof.
  unfold item_eq. constructor; intros.
  - apply N.eqb_refl.
  - apply N.eqb_eq in H. apply N.eqb_eq. auto.
  - apply N.eqb_eq in H, H0. apply N.eqb_eq. congruence.
Qed.

(* every hash collides *)
Definition env_collide : env item item N :=
  Env _ _ _ item_eq item_eq (fun _ _ => 0) (fun _ _ => 0) (fun _ _ => 0) lo_wild true.
(* hashes differ between keys and between hasher states *)
Definition env_spread : env item item N :=
  Env _ _ _ item_eq item_eq (fun s a => 3 * s + fst a) (fun s a => 5 * s + 7 * fst a)
      (fun i p => i + fst p + snd p) lo_h7 false.
(* two hash values; odd and even keys are kept apart *)
Definition env_parity : env item item N :=
  Env _ _ _ item_eq item_eq (fun s a => (s + fst a) mod 2) (fun s a => (s + fst a) mod 2)
      (fun _ p => snd p mod 2) lo_h7 true.

Lemma env_collide_ok : lawful env_collide.
Proof. constructor; simpl; auto using item_eq_equiv, lo_wild_ok. Qed.
Lemma item_eq_key : forall a b, item_eq a b = true -> fst a = fst b.
Proof. unfold item_eq; intros. apply N.eqb_eq; auto. Qed.
Lemma env_spread_ok : lawful env_spread.
Proof.
  constructor; simpl; auto using item_eq_equiv, lo_h7_ok;
    intros s x y H; rewrite (item_eq_key _ _ H); auto.
Qed.
Lemma env_parity_ok : lawful env_parity.
Proof.
  constructor; simpl; auto using item_eq_equiv, lo_h7_ok;
    intros s x y H; rewrite (item_eq_key _ _ H); auto.
Qed.

(* sample items *)
Definition it (k : N) : item := (k, 0).
Definition it' (k : N) : item := (k, 1).     (* Eq to [it k], but another value *)
