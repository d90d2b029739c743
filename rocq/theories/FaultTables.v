(* When does a table rehash: a further part of the contract assumed of hashbrown, the room a
   table has, and concrete layouts and faults for the cases. *)
From Coq Require Import List NArith Lia Bool Permutation PeanoNat.
From Verif Require Import Prelude RawTable TableFacts Concrete Capacity Faults.
Import ListNotations.
Open Scope N_scope.

(* The hasher closure is called only by an insertion into a table without spare capacity, by
   reserve (try_reserve) of more than the spare capacity, and by shrink_to.
   hashbrown 0.12 RawTable::insert: "growth_left == 0", RawTable::reserve: "additional > growth_left";
   capacity() = items + growth_left. *)
Record calm_ok (lo : layout) : Prop := {
  calm_insert : forall l h len, len < hb_cap lo l -> hb_grow lo (hb_next lo l (CInsert h len)) = false;
  calm_grow : forall l n len, len + n <= hb_cap lo l -> hb_grow lo (hb_next lo l (CSize (Grow n) len)) = false
}.

Section Room.
  Variable lo : layout.
  Context {A : Type}.
  Implicit Types t : table A.

  (* k more entries go in without a rehash *)
  Definition room_for (k : N) t : Prop := size t + k <= t_capacity lo t.

  Lemma room_fits : forall k t, room_for k t <-> fits lo t /\ k <= spare lo t.
  Proof. intros k t. unfold room_for, fits, spare. lia. Qed.
  Lemma room_uses : forall j k t t', uses lo j t t' -> room_for (j + k) t -> room_for k t'.
  Proof.
    intros j k t t' U H. apply room_fits in H as [H1 H2]. destruct (U H1) as (U1 & _ & U2).
    apply room_fits. split; auto. destruct U2 as [U2 _]; lia.
  Qed.
  Lemma room_less : forall j k t, j <= k -> room_for k t -> room_for j t.
  Proof. unfold room_for. intros. lia. Qed.
  (* nothing is lost where there is room *)
  Lemma calm_insertion : calm_ok lo -> forall F t h t', room_for 1 t ->
    spoilt lo F true t (hb_next lo (lay t) (CInsert h (N.of_nat (t_len t)))) t' -> False.
  Proof.
    intros CA F t h t' H (G & _). rewrite (calm_insert _ CA) in G; [discriminate|].
    unfold room_for, size, t_capacity in H. lia.
  Qed.
  Lemma calm_growth : calm_ok lo -> forall F t n t', room_for n t ->
    spoilt lo F true t (hb_next lo (lay t) (CSize (Grow n) (N.of_nat (t_len t)))) t' -> False.
  Proof.
    intros CA F t h t' H (G & _). rewrite (calm_grow _ CA) in G; [discriminate|].
    unfold room_for, size, t_capacity in H. lia.
  Qed.
End Room.

(* every rehash moves the entries to a new allocation: a panicking hasher loses nothing *)
Definition lossless (F : fault) : Prop := forall A l k (xs : list A), Permutation (f_keep F A l k xs) xs.
Lemma spoilt_lossless : forall F, lossless F -> forall lo {A} ip (t : table A) l' t',
  spoilt lo F ip t l' t' -> Permutation (slots t') (slots t).
Proof. intros F LF lo A [|] t l' t' (_ & _ & H); [destruct H as (k & _ & ->); apply LF|subst; auto]. Qed.

(* ---- cases ---- *)

(* the counting tables of Capacity.v, noting in the lowest bit of a token that the last change
   made a new allocation *)
Definition moved (l : N) (c : change) : N :=
  match c with
  | CInsert _ _ | CSize _ _ => N.b2n (negb (hb_next lo_cap l c =? l))
  | _ => 0
  end.
Definition lo_room : layout :=
  Layout (fun _ _ hs => seq 0 (length hs))
         (fun _ _ xs => xs)
         N.odd
         (fun l c => 2 * hb_next lo_cap (N.div2 l) c + moved (N.div2 l) c)
         (fun _ => true)
         (fun n => 2 * hb_new lo_cap n)
         (fun l => hb_cap lo_cap (N.div2 l))
         (fun l => hb_full lo_cap (N.div2 l)).
Lemma lo_room_layout_ok : layout_ok lo_room.
Proof.
  constructor; simpl; intros; auto.
  apply in_seq. assert (i < length hs)%nat by (apply nth_error_Some; congruence). lia.
Qed.
Lemma div2_bit : forall n b, N.div2 (2 * n + N.b2n b) = n.
Proof. intros n [|]; simpl N.b2n; [apply div2_odd|rewrite N.add_0_r; apply div2_even]. Qed.
Lemma moved_bit : forall l c, exists b, moved l c = N.b2n b.
Proof. intros l [h n|i|z n|]; [eexists; reflexivity|exists false; reflexivity|eexists; reflexivity|exists false; reflexivity]. Qed.
Lemma room_next : forall l c, N.div2 (hb_next lo_room l c) = hb_next lo_cap (N.div2 l) c.
Proof.
  intros l c. cbn [lo_room hb_next]. destruct (moved_bit (N.div2 l) c) as [b ->]. apply div2_bit.
Qed.
Lemma lo_room_ok : capacity_ok lo_room.
Proof.
  destruct lo_cap_ok. constructor; intros;
    repeat match goal with x := hb_next lo_room _ _ |- _ => subst x end;
    cbn [hb_cap hb_full hb_new lo_room]; rewrite ?room_next, ?div2_even; auto.
Qed.
Lemma lo_room_calm : calm_ok lo_room.
Proof.
  constructor; intros l x n H; cbn [lo_room hb_cap hb_grow hb_next] in *.
  - cbn [moved]. replace (hb_next lo_cap (N.div2 l) (CInsert x n)) with (N.div2 l).
    + rewrite N.eqb_refl. simpl negb. simpl N.b2n. rewrite N.add_0_r, N.odd_mul. reflexivity.
    + cbn [lo_cap hb_next hb_cap] in *. destruct (N.ltb_spec n (N.div2 (N.div2 l) - tomb (N.div2 l))); [reflexivity|].
      exfalso. apply (N.lt_irrefl n). eapply N.lt_le_trans; eassumption.
  - cbn [moved]. replace (hb_next lo_cap (N.div2 l) (CSize (Grow x) n)) with (N.div2 l).
    + rewrite N.eqb_refl. simpl negb. simpl N.b2n. rewrite N.add_0_r, N.odd_mul. reflexivity.
    + cbn [lo_cap hb_next hb_cap] in *. destruct (N.leb_spec (n + x) (N.div2 (N.div2 l) - tomb (N.div2 l))); [reflexivity|].
      exfalso. apply (N.lt_irrefl (n + x)). eapply N.le_lt_trans; eassumption.
Qed.

(* items with key equality and these tables; no collisions *)
Definition env_room : env item item N :=
  Env _ _ _ item_eq item_eq (fun s a => s + fst a) (fun s a => s + fst a) (fun _ p => snd p) lo_room true.
Lemma env_room_ok : lawful env_room.
Proof.
  constructor; simpl; auto using item_eq_equiv, lo_room_layout_ok;
    intros s x y H; rewrite (item_eq_key _ _ H); auto.
Qed.

(* rehashing moves the entries to a new allocation, or happens in place *)
Definition f_move : fault := Fault (fun _ _ _ xs => xs) (fun l _ => l).
Definition f_in_place : fault := Fault (fun _ _ k xs => firstn k xs) (fun l _ => l).
Lemma f_move_lossless : lossless f_move.
Proof. intros A l k xs. reflexivity. Qed.
Lemma f_move_ok : fault_ok f_move.
Proof. intros A l k xs. exists []. simpl. rewrite app_nil_r. reflexivity. Qed.
Lemma f_in_place_ok : fault_ok f_in_place.
Proof. intros A l k xs. exists (skipn k xs). simpl. rewrite firstn_skipn. reflexivity. Qed.
