(* Deserialization of a CycleMap from a deserializer that is not trusted (C129).

   Serde.v takes the answers of the SeqAccess as a finite list and ignores its size hint.  Here the
   SeqAccess is foreign code: a state, a size hint that may lie, and a next_element() that may give
   an element, end, fail or panic, and need never end. *)
From Coq Require Import List NArith Lia Bool PeanoNat.
From Verif Require Import Prelude RawTable Optionals CycleMap CycleMapSpec CycleMapHistory CycleMapProps CycleMapProps2
  CycleMapProps3 Serde Capacity CycleMapCapacity Concrete.
Import ListNotations.
Open Scope N_scope.

(* serde::de::SeqAccess: what next_element::<(L, R)>() does *)
Inductive answer (L R Er : Type) : Type := Element (l : L) (r : R) | Finish | Fail (e : Er) | Explode.
Arguments Element {L R Er}. Arguments Finish {L R Er}. Arguments Fail {L R Er}. Arguments Explode {L R Er}.
Record seq_access (L R Er X : Type) := Access {
  size_hint : X -> option N;                     (* a usize *)
  next_element : X -> X * answer L R Er
}.
Arguments size_hint {L R Er X} _ _. Arguments next_element {L R Er X} _ _.
(* where deserialization stands: Ok(map), Err(e), a panic, or still reading *)
Inductive reading (Er M0 : Type) : Type := Read (m : M0) | Error (e : Er) | Died | More (m : M0).
Arguments Read {Er M0}. Arguments Error {Er M0}. Arguments Died {Er M0}. Arguments More {Er M0}.

Section Model.
  Context {L R S Er X : Type}.
  Variable E : env L R S.
  (* Can RawTable::with_capacity(n) compute the size of its memory, for each of the two entry types?
     If not it panics ("Hash table capacity overflow").  An allocator that then has no such memory
     is not modelled: the process aborts. *)
  Variable room_l room_r : N -> bool.
  Variable a : seq_access L R Er X.

  (* src/serde.rs:49-53, watched for at most n calls of next_element() *)
  Fixpoint visit_rest (n : nat) (x : X) (m : cmap L R S) : reading Er (cmap L R S) :=
    match n with
    | O => More m
    | Datatypes.S n =>
        match next_element a x with
        | (_, Explode) => Died
        | (_, Fail e) => Error e
        | (_, Finish) => Read m
        | (x', Element l r) =>
            match insert E l r m with
            | Ret m' _ => visit_rest n x' m'
            | Panic _ => Died
            end
        end
    end.
  (* src/serde.rs:42-54; s: Default::default() of the hasher *)
  Definition visit (s : S) (n : nat) (x : X) : reading Er (cmap L R S) :=
    let c := match size_hint a x with Some c => c | None => 0 end in
    if room_l c && room_r c
    then visit_rest n x (with_capacity_and_hasher E c s)
    else Died.
End Model.

(* ---- specification ---- *)
Section Spec.
  Context {L R Er X : Type} (a : seq_access L R Er X).
  (* n calls of next_element() from x give the elements xs, and then: *)
  Inductive answers : nat -> X -> list (L * R) -> reading Er unit -> Prop :=
  | a_more : forall x, answers 0 x [] (More tt)
  | a_read : forall n x x', next_element a x = (x', Finish) -> answers (Datatypes.S n) x [] (Read tt)
  | a_error : forall n x x' e, next_element a x = (x', Fail e) -> answers (Datatypes.S n) x [] (Error e)
  | a_died : forall n x x', next_element a x = (x', Explode) -> answers (Datatypes.S n) x [] Died
  | a_element : forall n x x' l r xs z, next_element a x = (x', Element l r) -> answers n x' xs z ->
      answers (Datatypes.S n) x ((l, r) :: xs) z.
End Spec.
Definition with_map {Er M0} (z : reading Er unit) (m : M0) : reading Er M0 :=
  match z with Read _ => Read m | More _ => More m | Error e => Error e | Died => Died end.
(* memory is computable only if it is less than 2^63 bytes (isize::MAX) *)
Definition at_most_isize (bytes : N) (room : N -> bool) : Prop :=
  forall n, room n = true -> n * bytes < 2 ^ 63.
(* an entry has a value, a hash and an id (src/cycle_map.rs:24-28): 16 bytes or more *)
Definition entry_bytes : N := 16.

Section Theorems.
  Context {L R S Er X : Type}.
  Variable E : env L R S.
  Hypothesis OK : lawful E.
  Implicit Types a : seq_access L R Er X.

  Lemma visit_rest_extend : forall a n x xs z, answers a n x xs z -> forall m,
    visit_rest E a n x m = match extend E xs m with Ret m' _ => with_map z m' | Panic _ => Died end.
  Proof.
    induction 1; intros m; cbn [visit_rest]; try (rewrite H; reflexivity); [reflexivity|].
    rewrite H. cbn [extend]. unfold bind. destruct (insert E l r m); auto.
  Qed.

  (* Whatever the deserializer does, and whatever size it announced, if the tables can be made: the
     result is the map with exactly the elements given, inserted in order; an error of the
     deserializer is passed on; there is no panic but its own. *)
  Theorem C129_deserialize_partial : forall room_l room_r a n x xs z s,
    answers a n x xs z -> N.of_nat (length xs) < two64 ->
    (forall c, size_hint a x = Some c -> room_l c = true /\ room_r c = true) ->
    (size_hint a x = None -> room_l 0 = true /\ room_r 0 = true) ->
    exists m, visit E room_l room_r a s n x = with_map z m /\ reachable E 0 m /\
      behaves_as E 0 m (fold_left (fun P p => s_insert (eqL E) (eqR E) P (fst p) (snd p)) xs []).
  Proof.
    intros room_l room_r a n x xs z s A B HS HN. unfold visit.
    set (c := match size_hint a x with Some c => c | None => 0 end).
    assert (RC : room_l c && room_r c = true).
    { subst c. destruct (size_hint a x) as [c|]; [destruct (HS c) as [-> ->]|destruct HN as [-> ->]]; auto. }
    rewrite RC. rewrite (visit_rest_extend a n x xs z A).
    set (m0 := with_capacity_and_hasher E c s).
    assert (H0 : reachable E (N.of_nat (length xs)) m0).
    { exists s, (hb_new (lo E) c), (hb_new (lo E) c), []. split; [cbn [budget]; lia|reflexivity]. }
    destruct (C20_extend E OK xs m0 H0) as (P & m' & V & X1 & BH & Q).
    assert (P = []) as ->.
    { unfold contents in V. vm_compute in V. congruence. }
    exists m'. rewrite X1. split; [reflexivity|]. split.
    { exists s, (hb_new (lo E) c), (hb_new (lo E) c), (map (fun x => Insert (fst x) (snd x)) xs). split; auto.
      replace (budget _) with (N.of_nat (length xs)); [lia|].
      clear. induction xs as [|y xs IH]; cbn [map budget ids length] in *; lia. }
    exact BH.
  Qed.

  (* The announced size is trusted.  A document that announces 2^59 elements makes the call panic,
     whether or not it has any elements, ... *)
  Theorem C129_hint_panics : forall room_l room_r a s n x c,
    at_most_isize entry_bytes room_l \/ at_most_isize entry_bytes room_r ->
    size_hint a x = Some c -> 2 ^ 59 <= c ->
    visit E room_l room_r a s n x = Died.
  Proof.
    intros room_l room_r a s n x c RM H C. unfold visit. rewrite H.
    destruct (room_l c) eqn:A, (room_r c) eqn:B; auto. exfalso.
    destruct RM as [RM|RM]; [apply RM in A|apply RM in B]; unfold entry_bytes in *;
      change (2 ^ 63) with (2 ^ 59 * 16) in *; nia.
  Qed.
  (* ... and one that announces less gets memory for that much on both sides, and holds it while it
     is read and after, however few elements it gives. *)
  Theorem C129_hint_memory : layout_ok (lo E) -> capacity_ok (lo E) ->
    forall room_l room_r a s n x m c, size_hint a x = Some c ->
    (visit E room_l room_r a s n x = Read m \/ visit E room_l room_r a s n x = More m) ->
    c <= fst (buckets E m) /\ c <= snd (buckets E m).
  Proof.
    intros LO CO room_l room_r a s n x m c H V. unfold visit in V. rewrite H in V.
    destruct (room_l c && room_r c); [|destruct V; discriminate].
    destruct (with_capacity_fits (A := mapping_pair L) _ CO c) as (F1 & _ & C1).
    destruct (with_capacity_fits (A := mapping_pair R) _ CO c) as (F2 & _ & C2).
    assert (G1 := cap_le_full _ CO (lay (t_with_capacity (lo E) c : table (mapping_pair L)))).
    assert (G2 := cap_le_full _ CO (lay (t_with_capacity (lo E) c : table (mapping_pair R)))).
    unfold t_capacity in C1, C2.
    assert (K : forall n x (m0 : cmap L R S), fits (lo E) (left_set m0) -> fits (lo E) (right_set m0) ->
      c <= fst (buckets E m0) -> c <= snd (buckets E m0) ->
      visit_rest E a n x m0 = Read m \/ visit_rest E a n x m0 = More m ->
      c <= fst (buckets E m) /\ c <= snd (buckets E m)).
    { clear - LO CO. induction n as [|n IH]; intros x m0 A1 A2 B1 B2 V; cbn [visit_rest] in V.
      - destruct V as [V|V]; [discriminate|]. injection V as <-. auto.
      - destruct (next_element a x) as [x' [l r| |e|]]; try (destruct V; discriminate).
        + assert (CC := insert_cost E LO CO l r m0). destruct (insert E l r m0) as [m1 d|m1]; [|destruct V; discriminate].
          destruct CC as [U1 U2]. cbn [res_state] in *. destruct (U1 A1) as (D1 & D2 & _). destruct (U2 A2) as (D3 & D4 & _).
          apply (IH x' m1); auto; unfold buckets, full in *; cbn [fst snd] in *; lia.
        + destruct V as [V|V]; [|discriminate]. injection V as <-. auto. }
    apply (K n x (with_capacity_and_hasher E c s)); [exact F1|exact F2| | |exact V]; unfold buckets, with_capacity_and_hasher; cbn [fst snd left_set right_set]; etransitivity; eauto.
  Qed.
End Theorems.

(* ---- cases ---- *)
(* a document: the size announced, and its elements; None is a malformed one *)
Definition from_list (c : N) : seq_access item item N (list (option (item * item))) :=
  Access _ _ _ _ (fun _ => Some c)
    (fun xs => match xs with
               | [] => ([], Finish)
               | None :: t => (t, Fail 42)
               | Some (l, r) :: t => (t, Element l r)
               end).
Definition room16 (n : N) : bool := n * entry_bytes <? 2 ^ 63.
Lemma room16_ok : at_most_isize entry_bytes room16.
Proof. intros n H. apply N.ltb_lt in H. exact H. Qed.
Example C129_case : let doc := [Some (it 1, it 10); Some (it 2, it 20); Some (it 1, it 20)] in
  answers (from_list 5) 4 doc [(it 1, it 10); (it 2, it 20); (it 1, it 20)] (Read tt) /\
  (exists m, visit env_collide room16 room16 (from_list 5) 9 4 doc = Read m /\ len m = 1%nat) /\
  (* a malformed element *)
  visit env_collide room16 room16 (from_list 5) 9 4 [Some (it 1, it 10); None; Some (it 2, it 20)] = Error 42 /\
  (* too few calls to finish *)
  (exists m, visit env_collide room16 room16 (from_list 0) 9 2 doc = More m /\ len m = 2%nat).
Proof.
  split; [|split; [|split]].
  - econstructor; [reflexivity|]. econstructor; [reflexivity|]. econstructor; [reflexivity|]. econstructor. reflexivity.
  - eexists. split; vm_compute; reflexivity.
  - vm_compute. reflexivity.
  - eexists. split; vm_compute; reflexivity.
Qed.
(* The full statement, deserializing an untrusted document never panics by itself, is false: an
   empty document that announces 2^60 elements. *)
Theorem C129_no_panic_refuted : exists (E : env item item N) a s n x,
  lawful E /\ answers a n x [] (Read tt) /\
  (forall room_l room_r, at_most_isize entry_bytes room_l -> at_most_isize entry_bytes room_r ->
   visit (Er := N) (X := list (option (item * item))) E room_l room_r a s n x = Died) /\
  visit E room16 room16 a s n x = Died.
Proof.
  exists env_collide, (from_list (2 ^ 60)), 9, 1%nat, []. split; [apply env_collide_ok|]. split; [econstructor; reflexivity|]. split.
  - intros. eapply C129_hint_panics; [left; eassumption|reflexivity|vm_compute; discriminate].
  - vm_compute. reflexivity.
Qed.
(* and an empty document that announces 1000 elements gets room for 1000 *)
Example C129_memory_case : exists m,
  visit env_cap room16 room16 (from_list 1000) 9 1 [] = Read m /\ len m = 0%nat /\ capacity env_cap m = 1000.
Proof. eexists. repeat split; vm_compute; reflexivity. Qed.
Print Assumptions C129_deserialize_partial.
Print Assumptions C129_hint_panics.
Print Assumptions C129_hint_memory.
Print Assumptions C129_no_panic_refuted.
