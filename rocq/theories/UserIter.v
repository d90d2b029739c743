(* extend with the user's own iterator (C128).

   The extend functions of the three maps take anything that implements IntoIterator; the models in
   CycleMap.v, PartialCycleMap.v and GroupMap.v take the list of the items.  Here the iterator is
   user code: a state and a next() that may give an item, end, or panic, and need never end.  The
   names of CycleMap's and GroupMap's sides are qualified. *)
From Coq Require Import List NArith Lia Bool PeanoNat.
From Verif Require CycleMap CycleMapHistory CycleMapSpec CycleMapProps CycleMapProps2 CycleMapProps3
  GroupMap GroupHistory GroupHistoryProofs GroupProps GroupProps3.
From Verif Require Import Prelude RawTable Optionals PartialCycleMap PartialSpec PartialHistory PartialProps PartialProps2 PartialProps3
  Concrete.
Import ListNotations.
Open Scope N_scope.

(* what next() does *)
Inductive fed (A : Type) : Type := Item (a : A) | Over | Threw.
Arguments Item {A}. Arguments Over {A}. Arguments Threw {A}.
(* where a loop stands after some calls of next(): the iterator has ended, or more is to come *)
Inductive stage : Type := Ended | Going.

Section Loop.
  Context {M0 A X : Type}.
  Variable body : A -> M M0 unit.
  Variable next : X -> X * fed A.

  (* for item in iter { body(item) }, watched for at most n calls of next(): the for loops of
     src/cycle_map.rs:1166-1168, src/partial_cycle_map.rs:1933-1935 and 1947-1960,
     src/group_map.rs:1258-1264 and 1276-1278.  A panic of next() leaves the map as it is then. *)
  Fixpoint for_each (n : nat) (x : X) : M M0 stage :=
    match n with
    | O => ret Going
    | Datatypes.S n =>
        match next x with
        | (x', Item a) => body a ;;; for_each n x'
        | (_, Over) => ret Ended
        | (_, Threw) => panic
        end
    end.
End Loop.

Section Models.
  Context {L R S X : Type}.
  Variable E : env L R S.

  (* src/cycle_map.rs:1165-1169 *)
  Definition cm_extend (next : X -> X * fed (L * R)) : nat -> X -> M (CycleMap.cmap L R S) stage :=
    for_each (fun p => CycleMap.insert E (fst p) (snd p) ;;; ret tt) next.
  (* src/partial_cycle_map.rs:1932-1936 *)
  Definition pm_extend_pairs (next : X -> X * fed (L * R)) : nat -> X -> M (pmap L R S) stage :=
    for_each (fun p => insert E (fst p) (snd p) ;;; ret tt) next.
  (* src/partial_cycle_map.rs:1946-1961 *)
  Definition pm_extend (next : X -> X * fed (optional_pair L R)) : nat -> X -> M (pmap L R S) stage :=
    for_each (fun o => match o with
                       | Neither => ret tt
                       | SomeLeft l => insert_left E l ;;; ret tt
                       | SomeRight r => insert_right E r ;;; ret tt
                       | SomeBoth l r => insert E l r ;;; ret tt
                       end) next.
  (* src/group_map.rs:1257-1265 *)
  Definition gm_extend (next : X -> X * fed (option L * R)) : nat -> X -> M (GroupMap.gmap L R S) stage :=
    for_each (fun p => match fst p with
                       | Some l => GroupMap.insert E l (snd p) ;;; ret tt
                       | None => GroupMap.insert_right E (snd p) ;;; ret tt
                       end) next.
  (* src/group_map.rs:1275-1279 *)
  Definition gm_extend_pairs (next : X -> X * fed (L * R)) : nat -> X -> M (GroupMap.gmap L R S) stage :=
    for_each (fun p => GroupMap.insert E (fst p) (snd p) ;;; ret tt) next.
End Models.

(* ---- specification: what the iterator gives, whatever is done with it ---- *)
Section Spec.
  Context {A X : Type} (next : X -> X * fed A).
  (* n calls of next() from x give the items xs, and then: *)
  Inductive gives : nat -> X -> list A -> option stage -> Prop :=
  | gives_more : forall x, gives 0 x [] (Some Going)                    (* more may come *)
  | gives_over : forall n x x', next x = (x', Over) -> gives (Datatypes.S n) x [] (Some Ended)
  | gives_threw : forall n x x', next x = (x', Threw) -> gives (Datatypes.S n) x [] None     (* next() panics *)
  | gives_item : forall n x x' a xs st, next x = (x', Item a) -> gives n x' xs st ->
      gives (Datatypes.S n) x (a :: xs) st.

  Lemma gives_ex : forall n x, exists xs st, gives n x xs st.
  Proof.
    induction n as [|n IH]; intros x; [do 2 eexists; constructor|].
    destruct (next x) as [x' [a| |]] eqn:N.
    - destruct (IH x') as (xs & st & G). exists (a :: xs), st. econstructor; eauto.
    - exists [], (Some Ended). econstructor; eauto.
    - exists [], None. econstructor; eauto.
  Qed.
End Spec.

(* the result of the loop, given the map left by the items and what the iterator did then *)
Definition ends {M0} (m : M0) (st : option stage) : res M0 stage :=
  match st with Some g => Ret m g | None => Panic m end.

Section LoopFacts.
  Context {M0 A X : Type} (body : A -> M M0 unit) (next : X -> X * fed A).
  Variable whole : list A -> M M0 unit.
  Hypothesis whole_nil : forall m, whole [] m = Ret m tt.
  Hypothesis whole_cons : forall a t m, whole (a :: t) m = (body a ;;; whole t) m.

  (* any map, any body: the loop does what the list does, up to a panic of the body *)
  Lemma loop_list : forall n x xs st, gives next n x xs st -> forall m,
    for_each body next n x m =
      match whole xs m with Ret m' _ => ends m' st | Panic m' => Panic m' end.
  Proof.
    induction 1; intros m.
    - rewrite whole_nil. auto.
    - cbn [for_each]. rewrite H, whole_nil. auto.
    - cbn [for_each]. rewrite H, whole_nil. auto.
    - cbn [for_each]. rewrite H, whole_cons. unfold bind. destruct (body a m) as [m1 []|m1]; auto.
  Qed.
  (* the watching ends when the iterator does *)
  Lemma loop_fuel : forall n x m r, for_each body next n x m = r -> (forall m', r <> Ret m' Going) ->
    forall k, (n <= k)%nat -> for_each body next k x m = r.
  Proof.
    induction n as [|n IH]; intros x m r Q NG k B; [cbn in Q; unfold ret in Q; congruence|].
    destruct k as [|k]; [lia|]. cbn [for_each] in *. destruct (next x) as [x' [a| |]]; auto.
    unfold bind in *. destruct (body a m) as [m1 []|m1]; auto. eapply IH; eauto. lia.
  Qed.
End LoopFacts.

Section Theorems.
  Context {L R S X : Type}.
  Variable E : env L R S.
  Hypothesis OK : lawful E.

  Lemma cm_run_app : forall ops1 ops2 m,
    fst (CycleMapHistory.run E m (ops1 ++ ops2)) = fst (CycleMapHistory.run E (fst (CycleMapHistory.run E m ops1)) ops2).
  Proof.
    induction ops1 as [|o ops1 IH]; intros; cbn [app CycleMapHistory.run]; auto.
    destruct (CycleMapHistory.step E m o) as [m1 w]. specialize (IH ops2 m1).
    destruct (CycleMapHistory.run E m1 (ops1 ++ ops2)), (CycleMapHistory.run E m1 ops1). auto.
  Qed.
  Lemma cm_reachable_more : forall ops room m, CycleMapHistory.reachable E (CycleMapHistory.budget ops + room) m ->
    CycleMapHistory.reachable E room (fst (CycleMapHistory.run E m ops)).
  Proof.
    intros ops room m (s & ll & lr & h & B & ->). exists s, ll, lr, (h ++ ops). rewrite cm_run_app. split; auto.
    assert (BA : CycleMapHistory.budget (h ++ ops) = CycleMapHistory.budget h + CycleMapHistory.budget ops).
    { clear. induction h as [|o h IH]; cbn [app CycleMapHistory.budget]; lia. }
    lia.
  Qed.
  Lemma pm_run_app : forall ops1 ops2 m,
    fst (run E m (ops1 ++ ops2)) = fst (run E (fst (run E m ops1)) ops2).
  Proof.
    induction ops1 as [|o ops1 IH]; intros; cbn [app run]; auto.
    destruct (step E m o) as [m1 w]. specialize (IH ops2 m1).
    destruct (run E m1 (ops1 ++ ops2)), (run E m1 ops1). auto.
  Qed.
  Lemma pm_reachable_more : forall ops room m, reachable E (budget ops + room) m -> guarded E m ops ->
    reachable E room (fst (run E m ops)).
  Proof.
    intros ops room m (s & ll & lr & h & B & G & ->) G'. exists s, ll, lr, (h ++ ops). rewrite pm_run_app. split; [|split; auto].
    - assert (BA : budget (h ++ ops) = budget h + budget ops).
      { clear. induction h as [|o h IH]; cbn [app budget]; lia. }
      lia.
    - clear B. revert G G'. generalize (with_hasher s ll lr : pmap L R S). induction h as [|o h IH]; cbn [app guarded run]; auto.
      intros m [G1 G2] G'. split; auto. apply IH; auto. destruct (step E m o) as [m1 w]. cbn [fst] in *.
      destruct (run E m1 h); auto.
  Qed.

  (* ---- C128: CycleMap ---- *)
  (* after n calls of next(), whatever the iterator does then: exactly the items given are inserted *)
  Theorem C128_cycle_map : forall (next : X -> X * fed (L * R)) n x xs st m,
    gives next n x xs st -> forall room, CycleMapHistory.reachable E (N.of_nat (length xs) + room) m ->
    exists P m', CycleMapHistory.reachable E room m' /\ CycleMapProps.contents E m P /\ cm_extend E next n x m = ends m' st /\
      CycleMapProps2.behaves_as E 0 m'
        (fold_left (fun P x => CycleMapSpec.s_insert (eqL E) (eqR E) P (fst x) (snd x)) xs P) /\
      m' = fst (CycleMapHistory.run E m (map (fun x => CycleMapHistory.Insert (fst x) (snd x)) xs)).
  Proof.
    intros next n x xs st m G room H.
    assert (H0 : CycleMapHistory.reachable E (N.of_nat (length xs)) m).
    { destruct H as (s & ll & lr & h & B & ->). exists s, ll, lr, h. split; auto. lia. }
    destruct (CycleMapProps3.C20_extend E OK xs m H0) as (P & m' & V & X1 & BH & Q).
    exists P, m'. split.
    { rewrite Q. apply cm_reachable_more.
      replace (CycleMapHistory.budget _) with (N.of_nat (length xs)); auto.
      clear. induction xs as [|y xs IH]; cbn [map CycleMapHistory.budget CycleMapHistory.ids length] in *; lia. }
    split; auto. split; auto. unfold cm_extend.
    rewrite (loop_list _ next (CycleMap.extend E)) with (xs := xs) (st := st); auto.
    - rewrite X1. auto.
    - intros [a b] t m0. cbn [CycleMap.extend fst snd]. unfold bind, ret. destruct (CycleMap.insert E a b m0); auto.
  Qed.

  (* ---- C128: PartialCycleMap ---- *)
  Theorem C128_partial_pairs : forall (next : X -> X * fed (L * R)) n x xs st m,
    gives next n x xs st -> forall room, reachable E (N.of_nat (length xs) + room) m ->
    exists P m', reachable E room m' /\ contents E m P /\ pm_extend_pairs E next n x m = ends m' st /\
      behaves_as E 0 m' (fold_left (fun P x => s_insert (eqL E) (eqR E) P (fst x) (snd x)) xs P) /\
      m' = fst (run E m (map (fun x => Insert (fst x) (snd x)) xs)).
  Proof.
    intros next n x xs st m G room H.
    assert (H0 : reachable E (N.of_nat (length xs)) m).
    { destruct H as (s & ll & lr & h & B & Z). exists s, ll, lr, h. split; auto. lia. }
    destruct (C44_extend_pairs E OK xs m H0) as (P & m' & V & X1 & BH & Q & _).
    exists P, m'. split.
    { rewrite Q. apply pm_reachable_more.
      - replace (budget _) with (N.of_nat (length xs)); auto.
        clear. induction xs as [|y xs IH]; cbn [map budget ids length] in *; lia.
      - clear. revert m. induction xs as [|y xs IH]; intros m; cbn [map guarded guard]; auto. }
    split; auto. split; auto. unfold pm_extend_pairs.
    rewrite (loop_list _ next (extend_pairs E)) with (xs := xs) (st := st); auto.
    - rewrite X1. auto.
    - intros [a b] t m0. cbn [extend_pairs fst snd]. unfold bind, ret. destruct (insert E a b m0); auto.
  Qed.
  Theorem C128_partial_entries : forall (next : X -> X * fed (optional_pair L R)) n x xs st m,
    gives next n x xs st -> forall room, reachable E (N.of_nat (length xs) + room) m ->
    exists P m', reachable E room m' /\ contents E m P /\ pm_extend E next n x m = ends m' st /\
      behaves_as E 0 m' (fold_left (s_insert_entry (eqL E) (eqR E)) xs P) /\
      m' = fst (run E m (flat_map entry_ops xs)).
  Proof.
    intros next n x xs st m G room H.
    assert (H0 : reachable E (N.of_nat (length xs)) m).
    { destruct H as (s & ll & lr & h & B & Z). exists s, ll, lr, h. split; auto. lia. }
    destruct (C44_extend E OK xs m H0) as (P & m' & V & X1 & BH & Q).
    exists P, m'. split.
    { rewrite Q. apply pm_reachable_more.
      - assert (LE : budget (flat_map entry_ops xs) <= N.of_nat (length xs)).
        { clear. induction xs as [|[|l|r|l r] xs IH]; cbn [flat_map entry_ops app budget ids length] in *; lia. }
        destruct H as (s & ll & lr & h & B & Z). exists s, ll, lr, h. split; auto. lia.
      - clear. revert m. induction xs as [|[|l|r|l r] xs IH]; intros m; cbn [flat_map entry_ops app guarded guard]; auto. }
    split; auto. split; auto. unfold pm_extend.
    rewrite (loop_list _ next (extend E)) with (xs := xs) (st := st); auto.
    - rewrite X1. auto.
    - intros [|a|b|a b] t m0; cbn [extend]; unfold bind, ret; auto.
      + destruct (insert_left E a m0); auto.
      + destruct (insert_right E b m0); auto.
      + destruct (insert E a b m0); auto.
  Qed.

  (* ---- C128: GroupMap ---- *)
  (* any map: the calls for the items given, up to one that panics, then what the iterator does *)
  Theorem C128_group_map : forall (next : X -> X * fed (option L * R)) n x xs st m,
    gives next n x xs st ->
    exists done rest, xs = done ++ rest /\
      ~ In GroupHistory.OPanic (snd (GroupHistory.run E m (map GroupHistory.item_op done))) /\
      let m1 := fst (GroupHistory.run E m (map GroupHistory.item_op done)) in
      match rest with
      | [] => gm_extend E next n x m = ends m1 st
      | p :: _ => snd (GroupHistory.step E m1 (GroupHistory.item_op p)) = GroupHistory.OPanic /\
                  gm_extend E next n x m = Panic (fst (GroupHistory.step E m1 (GroupHistory.item_op p)))
      end.
  Proof.
    intros next n x xs st m G.
    assert (Q : gm_extend E next n x m = match GroupMap.extend E xs m with Ret m' _ => ends m' st | Panic m' => Panic m' end).
    { unfold gm_extend. eapply loop_list; eauto.
      intros [[a|] b] t m0; cbn [GroupMap.extend fst snd]; unfold bind, ret.
      - destruct (GroupMap.insert E a b m0); auto.
      - destruct (GroupMap.insert_right E b m0); auto. }
    destruct (GroupProps3.C58_sequence E xs m) as (d & t & -> & NP & K).
    exists d, t. split; auto. split; auto. cbv zeta in *. destruct t as [|p t].
    - rewrite Q, K. auto.
    - destruct K as [K1 K2]. rewrite Q, K2. auto.
  Qed.
  Theorem C128_group_pairs : forall (next : X -> X * fed (L * R)) n x xs st m,
    gives next n x xs st ->
    exists done rest, xs = done ++ rest /\
      ~ In GroupHistory.OPanic (snd (GroupHistory.run E m (map GroupHistory.pair_op done))) /\
      let m1 := fst (GroupHistory.run E m (map GroupHistory.pair_op done)) in
      match rest with
      | [] => gm_extend_pairs E next n x m = ends m1 st
      | p :: _ => snd (GroupHistory.step E m1 (GroupHistory.pair_op p)) = GroupHistory.OPanic /\
                  gm_extend_pairs E next n x m = Panic (fst (GroupHistory.step E m1 (GroupHistory.pair_op p)))
      end.
  Proof.
    intros next n x xs st m G.
    assert (Q : gm_extend_pairs E next n x m =
                match GroupMap.extend E (map (fun p => (Some (fst p), snd p)) xs) m with
                | Ret m' _ => ends m' st | Panic m' => Panic m' end).
    { rewrite <- GroupHistoryProofs.extend_pairs_extend. unfold gm_extend_pairs. eapply loop_list; eauto.
      intros [a b] t m0; cbn [GroupMap.extend_pairs fst snd]; unfold bind, ret.
      destruct (GroupMap.insert E a b m0); auto. }
    destruct (GroupProps3.C58_sequence E (map (fun p => (Some (fst p), snd p)) xs) m) as (d & t & D & NP & K).
    apply map_eq_app in D as (d' & t' & -> & <- & <-).
    rewrite map_map in NP, K.
    exists d', t'. split; auto. split; auto. cbv zeta in *. destruct t' as [|p t'].
    - rewrite Q, K. auto.
    - destruct K as [K1 K2]. rewrite Q, K2. auto.
  Qed.
  (* a map and items that keep extend sound (C58): nothing but the iterator panics, and the map
     then answers as after the items given *)
  Theorem C128_group_sound : forall (next : X -> X * fed (option L * R)) n x xs st m,
    gives next n x xs st -> forall room, GroupHistory.reachable E (N.of_nat (length xs) + room) m ->
    GroupHistory.guarded E (GroupHistory.calm1 E) m (map GroupHistory.item_op xs) ->
    exists m', gm_extend E next n x m = ends m' st /\
      m' = fst (GroupHistory.run E m (map GroupHistory.item_op xs)) /\
      (forall l r, GroupMap.are_paired E m' l r
         = fold_left (GroupProps3.last_word E l r) xs (GroupMap.are_paired E m l r)) /\
      (forall r, GroupMap.contains_right E m' r
         = GroupMap.contains_right E m r || existsb (fun x => eqR E r (snd x)) xs) /\
      exists rs ps, GroupProps.holds E m' rs ps /\ GroupProps.answers E m' rs ps /\ GroupProps.follows E m' ps.
  Proof.
    intros next n x xs st m G room H GD.
    destruct (GroupProps3.C58_extend_partial E OK xs room m H GD) as (m' & ws & X1 & RN & NP & AP & CR & V).
    exists m'. split; [|rewrite RN; auto].
    unfold gm_extend. rewrite (loop_list _ next (GroupMap.extend E)) with (xs := xs) (st := st); auto.
    - rewrite X1. auto.
    - intros [[a|] b] t m0; cbn [GroupMap.extend fst snd]; unfold bind, ret.
      + destruct (GroupMap.insert E a b m0); auto.
      + destruct (GroupMap.insert_right E b m0); auto.
  Qed.
End Theorems.

(* An iterator that counts down and panics at 3, one that ends there, one that never ends; on maps
   with a history (all hashes collide). *)
Definition falling (stop : fed (item * item)) (k : N) : N * fed (item * item) :=
  if k =? 3 then (k, stop) else (N.pred k, Item (it k, it (10 * k))).
Definition rising (k : N) : N * fed (item * item) := (k + 1, Item (it k, it 20)).
Example C128_case :
  let E := env_collide in
  gives (falling Threw) 9 6 [(it 6, it 60); (it 5, it 50); (it 4, it 40)] None /\
  gives (falling Over) 9 6 [(it 6, it 60); (it 5, it 50); (it 4, it 40)] (Some Ended) /\
  gives rising 3 1 [(it 1, it 20); (it 2, it 20); (it 3, it 20)] (Some Going) /\
  CycleMapHistory.reachable E 5 CycleMapProps.m1 /\ reachable E 5 pm1 /\ GroupHistory.reachable E 5 GroupProps.gmc /\
  (exists m, cm_extend E (falling Threw) 9 6 CycleMapProps.m1 = Panic m /\
     CycleMapProps.contents E m [(it 5, it 50); (it 1, it 20); (it 6, it 60); (it 4, it 40)]) /\
  (exists m, cm_extend E (falling Over) 9 6 CycleMapProps.m1 = Ret m Ended /\
     CycleMapProps.contents E m [(it 5, it 50); (it 1, it 20); (it 6, it 60); (it 4, it 40)]) /\
  (exists m, cm_extend E rising 3 1 CycleMapProps.m1 = Ret m Going /\
     CycleMapProps.contents E m [(it 5, it 50); (it 4, it 30); (it 3, it 20)]) /\
  (exists m, pm_extend_pairs E (falling Threw) 9 6 pm1 = Panic m /\
     contents E m [SomeBoth (it 5) (it 50); SomeBoth (it 1) (it 20); SomeBoth (it 3) (it 30); SomeBoth (it 6) (it 60);
                   SomeBoth (it 4) (it 40); SomeLeft (it 2); SomeRight (it 10)]) /\
  (exists m, gm_extend_pairs E (falling Threw) 9 6 GroupProps.gmc = Panic m /\
     GroupProps.holds E m [it 60; it 40; it 10; it 30; it 70; it 90; it 50]
       [(it 8, it 10); (it 6, it 60); (it 2, it 30); (it 1, it 10); (it 5, it 50); (it 7, it 10); (it 4, it 40)]).
Proof.
  cbv zeta.
  split; [repeat (first [eapply gives_item; [reflexivity|]|eapply gives_threw; reflexivity])|].
  split; [repeat (first [eapply gives_item; [reflexivity|]|eapply gives_over; reflexivity])|].
  split; [repeat (eapply gives_item; [reflexivity|]); apply gives_more|].
  split; [apply CycleMapProps.m1_reachable|]. split; [apply pm1_reachable; reflexivity|].
  split; [apply GroupProps.gm1_reachable; [simpl; auto|reflexivity]|].
  unfold CycleMapProps.contents, contents.
  repeat match goal with |- _ /\ _ => split end; eexists; (split; [vm_compute; reflexivity|]);
    try (vm_compute; reflexivity).
  - do 2 eexists; split; [vm_compute; reflexivity|]; split; [vm_compute; reflexivity|reflexivity].
  - split; vm_compute; reflexivity.
Qed.

Print Assumptions C128_cycle_map.
Print Assumptions C128_partial_pairs.
Print Assumptions C128_partial_entries.
Print Assumptions C128_group_map.
Print Assumptions C128_group_pairs.
Print Assumptions C128_group_sound.
