(* Drop of the items, which is user code and may panic.

   An item's destructor sees and changes a state X of its own and may panic; every run of a
   destructor is recorded, so that it can be said which items have been dropped, how often
   and in which order.  Rust's rules (reference, "Destructors"; std::process::abort on a
   panic while unwinding):
   - the fields of a value are dropped one after the other; if one panics the others are
     dropped all the same, while unwinding;
   - a panic while unwinding from another one ends the process;
   - hashbrown drops the buckets of a table in a plain loop: after a panic the remaining
     items are leaked, the table itself is empty (RawTable::clear and RawTable::drop). *)
From Coq Require Import List Bool Lia Permutation.
Import ListNotations.

(* state of the destructors, items dropped so far *)
Definition tomb (T X : Type) : Type := X * list T.

Inductive dropping :=
| Dropped      (* no destructor panicked *)
| Unwinding    (* one panicked *)
| Aborting.    (* a second one panicked: the process is gone *)

(* result of a call during which items are dropped *)
Inductive dres (S A : Type) : Type :=
| DRet (s : S) (a : A)
| DPanic (s : S)
| DAbort.
Arguments DRet {S A} _ _.
Arguments DPanic {S A} _.
Arguments DAbort {S A}.

Section Drops.
  Context {T X : Type}.
  Variable dtor : X -> T -> X * bool.     (* false: it panicked *)
  Implicit Types (w : tomb T X) (t : T) (ts : list T).

  Definition drop1 w t : tomb T X * bool :=
    let (x, ok) := dtor (fst w) t in ((x, snd w ++ [t]), ok).

  (* the items inside one value; [unw]: already unwinding *)
  Fixpoint glue (unw : bool) w ts : tomb T X * dropping :=
    match ts with
    | [] => (w, if unw then Unwinding else Dropped)
    | t :: ts' =>
        match drop1 w t with
        | (w', true) => glue unw w' ts'
        | (w', false) => if unw then (w', Aborting) else glue true w' ts'
        end
    end.

  (* RawTable::drop_elements; true = no panic *)
  Fixpoint drop_elements w ts : tomb T X * bool :=
    match ts with
    | [] => (w, true)
    | t :: ts' =>
        match drop1 w t with
        | (w', true) => drop_elements w' ts'
        | (w', false) => (w', false)
        end
    end.

  (* several values dropped one after the other by a loop that a panic ends; the number tells
     how many values have been dropped (the one with the panic included) *)
  Fixpoint drop_seq w (vs : list (list T)) : tomb T X * nat * dropping :=
    match vs with
    | [] => (w, 0, Dropped)
    | v :: vs' =>
        match glue false w v with
        | (w', Dropped) => let '(w'', n, st) := drop_seq w' vs' in (w'', S n, st)
        | (w', st) => (w', 1, st)
        end
    end.

  (* everything is dropped once, in order, unless the process is aborted *)
  Lemma glue_log : forall ts unw w w' st, glue unw w ts = (w', st) ->
    exists us vs, ts = us ++ vs /\ snd w' = snd w ++ us /\ (st <> Aborting -> vs = []).
  Proof.
    induction ts as [|t ts IH]; simpl; intros unw w w' st H.
    - inversion H; subst. exists [], []. rewrite !app_nil_r. repeat split; auto.
    - unfold drop1 in H. destruct (dtor (fst w) t) as [x ok].
      assert (Z : forall u, glue u (x, snd w ++ [t]) ts = (w', st) ->
        exists us vs, t :: ts = us ++ vs /\ snd w' = snd w ++ us /\ (st <> Aborting -> vs = [])).
      { intros u G. apply IH in G as (us & vs & -> & E2 & E3). exists (t :: us), vs.
        rewrite E2. simpl. rewrite <- app_assoc. auto. }
      destruct ok; [eauto|]. destruct unw; [|eauto].
      inversion H; subst. exists [t], ts. simpl. split; [auto|]. split; [auto|]. intros Q. destruct Q; auto.
  Qed.
  Lemma glue_app : forall us vs unw w,
    glue unw w (us ++ vs) =
      match glue unw w us with
      | (w', Dropped) => glue false w' vs
      | (w', Unwinding) => glue true w' vs
      | (w', Aborting) => (w', Aborting)
      end.
  Proof.
    induction us as [|u us IH]; simpl; intros vs unw w.
    - destruct unw; auto.
    - destruct (drop1 w u) as [w' [|]]; auto. destruct unw; auto.
  Qed.
  Lemma glue_unw : forall ts w, match snd (glue true w ts) with Dropped => False | _ => True end.
  Proof.
    induction ts as [|t ts IH]; simpl; intros w; auto. destruct (drop1 w t) as [w' [|]]; [apply IH|exact I].
  Qed.

  Lemma drop_seq_log : forall vs w w' k st, drop_seq w vs = (w', k, st) ->
    k <= length vs /\ (st = Dropped -> k = length vs) /\ (st <> Dropped -> 0 < k) /\
    exists us rest, concat (firstn k vs) = us ++ rest /\ snd w' = snd w ++ us /\
      (st <> Aborting -> rest = []).
  Proof.
    induction vs as [|v vs IH]; simpl; intros w w' k st H.
    - inversion H; subst. repeat split; auto. { intros Q. destruct Q; auto. }
      exists [], []. rewrite !app_nil_r. repeat split; auto.
    - destruct (glue false w v) as [w1 s1] eqn:G. assert (G' := glue_log _ _ _ _ _ G).
      destruct G' as (us & rest & EV & EL & ER).
      destruct s1.
      + destruct (drop_seq w1 vs) as [[w2 n] s2] eqn:D. inversion H; subst.
        apply IH in D as (K1 & K2 & K3 & us2 & rest2 & E1 & E2 & E3).
        split; [lia|]. split; [intros Q; rewrite K2; auto|]. split; [lia|].
        rewrite ER by discriminate. cbn [firstn concat]. rewrite app_nil_r, E1.
        exists (us ++ us2), rest2. rewrite E2, EL, <- !app_assoc. auto.
      + inversion H; subst. cbn [firstn concat]. rewrite app_nil_r.
        split; [lia|]. split; [discriminate|]. split; [lia|]. exists us, rest. auto.
      + inversion H; subst. cbn [firstn concat]. rewrite app_nil_r.
        split; [lia|]. split; [discriminate|]. split; [lia|]. exists us, rest. auto.
  Qed.

  Lemma drop_elements_log : forall ts w w' ok, drop_elements w ts = (w', ok) ->
    exists us rest, ts = us ++ rest /\ snd w' = snd w ++ us /\
      (ok = true -> rest = []) /\ (ok = false -> us <> []).
  Proof.
    induction ts as [|t ts IH]; simpl; intros w w' ok H.
    - inversion H; subst. exists [], []. rewrite !app_nil_r. repeat split; auto. discriminate.
    - unfold drop1 in H. destruct (dtor (fst w) t) as [x [|]].
      + apply IH in H as (us & rest & -> & E1 & E2 & E3). exists (t :: us), rest. rewrite E1.
        simpl. rewrite <- app_assoc. repeat split; auto. discriminate.
      + inversion H; subst. exists [t], ts. repeat split; auto. discriminate. discriminate.
  Qed.

  (* destructors that never panic *)
  Definition peaceful : Prop := forall x t, snd (dtor x t) = true.
  Lemma peaceful_glue : peaceful -> forall ts w, snd (glue false w ts) = Dropped.
  Proof.
    intros PF. induction ts as [|t ts IH]; simpl; intros w; auto.
    unfold drop1. specialize (PF (fst w) t). destruct (dtor (fst w) t) as [x ok]. simpl in PF. subst ok. apply IH.
  Qed.
  Lemma peaceful_elements : peaceful -> forall ts w, snd (drop_elements w ts) = true.
  Proof.
    intros PF. induction ts as [|t ts IH]; simpl; intros w; auto.
    unfold drop1. specialize (PF (fst w) t). destruct (dtor (fst w) t) as [x ok]. simpl in PF. subst ok. apply IH.
  Qed.

  (* ---- how many destructors panic when the items ts are dropped, and what that means ---- *)
  Fixpoint after (x : X) ts : X :=
    match ts with [] => x | t :: ts' => after (fst (dtor x t)) ts' end.
  Fixpoint panics_of (x : X) ts : nat :=
    match ts with
    | [] => 0
    | t :: ts' => (if snd (dtor x t) then 0 else 1) + panics_of (fst (dtor x t)) ts'
    end.
  Definition fate (n : nat) : dropping := match n with 0 => Dropped | 1 => Unwinding | _ => Aborting end.

  Lemma panics_app : forall us vs x, panics_of x (us ++ vs) = panics_of x us + panics_of (after x us) vs.
  Proof. induction us as [|u us IH]; simpl; intros vs x; auto. rewrite IH. lia. Qed.

  (* the fields of a value: all are dropped, in order, unless two destructors panic *)
  Lemma glue_fate : forall ts unw w w' st, glue unw w ts = (w', st) ->
    exists us rest, ts = us ++ rest /\ snd w' = snd w ++ us /\ fst w' = after (fst w) us /\
      st = fate ((if unw then 1 else 0) + panics_of (fst w) us) /\
      (rest <> [] -> st = Aborting).
  Proof.
    induction ts as [|t ts IH]; cbn [glue]; intros unw w w' st H.
    - inversion H; subst. exists [], []. rewrite !app_nil_r. repeat split; auto; [destruct unw; auto|].
      intros Q. destruct Q; auto.
    - unfold drop1 in H. destruct (dtor (fst w) t) as [x ok] eqn:D.
      assert (Z : forall u, glue u (x, snd w ++ [t]) ts = (w', st) ->
        exists us rest, t :: ts = us ++ rest /\ snd w' = snd w ++ us /\ fst w' = after (fst w) us /\
          st = fate ((if u then 1 else 0) + panics_of x (tl us)) /\ us <> [] /\ hd t us = t /\
          (rest <> [] -> st = Aborting)).
      { intros u G. apply IH in G as (us & rest & -> & E2 & E3 & E4 & E5). exists (t :: us), rest.
        rewrite E2. simpl. rewrite D, <- app_assoc. repeat split; auto. discriminate. }
      assert (K : forall us : list T, us <> [] -> hd t us = t ->
        panics_of (fst w) us = (if ok then 0 else 1) + panics_of x (tl us)).
      { intros [|u us] Q1 Q2; [destruct Q1; auto|]. simpl in *. subst u. rewrite D. auto. }
      destruct ok; [|destruct unw].
      + apply Z in H as (us & rest & E1 & E2 & E3 & E4 & E5 & E6 & E7). exists us, rest. rewrite K by auto.
        repeat split; auto.
      + inversion H; subst. exists [t], ts. simpl. rewrite D. repeat split; auto.
      + apply Z in H as (us & rest & E1 & E2 & E3 & E4 & E5 & E6 & E7). exists us, rest. rewrite K by auto.
        repeat split; auto.
  Qed.

  (* the items of a table: no further one is dropped after a panic *)
  Lemma elements_fate : forall ts w w' ok, drop_elements w ts = (w', ok) ->
    exists us rest, ts = us ++ rest /\ snd w' = snd w ++ us /\ fst w' = after (fst w) us /\
      panics_of (fst w) us = (if ok then 0 else 1) /\ (rest <> [] -> ok = false).
  Proof.
    induction ts as [|t ts IH]; cbn [drop_elements]; intros w w' ok H.
    - inversion H; subst. exists [], []. rewrite !app_nil_r. repeat split; auto. intros Q. destruct Q; auto.
    - unfold drop1 in H. destruct (dtor (fst w) t) as [x [|]] eqn:D.
      + apply IH in H as (us & rest & -> & E2 & E3 & E4 & E5). exists (t :: us), rest. rewrite E2. simpl.
        rewrite D. simpl. rewrite <- app_assoc. repeat split; auto.
      + inversion H; subst. exists [t], ts. simpl. rewrite D. repeat split; auto.
  Qed.

  (* the items ts are dropped, and the last one, t, is the only one whose destructor panics *)
  Definition blamed (x : X) ts (t : T) : Prop :=
    exists us, ts = us ++ [t] /\ panics_of x us = 0 /\ snd (dtor (after x us) t) = false.
  Lemma blamed_app : forall us vs t x, panics_of x us = 0 -> blamed (after x us) vs t -> blamed x (us ++ vs) t.
  Proof.
    intros us vs t x P0 (vs' & -> & P1 & D). exists (us ++ vs'). rewrite panics_app, P0, P1, <- app_assoc.
    assert (A : forall ys zs z, after z (ys ++ zs) = after (after z ys) zs).
    { induction ys as [|y ys IH]; simpl; auto. }
    rewrite A. auto.
  Qed.
  Lemma elements_blame : forall ts w w' ok, drop_elements w ts = (w', ok) ->
    exists us rest, ts = us ++ rest /\ snd w' = snd w ++ us /\ fst w' = after (fst w) us /\
      (ok = true -> rest = [] /\ panics_of (fst w) us = 0) /\
      (ok = false -> exists t, In t ts /\ blamed (fst w) us t).
  Proof.
    induction ts as [|t ts IH]; cbn [drop_elements]; intros w w' ok H.
    - inversion H; subst. exists [], []. rewrite !app_nil_r. repeat split; auto. discriminate.
    - unfold drop1 in H. destruct (dtor (fst w) t) as [x [|]] eqn:D.
      + apply IH in H as (us & rest & -> & E2 & E3 & E4 & E5). exists (t :: us), rest. rewrite E2. simpl.
        rewrite D. simpl. rewrite <- app_assoc. split; auto. split; auto. split; auto. split; auto.
        intros Q. destruct (E5 Q) as (u & I & B). exists u. split; auto.
        apply (blamed_app [t]); simpl; rewrite D; auto.
      + inversion H; subst. exists [t], ts. simpl. rewrite D. repeat split; auto; try discriminate.
        intros _. exists t. split; auto. exists []. simpl. rewrite D. auto.
  Qed.

  (* a loop that drops values: it ends with the value inside which a destructor panics *)
  Lemma seq_fate : forall vs w w' k st, drop_seq w vs = (w', k, st) ->
    k <= length vs /\ (k < length vs -> st <> Dropped) /\
    exists us rest, concat (firstn k vs) = us ++ rest /\ snd w' = snd w ++ us /\
      st = fate (panics_of (fst w) us) /\ (rest <> [] -> st = Aborting) /\
      panics_of (fst w) (concat (firstn (k - 1) vs)) = 0.
  Proof.
    induction vs as [|v vs IH]; cbn [drop_seq]; intros w w' k st H.
    - inversion H; subst. split; auto. split; [simpl; lia|]. exists [], []. simpl. rewrite app_nil_r.
      repeat split; auto. intros Q. destruct Q; auto.
    - destruct (glue false w v) as [w1 s1] eqn:G. apply glue_fate in G as (us & rest & EV & EL & EA & ES & ER).
      assert (Z : s1 <> Dropped -> (w1, 1, s1) = (w', k, st) ->
        k <= length (v :: vs) /\ (k < length (v :: vs) -> st <> Dropped) /\
        exists us rest, concat (firstn k (v :: vs)) = us ++ rest /\ snd w' = snd w ++ us /\
          st = fate (panics_of (fst w) us) /\ (rest <> [] -> st = Aborting) /\
          panics_of (fst w) (concat (firstn (k - 1) (v :: vs))) = 0).
      { intros ND Q. inversion Q; subst. split; [simpl; lia|]. split; auto. exists us, rest.
        cbn [firstn concat]. rewrite app_nil_r. auto. }
      destruct s1; [|apply Z; [discriminate|auto]|apply Z; [discriminate|auto]].
      destruct (drop_seq w1 vs) as [[w2 n] s2] eqn:D. inversion H; subst.
      apply IH in D as (K1 & K2 & us2 & rest2 & E1 & E2 & E3 & E4 & E5).
      split; [simpl; lia|]. split; [simpl; intros; apply K2; lia|].
      destruct rest as [|x rest]; [|discriminate (ER ltac:(discriminate))].
      assert (P0 : panics_of (fst w) us = 0).
      { destruct (panics_of (fst w) us) as [|[|]]; simpl in ES; auto; discriminate. }
      exists (us ++ us2), rest2. cbn [firstn concat]. rewrite app_nil_r, E1, E2, EL, <- !app_assoc, panics_app, <- EA, P0.
      repeat split; auto. simpl. rewrite PeanoNat.Nat.sub_0_r. destruct n as [|n]; auto.
      simpl in E5. rewrite PeanoNat.Nat.sub_0_r in E5. cbn [firstn concat].
      rewrite panics_app, <- EA, P0, E5. auto.
  Qed.

  (* two tables, one after the other *)
  Lemma two_tables : forall ts us w w1 ok1 w2 ok2,
    drop_elements w ts = (w1, ok1) -> drop_elements w1 us = (w2, ok2) ->
    exists ts1 lost us1 lost', ts = ts1 ++ lost /\ us = us1 ++ lost' /\
      snd w2 = snd w ++ ts1 ++ us1 /\
      (if ok1 then if ok2 then Dropped else Unwinding else if ok2 then Unwinding else Aborting)
        = fate (panics_of (fst w) (ts1 ++ us1)) /\
      (lost <> [] -> panics_of (fst w) ts1 = 1) /\
      (lost' <> [] -> panics_of (fst w) (ts1 ++ us1) = 1 + panics_of (fst w) ts1).
  Proof.
    intros ts us w w1 ok1 w2 ok2 H1 H2.
    apply elements_fate in H1 as (a & b & -> & A2 & A3 & A4 & A5).
    apply elements_fate in H2 as (c & d & -> & B2 & B3 & B4 & B5).
    exists a, b, c, d. rewrite panics_app, <- A3, A4, B4, B2, A2, <- app_assoc.
    repeat split; auto.
    - destruct ok1, ok2; reflexivity.
    - intros Q. rewrite A5; auto.
    - intros Q. rewrite B5; auto. lia.
  Qed.
End Drops.

(* the items in a pair, in the order of the fields *)
Definition both_of {L R} (p : L * R) : list (L + R) := [inl (fst p); inr (snd p)].
