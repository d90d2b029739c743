(* The calls of Clone that cloning a table makes (C142 to C144).

   Clone of the items and of the hasher is user code: it sees and changes a state of its own, may
   return another value each time it is called, and may panic.  Every call is recorded together
   with its result.  What becomes of the items cloned before a panic is not modelled (hashbrown
   drops or leaks them); the original is only borrowed. *)
From Coq Require Import List NArith Lia Bool.
From Verif Require Import Prelude RawTable ListFacts Concrete Clones.
Import ListNotations.

Inductive event (L R S : Type) : Type :=
| CloneL (x : L) (o : option L)      (* None: this call panicked *)
| CloneR (x : R) (o : option R)
| CloneS (x : S) (o : option S).
Arguments CloneL {L R S} _ _.
Arguments CloneR {L R S} _ _.
Arguments CloneS {L R S} _ _.

Section Runs.
  Context {St A : Type}.
  (* the clone of a bucket *)
  Variable f : St -> A -> St * option A.

  (* RawTable::clone (hashbrown 0.12, clone_from_impl): the full buckets in order, each cloned
     into the bucket of the same index *)
  Fixpoint each (st : St) (l : list (N * A)) : St * option (list (N * A)) :=
    match l with
    | [] => (st, Some [])
    | (h, a) :: l' =>
        match f st a with
        | (st', None) => (st', None)
        | (st', Some b) =>
            match each st' l' with
            | (st'', None) => (st'', None)
            | (st'', Some bs) => (st'', Some ((h, b) :: bs))
            end
        end
    end.
  Definition t_clone_run (st : St) (t : table A) : St * option (table A) :=
    match each st (slots t) with
    | (st', Some sl) => (st', Some (Tbl sl (lay t)))
    | (st', None) => (st', None)
    end.
End Runs.

(* a call of Clone, recorded *)
Definition recorded {Y T Ev} (cl : Y -> T -> Y * option T) (ev : T -> option T -> Ev)
    (st : Y * list Ev) (x : T) : (Y * list Ev) * option T :=
  let (y, o) := cl (fst st) x in ((y, snd st ++ [ev x o]), o).

Section Entries.
  Context {Y T A Ev : Type}.
  Variable cl : Y -> T -> Y * option T.
  Variable ev : T -> option T -> Ev.
  Variables (get : A -> T) (put : A -> T -> A).
  Hypothesis get_put : forall a v, get (put a v) = v.

  (* Clone of an entry: one call for its item, the other fields are copied *)
  Definition entry_clone (st : Y * list Ev) (a : A) : (Y * list Ev) * option A :=
    match recorded cl ev st (get a) with
    | (st', Some v) => (st', Some (put a v))
    | (st', None) => (st', None)
    end.

  (* the record of calls that all returned *)
  Definition record (ps : list (T * T)) : list Ev := map (fun p => ev (fst p) (Some (snd p))) ps.

  Lemma each_record : forall l st,
    match each entry_clone st l with
    | (st', Some sl) => exists ps, snd st' = snd st ++ record ps /\
        map fst ps = map (fun x => get (snd x)) l /\ map snd ps = map (fun x => get (snd x)) sl /\
        (forall p, In p ps -> exists y y', cl y (fst p) = (y', Some (snd p))) /\
        forall g, (forall p, In p ps -> g (fst p) = snd p) ->
          sl = map (fun x => (fst x, put (snd x) (g (get (snd x))))) l
    | (st', None) => exists ps x rest, snd st' = snd st ++ record ps ++ [ev x None] /\
        map fst ps ++ x :: rest = map (fun x => get (snd x)) l
    end.
  Proof.
    induction l as [|[h a] l IH]; intros st; cbn [each].
    - exists []. cbn. rewrite app_nil_r. repeat split; auto. intros p [].
    - unfold entry_clone at 1, recorded. destruct (cl (fst st) (get a)) as [y o] eqn:C.
      destruct o as [v|].
      + specialize (IH (y, snd st ++ [ev (get a) (Some v)])).
        destruct (each entry_clone (y, snd st ++ [ev (get a) (Some v)]) l) as [st' [sl|]].
        * destruct IH as (ps & H1 & H2 & HS & H3 & H4). exists ((get a, v) :: ps). cbn [snd fst] in *.
          rewrite H1, <- app_assoc. cbn [map record fst snd app]. rewrite H2, HS, get_put.
          split; auto. split; auto. split; auto. split.
          { intros p [<-|I]; [exists (fst st), y; exact C|auto]. }
          intros g G. rewrite (H4 g) by (intros p I; apply G; right; auto).
          assert (Z := G (get a, v) (or_introl eq_refl)). cbn [fst snd] in Z. cbn [map fst snd].
          rewrite Z. auto.
        * destruct IH as (ps & x & rest & H1 & H2). exists ((get a, v) :: ps), x, rest. cbn [snd fst] in *.
          rewrite H1, <- !app_assoc. cbn [map record fst snd app]. rewrite H2. auto.
      + exists [], (get a), (map (fun x => get (snd x)) l). cbn. auto.
  Qed.
End Entries.

(* what one event asks for, and whether it was answered *)
Definition asked {L R S} (v : event L R S) : L + R + S :=
  match v with CloneL x _ => inl (inl x) | CloneR x _ => inl (inr x) | CloneS x _ => inr x end.
Definition answered {L R S} (v : event L R S) : Prop :=
  match v with CloneL _ o => o <> None | CloneR _ o => o <> None | CloneS _ o => o <> None end.

(* a function that does what was recorded *)
Definition pick {T} (e : T -> T -> bool) (ps : list (T * T)) (x : T) : T :=
  match find (fun p => e x (fst p)) ps with Some p => snd p | None => x end.

Section Pick.
  Context {T : Type} (e : T -> T -> bool) (EQ : equivalence e).
  Lemma pick_clones : forall ps, (forall p, In p ps -> e (fst p) (snd p) = true) -> clones e (pick e ps).
  Proof.
    intros ps H x. unfold pick. destruct (find (fun p => e x (fst p)) ps) as [p|] eqn:F.
    - apply find_some in F as [F1 F2]. apply (equiv_trans _ EQ) with (fst p); auto.
    - apply (equiv_refl _ EQ).
  Qed.
  Lemma pick_at : forall ps, distinct e (map fst ps) -> forall p, In p ps -> pick e ps (fst p) = snd p.
  Proof.
    induction ps as [|q ps IH]; intros D p I; [destruct I|].
    cbn [map] in D. apply distinct_cons in D as [D1 D2]. unfold pick. cbn [find].
    destruct (e (fst p) (fst q)) eqn:X.
    - destruct I as [->|I]; auto. exfalso.
      assert (Z := D1 (fst p) (in_map fst _ _ I)). apply (equiv_sym _ EQ) in X. congruence.
    - destruct I as [->|I]; [rewrite (equiv_refl _ EQ) in X; discriminate|]. apply (IH D2 p I).
  Qed.
End Pick.

(* The record of a clone that panicked: [log] asks for the first of [all], each was answered but the
   last. *)
Definition broken_off {L R S} (all : list (L + R + S)) (log : list (event L R S)) : Prop :=
  exists evs v rest, log = evs ++ [v] /\ Forall answered evs /\ ~ answered v /\
    map asked log ++ rest = all.

(* the two tables and the hasher of a map *)
Section Maps.
  Context {L R S Y A B : Type}.
  Variables (cl : Y -> L -> Y * option L) (cr : Y -> R -> Y * option R) (cs : Y -> S -> Y * option S).
  Variables (getA : A -> L) (putA : A -> L -> A).
  Hypothesis getputA : forall a v, getA (putA a v) = v.
  Variables (getB : B -> R) (putB : B -> R -> B).
  Hypothesis getputB : forall a v, getB (putB a v) = v.
  Notation ev := (event L R S).
  Notation st := (Y * list ev)%type.

  (* the fields of the struct expression in clone(), in this order: src/cycle_map.rs:1107-1112,
     src/partial_cycle_map.rs:1711-1716, src/group_map.rs:1031-1037 *)
  Definition tables_run (tl : table A) (tr : table B) (hb : S) (s : st) : st * option (table A * table B * S) :=
    match t_clone_run (entry_clone cl CloneL getA putA) s tl with
    | (s1, None) => (s1, None)
    | (s1, Some tl') =>
        match t_clone_run (entry_clone cr CloneR getB putB) s1 tr with
        | (s2, None) => (s2, None)
        | (s2, Some tr') =>
            match recorded cs CloneS s2 hb with
            | (s3, None) => (s3, None)
            | (s3, Some hb') => (s3, Some (tl', tr', hb'))
            end
        end
    end.

  Lemma tables_record : forall tl tr hb y,
    match tables_run tl tr hb (y, []) with
    | ((_, log), Some (tl', tr', hb')) => exists ps qs,
        log = record CloneL ps ++ record CloneR qs ++ [CloneS hb (Some hb')] /\
        map fst ps = map (fun x => getA (snd x)) (slots tl) /\ map snd ps = map (fun x => getA (snd x)) (slots tl') /\
        map fst qs = map (fun x => getB (snd x)) (slots tr) /\ map snd qs = map (fun x => getB (snd x)) (slots tr') /\
        (forall p, In p ps -> exists y y', cl y (fst p) = (y', Some (snd p))) /\
        (forall p, In p qs -> exists y y', cr y (fst p) = (y', Some (snd p))) /\
        (exists y y', cs y hb = (y', Some hb')) /\
        forall gl gr, (forall p, In p ps -> gl (fst p) = snd p) -> (forall p, In p qs -> gr (fst p) = snd p) ->
          tl' = t_clone (fun a => putA a (gl (getA a))) tl /\ tr' = t_clone (fun b => putB b (gr (getB b))) tr
    | ((_, log), None) =>
        broken_off (map (fun l => inl (inl l)) (map (fun x => getA (snd x)) (slots tl)) ++
                    map (fun r => inl (inr r)) (map (fun x => getB (snd x)) (slots tr)) ++ [inr hb]) log
    end.
  Proof.
    intros tl tr hb y. unfold tables_run, t_clone_run.
    assert (KL := each_record cl CloneL getA putA getputA (slots tl) (y, @nil ev)).
    assert (AN : forall ps : list (L * L), Forall answered (record (Ev := ev) CloneL ps)).
    { intros ps. apply Forall_forall. intros v I. apply in_map_iff in I as (p & <- & _). discriminate. }
    assert (AR : forall ps : list (R * R), Forall answered (record (Ev := ev) CloneR ps)).
    { intros ps. apply Forall_forall. intros v I. apply in_map_iff in I as (p & <- & _). discriminate. }
    assert (ML : forall ps : list (L * L), map asked (record (Ev := ev) CloneL ps) =
      map (fun l => inl (inl l)) (map fst ps)).
    { intros ps. unfold record. rewrite !map_map. auto. }
    assert (MR : forall ps : list (R * R), map asked (record (Ev := ev) CloneR ps) =
      map (fun r => inl (inr r)) (map fst ps)).
    { intros ps. unfold record. rewrite !map_map. auto. }
    destruct (each (entry_clone cl CloneL getA putA) (y, []) (slots tl)) as [[y1 l1] [sl|]].
    2: { destruct KL as (ps & x & rest & H1 & H2). cbn [snd app] in H1. subst l1.
         exists (record CloneL ps), (CloneL x None),
           (map (fun l => inl (inl l)) rest ++ map (fun r => inl (inr r)) (map (fun x => getB (snd x)) (slots tr)) ++ [inr hb]).
         split; auto. split; auto. split; [intros Q; apply Q; auto|].
         rewrite <- H2, !map_app, ML. cbn. rewrite <- !app_assoc. auto. }
    destruct KL as (ps & H1 & H2 & HS & H3 & H4). cbn [snd app] in H1. subst l1.
    assert (KR := each_record cr CloneR getB putB getputB (slots tr)
                    (y1, record (Ev := ev) CloneL ps)).
    destruct (each (entry_clone cr CloneR getB putB) (y1, record CloneL ps) (slots tr))
      as [[y2 l2] [sr|]].
    2: { destruct KR as (qs & x & rest & R1 & R2). cbn [snd] in R1. subst l2.
         exists (record CloneL ps ++ record CloneR qs), (CloneR x None),
           (map (fun r => inl (inr r)) rest ++ [inr hb]).
         split; [rewrite <- app_assoc; auto|]. split; [apply Forall_app; auto|].
         split; [intros Q; apply Q; auto|].
         rewrite <- H2, <- R2, !map_app, ML, MR. cbn.
         rewrite <- !app_assoc. cbn. auto. }
    destruct KR as (qs & R1 & R2 & RS & R3 & R4). cbn [snd] in R1. subst l2.
    unfold recorded. cbn [fst snd]. destruct (cs y2 hb) as [y3 [s'|]] eqn:C.
    - exists ps, qs. split; [rewrite <- app_assoc; auto|]. cbn [slots].
      repeat (split; [auto; fail|]). split; [eauto|]. intros gl gr GL GR.
      rewrite (H4 gl GL), (R4 gr GR). split; auto.
    - exists (record CloneL ps ++ record CloneR qs), (CloneS hb None), [].
      split; auto. split; [apply Forall_app; auto|]. split; [intros Q; apply Q; auto|].
      rewrite <- H2, <- R2, !map_app, ML, MR, app_nil_r, <- !app_assoc. auto.
  Qed.
End Maps.

Open Scope N_scope.

(* for the cases: a Clone that numbers its copies, starting at its state, and panics at 9 *)
Definition numbered (n : N) (x : item) : N * option item :=
  (n + 1, if n =? 9 then None else Some (fst x, n)).
Definition reseeded (n : N) (s : N) : N * option N := (n + 1, if n =? 9 then None else Some (reseed s)).
Lemma numbered_ok : forall y x y' x', numbered y x = (y', Some x') -> item_eq x x' = true.
Proof.
  intros y x y' x' H. unfold numbered in H. destruct (y =? 9); inversion H. apply N.eqb_refl.
Qed.
Lemma reseeded_ok : forall y x y' x', reseeded y x = (y', Some x') -> x' = reseed x.
Proof. intros y x y' x' H. unfold reseeded in H. destruct (y =? 9); inversion H; auto. Qed.
