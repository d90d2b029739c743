(* CycleMap: what size_hint() of drain_filter says at every position (property C154). *)
From Coq Require Import List NArith Lia Bool PeanoNat.
From Verif Require Import Closures Prelude RawTable CycleMap ListFacts TableFacts CycleMapHistory Concrete CycleMapProps.
Import ListNotations.
Open Scope nat_scope.

(* ---- the spec ---- *)
(* the closure f, writing down the pairs it is shown *)
Definition shown {L R X} (f : X -> L -> R -> X * verdict) : X * list (L * R) -> L -> R -> (X * list (L * R)) * verdict :=
  fun st l r => let (x', v) := f (fst st) l r in ((x', snd st ++ [(l, r)]), v).
(* the items among the answers of next() *)
Definition items {A} (out : list (option A)) : nat :=
  length (filter (fun o => match o with Some _ => true | None => false end) out).

(* src/cycle_map.rs:1395-1398; size_hint of the RawIter is the number of buckets to come *)
Definition df_size_hint {L R} (d : @df_inner L R) : nat * option nat := (0, Some (df_remaining d)).

Lemma remove_length : forall {A} lo (t : table A) i e, t_entry t i = Some e ->
  t_len t = Datatypes.S (t_len (t_remove_at lo t i)) /\ i < t_len t.
Proof.
  intros A lo t i e H. unfold t_entry in H. unfold t_len, t_remove_at. cbn [slots].
  revert i H. generalize (slots t). induction l as [|x l IH]; intros [|i] H; cbn in *; try discriminate.
  - lia.
  - destruct (IH i H). lia.
Qed.

Section Hint.
  Context {L R S : Type} (E : env L R S).
  (* how far one call gets: the closure is shown [length d] pairs *)
  Lemma next_hint : forall X (f : X -> L -> R -> X * verdict) fuel d x g d' x' g' o,
    df_next_fuel E (shown f) fuel (d, (x, g)) = Ret (d', (x', g')) o ->
    exists s, g' = g ++ s /\ df_remaining d = df_remaining d' + length s /\ items [o] <= length s /\
      (o = None -> df_remaining d' = 0).
  Proof.
    intros X f. induction fuel as [|fuel IH]; intros d x g d' x' g' o H; cbn [df_next_fuel] in H.
    all: destruct (t_entry (df_left d) (df_pos d)) as [lp|] eqn:T.
    2, 4: injection H as <- <- <- <-; exists []; rewrite app_nil_r; unfold t_entry in T;
      (repeat split; [cbn [length]; lia|cbn; lia|]); intros _; unfold df_remaining, t_len;
      destruct (nth_error _ _) as [[]|] eqn:N in T; [discriminate|]; apply nth_error_None in N; lia.
    all: destruct (t_find _ (df_right d) _ _) as [i|]; [|discriminate];
      destruct (t_entry (df_right d) i) as [rp|]; [|discriminate];
      unfold shown in H at 1; cbn [fst snd] in H; destruct (f x (value lp) (value rp)) as [y [[|]|]];
      destruct (remove_length (lo E) _ _ _ T) as [T1 T2]; try discriminate.
    1, 2: injection H as <- <- <- <-; eexists; split; [reflexivity|]; unfold items, df_remaining; cbn [filter length df_left df_pos];
      (repeat split; [lia|lia|discriminate]).
    destruct (IH _ _ _ _ _ _ _ H) as (s & -> & P1 & P2 & P3). unfold df_remaining in P1 at 1. cbn [df_left df_pos] in P1.
    eexists. split; [rewrite <- app_assoc; reflexivity|]. cbn [length app]. unfold df_remaining at 1. repeat split; [lia|lia|auto].
  Qed.
  Lemma nexts_hint : forall X (f : X -> L -> R -> X * verdict) n d x g d' x' g' out,
    df_nexts E (shown f) n (d, (x, g)) = Ret (d', (x', g')) out ->
    exists s, g' = g ++ s /\ df_remaining d = df_remaining d' + length s /\ items out <= length s /\
      (In None out -> df_remaining d' = 0).
  Proof.
    intros X f. induction n as [|n IH]; intros d x g d' x' g' out H; cbn [df_nexts] in H.
    - injection H as <- <- <- <-. exists []. rewrite app_nil_r. cbn. repeat split; [lia|lia|intros []].
    - destruct (df_next E (shown f) (d, (x, g))) as [[d1 [x1 g1]] a|] eqn:N; [|discriminate].
      destruct (df_nexts E (shown f) n _) as [[d2 [x2 g2]] l|] eqn:M; [|discriminate]. injection H as <- <- <- <-.
      apply next_hint in N as (s & -> & P1 & P2 & P3). apply IH in M as (s' & -> & Q1 & Q2 & Q3).
      exists (s ++ s'). rewrite app_assoc, app_length. split; [auto|]. split; [lia|]. split.
      + unfold items in *. cbn [filter] in *. destruct a; cbn [length] in *; lia.
      + intros [->|H]; [rewrite P3 in Q1 by auto; lia|auto].
  Qed.
  (* the closure that writes down does what f does *)
  Lemma shown_same : forall X (f : X -> L -> R -> X * verdict) fuel d x g,
    match df_next_fuel E (shown f) fuel (d, (x, g)), df_next_fuel E f fuel (d, x) with
    | Ret (d1, (x1, _)) o1, Ret (d2, x2) o2 => d1 = d2 /\ x1 = x2 /\ o1 = o2
    | Panic (d1, (x1, _)), Panic (d2, x2) => d1 = d2 /\ x1 = x2
    | _, _ => False
    end.
  Proof.
    intros X f. induction fuel as [|fuel IH]; intros d x g; cbn [df_next_fuel];
      (destruct (t_entry (df_left d) _) as [lp|]; [|auto]);
      (destruct (t_find _ (df_right d) _ _) as [i|]; [|auto]); (destruct (t_entry (df_right d) i) as [rp|]; [|auto]);
      unfold shown at 1; cbn [fst snd]; destruct (f x _ _) as [y [[|]|]]; auto.
    apply IH.
  Qed.
  Lemma shown_nexts : forall X (f : X -> L -> R -> X * verdict) n d x g d' x' out,
    df_nexts E f n (d, x) = Ret (d', x') out -> exists g', df_nexts E (shown f) n (d, (x, g)) = Ret (d', (x', g')) out.
  Proof.
    intros X f. induction n as [|n IH]; intros d x g d' x' out H; cbn [df_nexts] in *; [injection H as <- <- <-; eauto|].
    unfold df_next in *. cbn [fst] in *. assert (Q := shown_same X f (df_remaining d) d x g).
    destruct (df_next_fuel E f _ _) as [[d1 x1] a|]; [|discriminate].
    destruct (df_next_fuel E (shown f) _ _) as [[d2 [x2 g2]] a2|[? []]]; [|contradiction]. destruct Q as (-> & -> & ->).
    destruct (df_nexts E f n _) as [[d3 x3] l|] eqn:M; [|discriminate]. injection H as <- <- <-.
    destruct (IH _ _ g2 _ _ _ M) as [g' ->]. eauto.
  Qed.
End Hint.

(* ---- C154 ---- after any calls of next that returned: the lower bound is 0, the upper bound is
   the number of pairs that the closure has not been shown *)
Theorem C154_upper : forall {L R S X} (E : env L R S) (f : X -> L -> R -> X * verdict) (m : cmap L R S) n x d y seen out,
  df_nexts E (shown f) n (drain_filter m, (x, [])) = Ret (d, (y, seen)) out ->
  length seen <= len m /\ df_size_hint d = (0, Some (len m - length seen)).
Proof.
  intros L R S X E f m n x d y seen out H. apply nexts_hint in H as (s & -> & P & _).
  unfold df_remaining at 1, drain_filter in P. cbn [df_left df_pos] in P.
  unfold df_size_hint, len. cbn [app]. split; [lia|]. do 2 f_equal. lia.
Qed.
(* so it bounds the items still to come, whatever the closure does, and is 0 once next has returned
   None *)
Theorem C154_valid : forall {L R S X} (E : env L R S) (f : X -> L -> R -> X * verdict) (m : cmap L R S) n x d y out,
  df_nexts E f n (drain_filter m, x) = Ret (d, y) out ->
  exists u, df_size_hint d = (0, Some u) /\ (In None out -> u = 0) /\
    forall k st rest, df_nexts E f k (d, y) = Ret st rest -> items rest <= u.
Proof.
  intros L R S X E f m n x d y out H. apply (shown_nexts E X f n _ _ []) in H as [g H].
  apply nexts_hint in H as (s & _ & _ & _ & P). exists (df_remaining d). split; [reflexivity|]. split; [exact P|].
  intros k [d' y'] rest H'. apply (shown_nexts E X f k _ _ []) in H' as [g' H']. apply nexts_hint in H' as (s' & _ & Q1 & Q2 & _). lia.
Qed.

(* the closure takes every second pair; hints before, after one and after three calls *)
Definition every_second : bool -> item -> item -> bool * verdict := fun b _ _ => (negb b, Some b).
Example C154_case :
  length (slots (left_set m1)) = 3 /\
  List.map (fun n => match df_nexts env_collide (shown every_second) n (drain_filter m1, (false, [])) with
                     | Ret (d, (_, seen)) out => (df_size_hint d, length seen, items out)
                     | Panic _ => ((9, None), 9, 9) end) [0; 1; 2; 3] =
    [((0, Some 3), 0, 0); ((0, Some 1), 2, 1); ((0, Some 0), 3, 1); ((0, Some 0), 3, 1)].
Proof. vm_compute. auto. Qed.
Print Assumptions C154_upper.
Print Assumptions C154_valid.
