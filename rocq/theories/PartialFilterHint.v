(* PartialCycleMap: what size_hint() of drain_filter says at every position (property C43). *)
From Coq Require Import List NArith Lia Bool PeanoNat.
From Verif Require Import Closures Prelude RawTable Optionals PartialCycleMap ListFacts TableFacts PartialSpec PartialHistory
  Concrete PartialProps.
Import ListNotations.
Open Scope nat_scope.

(* ---- the spec ---- *)
(* the closure f, writing down the entries it is shown *)
Definition shown {L R X} (f : X -> optional_pair L R -> X * verdict)
    : X * list (optional_pair L R) -> optional_pair L R -> (X * list (optional_pair L R)) * verdict :=
  fun st e => let (x', v) := f (fst st) e in ((x', snd st ++ [e]), v).
(* how many entries hold a left item *)
Definition lefts {L R} (l : list (optional_pair L R)) : nat := length (filter has_left_item l).
(* the entries among the answers of next() *)
Definition entries_of {A} (out : list (option A)) : list A :=
  flat_map (fun o => match o with Some a => [a] | None => [] end) out.

Lemma remove_length : forall {A} lo (t : table A) i e, t_entry t i = Some e ->
  t_len t = Datatypes.S (t_len (t_remove_at lo t i)) /\ i < t_len t.
Proof.
  intros A lo t i e H. unfold t_entry in H. unfold t_len, t_remove_at. cbn [slots].
  revert i H. generalize (slots t). induction l as [|x l IH]; intros [|i] H; cbn in *; try discriminate.
  - lia.
  - destruct (IH i H). lia.
Qed.

Section Hint.
  Context {L R S : Type} (E : env L R S).
  Notation entry := (optional_pair L R).
  Definition remaining (d : @df_inner L R) : nat := t_len (df_left d) - df_lpos d.
  Lemma lefts_app : forall (a b : list entry), lefts (a ++ b) = lefts a + lefts b.
  Proof. intros. unfold lefts. rewrite filter_app, app_length. auto. Qed.

  (* the second pass leaves the hint alone *)
  Lemma right_hint : forall X (f : X -> entry -> X * verdict) fuel d x g d' x' g' o,
    df_next_right E (shown f) fuel d (x, g) = Ret (d', (x', g')) o ->
    exists s, g' = g ++ s /\ lefts s = 0 /\ remaining d' = remaining d /\ lefts (entries_of [o]) = 0.
  Proof.
    intros X f. induction fuel as [|fuel IH]; intros d x g d' x' g' o H; cbn [df_next_right] in H;
      (destruct (t_entry _ _) as [rp|]; [|injection H as <- <- <- <-; exists []; rewrite app_nil_r; auto]);
      unfold shown in H at 1; cbn [fst snd] in H; destruct (f x _) as [y [[|]|]]; try discriminate.
    1, 2: injection H as <- <- <- <-; eexists; split; [reflexivity|]; auto.
    apply IH in H as (s & -> & P1 & P2 & P3). eexists. split; [rewrite <- app_assoc; reflexivity|].
    rewrite lefts_app, P1. auto.
  Qed.
  Lemma next_hint : forall X (f : X -> entry -> X * verdict) fuel d x g d' x' g' o,
    df_next_left E (shown f) fuel d (x, g) = Ret (d', (x', g')) o ->
    exists s, g' = g ++ s /\ remaining d = remaining d' + lefts s /\ lefts (entries_of [o]) <= lefts s /\
      (o = None -> remaining d' = 0).
  Proof.
    intros X f.
    assert (END : forall d x g d' x' g' o, t_entry (df_left d) (df_lpos d) = None ->
      df_next_right E (shown f) (t_len (df_right (df_enter_right d))) (df_enter_right d) (x, g) = Ret (d', (x', g')) o ->
      exists s, g' = g ++ s /\ remaining d = remaining d' + lefts s /\ lefts (entries_of [o]) <= lefts s /\
        (o = None -> remaining d' = 0)).
    { intros d x g d' x' g' o T H. apply right_hint in H as (s & -> & P1 & P2 & P3).
      assert (Z : remaining d = 0).
      { unfold t_entry in T. destruct (nth_error _ _) as [[]|] eqn:N; [discriminate|]. apply nth_error_None in N.
        unfold remaining, t_len. lia. }
      assert (Y : remaining (df_enter_right d) = remaining d) by (unfold df_enter_right; destruct (df_reset d); auto).
      exists s. split; [auto|]. rewrite P1, P3. repeat split; try lia. }
    induction fuel as [|fuel IH]; intros d x g d' x' g' o H; cbn [df_next_left] in H;
      (destruct (t_entry (df_left d) (df_lpos d)) as [lp|] eqn:T; [|eapply END; eauto]);
      destruct (remove_length (lo E) _ _ _ T) as [T1 T2];
      (destruct (phash lp) as [h|]; [destruct (t_get_mut _ _ _ _) as [[j rp]|]; [|discriminate]|]);
      unfold shown in H at 1; cbn [fst snd] in H; destruct (f x _) as [y [[|]|]]; try discriminate.
    all: try (injection H as <- <- <- <-; eexists; split; [reflexivity|];
      match goal with |- context [lefts (entries_of [Some ?e])] => change (lefts (entries_of [Some e])) with 1; change (lefts [e]) with 1 end;
      unfold remaining; cbn [df_left df_lpos]; repeat split; [lia|lia|discriminate]).
    all: destruct (IH _ _ _ _ _ _ _ H) as (s & -> & P1 & P2 & P3);
      unfold remaining in P1 at 1; cbn [df_left df_lpos] in P1;
      (eexists; split; [rewrite <- app_assoc; reflexivity|]); rewrite lefts_app; unfold remaining at 1;
      match goal with |- context [lefts [?e]] => change (lefts [e]) with 1 end; repeat split; [lia|lia|auto].
  Qed.
  Lemma nexts_hint : forall X (f : X -> entry -> X * verdict) n d x g d' x' g' out,
    df_nexts E (shown f) n (d, (x, g)) = Ret (d', (x', g')) out ->
    exists s, g' = g ++ s /\ remaining d = remaining d' + lefts s /\ lefts (entries_of out) <= lefts s /\
      (In None out -> remaining d' = 0).
  Proof.
    intros X f. induction n as [|n IH]; intros d x g d' x' g' out H; cbn [df_nexts] in H.
    - injection H as <- <- <- <-. exists []. rewrite app_nil_r. cbn. repeat split; [lia|lia|intros []].
    - unfold df_next in H. cbn [fst snd] in H.
      destruct (df_next_left E (shown f) _ d (x, g)) as [[d1 [x1 g1]] a|] eqn:N; [|discriminate].
      destruct (df_nexts E (shown f) n _) as [[d2 [x2 g2]] l|] eqn:M; [|discriminate]. injection H as <- <- <- <-.
      apply next_hint in N as (s & -> & P1 & P2 & P3). apply IH in M as (s' & -> & Q1 & Q2 & Q3).
      exists (s ++ s'). rewrite app_assoc, lefts_app. split; [auto|]. split; [lia|]. split.
      + change (a :: l) with ([a] ++ l). unfold entries_of. rewrite flat_map_app, lefts_app. unfold entries_of in *. lia.
      + intros [->|H]; [rewrite P3 in Q1 by auto; lia|auto].
  Qed.
  (* the closure that writes down does what f does *)
  Lemma shown_right : forall X (f : X -> entry -> X * verdict) fuel d x g,
    match df_next_right E (shown f) fuel d (x, g), df_next_right E f fuel d x with
    | Ret (d1, (x1, _)) o1, Ret (d2, x2) o2 => d1 = d2 /\ x1 = x2 /\ o1 = o2
    | Panic (d1, (x1, _)), Panic (d2, x2) => d1 = d2 /\ x1 = x2
    | _, _ => False
    end.
  Proof.
    intros X f. induction fuel as [|fuel IH]; intros d x g; cbn [df_next_right];
      (destruct (t_entry _ _) as [rp|]; [|auto]);
      unfold shown at 1; cbn [fst snd]; destruct (f x _) as [y [[|]|]]; auto.
    apply IH.
  Qed.
  Lemma shown_same : forall X (f : X -> entry -> X * verdict) fuel d x g,
    match df_next_left E (shown f) fuel d (x, g), df_next_left E f fuel d x with
    | Ret (d1, (x1, _)) o1, Ret (d2, x2) o2 => d1 = d2 /\ x1 = x2 /\ o1 = o2
    | Panic (d1, (x1, _)), Panic (d2, x2) => d1 = d2 /\ x1 = x2
    | _, _ => False
    end.
  Proof.
    intros X f. induction fuel as [|fuel IH]; intros d x g; cbn [df_next_left];
      (destruct (t_entry (df_left d) (df_lpos d)) as [lp|]; [|apply shown_right]);
      (destruct (phash lp) as [h|]; [destruct (t_get_mut _ _ _ _) as [[j rp]|]; [|auto]|]);
      unfold shown at 1; cbn [fst snd]; destruct (f x _) as [y [[|]|]]; auto; apply IH.
  Qed.
  Lemma shown_nexts : forall X (f : X -> entry -> X * verdict) n d x g d' x' out,
    df_nexts E f n (d, x) = Ret (d', x') out -> exists g', df_nexts E (shown f) n (d, (x, g)) = Ret (d', (x', g')) out.
  Proof.
    intros X f. induction n as [|n IH]; intros d x g d' x' out H; cbn [df_nexts] in *; [injection H as <- <- <-; eauto|].
    unfold df_next in *. cbn [fst snd] in *. assert (Q := shown_same X f (t_len (df_left d)) d x g).
    destruct (df_next_left E f _ _ _) as [[d1 x1] a|]; [|discriminate].
    destruct (df_next_left E (shown f) _ _ _) as [[d2 [x2 g2]] a2|[? []]]; [|contradiction]. destruct Q as (-> & -> & ->).
    destruct (df_nexts E f n _) as [[d3 x3] l|] eqn:M; [|discriminate]. injection H as <- <- <-.
    destruct (IH _ _ g2 _ _ _ M) as [g' ->]. eauto.
  Qed.
End Hint.

(* ---- C43 for drain_filter (false in general, see C43_drain_refuted) ----
   After any calls of next that returned: the lower bound is 0, the upper bound is the number of
   left items that the closure has not been shown.  Missing: right items without a partner count for
   nothing, and so the number may be smaller than that of the items to come. *)
Theorem C43_filter_upper_partial : forall {L R S X} (E : env L R S) (f : X -> optional_pair L R -> X * verdict)
    (m : pmap L R S) n x d y seen out,
  df_nexts E (shown f) n (drain_filter m, (x, [])) = Ret (d, (y, seen)) out ->
  lefts seen <= len_left m /\ df_size_hint d = (0, Some (len_left m - lefts seen)).
Proof.
  intros L R S X E f m n x d y seen out H. apply nexts_hint in H as (s & -> & P & _).
  unfold remaining at 1, drain_filter in P. cbn [df_left df_lpos] in P.
  unfold df_size_hint, len_left. cbn [app]. unfold remaining in P. split; [lia|]. do 2 f_equal. lia.
Qed.
(* it bounds the items to come that hold a left item, whatever the closure does, and is 0 once next
   has returned None *)
Theorem C43_filter_valid_partial : forall {L R S X} (E : env L R S) (f : X -> optional_pair L R -> X * verdict)
    (m : pmap L R S) n x d y out,
  df_nexts E f n (drain_filter m, x) = Ret (d, y) out ->
  exists u, df_size_hint d = (0, Some u) /\ (In None out -> u = 0) /\
    forall k st rest, df_nexts E f k (d, y) = Ret st rest -> lefts (entries_of rest) <= u.
Proof.
  intros L R S X E f m n x d y out H. apply (shown_nexts E X f n _ _ []) in H as [g H].
  apply nexts_hint in H as (s & _ & _ & _ & P). exists (remaining d). split; [reflexivity|]. split; [exact P|].
  intros k [d' y'] rest H'. apply (shown_nexts E X f k _ _ []) in H' as [g' H'].
  apply nexts_hint in H' as (s' & _ & Q1 & Q2 & _). lia.
Qed.

(* the closure takes every second entry; pm1 holds five left items, three of them paired, and three
   unpaired right ones (the second pass shows the right items of kept pairs, too: C40) *)
Definition every_second : bool -> optional_pair item item -> bool * verdict := fun b _ => (negb b, Some b).
Example C43_filter_case :
  List.map (fun n => match df_nexts env_collide (shown every_second) n (drain_filter pm1, (false, [])) with
                     | Ret (d, (_, seen)) out => (df_size_hint d, lefts seen, length seen, length (entries_of out))
                     | Panic _ => ((9, None), 9, 9, 9) end) [0; 1; 2; 3; 4; 5] =
    [((0, Some 5), 0, 0, 0); ((0, Some 3), 2, 2, 1); ((0, Some 1), 4, 4, 2); ((0, Some 0), 5, 6, 3);
     ((0, Some 0), 5, 8, 4); ((0, Some 0), 5, 10, 5)].
Proof. vm_compute. auto. Qed.
Print Assumptions C43_filter_upper_partial.
Print Assumptions C43_filter_valid_partial.
