(* GroupMap with user code that does as it likes (Wild.v): a call that returns loses no item.
   Which calls and answers are meant is said by [accounts_for_l] and [accounts_for_r] below. *)
From Coq Require Import List NArith Lia Bool Permutation.
From Verif Require Import Closures Prelude RawTable GroupMap GroupHistory GroupAny
  TableFacts Conserve GroupConserve Faults Wild GroupWild GroupWildProps Settle Concrete.
Import ListNotations.
Local Open Scope nat_scope.

Section WildKept.
  Context {L R S W : Type} (E : wenv L R S W).
  Hypothesis TE : tame E.
  Variables (p : L -> bool) (q : R -> bool).
  Notation map := (gmap L R S).
  Notation B := (calm_env E).
  Notation wm := (wm p q).
  Notation wg := (wg p q).
  Notation settles := (settles (fun s : W * map => wm (snd s))).
  Notation settles_on := (settles_on (fun s : W * map => wm (snd s))).

  Lemma left_remove_settles : forall h f, Settle.settles wm 0 (left_remove_entry B h f) (cnt_opt (we_l p)).
  Proof.
    intros h f m m' o. unfold left_remove_entry, bind, getst, putst, ret.
    destruct (t_remove_entry _ _ _ _) as [[e t]|] eqn:X; intros Q _; injection Q as <- <-; cbn [cnt_opt]; [|lia].
    apply (tw_remove_entry (lo B) (vl p)) in X. rewrite one_vl in X. unfold GroupConserve.wm.
    cbn [left_set right_set set_left set_right cnt_opt]. lia.
  Qed.
  Lemma right_remove_settles : forall h f, Settle.settles wm 0 (right_remove_entry B h f) (cnt_opt (we_r q)).
  Proof.
    intros h f m m' o. unfold right_remove_entry, bind, getst, putst, ret.
    destruct (t_remove_entry _ _ _ _) as [[e t]|] eqn:X; intros Q _; injection Q as <- <-; cbn [cnt_opt]; [|lia].
    apply (tw_remove_entry (lo B) (vr q)) in X. rewrite one_vr in X. unfold GroupConserve.wm.
    cbn [left_set right_set set_left set_right cnt_opt]. lia.
  Qed.
  Lemma incr_left_settles : Settle.settles wm 0 (incr_left B) (fun _ => 0).
  Proof.
    intros m m' a. unfold incr_left, bind, getst, unwrap, panic, putst. destruct (u64_incr _ _); cbn; intros X _; [|discriminate].
    injection X as <- <-. unfold GroupConserve.wm. simpl. lia.
  Qed.
  Lemma incr_right_settles : Settle.settles wm 0 (incr_right B) (fun _ => 0).
  Proof.
    intros m m' a. unfold incr_right, bind, getst, unwrap, panic, putst. destruct (u64_incr _ _); cbn; intros X _; [|discriminate].
    injection X as <- <-. unfold GroupConserve.wm. simpl. lia.
  Qed.
  Lemma w_left_remove_settles : forall h l, settles 0 (w_left_remove_entry E h l) (cnt_opt (we_l p)).
  Proof.
    intros h l [w m] s' o. unfold w_left_remove_entry, bind, w_look, w_calmly, w_with, getst, putst, ret. cbn [fst snd].
    destruct (w_remove_entry _ _ _ _ _) as [w' [[e t]|]|w'] eqn:X; cbn [fst snd]; intros Q _; try discriminate;
      injection Q as <- <-; cbn [fst snd cnt_opt]; try lia.
    apply (wtw_remove _ (vl p)) in X. rewrite one_vl in X. unfold GroupConserve.wm. cbn [fst snd left_set right_set set_left set_right cnt_opt]. lia.
  Qed.
  Lemma w_right_remove_settles : forall h l, settles 0 (w_right_remove_entry E h l) (cnt_opt (we_r q)).
  Proof.
    intros h l [w m] s' o. unfold w_right_remove_entry, bind, w_look, w_calmly, w_with, getst, putst, ret. cbn [fst snd].
    destruct (w_remove_entry _ _ _ _ _) as [w' [[e t]|]|w'] eqn:X; cbn [fst snd]; intros Q _; try discriminate;
      injection Q as <- <-; cbn [fst snd cnt_opt]; try lia.
    apply (wtw_remove _ (vr q)) in X. rewrite one_vr in X. unfold GroupConserve.wm. cbn [fst snd left_set right_set set_left set_right cnt_opt]. lia.
  Qed.
  Lemma w_left_insert_settles : forall h e, settles (we_l p e) (w_left_insert E h e) (fun _ => 0).
  Proof.
    intros h e [w m] s' []. unfold w_left_insert, on_left. cbn [fst snd].
    assert (X := fun hs => wtw_insert (W := W) _ _ (proj1 TE) (proj2 TE) (vl p) (left_set m) h e hs w).
    match goal with |- context [w_insert _ _ _ _ _ ?hs _] => specialize (X hs) end.
    destruct (w_insert _ _ _ _ _ _ _) as [[w' t'] []|[w' t']]; intros Q _; [|discriminate]. injection Q as <-.
    rewrite one_vl in X. unfold GroupConserve.wm. cbn [fst snd left_set right_set set_left set_right cnt_opt]. lia.
  Qed.
  Lemma w_right_insert_settles : forall h e, settles (we_r q e) (w_right_insert E h e) (fun _ => 0).
  Proof.
    intros h e [w m] s' []. unfold w_right_insert, on_right. cbn [fst snd].
    assert (X := fun hs => wtw_insert (W := W) _ _ (proj1 TE) (proj2 TE) (vr q) (right_set m) h e hs w).
    match goal with |- context [w_insert _ _ _ _ _ ?hs _] => specialize (X hs) end.
    destruct (w_insert _ _ _ _ _ _ _) as [[w' t'] []|[w' t']]; intros Q _; [|discriminate]. injection Q as <-.
    rewrite one_vr in X. unfold GroupConserve.wm. cbn [fst snd left_set right_set set_left set_right cnt_opt]. lia.
  Qed.

  Lemma left_assign_settles : forall i f, (forall e, l_value (f e) = l_value e) ->
    Settle.settles wm 0 (left_assign i f : M map unit) (fun _ => 0).
  Proof.
    intros i f H m m' a. unfold left_assign, bind, getst, putst. intros X _. injection X as <- <-.
    unfold GroupConserve.wm. cbn [left_set right_set set_left]. rewrite (tw_modify (vl p)); auto.
    intros e. unfold vl. rewrite H. auto.
  Qed.
  Lemma right_assign_settles : forall i f, (forall e, r_value (f e) = r_value e) ->
    Settle.settles wm 0 (right_assign i f : M map unit) (fun _ => 0).
  Proof.
    intros i f H m m' a. unfold right_assign, bind, getst, putst. intros X _. injection X as <- <-.
    unfold GroupConserve.wm. cbn [left_set right_set set_right]. rewrite (tw_modify (vr q)); auto.
    intros e. unfold vr. rewrite H. auto.
  Qed.
  Lemma rehash_pairs_settles : forall h ps, Settle.settles wm 0 (rehash_pairs B h ps) (fun _ => 0).
  Proof.
    induction ps as [|[a b] ps IH]; cbn [rehash_pairs]; [apply settles_ret; auto|].
    apply settles_get_any. intros m. apply settles_unwrap_bind. intros e _.
    repeat (apply settles_nothing; [apply left_assign_settles; reflexivity|intros []]). exact IH.
  Qed.
  (* code without user code *)
  Ltac cpay1 :=
    cbv beta zeta; unfold Settle.settles;
    match goal with
    | |- Settle.settles_on _ _ _ (ret _) _ => apply settles_ret
    | |- Settle.settles_on _ _ _ panic _ => apply settles_panic
    | |- Settle.settles_on _ _ _ (bind getst _) _ => apply settles_get_any; intro
    | |- Settle.settles_on _ _ _ (bind (incr_left _) _) _ => apply settles_nothing; [apply incr_left_settles|intros []]
    | |- Settle.settles_on _ _ _ (bind (incr_right _) _) _ => apply settles_nothing; [apply incr_right_settles|intros []]
    | |- Settle.settles_on _ _ _ (incr_left _) _ => apply incr_left_settles
    | |- Settle.settles_on _ _ _ (incr_right _) _ => apply incr_right_settles
    | |- Settle.settles_on _ _ _ (bind (left_assign _ _) _) _ =>
        apply settles_nothing; [apply left_assign_settles; reflexivity|intros []]
    | |- Settle.settles_on _ _ _ (bind (right_assign _ _) _) _ =>
        apply settles_nothing; [apply right_assign_settles; reflexivity|intros []]
    | |- Settle.settles_on _ _ _ (left_assign _ _) _ =>
        apply left_assign_settles; reflexivity
    | |- Settle.settles_on _ _ _ (right_assign _ _) _ =>
        apply right_assign_settles; reflexivity
    | |- Settle.settles_on _ _ _ (bind (unwrap ?o) _) _ => apply settles_unwrap_bind; intros ? _
    | |- Settle.settles_on _ _ _ (rehash_pairs _ _ _) _ => apply rehash_pairs_settles
    end.
  Ltac pay1 :=
    cbv beta zeta; unfold Settle.settles;
    match goal with
    | |- Settle.settles_on _ _ _ (ret _) _ => apply settles_ret
    | |- Settle.settles_on _ _ _ panic _ => apply settles_panic
    | |- Settle.settles_on _ _ _ (bind (w_look _) _) _ => apply settles_looked; intro
    | |- Settle.settles_on _ _ _ (bind (unwrap ?o) _) _ => apply settles_unwrap_bind; intros ? ?; try subst o
    | |- Settle.settles_on _ _ _ (bind (w_calmly (left_remove_entry _ _ _)) _) _ =>
        eapply settles_then; [apply (settles_calmly wm), left_remove_settles|intro]
    | |- Settle.settles_on _ _ _ (bind (w_calmly _) _) _ =>
        apply settles_nothing; [apply (settles_calmly wm); repeat cpay1|intros []]
    | |- Settle.settles_on _ _ _ (w_calmly _) _ =>
        eapply settles_given; [apply (settles_calmly wm) with (h := fun _ => 0) (g := 0); repeat cpay1|]
    | |- Settle.settles_on _ _ _ (bind (w_left_remove_entry _ _ _) _) _ =>
        eapply settles_then; [apply w_left_remove_settles|intro]
    | |- Settle.settles_on _ _ _ (bind (w_right_remove_entry _ _ _) _) _ =>
        eapply settles_then; [apply w_right_remove_settles|intro]
    | |- Settle.settles_on _ _ _ (bind (w_left_insert _ _ _) _) _ =>
        eapply settles_bind; [apply w_left_insert_settles| |intros []]
    | |- Settle.settles_on _ _ _ (bind (w_right_insert _ _ _) _) _ =>
        eapply settles_bind; [apply w_right_insert_settles| |intros []]
    | |- Settle.settles_on _ _ _ (if ?b then _ else _) _ => destruct b
    | |- Settle.settles_on _ _ _ (match ?o with _ => _ end) _ => destruct o
    end.
  Ltac fin := unfold we_l, we_r, GroupConserve.wg in *;
    cbn [cnt_opt l_value r_value fst snd option_map] in *; rewrite ?cnt_cons in *; lia.
  Ltac pay := repeat pay1; try fin.

  Lemma w_remove_left_settles : forall l, settles 0 (w_remove_left E l) (cnt_opt (one p)).
  Proof. intros l. unfold w_remove_left. pay. Qed.
  (* the HashSet of remove_right may drop left items: only the right items are claimed, or the
     answer None *)
  Definition no_lefts : Prop := forall l : L, p l = false.
  Lemma no_lefts_cnt : no_lefts -> forall ls, cnt p ls = 0.
  Proof.
    intros H ls. unfold cnt. induction ls as [|a ls IH]; auto. simpl. rewrite H. auto.
  Qed.
  Lemma w_remove_pairs_settles : no_lefts -> forall ps seen, settles 0 (w_remove_pairs E seen ps) (cnt p).
  Proof.
    intros Z. induction ps as [|[h i] t IH]; intros seen; cbn [w_remove_pairs]; [apply settles_ret; rewrite no_lefts_cnt; auto|].
    do 4 pay1. eapply settles_given; [apply IH|]. cbn [cnt_opt]. unfold we_l, one. rewrite no_lefts_cnt; auto.
  Qed.
  Lemma w_remove_right_settles : no_lefts -> forall r, settles 0 (w_remove_right E r) (cnt_opt wg).
  Proof.
    intros Z r. unfold w_remove_right. pay1. pay1. pay1; [|pay1; auto].
    eapply settles_then; [apply w_remove_pairs_settles; auto|]. intros ls. apply settles_ret. intros _. fin.
  Qed.
  (* a call that does not return an answer in k *)
  Definition never {A} (k : A -> Prop) (c : M (W * map) A) : Prop := forall s s' a, c s = Ret s' a -> ~ k a.
  Lemma never_bind : forall {A C} k (c : M (W * map) A) (f : A -> M (W * map) C),
    (forall a, never k (f a)) -> never k (bind c f).
  Proof.
    intros A C k c f H s s' a X. unfold bind in X. destruct (c s) as [s1 b|s1]; [|discriminate]. eapply H; eauto.
  Qed.
  Lemma never_ret : forall {A} (k : A -> Prop) a, ~ k a -> never k (ret a).
  Proof. intros A k a H s s' b X. injection X as <- <-. auto. Qed.
  Lemma never_settles : forall {A} k (c : M (W * map) A) g h, never k c -> settles_on k g c h.
  Proof. intros A k c g h H s s' a X K. destruct (H _ _ _ X K). Qed.
  Lemma w_remove_right_none : forall r, settles_on (fun d => d = None) 0 (w_remove_right E r) (cnt_opt wg).
  Proof.
    intros r. unfold w_remove_right. pay1. pay1. pay1; [|pay1; auto].
    apply never_settles, never_bind. intros ls. apply never_ret. discriminate.
  Qed.
  (* a first call of which only the answer None is claimed *)
  Lemma settles_none_bind : forall {A C} (c : M (W * map) (option A)) (f : option A -> M (W * map) C) k g h1 h2,
    settles_on (fun d => d = None) 0 c h1 -> h1 None = 0 -> settles_on k g (f None) h2 ->
    (forall a, never k (f (Some a))) -> settles_on k g (bind c f) h2.
  Proof.
    intros A C c f k g h1 h2 H1 Z H2 H3 s s' b X K. unfold bind in X.
    destruct (c s) as [s1 [a|]|s1] eqn:Q; [|..|discriminate].
    - destruct (H3 _ _ _ _ X K).
    - specialize (H1 _ _ _ Q eq_refl). specialize (H2 _ _ _ X K). lia.
  Qed.
  Ltac nev := repeat (apply never_bind; intro); apply never_ret; cbn; discriminate.

  Lemma w_remove_settles : no_lefts -> forall l r, settles 0 (w_remove E l r) (cnt_opt wg).
  Proof. intros Z l r. unfold w_remove. pay1. pay1; [apply w_remove_right_settles; auto|pay1; auto]. Qed.
  Lemma w_remove_none : forall l r, settles_on (fun d => d = None) 0 (w_remove E l r) (cnt_opt wg).
  Proof. intros l r. unfold w_remove. pay1. pay1; [apply w_remove_right_none|pay1; auto]. Qed.
  Lemma w_insert_remove_settles : no_lefts -> forall l r,
    settles (one p l + one q r) (w_insert_remove E l r) (fun d => cnt_opt (one p) (fst d) + cnt_opt wg (snd d)).
  Proof.
    intros Z l r. unfold w_insert_remove. eapply settles_then; [apply w_remove_left_settles|]. intros x.
    eapply settles_then; [apply w_remove_right_settles; auto|]. intros y. pay.
  Qed.
  Lemma w_insert_remove_none : forall l r,
    settles_on (fun d => snd d = None) (one p l + one q r) (w_insert_remove E l r)
      (fun d => cnt_opt (one p) (fst d) + cnt_opt wg (snd d)).
  Proof.
    intros l r. unfold w_insert_remove. eapply settles_then; [apply w_remove_left_settles|]. intros x.
    eapply settles_none_bind; [apply w_remove_right_none|reflexivity|pay|]. intros y. nev.
  Qed.
  Lemma w_insert_left_settles : forall l r,
    settles_on (fun d => d <> None \/ no_lefts) (one p l) (w_insert_left E l r) (cnt_opt (one p)).
  Proof.
    intros l r. unfold w_insert_left. pay1. pay1. pay1.
    - destruct p0 as [j e]. do 3 pay1. eapply settles_then; [apply w_remove_left_settles|]. intros x. pay.
    - apply settles_ret. intros [H|Z]; [congruence|]. symmetry. apply (no_lefts_cnt Z [l]).
  Qed.
  Lemma w_insert_right_settles : no_lefts -> forall r, settles (one q r) (w_insert_right E r) (cnt_opt wg).
  Proof. intros Z r. unfold w_insert_right. eapply settles_then; [apply w_remove_right_settles; auto|]. intros x. pay. Qed.
  Lemma w_insert_right_none : forall r, settles_on (fun d => d = None) (one q r) (w_insert_right E r) (cnt_opt wg).
  Proof.
    intros r. unfold w_insert_right. eapply settles_none_bind; [apply w_remove_right_none|reflexivity|pay|]. intros x. nev.
  Qed.
  Lemma w_swap_right_remove_settles : forall old new,
    settles_on (fun d => d <> None) (one q new) (w_swap_right_remove E old new) (cnt_opt (one q)).
  Proof.
    intros. unfold w_swap_right_remove. pay1. pay1. pay1.
    - pay.
    - apply never_settles, never_bind. intros x. apply never_ret. auto.
  Qed.
  Lemma w_pair_settles : forall l r, settles 0 (w_pair E l r) (fun _ => 0).
  Proof. intros. unfold w_pair. pay. Qed.
End WildKept.

(* The answers after which no left (right) item is gone.  Left out: panics, the calls meant to
   drop (clear, retain*, extend), the clone; for the left items insert, which drops a left item
   already stored, insert_left when it returns None (perhaps because the group was not there), and
   the removal of a group, because its set drops left items that user code calls equal; for the right
   items insert and swap_right, which drop the given one or a displaced one, and swap_right_remove
   when it returns None (it then drops what insert_right returned). *)
Definition accounts_for_l {L R} (o : op L R) (a : out L R) : Prop :=
  a <> OPanic /\
  match o, a with
  | RemoveLeft _, _ | Pair _ _, _ | IsRightPaired _, _ | ArePaired _ _, _ | ContainsLeft _, _ | ContainsRight _, _
  | GetRight _, _ | GetLeftIter _, _ | IterAll, _ | IterPairedAll, _ | IterUnpairedAll, _ | IterLeftAll, _
  | IterRightAll, _ | LenLeft, _ | LenRight, _ | IsEmpty, _ => True
  | InsertLeft _ _, OL (Some _) | SwapRightRemove _ _, OR (Some _) => True
  | InsertRemove _ _, OInsRem (_, None) | InsertRight _, OGroup None
  | RemoveRight _, OGroup None | Remove _ _, OGroup None => True
  | _, _ => False
  end.
Definition accounts_for_r {L R} (o : op L R) (a : out L R) : Prop :=
  a <> OPanic /\
  match o, a with
  | RemoveLeft _, _ | Pair _ _, _ | IsRightPaired _, _ | ArePaired _ _, _ | ContainsLeft _, _ | ContainsRight _, _
  | GetRight _, _ | GetLeftIter _, _ | IterAll, _ | IterPairedAll, _ | IterUnpairedAll, _ | IterLeftAll, _
  | IterRightAll, _ | LenLeft, _ | LenRight, _ | IsEmpty, _ => True
  | InsertLeft _ _, _ | InsertRemove _ _, _ | InsertRight _, _ | RemoveRight _, _ | Remove _ _, _ => True
  | SwapRightRemove _ _, OR (Some _) => True
  | _, _ => False
  end.

Section WildKeptStep.
  Context {L R S W : Type} (E : wenv L R S W).
  Hypothesis TE : tame E.
  Variables (p : L -> bool) (q : R -> bool).
  Notation map := (gmap L R S).
  Notation wm := (wm p q).
  Notation settles_on := (settles_on (fun s : W * map => wm (snd s))).

  Lemma w_via_settles : forall {A} o (c : M (W * map) A) (f : A -> out L R) k g h m w, settles_on k g c h ->
    snd (w_via f c m w) <> OPanic -> (forall a, snd (w_via f c m w) = f a -> k a) -> (forall a, wout p q o (f a) = h a) ->
    wm (fst (w_via f c m w)) + wout p q o (snd (w_via f c m w)) = wm m + g.
  Proof.
    intros A o c f k g h m w H N K X. specialize (H (w, m)). unfold w_via in *.
    destruct (c (w, m)) as [[w' m'] a|[w' m']]; cbn [fst snd] in *; [|congruence].
    rewrite X. exact (H _ _ eq_refl (K _ eq_refl)).
  Qed.
  Lemma w_look_settles : forall {A} o (f : map -> M W A) (k : A -> out L R) m w,
    snd (w_via k (w_look f) m w) <> OPanic -> (forall a, wout p q o (k a) = 0) ->
    wm (fst (w_via k (w_look f) m w)) + wout p q o (snd (w_via k (w_look f) m w)) = wm m + 0.
  Proof.
    intros A o f k m w N X. apply (w_via_settles o (w_look f) k (fun _ => True) 0 (fun _ => 0)); auto.
    apply (settles_look wm).
  Qed.

  (* the account of one call, on any map whatever *)
  Lemma w_step_settles : forall o m w,
    accounts_for_l o (snd (w_step E m o w)) \/
    accounts_for_r o (snd (w_step E m o w)) /\ no_lefts p ->
    wm (fst (w_step E m o w)) + wout p q o (snd (w_step E m o w)) = wm m + wgiven p q o.
  Proof.
    assert (Z : forall o w, handed_l o w = [] -> handed_r o w = [] -> wout p q o w = 0).
    { intros o w A A'. unfold wout. rewrite A, A'. reflexivity. }
    intros o m w H.
    assert (N : snd (w_step E m o w) <> OPanic) by (destruct H as [[? ?]|[[? ?] _]]; auto).
    destruct o; try (destruct H as [[_ K]|[[_ K] _]]; destruct K; fail);
      cbn [w_step step] in *; unfold wgiven;
      cbn [given_l given_r]; change (cnt p []) with 0; change (cnt q []) with 0;
      try (apply w_look_settles; auto; fail);
      try (cbn [fst snd] in *; rewrite Z; auto; fail);
      try (unfold seen in *; match goal with |- context [match ?c with Done _ => _ | Panicked => _ end] => destruct c end;
           cbn [fst snd] in *; [|destruct N; reflexivity]; rewrite Z; auto; fail).
    - assert (A : forall d, wout p q (InsertRemove l r) (OInsRem d) = cnt_opt (one p) (fst d) + cnt_opt (wg p q) (snd d)).
      { intros [[a|] [[ls r']|]]; unfold wout; cbn [handed_l handed_r opt_list group_l group_r app fst snd cnt_opt];
          unfold wg; cbn [fst snd]; rewrite ?cnt_cons; change (cnt p []) with 0; change (cnt q []) with 0; unfold one; lia. }
      destruct H as [[_ K]|[_ ZL]].
      + eapply w_via_settles; [apply w_insert_remove_none|..]; auto.
        intros [x y] Q. rewrite Q in K. destruct y; [destruct K|reflexivity].
      + eapply w_via_settles; [apply w_insert_remove_settles|..]; auto; intros; exact I.
    - eapply w_via_settles; [eapply settles_given; [apply w_insert_left_settles; auto|unfold one; lia]|..]; auto.
      + intros a Q. destruct H as [[_ K]|[_ ZL]]; auto. left. rewrite Q in K. destruct a; [discriminate|destruct K].
      + intros [a|]; [|reflexivity]. unfold wout. cbn. unfold one. lia.
    - assert (A : forall d, wout p q (InsertRight r) (OGroup d) = cnt_opt (wg p q) d) by (intros [[? ?]|]; reflexivity).
      destruct H as [[_ K]|[_ ZL]].
      + eapply w_via_settles; [apply w_insert_right_none|..]; auto.
        intros y Q. rewrite Q in K. destruct y; [destruct K|reflexivity].
      + eapply w_via_settles; [apply w_insert_right_settles|..]; auto; intros; exact I.
    - eapply w_via_settles; [apply w_swap_right_remove_settles; auto|..]; auto.
      + intros a Q. destruct H as [[_ K]|[[_ K] _]]; rewrite Q in K; destruct a; discriminate || destruct K.
      + intros [a|]; reflexivity.
    - eapply w_via_settles; [apply w_pair_settles|..]; auto; intros; exact I.
    - assert (A : forall d, wout p q (Remove l r) (OGroup d) = cnt_opt (wg p q) d) by (intros [[? ?]|]; reflexivity).
      destruct H as [[_ K]|[_ ZL]].
      + eapply w_via_settles; [apply w_remove_none|..]; auto.
        intros y Q. rewrite Q in K. destruct y; [destruct K|reflexivity].
      + eapply w_via_settles; [apply w_remove_settles|..]; auto; intros; exact I.
    - eapply w_via_settles; [apply w_remove_left_settles|..]; auto; [intros; exact I|].
      intros [a|]; [|reflexivity]. unfold wout. cbn. unfold one. lia.
    - assert (A : forall d, wout p q (RemoveRight r) (OGroup d) = cnt_opt (wg p q) d) by (intros [[? ?]|]; reflexivity).
      destruct H as [[_ K]|[_ ZL]].
      + eapply w_via_settles; [apply w_remove_right_none|..]; auto.
        intros y Q. rewrite Q in K. destruct y; [destruct K|reflexivity].
      + eapply w_via_settles; [apply w_remove_right_settles|..]; auto; intros; exact I.
  Qed.
End WildKeptStep.

Definition stored_l {L R S} (m : gmap L R S) : list L := map l_value (map snd (iter_left m)).
Definition stored_r {L R S} (m : gmap L R S) : list R := map r_value (map snd (iter_right m)).

Lemma w_step_l : forall {L R S W} (E : wenv L R S W) p m o w, tame E ->
  accounts_for_l o (snd (w_step E m o w)) ->
  length (filter p (stored_l (fst (w_step E m o w)))) + length (filter p (handed_l o (snd (w_step E m o w)))) =
  length (filter p (stored_l m)) + length (filter p (given_l o)).
Proof.
  intros L R S W E p m o w TE H. assert (X := w_step_settles E TE p (fun _ => false) o m w (or_introl H)).
  unfold wm, wout, wgiven in X.
  rewrite !(tw_values l_value p : forall t, tw (vl p) t = _),
    !(tw_values r_value (fun _ => false) : forall t, tw (vr _) t = _), !cnt_false in X.
  unfold cnt in X. unfold stored_l, iter_left. lia.
Qed.
Lemma w_step_r : forall {L R S W} (E : wenv L R S W) q m o w, tame E ->
  accounts_for_r o (snd (w_step E m o w)) ->
  length (filter q (stored_r (fst (w_step E m o w)))) + length (filter q (handed_r o (snd (w_step E m o w)))) =
  length (filter q (stored_r m)) + length (filter q (given_r o)).
Proof.
  intros L R S W E q m o w TE H.
  assert (X := w_step_settles E TE (fun _ => false) q o m w (or_intror (conj H (fun _ => eq_refl)))).
  unfold wm, wout, wgiven in X.
  rewrite !(tw_values r_value q : forall t, tw (vr q) t = _),
    !(tw_values l_value (fun _ => false) : forall t, tw (vl _) t = _), !cnt_false in X.
  unfold cnt in X. unfold stored_r, iter_right. lia.
Qed.

(* One call on any map whatever, with any user code: if its answer is one of those above, the left
   (right) items (of any kind p) that are stored or handed back afterwards are as many as
   those stored before and those handed over. *)
Theorem C140_call_loses_no_item : forall {L R S W} (E : wenv L R S W) m o w, tame E ->
  let (m', a) := w_step E m o w in
  (accounts_for_l o a -> forall p,
     length (filter p (stored_l m')) + length (filter p (handed_l o a)) =
     length (filter p (stored_l m)) + length (filter p (given_l o))) /\
  (accounts_for_r o a -> forall q,
     length (filter q (stored_r m')) + length (filter q (handed_r o a)) =
     length (filter q (stored_r m)) + length (filter q (given_r o))).
Proof.
  intros L R S W E m o w TE. assert (X := fun p => w_step_l E p m o w TE). assert (Y := fun q => w_step_r E q m o w TE).
  destruct (w_step E m o w) as [m' a]. auto.
Qed.
(* the same of a whole history *)
Lemma w_run_kept : forall {L R S W} (cs : list (wenv L R S W * W * op L R)) m,
  Forall (fun c => tame (fst (fst c))) cs ->
  let (m', ws) := w_run m cs in
  (Forall (fun c => accounts_for_l (fst c) (snd c)) ws -> forall p,
     length (filter p (stored_l m')) + length (filter p (flat_map back_l ws)) =
     length (filter p (stored_l m)) + length (filter p (flat_map given_l (ops_of cs)))) /\
  (Forall (fun c => accounts_for_r (fst c) (snd c)) ws -> forall q,
     length (filter q (stored_r m')) + length (filter q (flat_map back_r ws)) =
     length (filter q (stored_r m)) + length (filter q (flat_map given_r (ops_of cs)))).
Proof.
  intros L R S W. induction cs as [|[[E w] o] cs IH]; intros m H; cbn [w_run]; [split; reflexivity|].
  assert (TE := Forall_inv H). apply Forall_inv_tail in H. simpl in TE.
  assert (X := C140_call_loses_no_item E m o w TE). destruct (w_step E m o w) as [m1 a]. destruct X as [X Y].
  specialize (IH m1 H). destruct (w_run m1 cs) as [m2 ws]. destruct IH as [IX IY].
  cbn [flat_map ops_of map snd]. fold (ops_of cs). split; intros F p; rewrite !filter_app, !app_length.
  - specialize (X (Forall_inv F) p). specialize (IX (Forall_inv_tail F) p). unfold back_l at 1. cbn [fst snd]. lia.
  - specialize (Y (Forall_inv F) p). specialize (IY (Forall_inv_tail F) p). unfold back_r at 1. cbn [fst snd]. lia.
Qed.
Theorem C140_history_loses_no_item : forall {L R S W} (cs : list (wenv L R S W * W * op L R)) s ll lr,
  Forall (fun c => tame (fst (fst c))) cs ->
  let (m, ws) := w_run (with_hasher s ll lr) cs in
  (Forall (fun c => accounts_for_l (fst c) (snd c)) ws -> forall p,
     length (filter p (stored_l m)) + length (filter p (flat_map back_l ws)) =
     length (filter p (flat_map given_l (ops_of cs)))) /\
  (Forall (fun c => accounts_for_r (fst c) (snd c)) ws -> forall q,
     length (filter q (stored_r m)) + length (filter q (flat_map back_r ws)) =
     length (filter q (flat_map given_r (ops_of cs)))).
Proof. intros L R S W cs s ll lr H. exact (w_run_kept cs (with_hasher s ll lr) H). Qed.

(* The exceptions are real.  With the usual Eq and Hash: insert_left for a group that is not there
   drops the left item, insert drops a right item already stored, swap_right_remove that finds no old
   item drops the group of the new one. *)
Theorem C140_insert_refuted : exists (cs : list (wenv N N N (list (option bool)) * list (option bool) * op N N)),
  Forall (fun c => tame (fst (fst c))) cs /\
  let (m, ws) := w_run (with_hasher 0 0 0)%N cs in
  ~ In OPanic (map snd ws) /\
  stored_l m = [] /\ stored_r m = [10]%N /\ flat_map back_l ws = [] /\ flat_map back_r ws = [] /\
  flat_map given_l (ops_of cs) = [1; 2; 3]%N /\ flat_map given_r (ops_of cs) = [10; 10; 10]%N.
Proof.
  exists (calls [([], Insert 1 10); ([], Insert 2 10); ([], InsertLeft 3 20); ([], SwapRightRemove 70 10)]%N).
  split; [apply told_all|]. vm_compute. repeat split; auto. intros [H|[H|[H|[H|[]]]]]; discriminate.
Qed.
(* with an == that calls two left items equal while the set of remove_right is collected: one of
   the two is gone *)
Theorem C140_remove_right_refuted : exists (cs : list (wenv N N N (list (option bool)) * list (option bool) * op N N)),
  Forall (fun c => tame (fst (fst c))) cs /\
  let (m, ws) := w_run (with_hasher 0 0 0)%N cs in
  ~ In OPanic (map snd ws) /\
  stored_l m = [] /\ stored_r m = [] /\ length (flat_map back_l ws) = 1 /\ flat_map back_r ws = [10]%N /\
  flat_map given_l (ops_of cs) = [1; 2]%N /\ flat_map given_r (ops_of cs) = [10]%N.
Proof.
  exists (calls [([], InsertRight 10); ([], InsertLeft 1 10); ([], InsertLeft 2 10); ([Some true; Some true], RemoveRight 10)]%N).
  split; [apply told_all|]. vm_compute. repeat split; auto. intros [H|[H|[H|[H|[]]]]]; discriminate.
Qed.

(* == lies: insert_left takes 5 for 3 and hands 3 back *)
Example C140_case :
  let cs := calls
    [([], InsertRemove 1 10); ([], InsertRemove 3 20); ([], Pair 1 20);
     ([Some true; Some true], InsertLeft 5 20); ([Some true], SwapRightRemove 20 40);
     ([], RemoveLeft 3); ([], IterLeftAll); ([], IterRightAll); ([], LenLeft)]%N in
  Forall (fun c => tame (fst (fst c))) cs /\
  let (m, ws) := w_run (with_hasher 0 0 0)%N cs in
  Forall (fun c => accounts_for_l (fst c) (snd c)) ws /\ Forall (fun c => accounts_for_r (fst c) (snd c)) ws /\
  (stored_l m, stored_r m, map snd ws) =
    ([1; 5], [10; 40], [OInsRem (None, None); OInsRem (None, None); OBool true; OL (Some 3); OR (Some 20);
                        OL None; OLs [1; 5]; ORs [10; 40]; ONat 2])%N.
Proof.
  split; [apply told_all|]. vm_compute.
  split; [|split; [|reflexivity]]; repeat apply Forall_cons; try apply Forall_nil; split; auto; discriminate.
Qed.

Print Assumptions C140_call_loses_no_item.
Print Assumptions C140_history_loses_no_item.
Print Assumptions C140_insert_refuted.
Print Assumptions C140_remove_right_refuted.
