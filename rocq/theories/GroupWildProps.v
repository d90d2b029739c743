(* GroupMap with user code that does as it likes (Wild.v): no item is invented or duplicated,
   and only stored items are shown. *)
From Coq Require Import List NArith Lia Bool Permutation.
From Verif Require Import Closures Prelude RawTable GroupMap GroupHistory GroupAny
  TableFacts Conserve GroupConserve Faults Wild GroupWild Concrete.
Import ListNotations.
Local Open Scope nat_scope.

Section WildConserve.
  Context {L R S W : Type} (E : wenv L R S W).
  Hypothesis TE : tame E.
  Variables (p : L -> bool) (q : R -> bool).
  Notation map := (gmap L R S).
  Notation B := (calm_env E).
  Notation wm := (wm p q).
  Notation wg := (wg p q).
  Notation pays := (pays (fun s : W * map => wm (snd s))).
  Let OP : keeps_buckets (lo B) := proj1 TE.

  Lemma w_left_remove_pays : forall h l, pays 0 (w_left_remove_entry E h l) (cnt_opt (we_l p)).
  Proof.
    intros h l [w m]. unfold w_left_remove_entry, bind, w_look, w_calmly, w_with, getst, putst, ret. cbn [fst snd].
    destruct (w_remove_entry _ _ _ _ _) as [w' [[e t]|]|w'] eqn:X; cbn [fst snd cnt_opt]; try lia.
    apply (wtw_remove _ (vl p)) in X. rewrite one_vl in X. unfold GroupConserve.wm. cbn [fst snd left_set right_set set_left set_right cnt_opt]. lia.
  Qed.
  Lemma w_right_remove_pays : forall h r, pays 0 (w_right_remove_entry E h r) (cnt_opt (we_r q)).
  Proof.
    intros h l [w m]. unfold w_right_remove_entry, bind, w_look, w_calmly, w_with, getst, putst, ret. cbn [fst snd].
    destruct (w_remove_entry _ _ _ _ _) as [w' [[e t]|]|w'] eqn:X; cbn [fst snd cnt_opt]; try lia.
    apply (wtw_remove _ (vr q)) in X. rewrite one_vr in X. unfold GroupConserve.wm. cbn [fst snd left_set right_set set_left set_right cnt_opt]. lia.
  Qed.
  Lemma w_left_insert_pays : forall h e, pays (we_l p e) (w_left_insert E h e) (fun _ => 0).
  Proof.
    intros h e [w m]. unfold w_left_insert, on_left. cbn [fst snd].
    assert (X := fun hs => wtw_insert (W := W) _ _ (proj1 TE) (proj2 TE) (vl p) (left_set m) h e hs w).
    match goal with |- context [w_insert _ _ _ _ _ ?hs _] => specialize (X hs) end.
    destruct (w_insert _ _ _ _ _ _ _) as [[w' t'] []|[w' t']]; rewrite ?one_vl in X;
      unfold GroupConserve.wm; cbn [fst snd left_set right_set set_left set_right cnt_opt]; lia.
  Qed.
  Lemma w_right_insert_pays : forall h e, pays (we_r q e) (w_right_insert E h e) (fun _ => 0).
  Proof.
    intros h e [w m]. unfold w_right_insert, on_right. cbn [fst snd].
    assert (X := fun hs => wtw_insert (W := W) _ _ (proj1 TE) (proj2 TE) (vr q) (right_set m) h e hs w).
    match goal with |- context [w_insert _ _ _ _ _ ?hs _] => specialize (X hs) end.
    destruct (w_insert _ _ _ _ _ _ _) as [[w' t'] []|[w' t']]; rewrite ?one_vr in X;
      unfold GroupConserve.wm; cbn [fst snd left_set right_set set_left set_right cnt_opt]; lia.
  Qed.

  (* code without user code *)
  Ltac cpay1 :=
    cbv beta zeta;
    match goal with
    | |- Conserve.pays _ _ (ret _) _ => apply pays_ret
    | |- Conserve.pays _ _ panic _ => apply pays_panic
    | |- Conserve.pays _ _ (bind getst _) _ => apply pays_get_any; intro
    | |- Conserve.pays _ _ (bind (incr_left _) _) _ => apply pays_nothing; [apply incr_left_pays|intros []]
    | |- Conserve.pays _ _ (bind (incr_right _) _) _ => apply pays_nothing; [apply incr_right_pays|intros []]
    | |- Conserve.pays _ _ (incr_left _) _ => eapply pays_weaken; [apply incr_left_pays|lia|auto]
    | |- Conserve.pays _ _ (incr_right _) _ => eapply pays_weaken; [apply incr_right_pays|lia|auto]
    | |- Conserve.pays _ _ (bind (left_assign _ _) _) _ =>
        apply pays_nothing; [apply left_assign_pays; reflexivity|intros []]
    | |- Conserve.pays _ _ (bind (right_assign _ _) _) _ =>
        apply pays_nothing; [apply right_assign_pays; reflexivity|intros []]
    | |- Conserve.pays _ _ (left_assign _ _) _ =>
        eapply pays_weaken; [apply left_assign_pays; reflexivity|lia|auto]
    | |- Conserve.pays _ _ (right_assign _ _) _ =>
        eapply pays_weaken; [apply right_assign_pays; reflexivity|lia|auto]
    | |- Conserve.pays _ _ (bind (unwrap ?o) _) _ => apply pays_unwrap_bind; intros ? _
    | |- Conserve.pays _ _ (rehash_pairs _ _ _) _ => apply rehash_pairs_pays
    end.
  Ltac pay1 :=
    cbv beta zeta;
    match goal with
    | |- Conserve.pays _ _ (ret _) _ => apply pays_ret
    | |- Conserve.pays _ _ panic _ => apply pays_panic
    | |- Conserve.pays _ _ (bind (w_look _) _) _ => apply pays_looked; intro
    | |- Conserve.pays _ _ (bind (unwrap ?o) _) _ => apply pays_unwrap_bind; intros ? ?; try subst o
    | |- Conserve.pays _ _ (bind (w_calmly (left_remove_entry _ _ _)) _) _ =>
        eapply pays_then; [apply (pays_calmly wm), left_remove_pays|intro]
    | |- Conserve.pays _ _ (bind (w_calmly _) _) _ =>
        apply pays_nothing; [apply (pays_calmly wm); repeat cpay1|intros []]
    | |- Conserve.pays _ _ (w_calmly _) _ =>
        eapply pays_weaken; [apply (pays_calmly wm) with (h := fun _ => 0) (g := 0); repeat cpay1|lia|auto]
    | |- Conserve.pays _ _ (bind (w_left_remove_entry _ _ _) _) _ =>
        eapply pays_then; [apply w_left_remove_pays|intro]
    | |- Conserve.pays _ _ (bind (w_right_remove_entry _ _ _) _) _ =>
        eapply pays_then; [apply w_right_remove_pays|intro]
    | |- Conserve.pays _ _ (bind (w_left_insert _ _ _) _) _ =>
        eapply pays_bind; [apply w_left_insert_pays| |intros []]
    | |- Conserve.pays _ _ (bind (w_right_insert _ _ _) _) _ =>
        eapply pays_bind; [apply w_right_insert_pays| |intros []]
    | |- Conserve.pays _ _ (if ?b then _ else _) _ => destruct b
    | |- Conserve.pays _ _ (match ?o with _ => _ end) _ => destruct o
    end.
  Ltac fin := unfold we_l, we_r, GroupConserve.wg in *;
    cbn [cnt_opt l_value r_value fst snd option_map] in *; rewrite ?cnt_cons in *; lia.
  Ltac pay := repeat pay1; try fin.

  Lemma w_remove_left_pays : forall l, pays 0 (w_remove_left E l) (cnt_opt (one p)).
  Proof. intros l. unfold w_remove_left. pay. Qed.
  Lemma cnt_rev : forall s : list L, cnt p (rev s) = cnt p s.
  Proof.
    induction s as [|x s IH]; auto. simpl rev. rewrite cnt_app, IH, !cnt_cons. change (cnt p []) with 0. lia.
  Qed.
  Lemma w_remove_pairs_pays : forall ps seen, pays (cnt p seen) (w_remove_pairs E seen ps) (cnt p).
  Proof.
    induction ps as [|[h i] t IH]; intros seen; cbn [w_remove_pairs]; [apply pays_ret; rewrite cnt_rev; auto|].
    do 4 pay1. eapply pays_weaken; [apply IH| |auto]. destruct a1; fin.
  Qed.
  Lemma w_remove_right_pays : forall r, pays 0 (w_remove_right E r) (cnt_opt wg).
  Proof.
    intros r. unfold w_remove_right. pay1. pay1. pay1; [|pay].
    eapply pays_bind; [apply w_remove_pairs_pays|change (cnt p []) with 0; lia|]. intros ls. apply pays_ret.
    change (cnt p []) with 0. fin.
  Qed.
  Lemma w_remove_pays : forall l r, pays 0 (w_remove E l r) (cnt_opt wg).
  Proof. intros l r. unfold w_remove. pay1. pay1; [apply w_remove_right_pays|pay]. Qed.
  Lemma w_insert_pays : forall l r, pays (one p l + one q r) (w_insert_pair E l r) (fun _ => 0).
  Proof. intros l r. unfold w_insert_pair. pay. Qed.
  Lemma w_insert_remove_pays : forall l r,
    pays (one p l + one q r) (w_insert_remove E l r) (fun d => cnt_opt (one p) (fst d) + cnt_opt wg (snd d)).
  Proof.
    intros l r. unfold w_insert_remove. eapply pays_then; [apply w_remove_left_pays|]. intros x.
    eapply pays_then; [apply w_remove_right_pays|]. intros y. pay.
  Qed.
  Lemma w_insert_left_pays : forall l r, pays (one p l) (w_insert_left E l r) (cnt_opt (one p)).
  Proof.
    intros l r. unfold w_insert_left. pay1. pay1. pay1; [|pay]. destruct p0 as [j e]. do 3 pay1.
    eapply pays_then; [apply w_remove_left_pays|]. intros x. pay.
  Qed.
  Lemma w_insert_right_pays : forall r, pays (one q r) (w_insert_right E r) (cnt_opt wg).
  Proof. intros r. unfold w_insert_right. eapply pays_then; [apply w_remove_right_pays|]. intros x. pay. Qed.
  Lemma w_swap_right_pays : forall old new, pays (one q new) (w_swap_right E old new) (fun _ => 0).
  Proof.
    intros. unfold w_swap_right. pay1. pay1. pay1.
    - pay.
    - eapply pays_bind; [apply w_insert_right_pays|lia|]. intros x. pay.
  Qed.
  Lemma w_swap_right_remove_pays : forall old new, pays (one q new) (w_swap_right_remove E old new) (cnt_opt (one q)).
  Proof.
    intros. unfold w_swap_right_remove. pay1. pay1. pay1.
    - pay.
    - eapply pays_bind; [apply w_insert_right_pays|lia|]. intros x. pay.
  Qed.
  Lemma w_pair_pays : forall l r, pays 0 (w_pair E l r) (fun _ => 0).
  Proof. intros. unfold w_pair. pay. Qed.
  Lemma w_extend_pairs_pays : forall l, pays (cnt p (List.map fst l) + cnt q (List.map snd l)) (w_extend_pairs E l) (fun _ => 0).
  Proof.
    induction l as [|[a b] l IH]; simpl List.map; [apply pays_ret; lia|]. rewrite !cnt_cons.
    eapply pays_bind; [apply w_insert_pays|simpl; lia|]. intros d.
    eapply pays_weaken; [apply IH|simpl; lia|auto].
  Qed.
  Lemma w_extend_pays : forall l, pays (cnt p (flat_map some_l l) + cnt q (List.map snd l)) (w_extend E l) (fun _ => 0).
  Proof.
    induction l as [|[[a|] b] l IH]; cbn [flat_map some_l fst snd List.map app w_extend]; [apply pays_ret; lia|..];
      rewrite ?cnt_cons.
    - eapply pays_bind; [apply w_insert_pays|lia|]. intros d. eapply pays_weaken; [apply IH|lia|auto].
    - eapply pays_bind; [apply w_insert_right_pays|lia|]. intros d. eapply pays_weaken; [apply IH|lia|auto].
  Qed.
  Lemma w_retain_with_pays : forall {X} (c : map -> M W (res X (list (N * N)))) d,
    (forall l, Conserve.pays wm 0 (d l) (fun _ => 0)) -> pays 0 (w_retain_with c d) (fun _ => 0).
  Proof.
    intros X c d H. apply pays_looked; intros [x' l|x']; [|apply pays_panic]. apply (pays_calmly wm), H.
  Qed.

  Lemma w_via_pays : forall {A} o (c : M (W * map) A) (k : A -> out L R) g h m w, pays g c h ->
    (forall a, wout p q o (k a) <= h a) -> wout p q o OPanic = 0 ->
    wm (fst (w_via k c m w)) + wout p q o (snd (w_via k c m w)) <= wm m + g.
  Proof.
    intros A o c k g h m w H X Z. specialize (H (w, m)). unfold w_via.
    destruct (c (w, m)) as [[w' m'] a|[w' m']]; cbn [fst snd] in *.
    - specialize (X a). lia.
    - rewrite Z. lia.
  Qed.
  Lemma w_look_pays : forall {A} o (f : map -> M W A) (k : A -> out L R) m w,
    (forall a, wout p q o (k a) = 0) -> wout p q o OPanic = 0 ->
    wm (fst (w_via k (w_look f) m w)) + wout p q o (snd (w_via k (w_look f) m w)) <= wm m + 0.
  Proof. intros. eapply w_via_pays; [apply (pays_look wm)| |auto]. intro a. rewrite H. auto. Qed.

  Lemma w_step_pays : forall o m w,
    wm (fst (w_step E m o w)) + wout p q o (snd (w_step E m o w)) <= wm m + wgiven p q o.
  Proof.
    assert (Z : forall o w, handed_l o w = [] -> handed_r o w = [] -> wout p q o w = 0).
    { intros o w A A'. unfold wout. rewrite A, A'. reflexivity. }
    intros o m w.
    destruct o; match goal with |- context [w_step E m ?c w] => try exact (step_pays B OP p q c m) end;
      cbn [w_step]; unfold wgiven;
      cbn [given_l given_r]; change (cnt p []) with 0; change (cnt q []) with 0;
      try (apply w_look_pays; reflexivity).
    - eapply w_via_pays; [apply w_insert_pays|intros; rewrite Z; auto|reflexivity].
    - eapply w_via_pays; [apply w_insert_remove_pays| |reflexivity].
      intros [[a|] [[ls r']|]]; unfold wout; cbn [handed_l handed_r opt_list group_l group_r app fst snd cnt_opt];
        unfold GroupConserve.wg; cbn [fst snd]; rewrite ?cnt_cons; change (cnt p []) with 0; change (cnt q []) with 0;
        unfold one; lia.
    - eapply w_via_pays; [eapply pays_weaken; [apply w_insert_left_pays|unfold one; lia|auto]| |reflexivity].
      intros [?|]; unfold wout; cbn; unfold one; lia.
    - eapply w_via_pays; [apply w_insert_right_pays|intros [[? ?]|]; apply le_n|reflexivity].
    - eapply w_via_pays; [apply w_swap_right_pays|intros; rewrite Z; auto|reflexivity].
    - eapply w_via_pays; [apply w_swap_right_remove_pays|intros [?|]; apply le_n|reflexivity].
    - eapply w_via_pays; [apply w_pair_pays|intros; rewrite Z; auto|reflexivity].
    - eapply w_via_pays; [apply w_remove_pays|intros [[? ?]|]; apply le_n|reflexivity].
    - eapply w_via_pays; [apply w_remove_left_pays| |reflexivity].
      intros [?|]; unfold wout; cbn; unfold one; lia.
    - eapply w_via_pays; [apply w_remove_right_pays|intros [[? ?]|]; apply le_n|reflexivity].
    - eapply w_via_pays; [apply w_retain_with_pays, drop_lefts_pays|intros; rewrite Z; auto|reflexivity].
    - eapply w_via_pays; [apply w_retain_with_pays, drop_rights_pays|intros; rewrite Z; auto|reflexivity].
    - eapply w_via_pays; [apply w_extend_pairs_pays|intros; rewrite Z; auto|reflexivity].
    - eapply w_via_pays; [apply w_extend_pays|intros; rewrite Z; auto|reflexivity].
  Qed.
End WildConserve.

Definition ops_of {L R S W} (cs : list (wenv L R S W * W * op L R)) : list (op L R) := map snd cs.
Lemma w_run_pays : forall {L R S W} p q (cs : list (wenv L R S W * W * op L R)) m,
  Forall (fun c => tame (fst (fst c))) cs ->
  let (m', ws) := w_run m cs in
  wm p q m' + (cnt p (flat_map back_l ws) + cnt q (flat_map back_r ws)) <=
  wm p q m + (cnt p (flat_map given_l (ops_of cs)) + cnt q (flat_map given_r (ops_of cs))).
Proof.
  intros L R S W p q. induction cs as [|[[E w] o] cs IH]; intros m H; cbn [w_run].
  - simpl. lia.
  - assert (TE := Forall_inv H). apply Forall_inv_tail in H. simpl in TE.
    assert (X := w_step_pays E TE p q o m w). destruct (w_step E m o w) as [m1 a]. cbn [fst snd] in X.
    specialize (IH m1 H). destruct (w_run m1 cs) as [m2 ws]. cbn [flat_map ops_of map snd]. fold (ops_of cs).
    rewrite !cnt_app. unfold back_l at 1, back_r at 1. cbn [fst snd]. unfold wout, wgiven in X. lia.
Qed.

(* Whatever user code does, in the middle of calls too, and whatever the call does (panics
   included): of the items of any kind p, those in the map and those handed back are no more
   than those handed over. *)
Theorem C137_no_item_invented : forall {L R S W} (cs : list (wenv L R S W * W * op L R)) s ll lr,
  Forall (fun c => tame (fst (fst c))) cs ->
  let (m, ws) := w_run (with_hasher s ll lr) cs in
  (forall p, length (filter p (map l_value (map snd (iter_left m)))) + length (filter p (flat_map back_l ws)) <=
             length (filter p (flat_map given_l (ops_of cs)))) /\
  (forall q, length (filter q (map r_value (map snd (iter_right m)))) + length (filter q (flat_map back_r ws)) <=
             length (filter q (flat_map given_r (ops_of cs)))).
Proof.
  intros L R S W cs s ll lr H.
  assert (X := fun p q => w_run_pays p q cs (with_hasher s ll lr) H).
  destruct (w_run _ cs) as [m ws]. split; intro p.
  - specialize (X p (fun _ => false)). unfold wm in X.
    rewrite !(tw_values l_value p : forall t, tw (vl p) t = _),
      !(tw_values r_value (fun _ => false) : forall t, tw (vr _) t = _), !cnt_false in X.
    change (cnt p (map l_value (map snd (slots (left_set (with_hasher (L := L) (R := R) s ll lr)))))) with 0 in X.
    unfold cnt in X. unfold iter_left. lia.
  - specialize (X (fun _ => false) p). unfold wm in X.
    rewrite !(tw_values r_value p : forall t, tw (vr p) t = _),
      !(tw_values l_value (fun _ => false) : forall t, tw (vl _) t = _), !cnt_false in X.
    change (cnt p (map r_value (map snd (slots (right_set (with_hasher (L := L) (R := R) s ll lr)))))) with 0 in X.
    unfold cnt in X. unfold iter_right. lia.
Qed.

(* ---- references handed out ---- *)
(* what get_right, get_left_iter and the iterators refer to *)
Definition shown_l {L R} (a : out L R) : list L :=
  match a with
  | OLsO (Some ls) => ls
  | OItems is => flat_map (fun x => opt_list (fst x)) is
  | OPairs ps => map fst ps
  | OLs ls => ls
  | _ => []
  end.
Definition shown_r {L R} (o : op L R) (a : out L R) : list R :=
  match o, a with
  | GetRight _, OR r => opt_list r
  | _, OItems is => map snd is
  | _, OPairs ps => map snd ps
  | _, ORs rs => rs
  | _, _ => []
  end.

Section Shown.
  Context {L R S W : Type} (E : wenv L R S W).
  Notation map := (gmap L R S).
  Notation B := (calm_env E).
  Notation lefts m := (List.map l_value (List.map snd (slots (left_set m)))).
  Notation rights m := (List.map r_value (List.map snd (slots (right_set m)))).

  Lemma tget_entry : forall {A} lo (t : table A) h q e, t_get lo t h q = Some e -> In e (List.map snd (slots t)).
  Proof.
    intros A lo t h q e H. unfold t_get, t_entry in H. destruct (t_find _ _ _ _) as [i|]; [|discriminate].
    destruct (nth_error (slots t) i) as [[h' x]|] eqn:X; [|discriminate]. injection H as <-.
    apply nth_error_In, (in_map snd) in X. exact X.
  Qed.
  (* an invariant of an iterator, and what holds of each item *)
  Lemma collect_all : forall {I A} (next : I -> outcome (option A * I)) (Inv : I -> Prop) (P : A -> Prop),
    (forall it x it', Inv it -> next it = Done (Some x, it') -> Inv it' /\ P x) ->
    forall n it l, Inv it -> collect next n it = Done l -> Forall P l.
  Proof.
    intros I A next Inv P H. induction n as [|n IH]; intros it l HI X; cbn [collect] in X;
      destruct (next it) as [[[a|] it']|] eqn:Q; try discriminate; try (injection X as <-; constructor).
    destruct (collect next n it') as [l'|] eqn:Y; [|discriminate]. injection X as <-.
    destruct (H _ _ _ HI Q). constructor; auto. eapply IH; eauto.
  Qed.
  Definition from_l (m : map) (it : list (N * left_item L)) : Prop := incl (List.map l_value (List.map snd it)) (lefts m).
  Definition from_r (m : map) (it : list (N * right_item R)) : Prop := incl (List.map r_value (List.map snd it)) (rights m).
  Lemma pair_shown : forall m it l, pair_rest B m it = Done l -> Forall (fun x => In x (lefts m)) l.
  Proof.
    intros m it l H. refine (collect_all _ (fun _ => True) _ _ _ it l I H).
    intros [|[h i] t] x it' _ X; cbn in X; [discriminate|].
    destruct (t_get _ _ _ _) as [e|] eqn:G; [|discriminate]. injection X as <- <-. split; auto.
    apply in_map, (tget_entry _ _ _ _ _ G).
  Qed.
  Lemma iter_shown : forall m l, iter_rest B m (iter m) = Done l ->
    Forall (fun x => incl (opt_list (fst x)) (lefts m) /\ In (snd x) (rights m)) l.
  Proof.
    intros m l H. refine (collect_all _ (fun it => from_r m (right_iter it)) _ _ _ (iter m) l (incl_refl _ : from_r m (slots (right_set m))) H). clear H.
    intros [rit lit] x it' I X. cbn [right_iter] in I. unfold iter_next in X. cbn [left_iter right_iter] in X.
    assert (G : forall lit, iter_next_right B m lit rit = Done (Some x, it') ->
      from_r m (right_iter it') /\ incl (opt_list (fst x)) (lefts m) /\ In (snd x) (rights m)).
    { clear X lit. intros lit X. destruct rit as [|[h r] rest]; cbn in X; [discriminate|].
      assert (I' : from_r m rest) by (intros y Hy; apply I; right; auto).
      assert (Hr : In (r_value r) (rights m)) by (apply I; left; auto).
      destruct (hs_elems (r_pairs r)) as [|[h' i] ps]; injection X as <- <-; cbn [fst snd right_iter];
        (split; [exact I'|]); (split; [|exact Hr]); [intros y []|].
      destruct (t_get _ _ _ _) as [e|] eqn:G; cbn; [|intros y []]. intros y [<-|[]].
      apply in_map, (tget_entry _ _ _ _ _ G). }
    destruct lit as [[|[h i] ps]|]; [eapply G; eauto| |eapply G; eauto].
    destruct (t_get _ (left_set m) _ _) as [e|] eqn:Q; [|discriminate].
    destruct (t_get _ (right_set m) _ _) as [e'|] eqn:Q'; [|discriminate]. injection X as <- <-.
    cbn [fst snd right_iter opt_list]. split; [exact I|]. split.
    - intros y [<-|[]]. apply in_map, (tget_entry _ _ _ _ _ Q).
    - apply in_map, (tget_entry _ _ _ _ _ Q').
  Qed.
  Lemma paired_shown : forall m l, paired_rest B m (iter_paired m) = Done l ->
    Forall (fun x => In (fst x) (lefts m) /\ In (snd x) (rights m)) l.
  Proof.
    intros m l H. refine (collect_all _ (from_l m) _ _ _ (iter_paired m) l (incl_refl _ : from_l m (slots (left_set m))) H). clear H.
    intros [|[h e] it] x it' I X; cbn in X; [discriminate|].
    destruct (t_get _ _ _ _) as [e'|] eqn:Q'; [|discriminate]. injection X as <- <-. cbn [fst snd].
    split; [intros y Hy; apply I; right; auto|]. split; [apply I; left; auto|].
    apply in_map, (tget_entry _ _ _ _ _ Q').
  Qed.
  Lemma unpaired_shown : forall (m : map) l, unpaired_rest (iter_unpaired m) = Done l -> Forall (fun x => In x (rights m)) l.
  Proof.
    intros m l H. refine (collect_all _ (from_r m) _ _ _ (iter_unpaired m) l (incl_refl _ : from_r m (slots (right_set m))) H). clear H.
    induction it as [|[h e] it IH]; intros x it' I X; cbn in X; [discriminate|].
    assert (I' : from_r m it) by (intros y Hy; apply I; right; auto).
    destruct (set_is_empty _); [|auto]. injection X as <- <-. split; auto. apply I; left; auto.
  Qed.
  Lemma left_shown : forall (m : map) l, left_rest (iter_left m) = Done l -> Forall (fun x => In x (lefts m)) l.
  Proof.
    intros m l H. refine (collect_all _ (from_l m) _ _ _ (iter_left m) l (incl_refl _ : from_l m (slots (left_set m))) H). clear H.
    intros [|[h e] it] x it' I X; cbn in X; [discriminate|]. injection X as <- <-.
    split; [intros y Hy; apply I; right; auto|apply I; left; auto].
  Qed.
  Lemma right_shown : forall (m : map) l, right_rest (iter_right m) = Done l -> Forall (fun x => In x (rights m)) l.
  Proof.
    intros m l H. refine (collect_all _ (from_r m) _ _ _ (iter_right m) l (incl_refl _ : from_r m (slots (right_set m))) H). clear H.
    intros [|[h e] it] x it' I X; cbn in X; [discriminate|]. injection X as <- <-.
    split; [intros y Hy; apply I; right; auto|apply I; left; auto].
  Qed.
  Lemma w_via_look : forall {A} (k : A -> out L R) (f : map -> M W A) m w (P : map -> out L R -> Prop), P m OPanic ->
    (forall w' a, f m w = Ret w' a -> P m (k a)) ->
    P (fst (w_via k (w_look f) m w)) (snd (w_via k (w_look f) m w)).
  Proof.
    intros A k f m w P H1 H2. unfold w_via, w_look. cbn [fst snd]. destruct (f m w) eqn:X; cbn; eauto.
  Qed.
  Lemma w_via_plain : forall {A} (k : A -> out L R) (c : M (W * map) A) m w (P : map -> out L R -> Prop),
    (forall m', P m' OPanic) -> (forall m' a, P m' (k a)) -> P (fst (w_via k c m w)) (snd (w_via k c m w)).
  Proof. intros A k c m w P H1 H2. unfold w_via. destruct (c _) as [[? ?] ?|[? ?]]; cbn; auto. Qed.

  (* the items to which a call of any map gives references are in the map the call leaves *)
  Theorem C137_shown_items_stored : forall m o w,
    let (m', a) := w_step E m o w in
    incl (shown_l a) (lefts m') /\ incl (shown_r o a) (rights m').
  Proof.
    intros m o w.
    set (P := fun (m' : map) (a : out L R) => incl (shown_l a) (lefts m') /\ incl (shown_r o a) (rights m')).
    enough (G : P (fst (w_step E m o w)) (snd (w_step E m o w))) by (destruct (w_step E m o w); exact G).
    assert (Z : forall m' a, shown_l a = [] -> shown_r o a = [] -> P m' a).
    { intros m' a A A'. split; [rewrite A|rewrite A']; intros x []. }
    destruct o; cbn [w_step step];
      try (apply w_via_plain; intros; apply Z; reflexivity);
      try (apply Z; reflexivity).
    - apply w_via_look; [apply Z; auto|]. intros w' [x|] H; [|apply Z; auto]. split; [intros y []|].
      intros y [<-|[]]. unfold w_get_right, bind, ret in H. destruct (hash_l _ _ _ _) as [w1 h|]; [|discriminate].
      destruct (w_find_left _ _ _ _ _) as [w2 [e|]|]; try discriminate.
      destruct (t_get _ _ _ _) as [e'|] eqn:X; [|discriminate]. injection H as _ <-. apply in_map, (tget_entry _ _ _ _ _ X).
    - apply w_via_look; [apply Z; auto|]. intros w' [x|] H; [|apply Z; auto]. split; [|intros y []].
      unfold w_get_left_all, bind, ret in H. destruct (hash_r _ _ _ _) as [w1 h|]; [|discriminate].
      destruct (w_find_right _ _ _ _ _) as [w2 [e|]|]; try discriminate.
      destruct (pair_rest _ _ _) as [ls|] eqn:X; [|discriminate]. injection H as _ <-. exact (proj1 (Forall_forall _ _) (pair_shown _ _ _ X)).
    - unfold seen. destruct (iter_rest _ _ _) as [ls|] eqn:X; [|apply Z; auto]. apply iter_shown in X.
      rewrite Forall_forall in X. split; cbn.
      + intros y Hy. apply in_flat_map in Hy as (z & H1 & H2). apply (proj1 (X z H1)); auto.
      + intros y Hy. apply in_map_iff in Hy as (z & <- & H1). apply X; auto.
    - unfold seen. destruct (paired_rest _ _ _) as [ls|] eqn:X; [|apply Z; auto]. apply paired_shown in X.
      rewrite Forall_forall in X. split; cbn; intros y Hy; apply in_map_iff in Hy as (z & <- & H1); apply X; auto.
    - unfold seen. destruct (unpaired_rest _) as [ls|] eqn:X; [|apply Z; auto]. split; [intros y []|].
      exact (proj1 (Forall_forall _ _) (unpaired_shown _ _ X)).
    - unfold seen. destruct (left_rest _) as [ls|] eqn:X; [|apply Z; auto]. split; [|intros y []].
      exact (proj1 (Forall_forall _ _) (left_shown _ _ X)).
    - unfold seen. destruct (right_rest _) as [ls|] eqn:X; [|apply Z; auto]. split; [intros y []|].
      exact (proj1 (Forall_forall _ _) (right_shown _ _ X)).
  Qed.
End Shown.

(* == takes 30 for 10 in swap_right, so that 40 is there twice; it then takes the new 40 for 30 in
   remove_right; hash panics in insert; == panics in insert_remove, after 1 was removed *)
Example C137_case :
  let cs := calls
    [([], Insert 1 10); ([], Insert 3 10); ([], Insert 5 30); ([], InsertRight 40); ([], IterAll);
     (map Some [false; false; true], SwapRight 10 40); ([], IterLeftAll); ([], IterRightAll); ([], IterAll);
     (map Some [true; true; true], RemoveRight 30); ([], IterLeftAll); ([], IterRightAll);
     ([None], Insert 7 8); ([Some true; None], InsertRemove 4 40); ([], IterLeftAll); ([], IterRightAll);
     (map Some [true; true; false; true], InsertLeft 9 40); ([], IterAll)]%N in
  Forall (fun c => tame (fst (fst c))) cs /\
  map snd (snd (w_run (with_hasher 0 0 0)%N cs)) =
    [OUnit; OUnit; OUnit; OGroup None; OItems [(Some 5, 30); (Some 1, 10); (Some 3, 10); (None, 40)];
     OUnit; OLs [3; 1; 5]; ORs [40; 10; 30; 40];
     OItems [(None, 40); (Some 1, 10); (Some 3, 10); (None, 30); (Some 5, 40)];
     OGroup (Some ([5], 40)); OLs [3; 1]; ORs [40; 10; 30]; OPanic; OPanic; OLs [3]; ORs [40; 10; 30];
     OL (Some 3); OItems [(None, 40); (None, 10); (Some 9, 30)]]%N.
Proof. split; [apply told_all|vm_compute; reflexivity]. Qed.

Print Assumptions C137_no_item_invented.
Print Assumptions C137_shown_items_stored.
