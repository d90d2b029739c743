(* GroupMap with arbitrary Eq and Hash: no item is ever invented or duplicated.  Nothing is
   assumed of Eq and Hash (they need not agree, and may differ from call to call), nothing of
   where a search of the hash table looks, nothing of the ids. *)
From Coq Require Import List NArith Lia Bool Permutation.
From Verif Require Import Closures Prelude RawTable GroupMap GroupHistory GroupAny
  TableFacts Conserve Concrete.
Import ListNotations.
Local Open Scope nat_scope.

(* The items that a call returns by value.  get_* and the iterators return references to items
   that stay in the map. *)
Definition group_l {L R} (g : option (list L * R)) : list L :=
  match g with Some (ls, _) => ls | None => [] end.
Definition group_r {L R} (g : option (list L * R)) : list R :=
  match g with Some (_, r) => [r] | None => [] end.
Definition opt_list {A} (o : option A) : list A := match o with Some a => [a] | None => [] end.
Definition handed_l {L R} (o : op L R) (w : out L R) : list L :=
  match w with
  | OL l => opt_list l
  | OGroup g => group_l g
  | OInsRem (l, g) => opt_list l ++ group_l g
  | _ => []
  end.
Definition handed_r {L R} (o : op L R) (w : out L R) : list R :=
  match o, w with
  | GetRight _, _ => []
  | _, OR r => opt_list r
  | _, OGroup g => group_r g
  | _, OInsRem (_, g) => group_r g
  | _, _ => []
  end.

(* a history in which every call has an environment of its own: the calls with what they
   return *)
Fixpoint run_with {L R S} (m : gmap L R S) (cs : list (env L R S * op L R))
    : gmap L R S * list (op L R * out L R) :=
  match cs with
  | [] => (m, [])
  | (E, o) :: t => let (m', w) := step E m o in
                   let (m'', ws) := run_with m' t in (m'', (o, w) :: ws)
  end.


Section Pays.
  Context {L R S : Type} (E : env L R S).
  Hypothesis OP : keeps_buckets (lo E).
  Variables (p : L -> bool) (q : R -> bool).
  Notation map := (gmap L R S).

  Definition vl : left_item L -> bool := fun e => p (l_value e).
  Definition vr : right_item R -> bool := fun e => q (r_value e).
  Definition wm (m : map) : nat := tw vl (left_set m) + tw vr (right_set m).
  Notation pays := (pays wm).
  Definition wg (z : list L * R) : nat := cnt p (fst z) + one q (snd z).
  Definition we_l (e : left_item L) : nat := one p (l_value e).
  Definition we_r (e : right_item R) : nat := one q (r_value e).
  Definition wout (o : op L R) (w : out L R) : nat := cnt p (handed_l o w) + cnt q (handed_r o w).

  Lemma one_vl : forall e, one vl e = we_l e.
  Proof. intros. unfold one, cnt, vl, we_l, one, cnt. simpl. destruct (p (l_value e)); auto. Qed.
  Lemma one_vr : forall e, one vr e = we_r e.
  Proof. intros. unfold one, cnt, vr, we_r, one, cnt. simpl. destruct (q (r_value e)); auto. Qed.

  Lemma left_remove_pays : forall h f, pays 0 (left_remove_entry E h f) (cnt_opt we_l).
  Proof.
    intros h f m. unfold left_remove_entry, bind, getst.
    destruct (t_remove_entry _ _ _ _) as [[e t]|] eqn:X; simpl; [|lia].
    apply (tw_remove_entry (lo E) vl) in X. rewrite one_vl in X. unfold wm. simpl. lia.
  Qed.
  Lemma right_remove_pays : forall h f, pays 0 (right_remove_entry E h f) (cnt_opt we_r).
  Proof.
    intros h f m. unfold right_remove_entry, bind, getst.
    destruct (t_remove_entry _ _ _ _) as [[e t]|] eqn:X; simpl; [|lia].
    apply (tw_remove_entry (lo E) vr) in X. rewrite one_vr in X. unfold wm. simpl. lia.
  Qed.
  Lemma left_insert_pays : forall h e, pays (we_l e) (left_insert E h e) (fun _ => 0).
  Proof.
    intros h e m. unfold left_insert, bind, getst, putst, wm. cbn [left_set right_set set_left set_right].
    rewrite (tw_insert (lo E) vl OP), one_vl. lia.
  Qed.
  Lemma right_insert_pays : forall h e, pays (we_r e) (right_insert E h e) (fun _ => 0).
  Proof.
    intros h e m. unfold right_insert, bind, getst, putst, wm. cbn [left_set right_set set_left set_right].
    rewrite (tw_insert (lo E) vr OP), one_vr. lia.
  Qed.
  Lemma incr_left_pays : pays 0 (incr_left E) (fun _ => 0).
  Proof.
    intros m. unfold incr_left, bind, getst. destruct (u64_incr _ _); unfold wm; simpl; lia.
  Qed.
  Lemma incr_right_pays : pays 0 (incr_right E) (fun _ => 0).
  Proof.
    intros m. unfold incr_right, bind, getst. destruct (u64_incr _ _); unfold wm; simpl; lia.
  Qed.
  Lemma left_assign_pays : forall i f, (forall e, l_value (f e) = l_value e) -> pays 0 (left_assign i f) (fun _ => 0).
  Proof.
    intros i f H m. unfold left_assign, bind, getst, putst, wm. cbn [left_set right_set set_left].
    rewrite (tw_modify vl); [lia|]. intros e. unfold vl. rewrite H. auto.
  Qed.
  Lemma right_assign_pays : forall i f, (forall e, r_value (f e) = r_value e) -> pays 0 (right_assign i f) (fun _ => 0).
  Proof.
    intros i f H m. unfold right_assign, bind, getst, putst, wm. cbn [left_set right_set set_right].
    rewrite (tw_modify vr); [lia|]. intros e. unfold vr. rewrite H. auto.
  Qed.

  (* one step of a function body *)
  Ltac pay1 :=
    cbv beta zeta;
    match goal with
    | |- Conserve.pays _ _ (ret _) _ => apply pays_ret
    | |- Conserve.pays _ _ panic _ => apply pays_panic
    | |- Conserve.pays _ _ (bind getst _) _ => apply pays_get_any; intro
    | |- Conserve.pays _ _ (bind (incr_left _) _) _ => apply pays_nothing; [apply incr_left_pays|intros []]
    | |- Conserve.pays _ _ (bind (incr_right _) _) _ => apply pays_nothing; [apply incr_right_pays|intros []]
    | |- Conserve.pays _ _ (incr_left _) _ => eapply pays_weaken; [apply incr_left_pays|lia|auto]
    | |- Conserve.pays _ _ (incr_right _) _ => eapply pays_weaken; [apply incr_right_pays|lia|auto]
    | |- Conserve.pays _ _ (bind (left_assign _ _) _) _ =>
        apply pays_nothing; [apply left_assign_pays; reflexivity|intros []]
    | |- Conserve.pays _ _ (bind (right_assign _ _) _) _ =>
        apply pays_nothing; [apply right_assign_pays; reflexivity|intros []]
    | |- Conserve.pays _ _ (left_assign _ _) _ =>
        eapply pays_weaken; [apply left_assign_pays; reflexivity|lia|auto]
    | |- Conserve.pays _ _ (bind (unwrap ?o) _) _ => apply pays_unwrap_bind; intros ? ?; try subst o
    | |- Conserve.pays _ _ (bind (left_remove_entry _ _ _) _) _ =>
        eapply pays_then; [apply left_remove_pays|intro]
    | |- Conserve.pays _ _ (bind (right_remove_entry _ _ _) _) _ =>
        eapply pays_then; [apply right_remove_pays|intro]
    | |- Conserve.pays _ _ (bind (left_insert _ _ _) _) _ =>
        eapply pays_bind; [apply left_insert_pays| |intros []]
    | |- Conserve.pays _ _ (bind (right_insert _ _ _) _) _ =>
        eapply pays_bind; [apply right_insert_pays| |intros []]
    | |- Conserve.pays _ _ (if ?b then _ else _) _ => destruct b
    | |- Conserve.pays _ _ (match ?o with _ => _ end) _ => destruct o
    end.
  Ltac fin := unfold we_l, we_r, wg in *;
    cbn [cnt_opt l_value r_value fst snd option_map] in *; rewrite ?cnt_cons in *; lia.
  Ltac pay := repeat pay1; try fin.

  Lemma remove_left_pays : forall l, pays 0 (remove_left E l) (cnt_opt (one p)).
  Proof. intros l. unfold remove_left. pay. Qed.
  Lemma remove_pairs_pays : forall ps, pays 0 (remove_pairs E ps) (cnt p).
  Proof.
    induction ps as [|[h i] t IH]; cbn [remove_pairs]; [apply pays_ret; auto|]. pay1. pay1.
    eapply pays_then; [exact IH|]. intros l. pay.
  Qed.
  Lemma collect_set_cnt : forall ls seen, cnt p (collect_set E seen ls) <= cnt p seen + cnt p ls.
  Proof.
    induction ls as [|l t IH]; intros seen; simpl.
    - unfold cnt. rewrite <- (rev_length (filter p seen)).
      assert (X : forall s : list L, length (filter p (rev s)) = length (filter p s)).
      { induction s as [|x s IH]; simpl; auto. rewrite filter_app, app_length, IH. simpl.
        destruct (p x); simpl; lia. }
      rewrite X, rev_length. lia.
    - rewrite cnt_cons. destruct (existsb _ _); [specialize (IH seen)|specialize (IH (l :: seen)); rewrite cnt_cons in IH]; lia.
  Qed.
  Lemma remove_right_pays : forall r, pays 0 (remove_right E r) (cnt_opt wg).
  Proof.
    intros r. unfold remove_right. pay1. pay1. pay1; [|pay].
    eapply pays_then; [apply remove_pairs_pays|]. intros ls. apply pays_ret.
    assert (X := collect_set_cnt ls []). change (cnt p []) with 0 in X. fin.
  Qed.
  Lemma remove_hash_pays : forall h i, pays 0 (remove_via_hash_and_id E h i) (cnt_opt wg).
  Proof.
    intros h i. unfold remove_via_hash_and_id. pay1. pay1; [|pay].
    eapply pays_then; [apply remove_pairs_pays|]. intros ls. apply pays_ret. fin.
  Qed.
  Lemma remove_pays : forall l r, pays 0 (remove E l r) (cnt_opt wg).
  Proof. intros l r. unfold remove. pay1. pay1; [apply remove_right_pays|pay]. Qed.
  Lemma insert_pays : forall l r, pays (one p l + one q r) (insert E l r) (fun _ => 0).
  Proof. intros l r. unfold insert. pay. Qed.
  Lemma insert_remove_pays : forall l r,
    pays (one p l + one q r) (insert_remove E l r) (fun d => cnt_opt (one p) (fst d) + cnt_opt wg (snd d)).
  Proof.
    intros l r. unfold insert_remove. eapply pays_then; [apply remove_left_pays|]. intros a.
    eapply pays_then; [apply remove_right_pays|]. intros b. pay.
  Qed.
  Lemma insert_left_pays : forall l r, pays (one p l) (insert_left E l r) (cnt_opt (one p)).
  Proof.
    intros l r. unfold insert_left. pay1. pay1; [|pay]. destruct p0 as [j x]. pay1.
    eapply pays_then; [apply remove_left_pays|]. intros a. pay.
  Qed.
  Lemma insert_right_pays : forall r, pays (one q r) (insert_right E r) (cnt_opt wg).
  Proof. intros r. unfold insert_right. eapply pays_then; [apply remove_right_pays|]. intros a. pay. Qed.
  Lemma rehash_pairs_pays : forall h ps, pays 0 (rehash_pairs E h ps) (fun _ => 0).
  Proof.
    intros h. induction ps as [|[k i] t IH]; cbn [rehash_pairs]; [apply pays_ret; auto|]. do 3 pay1. exact IH.
  Qed.
  Lemma swap_right_pays : forall old new, pays (one q new) (swap_right E old new) (fun _ => 0).
  Proof.
    intros. unfold swap_right. pay1. pay1.
    - destruct p0 as [j x]. pay1. pay1; [fin|]. pay1.
      eapply pays_weaken; [apply rehash_pairs_pays|lia|auto].
    - eapply pays_bind; [apply insert_right_pays|lia|]. intros a. pay.
  Qed.
  Lemma swap_right_remove_pays : forall old new, pays (one q new) (swap_right_remove E old new) (cnt_opt (one q)).
  Proof.
    intros. unfold swap_right_remove. pay1. pay1. pay1.
    - pay1; [fin|]. pay1. apply pays_nothing; [apply rehash_pairs_pays|]. intros []. pay.
    - eapply pays_bind; [apply insert_right_pays|lia|]. intros a. pay.
  Qed.
  Lemma pair_pays : forall l r, pays 0 (pair E l r) (fun _ => 0).
  Proof. intros. unfold pair. pay. Qed.
  Lemma extend_pairs_pays : forall l, pays (cnt p (List.map fst l) + cnt q (List.map snd l)) (extend_pairs E l) (fun _ => 0).
  Proof.
    induction l as [|[a b] l IH]; simpl List.map; [apply pays_ret; lia|]. rewrite !cnt_cons.
    eapply pays_bind; [apply insert_pays|simpl; lia|]. intros d.
    eapply pays_weaken; [apply IH|simpl; lia|auto].
  Qed.
  Lemma extend_pays : forall l, pays (cnt p (flat_map some_l l) + cnt q (List.map snd l)) (extend E l) (fun _ => 0).
  Proof.
    induction l as [|[[a|] b] l IH]; cbn [flat_map some_l fst snd List.map app extend]; [apply pays_ret; lia|..];
      rewrite ?cnt_cons.
    - eapply pays_bind; [apply insert_pays|lia|]. intros d. eapply pays_weaken; [apply IH|lia|auto].
    - eapply pays_bind; [apply insert_right_pays|lia|]. intros d. eapply pays_weaken; [apply IH|lia|auto].
  Qed.
  Lemma drop_lefts_pays : forall l, pays 0 (drop_lefts E l) (fun _ => 0).
  Proof.
    induction l as [|[h i] l IH]; cbn [drop_lefts]; [apply pays_ret; lia|]. pay1.
    eapply pays_weaken; [exact IH|lia|auto].
  Qed.
  Lemma drop_rights_pays : forall l, pays 0 (drop_rights E l) (fun _ => 0).
  Proof.
    induction l as [|[h i] l IH]; cbn [drop_rights]; [apply pays_ret; lia|].
    eapply pays_then; [apply remove_hash_pays|]. intros a. eapply pays_weaken; [exact IH|lia|auto].
  Qed.
  Lemma clear_pays : pays 0 (clear E) (fun _ => 0).
  Proof. intros m. unfold clear, bind, getst, putst, wm. cbn. lia. Qed.

  (* the weight handed over, and handed back *)
  Definition wgiven (o : op L R) : nat := cnt p (given_l o) + cnt q (given_r o).
  Lemma via_pays : forall {A} o (c : M map A) (k : A -> out L R) g h m, pays g c h ->
    (forall a, wout o (k a) <= h a) -> wout o OPanic = 0 ->
    wm (fst (via k (c m))) + wout o (snd (via k (c m))) <= wm m + g.
  Proof.
    intros A o c k g h m H W Z. specialize (H m). destruct (c m) as [m' a|m']; simpl.
    - specialize (W a). lia.
    - rewrite Z. lia.
  Qed.
  Lemma retain_pays : forall {X A I} (f : X -> A -> X * verdict) (next : I -> outcome (option A * I)) key
      (drop_all : list (N * N) -> M map unit) n it m x o,
    (forall l, pays 0 (drop_all l) (fun _ => 0)) -> wout o OUnit = 0 -> wout o OPanic = 0 ->
    let r := via_closure (retain_with f next key drop_all n it (m, x)) in wm (fst r) + wout o (snd r) <= wm m + 0.
  Proof.
    intros X A I f next key da n it m x o D Z1 Z2. cbv zeta. unfold retain_with.
    destruct (retain_scan _ _ _ _ _ _) as [x' l|x']; cbn [via_closure fst snd]; [|lia].
    assert (H := D l m). destruct (da l m); cbn [via_closure fst snd]; lia.
  Qed.

  Lemma step_pays : forall o m,
    wm (fst (step E m o)) + wout o (snd (step E m o)) <= wm m + wgiven o.
  Proof.
    assert (Z : forall o w, handed_l o w = [] -> handed_r o w = [] -> wout o w = 0).
    { intros o w A B. unfold wout. rewrite A, B. reflexivity. }
    intros o m.
    destruct o; cbn [step]; unfold wgiven; cbn [given_l given_r]; change (cnt p []) with 0; change (cnt q []) with 0;
      try (cbn [fst snd]; rewrite Z by reflexivity; cbn [clone]; lia).
    - eapply via_pays; [apply insert_pays|intros; rewrite Z; auto|reflexivity].
    - eapply via_pays; [apply insert_remove_pays| |reflexivity].
      intros [[a|] [[ls r']|]]; unfold wout; cbn [handed_l handed_r opt_list group_l group_r app fst snd cnt_opt];
        unfold wg; cbn [fst snd]; rewrite ?cnt_cons; change (cnt p []) with 0; change (cnt q []) with 0;
        unfold one; lia.
    - eapply via_pays; [eapply pays_weaken; [apply insert_left_pays|unfold one; lia|auto]| |reflexivity].
      intros [?|]; unfold wout; cbn; unfold one; lia.
    - eapply via_pays; [apply insert_right_pays|intros [[? ?]|]; apply le_n|reflexivity].
    - eapply via_pays; [apply swap_right_pays|intros; rewrite Z; auto|reflexivity].
    - eapply via_pays; [apply swap_right_remove_pays|intros [?|]; apply le_n|reflexivity].
    - eapply via_pays; [apply pair_pays|intros; rewrite Z; auto|reflexivity].
    - eapply via_pays; [apply remove_pays|intros [[? ?]|]; apply le_n|reflexivity].
    - eapply via_pays; [apply remove_left_pays| |reflexivity].
      intros [?|]; unfold wout; cbn; unfold one; lia.
    - eapply via_pays; [apply remove_right_pays|intros [[? ?]|]; apply le_n|reflexivity].
    - destruct (get_left_iter E m r) as [it|]; [destruct (pair_rest E m it)|]; cbn [seen fst snd]; rewrite Z; auto; lia.
    - destruct (iter_rest _ _ _); cbn [seen fst snd]; rewrite Z; auto; lia.
    - destruct (paired_rest _ _ _); cbn [seen fst snd]; rewrite Z; auto; lia.
    - destruct (unpaired_rest _); cbn [seen fst snd]; rewrite Z; auto; lia.
    - destruct (left_rest _); cbn [seen fst snd]; rewrite Z; auto; lia.
    - destruct (right_rest _); cbn [seen fst snd]; rewrite Z; auto; lia.
    - apply retain_pays; auto. apply drop_lefts_pays.
    - apply retain_pays; auto. apply drop_rights_pays.
    - eapply via_pays; [apply extend_pairs_pays|intros; rewrite Z; auto|reflexivity].
    - eapply via_pays; [apply extend_pays|intros; rewrite Z; auto|reflexivity].
    - eapply via_pays; [apply clear_pays|intros; rewrite Z; auto|reflexivity].
    - cbn [fst snd]. rewrite Z; auto.
  Qed.
End Pays.

Definition back_l {L R} (c : op L R * out L R) : list L := handed_l (fst c) (snd c).
Definition back_r {L R} (c : op L R * out L R) : list R := handed_r (fst c) (snd c).

Lemma run_pays : forall {L R S} p q (cs : list (env L R S * op L R)) m,
  Forall (fun c => keeps_buckets (lo (fst c))) cs ->
  let (m', ws) := run_with m cs in
  wm p q m' + (cnt p (flat_map back_l ws) + cnt q (flat_map back_r ws)) <=
  wm p q m + (cnt p (flat_map given_l (map snd cs)) + cnt q (flat_map given_r (map snd cs))).
Proof.
  intros L R S p q. induction cs as [|[E o] cs IH]; intros m H; cbn [run_with].
  - simpl. lia.
  - assert (OP := Forall_inv H). apply Forall_inv_tail in H. simpl in OP.
    assert (X := step_pays E OP p q o m). destruct (step E m o) as [m1 w]. cbn [fst snd] in X.
    specialize (IH m1 H). destruct (run_with m1 cs) as [m2 ws]. cbn [flat_map map snd].
    rewrite !cnt_app. unfold back_l at 1, back_r at 1. cbn [fst snd]. unfold wout, wgiven in X. lia.
Qed.

Lemma cnt_false : forall {A} (l : list A), cnt (fun _ => false) l = 0.
Proof. induction l as [|a l IH]; auto. Qed.
Lemma tw_values : forall {A B} (v : A -> B) (p : B -> bool) (t : table A),
  tw (fun e => p (v e)) t = cnt p (map v (map snd (slots t))).
Proof.
  intros. unfold tw, cnt. induction (slots t) as [|[h e] l IH]; simpl; auto. destruct (p (v e)); simpl; auto.
Qed.

(* ---- C121 ---- Whatever Eq and Hash do, whatever the call does (panics included): of the
   items of any kind p, those in the map and those handed back are no more than those handed
   over. *)
Theorem C121_no_item_invented : forall {L R S} (cs : list (env L R S * op L R)) s ll lr,
  Forall (fun c => keeps_buckets (lo (fst c))) cs ->
  let (m, ws) := run_with (with_hasher s ll lr) cs in
  (forall p, length (filter p (map l_value (map snd (iter_left m)))) + length (filter p (flat_map back_l ws)) <=
             length (filter p (flat_map given_l (map snd cs)))) /\
  (forall q, length (filter q (map r_value (map snd (iter_right m)))) + length (filter q (flat_map back_r ws)) <=
             length (filter q (flat_map given_r (map snd cs)))).
Proof.
  intros L R S cs s ll lr H.
  assert (X := fun p q => run_pays p q cs (with_hasher s ll lr) H).
  destruct (run_with _ cs) as [m ws]. split; intro p.
  - specialize (X p (fun _ => false)). unfold wm in X.
    rewrite !(tw_values l_value p : forall t, tw (vl p) t = _),
      !(tw_values r_value (fun _ => false) : forall t, tw (vr _) t = _), !cnt_false in X.
    change (cnt p (map l_value (map snd (slots (left_set (with_hasher (L := L) (R := R) s ll lr)))))) with 0 in X.
    unfold cnt in X. unfold iter_left. lia.
  - specialize (X (fun _ => false) p). unfold wm in X.
    rewrite !(tw_values r_value p : forall t, tw (vr p) t = _),
      !(tw_values l_value (fun _ => false) : forall t, tw (vl _) t = _), !cnt_false in X.
    change (cnt p (map r_value (map snd (slots (right_set (with_hasher (L := L) (R := R) s ll lr)))))) with 0 in X.
    unfold cnt in X. unfold iter_right. lia.
Qed.

(* 2k and 2k+1 are equal, but have different hashes *)
Definition half_eq (a b : N) : bool := (a / 2 =? b / 2)%N.
Definition bad_env (lo : layout) : env N N N :=
  Env _ _ _ half_eq half_eq (fun s a => s + a)%N (fun s a => s + a)%N (fun _ x => fst x) lo true.
Definition bad_history : list (env N N N * op N N) :=
  List.map (fun o => (bad_env lo_wild, o))
    [Insert 2 10; Insert 3 10; Insert 4 11; InsertRight 30; InsertLeft 6 30; SwapRight 10 12;
     Pair 3 11; Insert 3 12; RemoveRight 31; RemoveRight 30; RemoveLeft 5; SwapRightRemove 11 13;
     InsertRemove 7 12; Remove 3 12; Extend [(Some 8, 40); (None, 40)]]%N.
Example C121_case : Forall (fun c => keeps_buckets (lo (fst c))) bad_history /\
  let (m, ws) := run_with (with_hasher 0 0 0)%N bad_history in
  map l_value (map snd (iter_left m)) = [7; 2]%N /\ map r_value (map snd (iter_right m)) = [12; 12; 40]%N /\
  map snd ws =
    [OUnit; OUnit; OUnit; OGroup None; OL None; OUnit; OBool true; OUnit; OGroup (Some ([6], 30)); OGroup None;
     OPanic; OR (Some 10); OInsRem (None, Some ([], 13)); OGroup None; OUnit]%N /\
  flat_map back_l ws = [6]%N /\ flat_map back_r ws = [30; 10; 13]%N.
Proof.
  split; [|vm_compute; repeat split].
  repeat (apply Forall_cons; [apply keeps_buckets_ok, lo_wild_ok|]). apply Forall_nil.
Qed.

Print Assumptions C121_no_item_invented.
