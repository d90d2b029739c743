(* CycleMap with arbitrary Eq and Hash: no item is ever invented or duplicated.  Nothing is
   assumed of Eq and Hash (they need not agree, and may differ from call to call), nothing of
   where a search of the hash table looks, nothing of the ids. *)
From Coq Require Import List NArith Lia Bool Permutation.
From Verif Require Import Closures Prelude RawTable Optionals CycleMap CycleMapHistory CycleMapAny
  TableFacts Conserve Concrete.
Import ListNotations.
Local Open Scope nat_scope.

(* the items that a call returns by value *)
Definition pair_l {L R} (o : option (L * R)) : list L := match o with Some (l, _) => [l] | None => [] end.
Definition pair_r {L R} (o : option (L * R)) : list R := match o with Some (_, r) => [r] | None => [] end.
Definition handed_l {L R} (w : out L R) : list L :=
  match w with
  | OPair a => pair_l a
  | OIns (SomeLeft (l, _)) | OIns (SomeRight (l, _)) => [l]
  | OIns (SomeBoth (l, _) (l', _)) => [l; l']
  | OSwapL (SomeLeft l) | OSwapL (SomeRight (l, _)) => [l]
  | OSwapL (SomeBoth l (l', _)) => [l; l']
  | OSwapR (SomeRight (l, _)) | OSwapR (SomeBoth _ (l, _)) => [l]
  | OItems is _ => flat_map pair_l is
  | _ => []
  end.
Definition handed_r {L R} (w : out L R) : list R :=
  match w with
  | OPair a => pair_r a
  | OIns (SomeLeft (_, r)) | OIns (SomeRight (_, r)) => [r]
  | OIns (SomeBoth (_, r) (_, r')) => [r; r']
  | OSwapR (SomeLeft r) | OSwapR (SomeRight (_, r)) => [r]
  | OSwapR (SomeBoth r (_, r')) => [r; r']
  | OSwapL (SomeRight (_, r)) | OSwapL (SomeBoth _ (_, r)) => [r]
  | OItems is _ => flat_map pair_r is
  | _ => []
  end.

(* a history in which every call has an environment of its own *)
Fixpoint xrun_with {L R S} (m : cmap L R S) (cs : list (env L R S * xop L R)) : cmap L R S * list (out L R) :=
  match cs with
  | [] => (m, [])
  | (E, o) :: t => let (m', w) := xstep E m o in
                   let (m'', ws) := xrun_with m' t in (m'', w :: ws)
  end.

Section Conserve.
  Context {L R S : Type} (E : env L R S).
  Hypothesis OP : keeps_buckets (lo E).
  Variables (p : L -> bool) (q : R -> bool).
  Notation map := (cmap L R S).

  Definition vl : mapping_pair L -> bool := fun e => p (value e).
  Definition vr : mapping_pair R -> bool := fun e => q (value e).
  Definition wm (m : map) : nat := tw vl (left_set m) + tw vr (right_set m).
  Notation pays := (pays wm).
  Definition wp (z : L * R) : nat := one p (fst z) + one q (snd z).
  Definition wins (d : insert_optional L R) : nat := cnt_opt wp (op_get_left d) + cnt_opt wp (op_get_right d).
  Definition wsl (d : optional_pair L (L * R)) : nat := cnt_opt (one p) (op_get_left d) + cnt_opt wp (op_get_right d).
  Definition wsr (d : optional_pair R (L * R)) : nat := cnt_opt (one q) (op_get_left d) + cnt_opt wp (op_get_right d).
  Definition we_l (e : mapping_pair L) : nat := one p (value e).
  Definition we_r (e : mapping_pair R) : nat := one q (value e).
  Definition wout (w : out L R) : nat := cnt p (handed_l w) + cnt q (handed_r w).

  Lemma one_vl : forall e, one vl e = we_l e.
  Proof. intros. unfold one, cnt, vl, we_l, one, cnt. simpl. destruct (p (value e)); auto. Qed.
  Lemma one_vr : forall e, one vr e = we_r e.
  Proof. intros. unfold one, cnt, vr, we_r, one, cnt. simpl. destruct (q (value e)); auto. Qed.

  Lemma left_remove_pays : forall h f, pays 0 (left_remove_entry E h f) (cnt_opt we_l).
  Proof.
    intros h f m. unfold left_remove_entry, bind, getst.
    destruct (t_remove_entry _ _ _ _) as [[e t]|] eqn:X; simpl; [|lia].
    apply (tw_remove_entry (lo E) vl) in X. rewrite one_vl in X. unfold wm. simpl. lia.
  Qed.
  Lemma right_remove_pays : forall h f, pays 0 (right_remove_entry E h f) (cnt_opt we_r).
  Proof.
    intros h f m. unfold right_remove_entry, bind, getst.
    destruct (t_remove_entry _ _ _ _) as [[e t]|] eqn:X; simpl; [|lia].
    apply (tw_remove_entry (lo E) vr) in X. rewrite one_vr in X. unfold wm. simpl. lia.
  Qed.
  Lemma left_insert_pays : forall h e, pays (we_l e) (left_insert E h e) (fun _ => 0).
  Proof.
    intros h e m. unfold left_insert, bind, getst, putst, wm. cbn [left_set right_set set_left set_right].
    rewrite (tw_insert (lo E) vl OP), one_vl. lia.
  Qed.
  Lemma right_insert_pays : forall h e, pays (we_r e) (right_insert E h e) (fun _ => 0).
  Proof.
    intros h e m. unfold right_insert, bind, getst, putst, wm. cbn [left_set right_set set_left set_right].
    rewrite (tw_insert (lo E) vr OP), one_vr. lia.
  Qed.
  Lemma incr_pays : pays 0 (incr_counter E) (fun _ => 0).
  Proof.
    intros m. unfold incr_counter, bind, getst. destruct (u64_incr _ _); unfold wm; simpl; lia.
  Qed.

  Lemma remove_via_left_pays : forall l, pays 0 (remove_via_left E l) (cnt_opt wp).
  Proof.
    intros l. apply pays_get_any; intro m.
    eapply pays_bind; [apply left_remove_pays|lia|]. intros [e|]; [|apply pays_ret; simpl; lia].
    eapply pays_bind; [apply right_remove_pays|lia|]. intros o.
    eapply pays_bind with (u := cnt_opt we_r o) (h1 := we_r); [apply pays_unwrap; lia|lia|].
    intros e'. apply pays_ret. unfold wp, we_l, we_r. simpl. unfold we_l, we_r. lia.
  Qed.
  Lemma remove_via_right_pays : forall l, pays 0 (remove_via_right E l) (cnt_opt wp).
  Proof.
    intros l. apply pays_get_any; intro m.
    eapply pays_bind; [apply right_remove_pays|lia|]. intros [e|]; [|apply pays_ret; simpl; lia].
    eapply pays_bind; [apply left_remove_pays|lia|]. intros o.
    eapply pays_bind with (u := cnt_opt we_l o) (h1 := we_l); [apply pays_unwrap; lia|lia|].
    intros e'. apply pays_ret. unfold wp, we_l, we_r. simpl. unfold we_l, we_r. lia.
  Qed.
  Lemma remove_hashes_pays : forall a b i, pays 0 (remove_via_hashes_and_id E a b i) (cnt_opt wp).
  Proof.
    intros a b i.
    eapply pays_bind; [apply left_remove_pays|lia|]. intros [e|]; [|apply pays_ret; simpl; lia].
    eapply pays_bind; [apply right_remove_pays|lia|]. intros o.
    eapply pays_bind with (u := cnt_opt we_r o) (h1 := we_r); [apply pays_unwrap; lia|lia|].
    intros e'. apply pays_ret. unfold wp, we_l, we_r. simpl. unfold we_l, we_r. lia.
  Qed.
  Lemma remove_pays : forall l r, pays 0 (remove E l r) (cnt_opt wp).
  Proof.
    intros l r. apply pays_get_any; intro m. destruct (are_paired _ _ _ _).
    - apply remove_via_left_pays.
    - apply pays_ret; simpl; lia.
  Qed.

  Lemma insert_pays : forall l r, pays (one p l + one q r) (insert E l r) wins.
  Proof.
    intros l r. eapply pays_bind; [apply remove_via_left_pays|lia|]. intros a.
    eapply pays_bind; [apply remove_via_right_pays|lia|]. intros b.
    apply pays_get_any; intro m.
    eapply pays_bind; [apply incr_pays|lia|]. intros [].
    eapply pays_bind; [apply left_insert_pays|unfold we_l; simpl; lia|]. intros [].
    eapply pays_bind; [apply right_insert_pays|unfold we_l, we_r; simpl; lia|]. intros [].
    apply pays_ret. unfold we_l, we_r, wins. destruct a, b; simpl; lia.
  Qed.

  Lemma swap_left_check_pays : forall old new h, pays 0 (swap_left_eq_check E old new h) (cnt_opt wp).
  Proof.
    intros. apply pays_get_any; intro m. destruct (t_get _ _ _ _); [|apply pays_ret; simpl; lia].
    destruct (negb _); [apply remove_via_left_pays|apply pays_ret; simpl; lia].
  Qed.
  Lemma swap_right_check_pays : forall old new h, pays 0 (swap_right_eq_check E old new h) (cnt_opt wp).
  Proof.
    intros. apply pays_get_any; intro m. destruct (t_get _ _ _ _); [|apply pays_ret; simpl; lia].
    destruct (negb _); [apply remove_via_right_pays|apply pays_ret; simpl; lia].
  Qed.

  Lemma swap_left_pays : forall old new, pays (one p new) (swap_left E old new) wsl.
  Proof.
    intros old new. apply pays_get_any; intro m0.
    eapply pays_bind; [apply swap_left_check_pays|lia|]. intros a.
    apply pays_get; intro m. cbv beta zeta. destruct (t_get _ _ _ _) as [lp|]; [|unfold ret, wsl, wsr; cbn [op_get_left op_get_right cnt_opt]; lia].
    unfold bind at 1. destruct (t_find _ _ _ _) as [i|]; simpl unwrap; cbn [ret]; [|unfold panic; lia].
    unfold bind at 1, putst at 1.
    match goal with |- context [set_right ?t m] => assert (W : wm (set_right t m) = wm m) end.
    { unfold wm. cbn [left_set right_set set_right]. rewrite (tw_modify vr); auto. }
    match goal with |- match ?c ?m1 with _ => _ end =>
      assert (K : pays (one p new + cnt_opt wp a) c wsl); [|specialize (K m1)] end.
    { eapply pays_bind; [apply left_remove_pays|lia|]. intros o.
      eapply pays_bind with (u := cnt_opt we_l o) (h1 := we_l); [apply pays_unwrap; lia|lia|]. intros e.
      eapply pays_bind; [apply left_insert_pays|unfold we_l; simpl; lia|]. intros [].
      apply pays_ret. unfold we_l, wsl. destruct a; simpl; lia. }
    match goal with |- match ?c with _ => _ end => destruct c end; lia.
  Qed.
  Lemma swap_right_pays : forall old new, pays (one q new) (swap_right E old new) wsr.
  Proof.
    intros old new. apply pays_get_any; intro m0.
    eapply pays_bind; [apply swap_right_check_pays|lia|]. intros a.
    apply pays_get; intro m. cbv beta zeta. destruct (t_get _ _ _ _) as [lp|]; [|unfold ret, wsl, wsr; cbn [op_get_left op_get_right cnt_opt]; lia].
    unfold bind at 1. destruct (t_find _ _ _ _) as [i|]; simpl unwrap; cbn [ret]; [|unfold panic; lia].
    unfold bind at 1, putst at 1.
    match goal with |- context [set_left ?t m] => assert (W : wm (set_left t m) = wm m) end.
    { unfold wm. cbn [left_set right_set set_left]. rewrite (tw_modify vl); auto. }
    match goal with |- match ?c ?m1 with _ => _ end =>
      assert (K : pays (one q new + cnt_opt wp a) c wsr); [|specialize (K m1)] end.
    { eapply pays_bind; [apply right_remove_pays|lia|]. intros o.
      eapply pays_bind with (u := cnt_opt we_r o) (h1 := we_r); [apply pays_unwrap; lia|lia|]. intros e.
      eapply pays_bind; [apply right_insert_pays|unfold we_r; simpl; lia|]. intros [].
      apply pays_ret. unfold we_r, wsr. destruct a; simpl; lia. }
    match goal with |- match ?c with _ => _ end => destruct c end; lia.
  Qed.

  Lemma swap_left_checked_pays : forall old ex new, pays (one p new) (swap_left_checked E old ex new) wsl.
  Proof.
    intros. apply pays_get_any; intro m. destruct (negb _); [apply pays_ret, PeanoNat.Nat.le_0_l|apply swap_left_pays].
  Qed.
  Lemma swap_right_checked_pays : forall old ex new, pays (one q new) (swap_right_checked E old ex new) wsr.
  Proof.
    intros. apply pays_get_any; intro m. destruct (negb _); [apply pays_ret, PeanoNat.Nat.le_0_l|apply swap_right_pays].
  Qed.
  Lemma swap_left_or_insert_pays : forall old new ti,
    pays (one p new + one q ti) (swap_left_or_insert E old new ti) wsl.
  Proof.
    intros. apply pays_get_any; intro m. cbv zeta. destruct (t_get _ _ _ _).
    - eapply pays_weaken; [apply swap_left_pays|lia|auto].
    - eapply pays_bind; [apply insert_pays|lia|]. intros d. apply pays_ret.
      unfold wsl, wins. destruct d as [|[? ?]|[? ?]|[? ?] [? ?]]; unfold wp; simpl; lia.
  Qed.
  Lemma swap_right_or_insert_pays : forall old new ti,
    pays (one p ti + one q new) (swap_right_or_insert E old new ti) wsr.
  Proof.
    intros. apply pays_get_any; intro m. cbv zeta. destruct (t_get _ _ _ _).
    - eapply pays_weaken; [apply swap_right_pays|lia|auto].
    - eapply pays_bind; [apply insert_pays|lia|]. intros d. destruct d; try apply pays_panic;
      apply pays_ret; unfold wsr, wins; simpl; lia.
  Qed.
  Lemma extend_pays : forall l, pays (cnt p (List.map fst l) + cnt q (List.map snd l)) (extend E l) (fun _ => 0).
  Proof.
    induction l as [|[a b] l IH]; simpl List.map; [apply pays_ret; lia|]. rewrite !cnt_cons.
    eapply pays_bind; [apply insert_pays|simpl; lia|]. intros d.
    eapply pays_weaken; [apply IH|simpl; lia|auto].
  Qed.
  Lemma drop_all_pays : forall l, pays 0 (drop_all E l) (fun _ => 0).
  Proof.
    induction l as [|[[a b] i] l IH]; [apply pays_ret; lia|].
    eapply pays_bind; [apply remove_hashes_pays|lia|]. intros d.
    eapply pays_weaken; [apply IH|simpl; lia|auto].
  Qed.
  Lemma clear_pays : pays 0 (clear E) (fun _ => 0).
  Proof. intros m. unfold clear, bind, getst, putst, wm. cbn. lia. Qed.
  Lemma resize_pays : forall z, pays 0 (resize_both E z) (fun _ => 0).
  Proof.
    intros z m. unfold resize_both, bind, getst, putst, wm. cbn [left_set right_set set_left set_right hash_builder].
    rewrite !(tw_resize _ _ OP). lia.
  Qed.
  Lemma shrink_to_fit_pays : pays 0 (shrink_to_fit E) (fun _ => 0).
  Proof.
    intros m. unfold shrink_to_fit, bind, getst, putst, wm. cbn [left_set right_set set_left set_right hash_builder].
    rewrite !(tw_resize _ _ OP). lia.
  Qed.
  Lemma try_reserve_pays : forall n, pays 0 (try_reserve E n) (fun _ => 0).
  Proof.
    intros n m. unfold try_reserve, bind, getst, putst, wm.
    assert (X := tw_try_resize (lo E) vl OP (left_set m) n (make_hasher_l E (hash_builder m))).
    destruct (t_try_resize _ _ _ _) as [ok t]. cbn [snd] in X.
    destruct ok; cbn [left_set right_set set_left set_right hash_builder ret]; [|lia].
    assert (Y := tw_try_resize (lo E) vr OP (right_set m) n (make_hasher_r E (hash_builder m))).
    destruct (t_try_resize _ _ _ _) as [ok t']. cbn [snd] in Y.
    cbn [left_set right_set set_left set_right hash_builder ret]. lia.
  Qed.

  (* the pairs an iterator has yielded *)
  Definition wis (l : list (option (L * R))) : nat := cnt p (flat_map pair_l l) + cnt q (flat_map pair_r l).
  Lemma wis_cons : forall a l, wis (a :: l) = cnt_opt wp a + wis l.
  Proof.
    intros [[l r]|] t; unfold wis; simpl; auto. rewrite !cnt_cons. unfold wp. simpl. lia.
  Qed.

  Definition wd (d : drain_t) : nat := cnt vl (List.map snd (di_left d)) + tw vr (di_right d).
  Lemma drain_next_pays : forall d, match drain_next E d with
    | Ret d' a => wd d' + cnt_opt wp a <= wd d
    | Panic d' => wd d' <= wd d
    end.
  Proof.
    intros [l t]. unfold drain_next, wd. simpl di_left. simpl di_right.
    destruct l as [|[h e] l]; simpl; [lia|]. rewrite cnt_cons, one_vl.
    destruct (t_remove_entry _ _ _ _) as [[e' t']|] eqn:X; simpl; [|lia].
    apply (tw_remove_entry (lo E) vr) in X. rewrite one_vr in X. unfold wp, we_l, we_r in *. simpl. lia.
  Qed.
  Lemma drain_nexts_pays : forall n d, match drain_nexts E n d with
    | Ret d' is => wd d' + wis is <= wd d
    | Panic d' => wd d' <= wd d
    end.
  Proof.
    induction n as [|n IH]; intros d; cbn [drain_nexts]; [change (wis []) with 0; lia|].
    assert (X := drain_next_pays d). destruct (drain_next E d) as [d1 a|d1]; auto.
    specialize (IH d1). destruct (drain_nexts E n d1) as [d2 is|d2]; [rewrite wis_cons|]; lia.
  Qed.
  Lemma drain_end_pays : forall m d, wm (drain_end E m d) <= wd d.
  Proof. intros. unfold wm, wd, drain_end. cbn [left_set right_set]. rewrite tw_clear. lia. Qed.

  Definition wf (d : df_inner) : nat := tw vl (df_left d) + tw vr (df_right d).
  Lemma df_next_pays : forall {X} (f : X -> L -> R -> X * verdict) n st, match df_next_fuel E f n st with
    | Ret st' a => wf (fst st') + cnt_opt wp a <= wf (fst st)
    | Panic st' => wf (fst st') <= wf (fst st)
    end.
  Proof.
    intros X f. induction n as [|n IH]; intros [d x]; cbn [df_next_fuel fst].
    all: destruct (t_entry (df_left d) (df_pos d)) as [e|] eqn:Y; [|simpl; lia].
    all: destruct (t_find _ _ _ _) as [i|]; [|cbn; unfold wf; simpl; lia].
    all: destruct (t_entry (df_right d) i) as [e'|] eqn:Z; [|cbn; unfold wf; simpl; lia].
    all: destruct (f x _ _) as [x' [[|]|]]; [| |cbn; unfold wf; simpl; lia].
    1,3: apply (tw_remove_at (lo E) vl) in Y; apply (tw_remove_at (lo E) vr) in Z;
         rewrite one_vl in Y; rewrite one_vr in Z; unfold wf, wp, we_l, we_r in *;
         cbn [fst snd df_left df_right cnt_opt]; lia.
    - unfold wf. cbn. lia.
    - apply (IH (DF (df_left d) (Datatypes.S (df_pos d)) (df_right d), x')).
  Qed.
  Lemma df_nexts_pays : forall {X} (f : X -> L -> R -> X * verdict) n st, match df_nexts E f n st with
    | Ret st' is => wf (fst st') + wis is <= wf (fst st)
    | Panic st' => wf (fst st') <= wf (fst st)
    end.
  Proof.
    intros X f. induction n as [|n IH]; intros st; cbn [df_nexts]; [change (wis []) with 0; lia|].
    assert (Y := df_next_pays f (df_remaining (fst st)) st). unfold df_next.
    destruct (df_next_fuel _ _ _ _) as [d1 a|d1]; auto.
    specialize (IH d1). destruct (df_nexts E f n d1) as [d2 is|d2]; [rewrite wis_cons|]; lia.
  Qed.
  Lemma df_drop_pays : forall {X} (f : X -> L -> R -> X * verdict) n st, match df_drop_fuel E f n st with
    | Ret st' _ | Panic st' => wf (fst st') <= wf (fst st)
    end.
  Proof.
    intros X f. induction n as [|n IH]; intros st; cbn [df_drop_fuel];
      assert (Y := df_next_pays f (df_remaining (fst st)) st); unfold df_next;
      destruct (df_next_fuel _ _ _ _) as [d1 [a|]|d1]; try lia.
    specialize (IH d1). destruct (df_drop_fuel E f n d1); lia.
  Qed.
  Lemma wm_df_end : forall m d, wm (df_end m d) = wf d.
  Proof. reflexivity. Qed.

  (* the weight handed over, and handed back *)
  Definition wgiven (o : xop L R) : nat := cnt p (given_l o) + cnt q (given_r o).
  Lemma via_pays : forall {A} (c : M map A) (k : A -> out L R) g h m, pays g c h ->
    (forall a, wout (k a) <= h a) ->
    wm (fst (via k (c m))) + wout (snd (via k (c m))) <= wm m + g.
  Proof.
    intros A c k g h m H W. specialize (H m). destruct (c m) as [m' a|m']; simpl.
    - specialize (W a). lia.
    - unfold wout. simpl. unfold cnt. simpl. lia.
  Qed.

  Lemma wout_pair : forall a, wout (OPair a) = cnt_opt wp a.
  Proof. intros [[l r]|]; reflexivity. Qed.
  Lemma wout_ins : forall d, wout (OIns d) = wins d.
  Proof.
    intros [|[l r]|[l r]|[l r] [l' r']]; unfold wout, wins; simpl; rewrite ?cnt_cons; unfold wp; simpl; auto;
      unfold one; rewrite ?cnt_cons; unfold one; simpl; unfold cnt; simpl; try lia.
  Qed.
  Lemma wout_sl : forall d, wout (OSwapL d) = wsl d.
  Proof.
    intros [|l|[l r]|l [l' r']]; unfold wout, wsl, wp; simpl; unfold one, cnt; simpl; try lia.
    all: destruct (p l); try destruct (p l'); try destruct (q r'); try destruct (q r); simpl; lia.
  Qed.
  Lemma wout_sr : forall d, wout (OSwapR d) = wsr d.
  Proof.
    intros [|l|[l r]|r [l' r']]; unfold wout, wsr, wp; simpl; unfold one, cnt; simpl; try lia.
    all: try destruct (p l); try destruct (p l'); try destruct (q r'); try destruct (q r); simpl; lia.
  Qed.

  Lemma xstep_pays : forall o m,
    wm (fst (xstep E m o)) + wout (snd (xstep E m o)) <= wm m + wgiven o.
  Proof.
    assert (Z : forall w, handed_l w = [] -> handed_r w = [] -> wout w = 0).
    { intros w A B. unfold wout. rewrite A, B. reflexivity. }
    intros [o|n] m.
    - destruct o; cbn [xstep step]; unfold wgiven; cbn [given_l given_r]; change (cnt p []) with 0; change (cnt q []) with 0.
      + eapply via_pays; [apply insert_pays|]. intros; rewrite wout_ins; auto.
      + eapply via_pays; [apply remove_pays|]. intros; rewrite wout_pair; auto.
      + eapply via_pays; [apply remove_via_left_pays|]. intros; rewrite wout_pair; auto.
      + eapply via_pays; [apply remove_via_right_pays|]. intros; rewrite wout_pair; auto.
      + eapply via_pays; [eapply pays_weaken; [apply swap_left_pays|unfold one; lia|auto]|]. intros; rewrite wout_sl; auto.
      + eapply via_pays; [eapply pays_weaken; [apply swap_left_checked_pays|unfold one; lia|auto]|]. intros; rewrite wout_sl; auto.
      + eapply via_pays; [apply swap_left_or_insert_pays|]. intros; rewrite wout_sl; auto.
      + eapply via_pays; [eapply pays_weaken; [apply swap_right_pays|unfold one; lia|auto]|]. intros; rewrite wout_sr; auto.
      + eapply via_pays; [eapply pays_weaken; [apply swap_right_checked_pays|unfold one; lia|auto]|]. intros; rewrite wout_sr; auto.
      + eapply via_pays; [apply swap_right_or_insert_pays|]. intros; rewrite wout_sr; auto.
      + simpl. rewrite Z; auto; lia.
      + simpl. rewrite Z; auto; lia.
      + simpl. rewrite Z; auto; lia.
      + simpl. rewrite Z; auto; lia.
      + simpl. rewrite Z; auto; lia.
      + simpl. rewrite Z; auto; lia.
      + simpl. rewrite Z; auto; lia.
      + destruct (iter_all E m); cbn [seen fst snd]; rewrite Z; auto; lia.
      + destruct (collect _ _ _); cbn [seen fst snd]; rewrite Z; auto; lia.
      + destruct (collect _ _ _); cbn [seen fst snd]; rewrite Z; auto; lia.
      + eapply via_pays; [apply extend_pays|]. intros; rewrite Z; auto.
      + unfold retain. destruct (retain_scan _ _ _ _ _ _) as [x' l|x']; cbn [fst snd]; [|rewrite Z; auto; lia].
        assert (HX := drop_all_pays l m). destruct (drop_all E l m); cbn [fst snd]; rewrite Z; auto; lia.
      + assert (HX := drain_nexts_pays (Datatypes.S (len m)) (drain m)). assert (Y := drain_end_pays m).
        change (wd (drain m)) with (wm m) in HX.
        destruct (drain_nexts E _ _) as [d is|d]; cbn [fst snd]; specialize (Y d);
          [change (wout (OItems is false)) with (wis is)|rewrite Z; auto]; lia.
      + assert (HX := df_nexts_pays f n (drain_filter m, x)). change (wf (fst (drain_filter m, x))) with (wm m) in HX.
        destruct (df_nexts E f n _) as [[d x'] is|[d x']]; cbn [fst] in HX.
        * destruct leak; [cbn [fst snd]; change (wout (OItems is false)) with (wis is); rewrite wm_df_end; lia|].
          assert (Y := df_drop_pays f (df_remaining d) (d, x')). unfold df_drop. cbn [fst].
          destruct (df_drop_fuel _ _ _ _) as [[d' x''] u|[d' x'']]; cbn [fst snd] in *; rewrite wm_df_end;
            [change (wout (OItems is false)) with (wis is)|change (wout (OItems is true)) with (wis is)]; lia.
        * assert (Y := df_drop_pays f (df_remaining d) (d, x')). unfold df_drop. cbn [fst].
          destruct (df_drop_fuel _ _ _ _) as [[d' x''] u|[d' x'']]; cbn [fst snd] in *; rewrite wm_df_end, Z; auto; lia.
      + eapply via_pays; [apply clear_pays|]. intros; rewrite Z; auto.
      + cbn [fst snd]. rewrite Z; auto.
      + eapply via_pays; [apply resize_pays|]. intros; rewrite Z; auto.
      + eapply via_pays; [apply shrink_to_fit_pays|]. intros; rewrite Z; auto.
      + eapply via_pays; [apply resize_pays|]. intros; rewrite Z; auto.
      + eapply via_pays; [apply try_reserve_pays|]. intros; rewrite Z; auto.
    - cbn [xstep]. unfold wgiven. cbn [given_l given_r]. change (cnt p []) with 0; change (cnt q []) with 0.
      assert (HX := drain_nexts_pays n (drain m)). assert (Y := drain_end_pays m).
      change (wd (drain m)) with (wm m) in HX.
      destruct (drain_nexts E _ _) as [d is|d]; cbn [fst snd]; specialize (Y d);
          [change (wout (OItems is false)) with (wis is)|rewrite Z; auto]; lia.
  Qed.
End Conserve.

Lemma xrun_pays : forall {L R S} p q (cs : list (env L R S * xop L R)) m,
  Forall (fun c => keeps_buckets (lo (fst c))) cs ->
  let (m', ws) := xrun_with m cs in
  wm p q m' + (cnt p (flat_map handed_l ws) + cnt q (flat_map handed_r ws)) <=
  wm p q m + (cnt p (flat_map given_l (map snd cs)) + cnt q (flat_map given_r (map snd cs))).
Proof.
  intros L R S p q. induction cs as [|[E o] cs IH]; intros m H; cbn [xrun_with].
  - simpl. lia.
  - assert (OP := Forall_inv H). apply Forall_inv_tail in H. simpl in OP.
    assert (X := xstep_pays E OP p q o m). destruct (xstep E m o) as [m1 w]. cbn [fst snd] in X.
    specialize (IH m1 H). destruct (xrun_with m1 cs) as [m2 ws]. simpl flat_map. rewrite !cnt_app.
    unfold wout, wgiven in X. lia.
Qed.

Lemma cnt_false : forall {A} (l : list A), cnt (fun _ => false) l = 0.
Proof. induction l as [|a l IH]; auto. Qed.
Lemma tw_values : forall {A} (p : A -> bool) (t : table (mapping_pair A)),
  tw (fun e => p (value e)) t = cnt p (map value (map snd (slots t))).
Proof.
  intros. unfold tw, cnt. induction (slots t) as [|[h e] l IH]; simpl; auto. destruct (p (value e)); simpl; auto.
Qed.

(* Whatever Eq and Hash do, whatever the call does (panics included): of the items of any
   kind p, those in the map and those handed back are no more than those handed over. *)
Theorem C119_no_item_invented : forall {L R S} (cs : list (env L R S * xop L R)) s ll lr,
  Forall (fun c => keeps_buckets (lo (fst c))) cs ->
  let (m, ws) := xrun_with (with_hasher s ll lr) cs in
  (forall p, length (filter p (map value (map snd (iter_left m)))) + length (filter p (flat_map handed_l ws)) <=
             length (filter p (flat_map given_l (map snd cs)))) /\
  (forall q, length (filter q (map value (map snd (iter_right m)))) + length (filter q (flat_map handed_r ws)) <=
             length (filter q (flat_map given_r (map snd cs)))).
Proof.
  intros L R S cs s ll lr H.
  assert (X := fun p q => xrun_pays p q cs (with_hasher s ll lr) H).
  destruct (xrun_with _ cs) as [m ws]. split; intro p.
  - specialize (X p (fun _ => false)). unfold wm in X.
    rewrite !(tw_values p : forall t, tw (vl p) t = _), !(tw_values (fun _ => false) : forall t, tw (vr _) t = _), !cnt_false in X.
    change (cnt p (map value (map snd (slots (left_set (with_hasher (L := L) (R := R) s ll lr)))))) with 0 in X.
    unfold cnt in X. unfold iter_left. lia.
  - specialize (X (fun _ => false) p). unfold wm in X.
    rewrite !(tw_values p : forall t, tw (vr p) t = _), !(tw_values (fun _ => false) : forall t, tw (vl _) t = _), !cnt_false in X.
    change (cnt p (map value (map snd (slots (right_set (with_hasher (L := L) (R := R) s ll lr)))))) with 0 in X.
    unfold cnt in X. unfold iter_right. lia.
Qed.

(* 2k and 2k+1 are equal, but have different hashes *)
Definition half_eq (a b : N) : bool := (a / 2 =? b / 2)%N.
Definition bad_env (lo : layout) : env N N N :=
  Env _ _ _ half_eq half_eq (fun s a => s + a)%N (fun s a => s + a)%N (fun _ _ => 0%N) lo true.
Definition bad_history : list (env N N N * xop N N) :=
  List.map (fun o => (bad_env lo_wild, o))
    [Call (Insert 2 10); Call (Insert 4 20); Call (RemoveViaLeft 3); Call (SwapRight 21 12);
     Call (Insert 6 30); DrainN 1; Call (Insert 6 31); Call (Insert 8 31)]%N.

Example C119_case : Forall (fun c => keeps_buckets (lo (fst c))) bad_history /\
  let (m, ws) := xrun_with (with_hasher 0 0 0)%N bad_history in
  map value (map snd (iter_left m)) = [8%N] /\ map value (map snd (iter_right m)) = [10%N; 31%N] /\
  ws = [OIns Neither; OIns Neither; OPanic; OPanic; OIns Neither; OItems [Some (4%N, 20%N)] false;
        OPanic; OIns Neither].
Proof.
  split; [|vm_compute; repeat split].
  repeat (apply Forall_cons; [apply keeps_buckets_ok, lo_wild_ok|]). apply Forall_nil.
Qed.

(* C117 needs Hash to agree with Eq: with an Eq that is an equivalence and a Hash that tells
   equal items apart, remove_via_left finds the pair of an equal item, panics, and leaves the
   right item of that pair behind. *)
Theorem C117_hash_must_agree_refuted : exists (E : env N N N) l r l',
  (forall a, eqL E a a = true) /\ (forall a b, eqL E a b = true -> eqL E b a = true) /\
  (forall a b c, eqL E a b = true -> eqL E b c = true -> eqL E a c = true) /\ layout_ok (lo E) /\
  let (m, ws) := run E (with_hasher 0 0 0)%N [Insert l r; RemoveViaLeft l'] in
  eqL E l' l = true /\ ws = [OIns Neither; OPanic] /\
  iter_left m = [] /\ map value (map snd (iter_right m)) = [r].
Proof.
  exists (bad_env lo_wild), 2%N, 10%N, 3%N.
  split; [intros a; apply N.eqb_refl|]. split; [intros a b; cbn; unfold half_eq; rewrite N.eqb_sym; auto|].
  split; [intros a b c; cbn; unfold half_eq; rewrite !N.eqb_eq; congruence|].
  split; [apply lo_wild_ok|]. vm_compute. repeat split.
Qed.

Print Assumptions C119_no_item_invented.
Print Assumptions C117_hash_must_agree_refuted.
