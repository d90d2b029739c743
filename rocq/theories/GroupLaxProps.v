(* GroupMap with an Eq that is not an equivalence: theorems. *)
From Coq Require Import List NArith Lia Bool Permutation PeanoNat.
From Verif Require Import Closures Prelude RawTable GroupMap ListFacts TableFacts IterFacts GroupSpec GroupHistory
  GroupProofs GroupProofs2 GroupLax GroupLaxProofs GroupLaxProofs2 GroupLaxProofs3 GroupLaxProofs4 Concrete.
From Verif Require CycleMapLaxProps.
Import ListNotations.
Open Scope N_scope.

Section Step.
  Context {L R S : Type} (E : env L R S) (OK : lax E).
  Notation WRep := (WRep E).
  Notation eL := (eqL E).
  Notation eR := (eqR E).

  Lemma lens_w : forall s lc rc m A B, WRep s lc rc m A B ->
    len_left m = length (lefts (tview A B)) /\ len_right m = length (rights (tview A B)).
  Proof.
    intros s lc rc m A B (T & _). unfold len_left, len_right, t_len.
    rewrite (Permutation_length (t_l _ _ _ _ _ T)), (Permutation_length (t_r _ _ _ _ _ T)).
    simpl. rewrite !map_length. auto.
  Qed.
  Lemma empty_w : forall s lc rc m A B, WRep s lc rc m A B ->
    is_empty m = match rights (tview A B) with [] => true | _ => false end.
  Proof.
    intros s lc rc m A B W. unfold is_empty. destruct (lens_w _ _ _ _ _ _ W) as [-> ->].
    destruct W as (T & H & _). destruct B as [|y B]; simpl.
    - destruct A as [|z A]; auto. destruct (c_link _ _ _ _ _ _ H z (or_introl eq_refl)) as (y & [] & _).
    - rewrite Nat.add_succ_r. auto.
  Qed.

  Lemma clear_w : forall s lc rc m A B, WRep s lc rc m A B ->
    exists m', clear E m = Ret m' tt /\ WRep s lc rc m' [] [].
  Proof.
    intros s lc rc m A B (T & H & C1 & C2). unfold clear. mrun. eexists; split; [reflexivity|].
    split; [|split].
    - constructor; simpl; auto. apply (t_hb _ _ _ _ _ T).
    - constructor; simpl; try intros ? []; constructor.
    - simpl. auto.
  Qed.

  Ltac fin A B lc rc W := exists A, B, lc, rc; cbn [via fst snd]; split; [|split; [exact W|split; lia]].
  Lemma step_w : forall s lc rc m A B o, WRep s lc rc m A B ->
    lc + ids o < two64 -> rc + ids o < two64 -> lax_calm E m o ->
    exists A' B' lc' rc', lax_step eL eR (tview A B) o (tview A' B') (snd (step E m o)) /\
      WRep s lc' rc' (fst (step E m o)) A' B' /\ lc' <= lc + ids o /\ rc' <= rc + ids o.
  Proof.
    intros s lc rc m A B o W BL BR G.
    destruct (queries_w E OK _ _ _ _ _ _ W) as (Q1 & Q2 & Q3 & Q4 & Q5).
    assert (NEW := like_refl (tview A B)).
    destruct o; cbn [ids] in *; cbn [lax_calm with_extend lax_calm1] in G; try cbn [step].
    - destruct (insert_w E OK _ _ _ _ _ _ l r W) as (m' & A' & B' & lc' & rc' & -> & W' & L1 & L2 & SP); auto.
      fin A' B' lc' rc' W'. split; auto.
    - destruct (insert_remove_w E OK _ _ _ _ _ _ l r W) as (m' & A' & B' & w & -> & W' & SP); auto.
      fin A' B' (lc + 1) (rc + 1) W'. auto.
    - destruct (insert_left_w E OK _ _ _ _ _ _ l r W) as (m' & A' & B' & lc' & w & -> & W' & L1 & SP); auto.
      fin A' B' lc' rc W'. auto.
    - destruct (insert_right_w E OK _ _ _ _ _ _ r W) as (m' & A' & B' & w & -> & W' & SP); auto.
      fin A' B' lc (rc + 1) W'. exists w; auto.
    - destruct (swap_right_w E OK _ _ _ _ _ _ old new W) as (m' & A' & B' & -> & W' & SP); auto.
      fin A' B' lc (rc + 1) W'. auto.
    - destruct (swap_right_remove_w E OK _ _ _ _ _ _ old new W) as (m' & A' & B' & w & -> & W' & SP); auto.
      fin A' B' lc (rc + 1) W'. auto.
    - destruct (pair_w E OK _ _ _ _ _ _ l r W) as (m' & A' & B' & w & -> & W' & SP).
      fin A' B' lc rc W'. auto.
    - destruct (remove_w E OK _ _ _ _ _ _ l r W) as (m' & A' & B' & w & -> & W' & SP).
      fin A' B' lc rc W'. auto.
    - destruct (remove_left_w E OK _ _ _ _ _ _ l W) as (m' & A' & B' & w & -> & W' & SP).
      fin A' B' lc rc W'. exists w; auto.
    - destruct (remove_right_w E OK _ _ _ _ _ _ r W) as (m' & A' & B' & w & -> & W' & SP).
      fin A' B' lc rc W'. exists w; auto.
    - fin A B lc rc W. apply Q2.
    - fin A B lc rc W. apply Q1.
    - fin A B lc rc W. apply Q3.
    - fin A B lc rc W. apply Q4.
    - fin A B lc rc W. apply Q5.
    - destruct (get_left_iter_w E OK _ _ _ _ _ _ r W) as (w & EQ & SP). cbn [step] in EQ. rewrite EQ.
      fin A B lc rc W. auto.
    - destruct (iter_w E OK _ _ _ _ _ _ W) as (Q & -> & P). fin A B lc rc W. split; eauto.
    - destruct (iter_paired_w E OK _ _ _ _ _ _ W) as (Y & _ & -> & _ & P). fin A B lc rc W. split; eauto.
    - destruct (iter_unpaired_w E _ _ _ _ _ _ W) as (Y & _ & -> & _ & P). fin A B lc rc W. split; eauto.
    - destruct (left_right_w E _ _ _ _ _ _ W) as ((Q & -> & P) & _). fin A B lc rc W. split; eauto.
    - destruct (left_right_w E _ _ _ _ _ _ W) as (_ & (Q & -> & P)). fin A B lc rc W. split; eauto.
    - destruct (retain_paired_w E OK f x _ _ _ _ _ _ W G) as (w & -> & SP). fin A B lc rc W. auto.
    - destruct (retain_unpaired_w E OK f x _ _ _ _ _ _ W) as (m' & A' & B' & w & -> & W' & SP).
      fin A' B' lc rc W'. auto.
    - rewrite extend_pairs_as.
      destruct (extend_w E OK (map (fun p => (Some (fst p), snd p)) xs) _ _ _ _ _ _ W)
        as (m' & A' & B' & lc' & rc' & -> & W' & L1 & L2 & SP); rewrite ?map_length in *; auto.
      { rewrite map_map. exact G. }
      fin A' B' lc' rc' W'. split; auto.
    - destruct (extend_w E OK xs _ _ _ _ _ _ W)
        as (m' & A' & B' & lc' & rc' & -> & W' & L1 & L2 & SP); auto.
      fin A' B' lc' rc' W'. split; auto.
    - destruct (clear_w _ _ _ _ _ _ W) as (m' & -> & W'). fin (@nil (wleft L R)) (@nil (zright R)) lc rc W'.
      split; auto.
    - assert (W' : WRep s lc rc (clone m) A B) by (destruct m; exact W).
      fin A B lc rc W'. split; auto.
    - fin A B lc rc W. split; auto. destruct (lens_w _ _ _ _ _ _ W) as [-> _]. auto.
    - fin A B lc rc W. split; auto. destruct (lens_w _ _ _ _ _ _ W) as [_ ->]. auto.
    - fin A B lc rc W. split; auto. rewrite (empty_w _ _ _ _ _ _ W). auto.
  Qed.

  Lemma proper_w : forall s lc rc m A B, WRep s lc rc m A B -> proper (tview A B).
  Proof.
    intros s lc rc m A B (_ & H & _). split; cbn [rights lefts tview]; rewrite !map_map.
    - apply (c_rids _ _ _ _ _ _ H).
    - intros t Ht. apply in_map_iff in Ht as (z & <- & Hz).
      destruct (c_link _ _ _ _ _ _ H z Hz) as (y & Hy & Q & _). simpl. rewrite <- Q.
      apply (in_map (fun y => fst (y_key y))); auto.
  Qed.
End Step.

(* every call may have its own Eq, layouts and overflow checks; the hashes are those of the map *)
Definition odd_calls {L R S} (hL : S -> L -> N) (hR : S -> R -> N) (hP : N -> N * N -> N)
    (cs : list (env L R S * op L R)) : Prop :=
  Forall (fun c => lax (fst c) /\ hashL (fst c) = hL /\ hashR (fst c) = hR /\ hashP (fst c) = hP) cs.

Lemma wrep_env : forall {L R S} (E E' : env L R S) s lc rc m A B,
  hashL E = hashL E' -> hashR E = hashR E' -> hashP E = hashP E' ->
  WRep E s lc rc m A B -> WRep E' s lc rc m A B.
Proof.
  intros L R S E E' s lc rc m A B HL HR HP (T & H & C). split; [|split; auto].
  - destruct T. constructor; auto.
    + rewrite t_l. unfold wslot. rewrite HL, HR. auto.
    + rewrite t_r. unfold slotR. rewrite HR. auto.
  - destruct H. constructor; auto. intros y Hy. rewrite c_tab by auto.
    unfold wpslot, wkey. rewrite HL, HP. auto.
Qed.

Lemma run_w : forall {L R S} hL hR hP (cs : list (env L R S * op L R)) (E : env L R S) s lc rc m A B,
  odd_calls hL hR hP cs -> lax_guarded m cs -> hashL E = hL -> hashR E = hR -> hashP E = hP ->
  WRep E s lc rc m A B -> lc + budget (map snd cs) < two64 -> rc + budget (map snd cs) < two64 ->
  exists A' B' lc' rc', lax_run (tview A B) cs (tview A' B') (snd (run_with m cs)) /\
    WRep E s lc' rc' (fst (run_with m cs)) A' B' /\
    lc' <= lc + budget (map snd cs) /\ rc' <= rc + budget (map snd cs).
Proof.
  intros L R S hL hR hP. induction cs as [|[E1 o] cs IH]; intros E s lc rc m A B HC G HL HR HP W BL BR.
  - exists A, B, lc, rc. split; [constructor|]. split; [auto|simpl; lia].
  - inversion HC as [|? ? (OK & HL1 & HR1 & HP1) HC']; subst. cbn [fst] in *. cbn [map snd budget] in BL, BR.
    destruct G as [G1 G2].
    destruct (step_w E1 OK s lc rc m A B o) as (A1 & B1 & lc1 & rc1 & S1 & W1 & L1 & L2); [|lia|lia|auto|].
    { eapply wrep_env; [| | |exact W]; congruence. }
    cbn [run_with]. destruct (step E1 m o) as [m1 w]. cbn [fst snd] in *.
    destruct (IH E s lc1 rc1 m1 A1 B1) as (A2 & B2 & lc2 & rc2 & S2 & W2 & L3 & L4); auto; try lia.
    { eapply wrep_env; [| | |exact W1]; congruence. }
    destruct (run_with m1 cs) as [m2 ws]. cbn [fst snd] in *.
    exists A2, B2, lc2, rc2. split; [econstructor; eauto|]. split; [auto|]. cbn [map snd budget]. lia.
Qed.
Lemma wrep_new : forall {L R S} (E : env L R S) s ll lr, WRep E s 0 0 (with_hasher s ll lr) [] [].
Proof.
  intros. split; [|split].
  - constructor; simpl; auto.
  - constructor; simpl; try intros ? []; constructor.
  - simpl. auto.
Qed.

(* ---- C132: the groups survive any Eq ---- *)
(* E: the Eq in force when the map is looked at *)
Theorem C132_groups_survive_any_eq :
  forall {L R S} hL hR hP (cs : list (env L R S * op L R)) (E : env L R S) s ll lr,
  odd_calls hL hR hP ((E, IterAll) :: cs) -> lax_guarded (with_hasher s ll lr) cs ->
  budget (map snd cs) < two64 ->
  let m := fst (run_with (with_hasher s ll lr) cs) in
  exists G, lax_run (GT [] []) cs G (snd (run_with (with_hasher s ll lr) cs)) /\ proper G /\
    len_left m = length (lefts G) /\ len_right m = length (rights G) /\
    (exists ls, left_rest (iter_left m) = Done ls /\ Permutation ls (map snd (lefts G))) /\
    (exists rs, right_rest (iter_right m) = Done rs /\ Permutation rs (map snd (rights G))) /\
    (exists ps, paired_rest E m (iter_paired m) = Done ps /\ Permutation ps (s_pairs G)) /\
    (exists rs, unpaired_rest (iter_unpaired m) = Done rs /\ Permutation rs (s_alone G)) /\
    (exists es, iter_rest E m (iter m) = Done es /\ Permutation es (s_all G)).
Proof.
  intros L R S hL hR hP cs E s ll lr HC G B m.
  destruct (Forall_inv HC) as (OK & HL & HR & HP). cbn [fst] in *. apply Forall_inv_tail in HC.
  destruct (run_w hL hR hP cs E s 0 0 _ [] [] HC G HL HR HP (wrep_new E s ll lr))
    as (A & Bs & lc & rc & SP & W & _); [lia|lia|].
  fold m in W. exists (tview A Bs). split; [exact SP|]. split; [eapply proper_w; eauto|].
  destruct (lens_w E _ _ _ _ _ _ W) as [-> ->]. split; auto. split; auto.
  destruct (left_right_w E _ _ _ _ _ _ W) as [X Y]. split; [exact X|]. split; [exact Y|].
  destruct (iter_paired_w E OK _ _ _ _ _ _ W) as (Q1 & _ & E1 & _ & P1).
  destruct (iter_unpaired_w E _ _ _ _ _ _ W) as (Q2 & _ & E2 & _ & P2).
  destruct (iter_w E OK _ _ _ _ _ _ W) as (Q3 & E3 & P3). eauto 12.
Qed.

(* the calls that may panic at all *)
Definition touchy {L R} (o : op L R) : bool :=
  match o with RetainPaired _ _ _ | RetainUnpaired _ _ _ => true | _ => false end.
Lemma lax_no_panic : forall {L R} (eL : L -> L -> bool) (eR : R -> R -> bool) G o G' w,
  lax_step eL eR G o G' w -> touchy o = false -> w <> OPanic.
Proof.
  intros L R eL eR G o G' w H T. destruct o; try discriminate T; simpl in H;
    repeat match goal with
    | H : exists _, _ |- _ => destruct H
    | H : _ /\ _ |- _ => destruct H
    | H : context [match ?o with _ => _ end] |- _ => destruct o
    end; subst; try discriminate; auto.
Qed.
Theorem C132_no_panic : forall {L R S} hL hR hP (cs : list (env L R S * op L R)) s ll lr,
  odd_calls hL hR hP cs -> lax_guarded (with_hasher s ll lr) cs -> budget (map snd cs) < two64 ->
  Forall2 (fun c w => touchy (snd c) = false -> w <> OPanic) cs
    (snd (run_with (with_hasher s ll lr) cs)).
Proof.
  intros L R S hL hR hP cs s ll lr HC G B. destruct cs as [|[E o] cs]; [constructor|].
  destruct (Forall_inv HC) as (OK & HL & HR & HP). cbn [fst] in *.
  destruct (run_w hL hR hP _ E s 0 0 _ [] [] HC G HL HR HP (wrep_new E s ll lr))
    as (A & Bs & lc & rc & H & _); [lia|lia|].
  revert H. generalize (snd (run_with (with_hasher s ll lr) ((E, o) :: cs))) (@tview L R [] []).
  generalize ((E, o) :: cs) (tview A Bs). clear. intros cs G2 ws G0 H.
  induction H; constructor; auto. cbn [snd]. eapply lax_no_panic; eauto.
Qed.

(* ---- C133: the set remove_right returns, and retain_unpaired ---- *)
(* no two of these items are equal, either way round *)
Definition distinct {T} (e : T -> T -> bool) : list T -> Prop :=
  ForallOrdPairs (fun a b => e a b = false /\ e b a = false).
(* every right item equals itself and no other *)
Definition apart {R} (e : R -> R -> bool) (rs : list (N * R)) : Prop :=
  forall q q', In q rs -> In q' rs -> (e (snd q) (snd q') = true <-> q = q').

Section Apart.
  Context {L R : Type} (eL : L -> L -> bool) (eR : R -> R -> bool).
  Notation tagged := (tagged L R).
  Implicit Types (G : tagged).

  Lemma distinct_perm : forall {T} (e : T -> T -> bool) l l', Permutation l l' -> distinct e l -> distinct e l'.
  Proof.
    intros T e l l' P. induction P; intros D.
    - auto.
    - inversion D; subst. constructor; [|apply IHP; auto]. rewrite <- P. auto.
    - inversion D; subst. inversion H1; subst. inversion H2; subst.
      constructor; [constructor; [tauto|auto]|]. constructor; auto.
    - auto.
  Qed.
  Lemma distinct_sub : forall {T U} (e : U -> U -> bool) (g : T -> U) (p : T -> bool) l,
    distinct e (map g l) -> distinct e (map g (filter p l)).
  Proof.
    intros T U e g p. induction l as [|a l IH]; simpl; intros D; auto.
    inversion D; subst. destruct (p a); simpl; auto. constructor; [|apply IH; auto].
    rewrite Forall_forall in *. intros x Hx. apply H1. apply in_map_iff in Hx as (y & <- & Hy).
    apply filter_In in Hy as [Hy _]. apply in_map; auto.
  Qed.
  Lemma gather_distinct : forall ls acc, distinct eL (acc ++ ls) -> gather eL acc ls = acc ++ ls.
  Proof.
    induction ls as [|l ls IH]; intros acc D; simpl; [rewrite app_nil_r; auto|].
    assert (X : existsb (eL l) acc = false).
    { clear IH. induction acc as [|a acc IH]; auto. simpl in *. inversion D; subst.
      rewrite IH by auto. rewrite Forall_forall in H1.
      assert (Z : In l (acc ++ l :: ls)) by (apply in_or_app; simpl; auto).
      destruct (H1 l Z) as [_ ->]. auto. }
    rewrite X, IH; rewrite <- app_assoc; auto.
  Qed.

  Definition alone G (q : N * R) : bool := match members G (fst q) with [] => true | _ => false end.
  Lemma alone_as : forall G, s_alone G = map snd (filter (alone G) (rights G)).
  Proof.
    intros G. unfold s_alone. generalize (rights G). induction l as [|q l IH]; auto.
    cbn [flat_map filter]. rewrite IH. unfold alone at 2. destruct (members G (fst q)); auto.
  Qed.
  Lemma members_perm : forall G G' t, Permutation (lefts G') (lefts G) ->
    Permutation (members G' t) (members G t).
  Proof. intros. apply Permutation_map, filter_perm; auto. Qed.
  Lemma alone_perm : forall G G' q, Permutation (lefts G') (lefts G) -> alone G' q = alone G q.
  Proof.
    intros G G' q P. assert (K := Permutation_length (members_perm G G' (fst q) P)). unfold alone.
    destruct (members G' (fst q)), (members G (fst q)); simpl in K; auto; discriminate.
  Qed.
  Lemma flat_map_perm : forall {T U} (f g : T -> list U) l l', Permutation l l' ->
    (forall x, Permutation (f x) (g x)) -> Permutation (flat_map f l) (flat_map g l').
  Proof.
    intros T U f g l l' P F. transitivity (flat_map f l'); [apply Permutation_flat_map; auto|].
    clear - F. induction l'; simpl; auto. apply Permutation_app; auto.
  Qed.
  Lemma pairs_perm : forall G G', like G G' -> Permutation (s_pairs G') (s_pairs G).
  Proof.
    intros G G' [P1 P2]. apply flat_map_perm; auto. intros q. apply Permutation_map, members_perm; auto.
  Qed.
  Lemma alone_like : forall G G', like G G' -> Permutation (s_alone G') (s_alone G).
  Proof.
    intros G G' [P1 P2]. rewrite !alone_as. apply Permutation_map.
    rewrite (filter_ext (alone G') (alone G)) by (intros; apply alone_perm; auto). apply filter_perm; auto.
  Qed.

  Lemma apart_nodup : forall rs : list (N * R), NoDup (map fst rs) -> apart eR rs -> NoDup (map snd rs).
  Proof.
    intros rs ND AP. assert (NR : NoDup rs) by (eapply NoDup_map_inv; eauto).
    clear ND. induction rs as [|q rs IH]; simpl; [constructor|]. inversion NR; subst. constructor.
    - intros I. apply in_map_iff in I as (q' & Q & I). apply H1.
      assert (q = q'); [|subst; auto]. apply AP; [left; auto|right; auto|].
      rewrite Q. apply AP; auto; left; auto.
    - apply IH; auto. intros x y Hx Hy. apply AP; right; auto.
  Qed.
  (* with right items that Eq tells apart, a lookup leads back to the item itself *)
  Lemma yes_tags : forall G Q yes ts, apart eR (rights G) ->
    (forall r, In r yes -> In r Q) -> Permutation Q (s_alone G) ->
    Forall2 (fun r t => exists q, In q (rights G) /\ on eR r q = true /\ t = fst q) yes ts ->
    exists qs, yes = map snd qs /\ ts = map fst qs /\ forall q, In q qs -> In q (rights G) /\ alone G q = true.
  Proof.
    intros G Q yes ts AP I PQ F. induction F as [|r t yes ts (q & Hq & Q1 & ->) F IH].
    - exists []. split; auto. split; auto. intros ? [].
    - destruct IH as (qs & -> & -> & K); [intros; apply I; right; auto|].
      assert (Hr := I r (or_introl eq_refl)). apply (Permutation_in _ PQ) in Hr. rewrite alone_as in Hr.
      apply in_map_iff in Hr as (q0 & <- & Hr). apply filter_In in Hr as [Hr1 Hr2].
      apply (AP q q0 Hq Hr1) in Q1. subst q0. exists (q :: qs). split; auto. split; auto.
      intros x [<-|Hx]; auto.
  Qed.
  Lemma retain_apart : forall {X} (f : X -> R -> X * verdict) x G G' w, proper G -> apart eR (rights G) ->
    lax_step eL eR G (RetainUnpaired X f x) G' w ->
    exists Q, Permutation Q (s_alone G) /\
      let '(_, _, others, pn) := s_filter f x Q in
      w = (if pn then OPanic else OUnit) /\ Permutation (s_pairs G') (s_pairs G) /\
      Permutation (s_alone G') (if pn then Q else others).
  Proof.
    intros X f x G G' w [ND LK] AP (Q & PQ & H). exists Q. split; auto.
    destruct (s_filter f x Q) as [[[x' yes] others] pn] eqn:SF. assert (PF := s_filter_perm _ _ _ _ _ _ _ SF).
    assert (I : forall r, In r yes -> In r Q).
    { intros r Hr. eapply Permutation_in; [symmetry; exact PF|]. apply in_or_app; auto. }
    destruct H as [(-> & LI & H)|(-> & -> & ts & F & PR & PL)].
    - destruct H as [->|(r & Hr & K)].
      + split; auto. split; [apply pairs_perm; auto|]. rewrite PQ. apply alone_like; auto.
      + exfalso. apply I, (Permutation_in _ PQ) in Hr. rewrite alone_as in Hr.
        apply in_map_iff in Hr as (q & <- & Hq). apply filter_In in Hq as [Hq _].
        specialize (K q Hq). unfold on in K. rewrite (proj2 (AP q q Hq Hq) eq_refl) in K. discriminate.
    - destruct (yes_tags _ _ _ _ AP I PQ F) as (qs & -> & -> & K). split; auto.
      assert (PL' : Permutation (lefts G') (lefts G)).
      { rewrite PL, filter_all_true; auto. intros p Hp. apply negb_true_iff.
        destruct (existsb (N.eqb (fst p)) (map fst qs)) eqn:EX; auto. exfalso.
        apply existsb_exists in EX as (t & Ht & Q1). apply N.eqb_eq in Q1.
        apply in_map_iff in Ht as (q & <- & Hq). destruct (K q Hq) as [_ A]. unfold alone, members in A.
        assert (Z : In p (filter (fun p => fst p =? fst q) (lefts G))).
        { apply filter_In. split; auto. apply N.eqb_eq; auto. }
        destruct (filter (fun p0 => fst p0 =? fst q) (lefts G)); [destruct Z|discriminate]. }
      assert (UT : forall q, In q (rights G) -> (untagged (map fst qs) q = false <-> In q qs)).
      { intros q Hq. unfold untagged. rewrite negb_false_iff, existsb_exists. split.
        - intros (t & Ht & Q1). apply N.eqb_eq in Q1. apply in_map_iff in Ht as (q' & <- & Hq').
          assert (q = q'); [|subst; auto]. destruct (K q' Hq') as [Hq2 _]. clear - ND Hq Hq2 Q1.
          induction (rights G) as [|a l IH]; [destruct Hq|]. inversion ND; subst.
          destruct Hq as [->|Hq], Hq2 as [->|Hq2]; auto; exfalso; apply H1.
          + rewrite Q1. apply in_map; auto.
          + rewrite <- Q1. apply in_map; auto.
        - intros Hq'. exists (fst q). split; [apply in_map; auto|apply N.eqb_refl]. }
      split.
      + etransitivity; [apply flat_map_perm; [exact PR|]; intros q; apply Permutation_map, members_perm; exact PL'|].
        unfold s_pairs. clear - UT K. assert (Y : forall q, In q (rights G) -> untagged (map fst qs) q = false -> members G (fst q) = []).
        { intros q Hq U. apply UT in U; auto. destruct (K q U) as [_ A]. unfold alone in A.
          destruct (members G (fst q)); auto; discriminate. }
        clear - Y. induction (rights G) as [|q l IH]; simpl; auto.
        specialize (IH (fun a Ha => Y a (or_intror Ha))).
        destruct (untagged (map fst qs) q) eqn:U; simpl.
        * apply Permutation_app_head; auto.
        * rewrite (Y q) by (simpl; auto). auto.
      + assert (NR := apart_nodup _ ND AP).
        assert (NS : forall p, NoDup (map snd (filter p (rights G)))).
        { intros p. clear - NR. induction (rights G) as [|a l IH]; simpl; [constructor|].
          inversion NR; subst. destruct (p a); simpl; auto. constructor; auto. intros I. apply H1.
          apply in_map_iff in I as (b & <- & Hb). apply filter_In in Hb as [Hb _]. apply in_map; auto. }
        assert (NQ : NoDup (map snd qs ++ others)).
        { eapply NoDup_perm; [|apply (NS (alone G))]. rewrite <- alone_as, <- PQ. exact PF. }
        rewrite alone_as. rewrite (filter_ext (alone G') (alone G)) by (intros; apply alone_perm; auto).
        etransitivity; [apply Permutation_map, filter_perm; exact PR|]. rewrite filter_filter.
        apply NoDup_Permutation; [apply NS|clear - NQ; induction qs; simpl in NQ; auto; inversion NQ; auto|].
        intros r. split.
        * intros Hr. apply in_map_iff in Hr as (q & <- & Hq). apply filter_In in Hq as [Hq B].
          apply andb_prop in B as [B1 B2].
          assert (Z : In (snd q) (map snd qs ++ others)).
          { eapply Permutation_in; [exact PF|]. eapply Permutation_in; [symmetry; exact PQ|].
            rewrite alone_as. apply in_map, filter_In. auto. }
          apply in_app_or in Z as [Z|Z]; auto. exfalso. apply in_map_iff in Z as (q' & Q1 & Hq').
          destruct (K q' Hq') as [Hq2 _].
          assert (q' = q). { apply AP; auto. rewrite Q1. apply AP; auto. }
          subst q'. apply UT in Hq'; auto. congruence.
        * intros Hr. assert (Z : In r (s_alone G)).
          { eapply Permutation_in; [exact PQ|]. eapply Permutation_in; [symmetry; exact PF|].
            apply in_or_app; auto. }
          rewrite alone_as in Z. apply in_map_iff in Z as (q & <- & Hq). apply filter_In in Hq as [Hq A].
          apply in_map, filter_In. split; auto. rewrite A, andb_true_r.
          destruct (untagged (map fst qs) q) eqn:U; auto. exfalso. apply UT in U; auto.
          clear - NQ Hr U. induction qs as [|a qs IH]; [destruct U|]. simpl in NQ. inversion NQ; subst.
          destruct U as [->|U]; auto. apply H1. apply in_or_app; auto.
  Qed.
End Apart.

Theorem C133_remove_right_and_retain_any_eq_partial :
  forall {L R S} hL hR hP (cs : list (env L R S * op L R)) (E : env L R S) s ll lr,
  odd_calls hL hR hP ((E, IterAll) :: cs) -> lax_guarded (with_hasher s ll lr) cs ->
  budget (map snd cs) < two64 ->
  let m := fst (run_with (with_hasher s ll lr) cs) in
  exists G, lax_run (GT [] []) cs G (snd (run_with (with_hasher s ll lr) cs)) /\
    (* remove_right: what is removed always; what is returned if Eq tells the left items apart *)
    (forall r, exists m' q w ls rs,
       remove_right E r m = Ret m' w /\ picks (on (eqR E) r) (rights G) q /\
       left_rest (iter_left m') = Done ls /\ right_rest (iter_right m') = Done rs /\
       match q with
       | None => w = None /\ Permutation ls (map snd (lefts G)) /\ Permutation rs (map snd (rights G))
       | Some q =>
           Permutation (map snd (lefts G)) (members G (fst q) ++ ls) /\
           Permutation (map snd (rights G)) (snd q :: rs) /\
           exists gs, w = Some (gs, snd q) /\ incl gs (members G (fst q)) /\
             (distinct (eqL E) (map snd (lefts G)) -> Permutation gs (members G (fst q)))
       end) /\
    (* retain_unpaired, if Eq tells the right items apart *)
    (apart (eqR E) (rights G) -> forall X (f : X -> R -> X * verdict) x,
       exists Q, Permutation Q (s_alone G) /\
       let '(_, _, others, pn) := s_filter f x Q in
       let '(m', w) := step E m (RetainUnpaired X f x) in
       w = (if pn then OPanic else OUnit) /\
       (exists ps, paired_rest E m' (iter_paired m') = Done ps /\ Permutation ps (s_pairs G)) /\
       (exists rs, unpaired_rest (iter_unpaired m') = Done rs /\
          Permutation rs (if pn then Q else others))).
Proof.
  intros L R S hL hR hP cs E s ll lr HC G B m.
  destruct (Forall_inv HC) as (OK & HL & HR & HP). cbn [fst] in *. apply Forall_inv_tail in HC.
  destruct (run_w hL hR hP cs E s 0 0 _ [] [] HC G HL HR HP (wrep_new E s ll lr))
    as (A & Bs & lc & rc & SP & W & _); [lia|lia|].
  fold m in W. exists (tview A Bs). split; [exact SP|]. split.
  - intros r. destruct (remove_right_w E OK _ _ _ _ _ _ r W) as (m' & A' & B' & w & RUN & W' & q & PK & RG).
    destruct (left_right_w E _ _ _ _ _ _ W') as [(ls & E1 & P1) (rs & E2 & P2)].
    exists m', q, w, ls, rs. split; auto. split; auto. split; auto. split; auto.
    destruct q as [q|]; [|destruct RG as [[P3 P4] ->]].
    2:{ split; auto. split.
        - rewrite P1. apply Permutation_map; auto.
        - rewrite P2. apply Permutation_map; auto. }
    destruct RG as (P3 & P4 & Q & PQ & ->). split; [|split].
    + assert (Z : Permutation (map snd (lefts (tview A' B')))
        (map snd (filter (fun p => negb (fst p =? fst q)) (lefts (tview A Bs))))) by (apply Permutation_map; auto).
      rewrite P1, Z. unfold members. rewrite <- map_app. apply Permutation_map.
      clear. induction (lefts (tview A Bs)) as [|p l IH]; simpl; auto.
      destruct (fst p =? fst q); simpl; [constructor; auto|].
      etransitivity; [constructor; exact IH|]. apply Permutation_middle.
    + etransitivity; [apply Permutation_map; exact P3|]. simpl. constructor. symmetry; auto.
    + exists (gather (eqL E) [] Q). split; auto. split.
      * assert (GI : forall Q acc, incl (gather (eqL E) acc Q) (acc ++ Q)).
        { clear. induction Q as [|l Q IH]; intros acc; simpl; [rewrite app_nil_r; apply incl_refl|].
          intros x Hx. apply IH in Hx. destruct (existsb (eqL E l) acc).
          - apply in_app_or in Hx. apply in_or_app. simpl. tauto.
          - rewrite <- app_assoc in Hx. auto. }
        intros x Hx. apply GI in Hx. eapply Permutation_in; eauto.
      * intros D. rewrite gather_distinct; auto. simpl.
        eapply distinct_perm; [symmetry; exact PQ|]. apply distinct_sub; auto.
  - intros AP X f x.
    destruct (retain_unpaired_w E OK f x _ _ _ _ _ _ W) as (m' & A' & B' & w & RUN & W' & S1).
    destruct (retain_apart (eqL E) (eqR E) f x _ _ w (proper_w E _ _ _ _ _ _ W) AP S1) as (Q & PQ & K).
    exists Q. split; auto. destruct (s_filter f x Q) as [[[x' yes] others] pn]. destruct K as (K1 & K2 & K3).
    cbn [step]. rewrite RUN. split; auto.
    destruct (iter_paired_w E OK _ _ _ _ _ _ W') as (Q1 & _ & E1 & _ & P1).
    destruct (iter_unpaired_w E _ _ _ _ _ _ W') as (Q2 & _ & E2 & _ & P2). split.
    + eexists; split; [exact E1|]. rewrite P1. auto.
    + eexists; split; [exact E2|]. rewrite P2. auto.
Qed.

(* ---- cases ---- *)
Notation odd_env := CycleMapLaxProps.odd_env.
Notation nan_eq := CycleMapLaxProps.nan_eq.
Notation le_eq := CycleMapLaxProps.le_eq.
Definition say {A} (b : A -> bool) : unit -> A -> unit * verdict := fun _ a => (tt, Some (b a)).

(* NaNs on both sides, then calls under another Eq *)
Definition odd_history : list (env N N N * op N N) :=
  let e1 := odd_env nan_eq lo_wild in let e2 := odd_env le_eq lo_h7 in
  [(e1, Insert 0 10); (e1, InsertLeft 0 10); (e1, InsertRight 0); (e1, Insert 3 0);
   (e2, InsertLeft 5 12); (e2, Pair 9 0); (e1, Extend [(Some 7, 21); (None, 23)]); (e1, SwapRight 23 2);
   (e2, SwapRightRemove 19 24); (e1, RetainPaired unit (say (fun p => fst p =? 9)) tt);
   (e1, GetLeftIter 10); (e2, IterAll); (e2, GetRight 6);
   (e2, RetainUnpaired unit (say (fun r => r =? 23)) tt); (e1, RemoveRight 10); (e2, Remove 5 0); (e1, IterAll)].
Notation h2 := (fun s a : N => s + a mod 2).
Lemma odd_history_calls : odd_calls h2 h2 (hashP (odd_env nan_eq lo_wild)) odd_history.
Proof.
  repeat (apply Forall_cons; [split; [apply CycleMapLaxProps.odd_env_lax;
    auto using CycleMapLaxProps.nan_eq_mod, CycleMapLaxProps.le_eq_mod, lo_wild_ok, lo_h7_ok|auto]|]).
  apply Forall_nil.
Qed.
Lemma odd_history_guarded : lax_guarded (with_hasher 7 0 0) odd_history.
Proof.
  unfold odd_history. cbn [lax_guarded lax_calm with_extend lax_calm1 guarded map item_op fst snd].
  repeat split.
  - intros Q y p A I. vm_compute in A. injection A as <-.
    repeat (destruct I as [<-|I]; [vm_compute; discriminate|]). destruct I.
Qed.
Example C132_case :
  odd_calls h2 h2 (hashP (odd_env nan_eq lo_wild)) ((odd_env nan_eq lo_wild, IterAll) :: odd_history) /\
  lax_guarded (with_hasher 7 0 0) odd_history /\ budget (map snd odd_history) < two64 /\
  snd (run_with (with_hasher 7 0 0) odd_history) =
    [OUnit; OL None; OGroup None; OUnit; OL (Some 3); OBool true; OUnit; OUnit; OR None; OUnit; OLsO
     (Some [0; 0]); OItems [(None, 24); (None, 23); (Some 0, 10); (Some 0, 10); (Some 5, 0); (Some
     7, 21); (None, 2)]; OR (Some 10); OUnit; OGroup (Some ([0; 0], 10)); OGroup (Some ([5], 0));
     OItems [(None, 24); (Some 7, 21); (None, 2)]].
Proof.
  split; [|split; [exact odd_history_guarded|vm_compute; auto]].
  apply Forall_cons; [|exact odd_history_calls].
  split; [apply CycleMapLaxProps.nan_lax|auto].
Qed.
(* some contents that can be told apart by an Eq that is no equivalence, and some that cannot *)
Example C133_case : let e := fun a b => (a =? b) || (b =? 0) in
  distinct e [4; 3; 8] /\ apart e [(0, 21); (1, 3)] /\
  ~ distinct le_eq [0; 4] /\ ~ apart le_eq [(0, 0); (1, 10)].
Proof.
  cbn zeta. split; [|split; [|split]].
  - repeat constructor.
  - intros q q' H H'. simpl in H, H'.
    destruct H as [<-|[<-|[]]]; destruct H' as [<-|[<-|[]]]; simpl; split; auto; discriminate.
  - intros K. inversion K; subst. inversion H1; subst. destruct H3 as [X _]. vm_compute in X. discriminate.
  - intros K. assert (X : (0, 0) = (1, 10)); [|discriminate]. apply K; simpl; auto.
Qed.

(* With an Eq that is not symmetric: retain_unpaired, told to drop the unpaired right item 10,
   keeps it and drops the right item 0 together with its left item 1.  remove_right(10) removes
   the left items 4 and 0 and returns only 4. *)
Theorem C133_remove_right_and_retain_any_eq_refuted : exists E E' : env N N N, lax E /\ lax E' /\
  snd (run E (with_hasher 0 0 0) [InsertRight 10; Insert 1 0; IterAll;
         RetainUnpaired unit (say (fun r => r =? 10)) tt; IterAll; IterLeftAll])
    = [OGroup None; OUnit; OItems [(Some 1, 0); (None, 10)]; OUnit; OItems [(None, 10)]; OLs []] /\
  snd (run E' (with_hasher 0 0 0) [InsertRight 10; InsertLeft 4 10; InsertLeft 0 10; IterAll;
         RemoveRight 10; IterAll; IterLeftAll])
    = [OGroup None; OL None; OL None; OItems [(Some 4, 10); (Some 0, 10)];
       OGroup (Some ([4], 10)); OItems []; OLs []].
Proof.
  exists (odd_env le_eq lo_h7), (odd_env le_eq lo_wild).
  split; [apply CycleMapLaxProps.odd_env_lax; [exact CycleMapLaxProps.le_eq_mod|exact lo_h7_ok]|].
  split; [apply CycleMapLaxProps.le_lax|].
  vm_compute. auto.
Qed.

Print Assumptions C132_groups_survive_any_eq.
Print Assumptions C132_no_panic.
Print Assumptions C133_remove_right_and_retain_any_eq_partial.
Print Assumptions C133_remove_right_and_retain_any_eq_refuted.
