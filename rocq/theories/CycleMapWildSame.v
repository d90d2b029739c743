(* CycleMapFault.v is CycleMapWild.v for user code with fixed answers and a fuse. *)
From Coq Require Import List NArith Lia Bool Permutation PeanoNat.
From Verif Require Import Closures Prelude RawTable Optionals CycleMap ListFacts TableFacts
  CycleMapHistory CycleMapAny Faults Wild CycleMapWild.
From Verif Require CycleMapFault.
Import ListNotations.
Open Scope N_scope.

Section Same.
  Context {L R S : Type}.
  Variable E : env L R S.
  Variable F : fault.
  Notation map := (cmap L R S).
  Notation V := (fused E F).

  Ltac go := repeat lazymatch goal with
    | |- same (bind _ _) (bind _ _) => apply same_bind; [|intro]
    | |- same (w_look _) (look _) => apply same_look; intro
    | |- same (w_calmly _) (calmly _) => apply same_calmly
    | |- same (match ?x with _ => _ end) _ => destruct x
    | |- same (ret _) _ => apply same_refl
    | |- same panic _ => apply same_refl
    | |- same (unwrap _) _ => apply same_refl
    end.

  Lemma same_find_left : forall m h l, same (find_left V m h l) (CycleMapFault.find_left E m h l).
  Proof. intros. apply fuse_get. intros; apply same_refl. Qed.
  Lemma same_find_right : forall m h r, same (find_right V m h r) (CycleMapFault.find_right E m h r).
  Proof. intros. apply fuse_get. intros; apply same_refl. Qed.
  Hint Resolve same_find_left same_find_right : same.
  Lemma same_left_remove : forall h l, same (w_left_remove_entry V h l) (CycleMapFault.u_left_remove_entry E h l).
  Proof.
    intros. unfold w_left_remove_entry, CycleMapFault.u_left_remove_entry. go.
    apply fuse_remove_entry. intros; apply same_refl.
  Qed.
  Lemma same_right_remove : forall h r, same (w_right_remove_entry V h r) (CycleMapFault.u_right_remove_entry E h r).
  Proof.
    intros. unfold w_right_remove_entry, CycleMapFault.u_right_remove_entry. go.
    apply fuse_remove_entry. intros; apply same_refl.
  Qed.
  Lemma same_left_insert : forall h e, same (w_left_insert V h e) (CycleMapFault.u_left_insert E F h e).
  Proof.
    intros h e [w m]. unfold w_left_insert, CycleMapFault.u_left_insert, on_left, CycleMapFault.on_left.
    cbn [fst snd w_lo w_fault fused]. rewrite (fuse_insert _ _ _ _ _ (make_hasher_l E (hash_builder m))); auto.
    intros; apply same_refl.
  Qed.
  Lemma same_right_insert : forall h e, same (w_right_insert V h e) (CycleMapFault.u_right_insert E F h e).
  Proof.
    intros h e [w m]. unfold w_right_insert, CycleMapFault.u_right_insert, on_right, CycleMapFault.on_right.
    cbn [fst snd w_lo w_fault fused]. rewrite (fuse_insert _ _ _ _ _ (make_hasher_r E (hash_builder m))); auto.
    intros; apply same_refl.
  Qed.
  Hint Resolve same_left_remove same_right_remove same_left_insert same_right_insert : same.
  Ltac same_tac := intros; go; auto with same; try apply same_refl.

  Lemma same_are_paired : forall m l r, same (w_are_paired V m l r) (CycleMapFault.u_are_paired E m l r).
  Proof. intros. unfold w_are_paired, CycleMapFault.u_are_paired. same_tac. Qed.
  Hint Resolve same_are_paired : same.
  Lemma same_remove_via_left : forall l, same (w_remove_via_left V l) (CycleMapFault.u_remove_via_left E l).
  Proof. intros. unfold w_remove_via_left, CycleMapFault.u_remove_via_left. same_tac. Qed.
  Lemma same_remove_via_right : forall r, same (w_remove_via_right V r) (CycleMapFault.u_remove_via_right E r).
  Proof. intros. unfold w_remove_via_right, CycleMapFault.u_remove_via_right. same_tac. Qed.
  Hint Resolve same_remove_via_left same_remove_via_right : same.
  Lemma same_remove : forall l r, same (w_remove V l r) (CycleMapFault.u_remove E l r).
  Proof. intros. unfold w_remove, CycleMapFault.u_remove. same_tac. Qed.
  Lemma same_insert_pair : forall l r, same (w_insert_pair V l r) (CycleMapFault.u_insert_pair E F l r).
  Proof. intros. unfold w_insert_pair, CycleMapFault.u_insert_pair. same_tac. Qed.
  Hint Resolve same_remove same_insert_pair : same.
  Lemma same_swap_left_eq_check : forall o n h,
    same (w_swap_left_eq_check V o n h) (CycleMapFault.u_swap_left_eq_check E o n h).
  Proof. intros. unfold w_swap_left_eq_check, CycleMapFault.u_swap_left_eq_check. same_tac. Qed.
  Lemma same_swap_right_eq_check : forall o n h,
    same (w_swap_right_eq_check V o n h) (CycleMapFault.u_swap_right_eq_check E o n h).
  Proof. intros. unfold w_swap_right_eq_check, CycleMapFault.u_swap_right_eq_check. same_tac. Qed.
  Hint Resolve same_swap_left_eq_check same_swap_right_eq_check : same.
  Lemma same_swap_left : forall o n, same (w_swap_left V o n) (CycleMapFault.u_swap_left E F o n).
  Proof. intros. unfold w_swap_left, CycleMapFault.u_swap_left. same_tac. Qed.
  Lemma same_swap_right : forall o n, same (w_swap_right V o n) (CycleMapFault.u_swap_right E F o n).
  Proof. intros. unfold w_swap_right, CycleMapFault.u_swap_right. same_tac. Qed.
  Hint Resolve same_swap_left same_swap_right : same.
  Lemma same_swap_left_checked : forall o e n,
    same (w_swap_left_checked V o e n) (CycleMapFault.u_swap_left_checked E F o e n).
  Proof. intros. unfold w_swap_left_checked, CycleMapFault.u_swap_left_checked. same_tac. Qed.
  Lemma same_swap_right_checked : forall o e n,
    same (w_swap_right_checked V o e n) (CycleMapFault.u_swap_right_checked E F o e n).
  Proof. intros. unfold w_swap_right_checked, CycleMapFault.u_swap_right_checked. same_tac. Qed.
  Lemma same_swap_left_or_insert : forall o e n,
    same (w_swap_left_or_insert V o e n) (CycleMapFault.u_swap_left_or_insert E F o e n).
  Proof. intros. unfold w_swap_left_or_insert, CycleMapFault.u_swap_left_or_insert. same_tac. Qed.
  Lemma same_swap_right_or_insert : forall o e n,
    same (w_swap_right_or_insert V o e n) (CycleMapFault.u_swap_right_or_insert E F o e n).
  Proof. intros. unfold w_swap_right_or_insert, CycleMapFault.u_swap_right_or_insert. same_tac. Qed.
  Lemma same_contains_left : forall m l, same (w_contains_left V m l) (CycleMapFault.u_contains_left E m l).
  Proof. intros. unfold w_contains_left, CycleMapFault.u_contains_left. same_tac. Qed.
  Lemma same_contains_right : forall m r, same (w_contains_right V m r) (CycleMapFault.u_contains_right E m r).
  Proof. intros. unfold w_contains_right, CycleMapFault.u_contains_right. same_tac. Qed.
  Lemma same_get_left : forall m r, same (w_get_left V m r) (CycleMapFault.u_get_left E m r).
  Proof. intros. unfold w_get_left, CycleMapFault.u_get_left. same_tac. Qed.
  Lemma same_get_right : forall m l, same (w_get_right V m l) (CycleMapFault.u_get_right E m l).
  Proof. intros. unfold w_get_right, CycleMapFault.u_get_right. same_tac. Qed.
  Hint Resolve same_swap_left_checked same_swap_right_checked same_swap_left_or_insert same_swap_right_or_insert
    same_contains_left same_contains_right same_get_left same_get_right : same.
  Lemma same_iter_next : forall m it, same (w_iter_next V m it) (CycleMapFault.u_iter_next E m it).
  Proof. intros. unfold w_iter_next, CycleMapFault.u_iter_next. same_tac. Qed.
  Hint Resolve same_iter_next : same.
  Lemma same_iter_rest : forall n m it, same (w_iter_rest V m n it) (CycleMapFault.u_iter_rest E m n it).
  Proof. induction n as [|n IH]; intros; cbn [w_iter_rest CycleMapFault.u_iter_rest]; same_tac. Qed.
  Lemma same_get_left_inner : forall m l, same (w_get_left_inner V m l) (CycleMapFault.u_get_left_inner E m l).
  Proof. intros. unfold w_get_left_inner, CycleMapFault.u_get_left_inner. same_tac. Qed.
  Hint Resolve same_iter_rest same_get_left_inner : same.
  Lemma same_all_paired : forall n m o it, same (w_all_paired V m o n it) (CycleMapFault.u_all_paired E m o n it).
  Proof. induction n as [|n IH]; intros; cbn [w_all_paired CycleMapFault.u_all_paired]; same_tac. Qed.
  Lemma same_map_eq : forall m o, same (w_map_eq V m o) (CycleMapFault.u_map_eq E m o).
  Proof. intros. unfold w_map_eq, CycleMapFault.u_map_eq. destruct (negb _); [apply same_refl|apply same_all_paired]. Qed.
  Lemma same_extend : forall xs, same (w_extend V xs) (CycleMapFault.u_extend E F xs).
  Proof. induction xs as [|[a b] xs IH]; cbn [w_extend CycleMapFault.u_extend]; same_tac. Qed.
  Lemma same_retain_scan : forall {X} (f : X -> L -> R -> X * verdict) n m it x,
    same (w_retain_scan V f m n it x) (CycleMapFault.u_retain_scan E f m n it x).
  Proof. induction n as [|n IH]; intros; cbn [w_retain_scan CycleMapFault.u_retain_scan]; same_tac. Qed.
  Hint Resolve same_extend : same.
  Lemma same_retain : forall {X} (f : X -> L -> R -> X * verdict) x,
    same (w_retain V f x) (CycleMapFault.u_retain E f x).
  Proof.
    intros. unfold w_retain, CycleMapFault.u_retain. go. apply same_retain_scan.
  Qed.
  Lemma same_on_left : forall {A} c c',
    (forall s t w, c s t w = c' s t w) -> same (@on_left L R S fuse A c) (CycleMapFault.on_left c').
  Proof. intros A c c' H [w m]. unfold on_left, CycleMapFault.on_left. rewrite H. reflexivity. Qed.
  Lemma same_on_right : forall {A} c c',
    (forall s t w, c s t w = c' s t w) -> same (@on_right L R S fuse A c) (CycleMapFault.on_right c').
  Proof. intros A c c' H [w m]. unfold on_right, CycleMapFault.on_right. rewrite H. reflexivity. Qed.
  Lemma same_resize_both : forall z, same (w_resize_both V z) (CycleMapFault.u_resize_both E F z).
  Proof.
    intros. unfold w_resize_both, CycleMapFault.u_resize_both. apply same_bind; [apply same_on_left|intro; apply same_on_right];
      intros; apply fuse_resize; intros; apply same_refl.
  Qed.
  Lemma same_shrink_to_fit : same (w_shrink_to_fit V) (CycleMapFault.u_shrink_to_fit E F).
  Proof.
    unfold w_shrink_to_fit, CycleMapFault.u_shrink_to_fit. apply same_bind; [go|intro].
    apply same_bind; [apply same_on_left|intro; apply same_bind; [go|intro; apply same_on_right]];
      intros; apply fuse_resize; intros; apply same_refl.
  Qed.
  Lemma same_try_reserve : forall n, same (w_try_reserve V n) (CycleMapFault.u_try_reserve E F n).
  Proof.
    intros. unfold w_try_reserve, CycleMapFault.u_try_reserve.
    apply same_bind; [apply same_on_left|intros [|]; [apply same_on_right|apply same_refl]];
      intros; apply fuse_try_resize; intros; apply same_refl.
  Qed.
  Hint Resolve same_retain same_resize_both same_shrink_to_fit same_try_reserve : same.

  Lemma same_via : forall {A} (k : A -> out L R) c c' (m : map) w, same c c' ->
    w_via k c m w = CycleMapFault.u_via k c' m w.
  Proof. intros A k c c' m w H. unfold w_via, CycleMapFault.u_via. rewrite H. reflexivity. Qed.
  (* with fixed answers and a fuse, the model is that of CycleMapFault.v *)
  Theorem wild_is_fault : forall o m w, w_xstep V m o w = CycleMapFault.u_xstep E F m o w.
  Proof.
    intros [o|n] m w.
    - destruct o; cbn [w_xstep CycleMapFault.u_xstep w_step CycleMapFault.u_step];
        try (apply same_via; auto with same; apply same_look; intro; auto with same; fail); try reflexivity.
      + apply same_via, same_look. intro; apply same_iter_rest.
    - reflexivity.
  Qed.
End Same.
Print Assumptions wild_is_fault.
