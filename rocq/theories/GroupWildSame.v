(* GroupFault.v is GroupWild.v for user code with fixed answers and a fuse. *)
From Coq Require Import List NArith Lia Bool Permutation PeanoNat.
From Verif Require Import Closures Prelude RawTable GroupMap ListFacts TableFacts
  GroupHistory Faults Wild GroupWild.
From Verif Require GroupFault.
Import ListNotations.
Open Scope N_scope.

Section Same.
  Context {L R S : Type}.
  Variable E : env L R S.
  Variable F : fault.
  Notation map := (gmap L R S).
  Notation V := (fused E F).

  Ltac go := repeat lazymatch goal with
    | |- same (bind _ _) (bind _ _) => apply same_bind; [|intro]
    | |- same (w_look _) (look _) => apply same_look; intro
    | |- same (w_calmly _) (calmly _) => apply same_calmly
    | |- same (match ?x with _ => _ end) _ => destruct x
    | |- same (ret _) _ => apply same_refl
    | |- same panic _ => apply same_refl
    | |- same (unwrap _) _ => apply same_refl
    end.

  Lemma same_inner : forall {A} (o : outcome A), same (w_inner o) (inner o).
  Proof. intros A [a|] w; reflexivity. Qed.
  Hint Resolve same_inner : same.
  Lemma same_find_left : forall m h l, same (w_find_left V m h l) (GroupFault.u_find_left E m h l).
  Proof. intros. apply fuse_get. intros; apply same_refl. Qed.
  Lemma same_find_right : forall m h r, same (w_find_right V m h r) (GroupFault.u_find_right E m h r).
  Proof. intros. apply fuse_get. intros; apply same_refl. Qed.
  Lemma same_mut_left : forall m h l, same (mut_left V m h l) (GroupFault.mut_left E m h l).
  Proof. intros. apply same_bind; [apply fuse_find; intros; apply same_refl|]. intros; apply same_refl. Qed.
  Lemma same_mut_right : forall m h l, same (mut_right V m h l) (GroupFault.mut_right E m h l).
  Proof. intros. apply same_bind; [apply fuse_find; intros; apply same_refl|]. intros; apply same_refl. Qed.
  Hint Resolve same_find_left same_find_right same_mut_left same_mut_right : same.
  Lemma same_left_remove : forall h l, same (w_left_remove_entry V h l) (GroupFault.u_left_remove_entry E h l).
  Proof.
    intros. unfold w_left_remove_entry, GroupFault.u_left_remove_entry. go.
    apply fuse_remove_entry. intros; apply same_refl.
  Qed.
  Lemma same_right_remove : forall h r, same (w_right_remove_entry V h r) (GroupFault.u_right_remove_entry E h r).
  Proof.
    intros. unfold w_right_remove_entry, GroupFault.u_right_remove_entry. go.
    apply fuse_remove_entry. intros; apply same_refl.
  Qed.
  Lemma same_left_insert : forall h e, same (w_left_insert V h e) (GroupFault.u_left_insert E F h e).
  Proof.
    intros h e [w m]. unfold w_left_insert, GroupFault.u_left_insert, on_left, GroupFault.on_left.
    cbn [fst snd w_lo w_fault fused]. rewrite (fuse_insert _ _ _ _ _ (make_hasher_l E (hash_builder m))); auto.
    intros; apply same_refl.
  Qed.
  Lemma same_right_insert : forall h e, same (w_right_insert V h e) (GroupFault.u_right_insert E F h e).
  Proof.
    intros h e [w m]. unfold w_right_insert, GroupFault.u_right_insert, on_right, GroupFault.on_right.
    cbn [fst snd w_lo w_fault fused]. rewrite (fuse_insert _ _ _ _ _ (make_hasher_r E (hash_builder m))); auto.
    intros; apply same_refl.
  Qed.
  Hint Resolve same_left_remove same_right_remove same_left_insert same_right_insert : same.
  Ltac same_tac := intros; go; auto with same; try apply same_refl.

  Lemma same_is_right_paired : forall m r, same (w_is_right_paired V m r) (GroupFault.u_is_right_paired E m r).
  Proof. intros. unfold w_is_right_paired, GroupFault.u_is_right_paired. same_tac. Qed.
  Hint Resolve same_is_right_paired : same.
  Lemma same_are_paired : forall m l r, same (w_are_paired V m l r) (GroupFault.u_are_paired E m l r).
  Proof. intros. unfold w_are_paired, GroupFault.u_are_paired. same_tac. Qed.
  Hint Resolve same_are_paired : same.
  Lemma same_contains_left : forall m l, same (w_contains_left V m l) (GroupFault.u_contains_left E m l).
  Proof. intros. unfold w_contains_left, GroupFault.u_contains_left. same_tac. Qed.
  Hint Resolve same_contains_left : same.
  Lemma same_contains_right : forall m r, same (w_contains_right V m r) (GroupFault.u_contains_right E m r).
  Proof. intros. unfold w_contains_right, GroupFault.u_contains_right. same_tac. Qed.
  Hint Resolve same_contains_right : same.
  Lemma same_remove_left : forall l, same (w_remove_left V l) (GroupFault.u_remove_left E l).
  Proof. intros. unfold w_remove_left, GroupFault.u_remove_left. same_tac. Qed.
  Hint Resolve same_remove_left : same.
  Lemma same_seen : forall l seen, same (w_seen V l seen) (GroupFault.u_seen E l seen).
  Proof. induction seen as [|x t IH]; cbn [w_seen GroupFault.u_seen]; same_tac. Qed.
  Hint Resolve same_seen : same.
  Lemma hash_only : forall {A} l (k : M (fuse * map) A) k', same k k' ->
    same (w_look (fun m => hash_l V m l) ;;; k) (look (fun _ : map => user tt) ;;; k').
  Proof.
    intros A l k k' H [w m]. unfold bind, w_look, look, hash_l. cbn [fst snd w_hashL fused].
    destruct w as [[|n]|]; cbn [user]; auto.
  Qed.
  Lemma same_remove_pairs : forall ps seen, same (w_remove_pairs V seen ps) (GroupFault.u_remove_pairs E seen ps).
  Proof.
    induction ps as [|[h i] t IH]; intros seen; cbn [w_remove_pairs GroupFault.u_remove_pairs]; [apply same_refl|].
    apply same_bind; [apply same_calmly|intro]. apply same_bind; [apply same_refl|intro].
    apply hash_only. same_tac.
  Qed.
  Hint Resolve same_remove_pairs : same.
  Lemma same_remove_right : forall r, same (w_remove_right V r) (GroupFault.u_remove_right E r).
  Proof. intros. unfold w_remove_right, GroupFault.u_remove_right. same_tac. Qed.
  Hint Resolve same_remove_right : same.
  Lemma same_remove : forall l r, same (w_remove V l r) (GroupFault.u_remove E l r).
  Proof. intros. unfold w_remove, GroupFault.u_remove. same_tac. Qed.
  Hint Resolve same_remove : same.
  Lemma same_insert_pair : forall l r, same (w_insert_pair V l r) (GroupFault.u_insert_pair E F l r).
  Proof. intros. unfold w_insert_pair, GroupFault.u_insert_pair. same_tac. Qed.
  Hint Resolve same_insert_pair : same.
  Lemma same_insert_remove : forall l r, same (w_insert_remove V l r) (GroupFault.u_insert_remove E F l r).
  Proof. intros. unfold w_insert_remove, GroupFault.u_insert_remove. same_tac. Qed.
  Hint Resolve same_insert_remove : same.
  Lemma same_insert_left : forall l r, same (w_insert_left V l r) (GroupFault.u_insert_left E F l r).
  Proof. intros. unfold w_insert_left, GroupFault.u_insert_left. same_tac. Qed.
  Hint Resolve same_insert_left : same.
  Lemma same_insert_right : forall r, same (w_insert_right V r) (GroupFault.u_insert_right E F r).
  Proof. intros. unfold w_insert_right, GroupFault.u_insert_right. same_tac. Qed.
  Hint Resolve same_insert_right : same.
  Lemma same_swap_right : forall o n, same (w_swap_right V o n) (GroupFault.u_swap_right E F o n).
  Proof. intros. unfold w_swap_right, GroupFault.u_swap_right. same_tac. Qed.
  Hint Resolve same_swap_right : same.
  Lemma same_swap_right_remove : forall o n, same (w_swap_right_remove V o n) (GroupFault.u_swap_right_remove E F o n).
  Proof. intros. unfold w_swap_right_remove, GroupFault.u_swap_right_remove. same_tac. Qed.
  Hint Resolve same_swap_right_remove : same.
  Lemma same_pair : forall l r, same (w_pair V l r) (GroupFault.u_pair E l r).
  Proof. intros. unfold w_pair, GroupFault.u_pair. same_tac. Qed.
  Hint Resolve same_pair : same.
  Lemma same_get_right : forall m l, same (w_get_right V m l) (GroupFault.u_get_right E m l).
  Proof. intros. unfold w_get_right, GroupFault.u_get_right. same_tac. Qed.
  Hint Resolve same_get_right : same.
  Lemma same_get_left_all : forall m r, same (w_get_left_all V m r) (GroupFault.u_get_left_all E m r).
  Proof. intros. unfold w_get_left_all, GroupFault.u_get_left_all. same_tac. Qed.
  Hint Resolve same_get_left_all : same.
  Lemma same_eq_item : forall m x, same (w_eq_item V m x) (GroupFault.u_eq_item E m x).
  Proof. intros. unfold w_eq_item, GroupFault.u_eq_item. same_tac. Qed.
  Hint Resolve same_eq_item : same.
  Lemma same_all_items : forall n m o it, same (w_all_items V m o n it) (GroupFault.u_all_items E m o n it).
  Proof. induction n as [|n IH]; intros; cbn [w_all_items GroupFault.u_all_items]; same_tac. Qed.
  Lemma same_map_eq : forall m o, same (w_map_eq V m o) (GroupFault.u_map_eq E m o).
  Proof. intros. unfold w_map_eq, GroupFault.u_map_eq. destruct (_ && _); [apply same_refl|apply same_all_items]. Qed.
  Lemma same_extend_pairs : forall xs, same (w_extend_pairs V xs) (GroupFault.u_extend_pairs E F xs).
  Proof. induction xs as [|[a b] xs IH]; cbn [w_extend_pairs GroupFault.u_extend_pairs]; same_tac. Qed.
  Lemma same_extend : forall xs, same (w_extend V xs) (GroupFault.u_extend E F xs).
  Proof. induction xs as [|[[a|] b] xs IH]; cbn [w_extend GroupFault.u_extend]; same_tac. Qed.
  Hint Resolve same_extend_pairs same_extend : same.
  Lemma same_retain_paired_key : forall m d, same (w_retain_paired_key V m d) (GroupFault.u_retain_paired_key E m d).
  Proof. intros. unfold w_retain_paired_key, GroupFault.u_retain_paired_key. same_tac. Qed.
  Hint Resolve same_retain_paired_key : same.
  Lemma same_retain_unpaired_key : forall m d, same (w_retain_unpaired_key V m d) (GroupFault.u_retain_unpaired_key E m d).
  Proof. intros. unfold w_retain_unpaired_key, GroupFault.u_retain_unpaired_key. same_tac. Qed.
  Hint Resolve same_retain_unpaired_key : same.
  Lemma same_retain_scan : forall {X A I} (f : X -> A -> X * verdict) (nx : I -> outcome (option A * I)) k k',
    (forall a, same (k a) (k' a)) ->
    forall n it x, same (w_retain_scan f nx k n it x) (GroupFault.u_retain_scan f nx k' n it x).
  Proof.
    intros X A I f nx k k' H. induction n as [|n IH]; intros; cbn [w_retain_scan GroupFault.u_retain_scan]; same_tac.
  Qed.
  Lemma same_retain_with : forall {X} (c c' : map -> M fuse (res X (list (N * N)))) d, (forall m, same (c m) (c' m)) ->
    same (w_retain_with c d) (GroupFault.u_retain_with c' d).
  Proof. intros X c c' d H. unfold w_retain_with, GroupFault.u_retain_with. go. apply H. Qed.
  Lemma same_retain_paired : forall {X} (f : X -> L * R -> X * verdict) x,
    same (w_retain_paired V f x) (GroupFault.u_retain_paired E f x).
  Proof. intros. apply same_retain_with. intro. apply same_retain_scan; auto with same. Qed.
  Lemma same_retain_unpaired : forall {X} (f : X -> R -> X * verdict) x,
    same (w_retain_unpaired V f x) (GroupFault.u_retain_unpaired E f x).
  Proof. intros. apply same_retain_with. intro. apply same_retain_scan; auto with same. Qed.
  Hint Resolve same_retain_paired same_retain_unpaired : same.

  Lemma same_via : forall {A} (k : A -> out L R) c c' (m : map) w, same c c' ->
    w_via k c m w = GroupFault.u_via k c' m w.
  Proof. intros A k c c' m w H. unfold w_via, GroupFault.u_via. rewrite H. reflexivity. Qed.
  (* with fixed answers and a fuse, the model is that of GroupFault.v *)
  Theorem wild_is_fault : forall o m w, w_step V m o w = GroupFault.u_step E F m o w.
  Proof.
    intros o m w. destruct o; cbn [w_step GroupFault.u_step];
      try (apply same_via; auto with same; apply same_look; intro; auto with same; fail); reflexivity.
  Qed.
End Same.
Print Assumptions wild_is_fault.
