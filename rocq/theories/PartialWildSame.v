(* PartialFault.v is PartialWild.v for user code with fixed answers and a fuse. *)
From Coq Require Import List NArith Lia Bool Permutation PeanoNat.
From Verif Require Import Closures Prelude RawTable Optionals PartialCycleMap ListFacts TableFacts
  PartialHistory PartialAny Faults Wild PartialWild.
From Verif Require PartialFault PartialFaultProofs.
Import ListNotations.
Open Scope N_scope.

Section Same.
  Context {L R S : Type}.
  Variable E : env L R S.
  Variable F : fault.
  Notation map := (pmap L R S).
  Notation V := (fused E F).

  Ltac go := repeat lazymatch goal with
    | |- same (bind _ _) (bind _ _) => apply same_bind; [|intro]
    | |- same (w_look _) (look _) => apply same_look; intro
    | |- same (w_calmly _) (calmly _) => apply same_calmly
    | |- same (match ?x with _ => _ end) _ => destruct x
    | |- same (ret _) _ => apply same_refl
    | |- same panic _ => apply same_refl
    | |- same (unwrap _) _ => apply same_refl
    end.

  Lemma same_find_left : forall m h l, same (find_left V m h l) (PartialFault.find_left E m h l).
  Proof. intros. apply fuse_get. intros; apply same_refl. Qed.
  Lemma same_find_right : forall m h r, same (find_right V m h r) (PartialFault.find_right E m h r).
  Proof. intros. apply fuse_get. intros; apply same_refl. Qed.
  Hint Resolve same_find_left same_find_right : same.
  Lemma same_left_remove : forall h l, same (w_left_remove_entry V h l) (PartialFault.u_left_remove_entry E h l).
  Proof.
    intros. unfold w_left_remove_entry, PartialFault.u_left_remove_entry. go.
    apply fuse_remove_entry. intros; apply same_refl.
  Qed.
  Lemma same_right_remove : forall h r, same (w_right_remove_entry V h r) (PartialFault.u_right_remove_entry E h r).
  Proof.
    intros. unfold w_right_remove_entry, PartialFault.u_right_remove_entry. go.
    apply fuse_remove_entry. intros; apply same_refl.
  Qed.
  Lemma same_left_insert : forall h e, same (w_left_insert V h e) (PartialFault.u_left_insert E F h e).
  Proof.
    intros h e [w m]. unfold w_left_insert, PartialFault.u_left_insert, on_left, PartialFault.on_left.
    cbn [fst snd w_lo w_fault fused]. rewrite (fuse_insert _ _ _ _ _ (make_hasher_l E (hash_builder m))); auto.
    intros; apply same_refl.
  Qed.
  Lemma same_right_insert : forall h e, same (w_right_insert V h e) (PartialFault.u_right_insert E F h e).
  Proof.
    intros h e [w m]. unfold w_right_insert, PartialFault.u_right_insert, on_right, PartialFault.on_right.
    cbn [fst snd w_lo w_fault fused]. rewrite (fuse_insert _ _ _ _ _ (make_hasher_r E (hash_builder m))); auto.
    intros; apply same_refl.
  Qed.
  Hint Resolve same_left_remove same_right_remove same_left_insert same_right_insert : same.
  Ltac same_tac := intros; go; auto with same; try apply same_refl.

  Lemma same_are_paired : forall m l r, same (w_are_paired V m l r) (PartialFault.u_are_paired E m l r).
  Proof. intros. unfold w_are_paired, PartialFault.u_are_paired. same_tac. Qed.
  Hint Resolve same_are_paired : same.
  Lemma same_is_left_paired : forall m l, same (w_is_left_paired V m l) (PartialFault.u_is_left_paired E m l).
  Proof. intros. unfold w_is_left_paired, PartialFault.u_is_left_paired. same_tac. Qed.
  Hint Resolve same_is_left_paired : same.
  Lemma same_is_right_paired : forall m r, same (w_is_right_paired V m r) (PartialFault.u_is_right_paired E m r).
  Proof. intros. unfold w_is_right_paired, PartialFault.u_is_right_paired. same_tac. Qed.
  Hint Resolve same_is_right_paired : same.
  Lemma same_contains_left : forall m l, same (w_contains_left V m l) (PartialFault.u_contains_left E m l).
  Proof. intros. unfold w_contains_left, PartialFault.u_contains_left. same_tac. Qed.
  Hint Resolve same_contains_left : same.
  Lemma same_contains_right : forall m r, same (w_contains_right V m r) (PartialFault.u_contains_right E m r).
  Proof. intros. unfold w_contains_right, PartialFault.u_contains_right. same_tac. Qed.
  Hint Resolve same_contains_right : same.
  Lemma same_remove_left : forall l, same (w_remove_left V l) (PartialFault.u_remove_left E l).
  Proof. intros. unfold w_remove_left, PartialFault.u_remove_left. same_tac. Qed.
  Hint Resolve same_remove_left : same.
  Lemma same_remove_via_left : forall l, same (w_remove_via_left V l) (PartialFault.u_remove_via_left E l).
  Proof. intros. unfold w_remove_via_left, PartialFault.u_remove_via_left. same_tac. Qed.
  Hint Resolve same_remove_via_left : same.
  Lemma same_remove_right : forall r, same (w_remove_right V r) (PartialFault.u_remove_right E r).
  Proof. intros. unfold w_remove_right, PartialFault.u_remove_right. same_tac. Qed.
  Hint Resolve same_remove_right : same.
  Lemma same_remove_via_right : forall r, same (w_remove_via_right V r) (PartialFault.u_remove_via_right E r).
  Proof. intros. unfold w_remove_via_right, PartialFault.u_remove_via_right. same_tac. Qed.
  Hint Resolve same_remove_via_right : same.
  Lemma same_remove : forall l r, same (w_remove V l r) (PartialFault.u_remove E l r).
  Proof. intros. unfold w_remove, PartialFault.u_remove. same_tac. Qed.
  Hint Resolve same_remove : same.
  Lemma same_insert_pair : forall l r, same (w_insert_pair V l r) (PartialFault.u_insert_pair E F l r).
  Proof. intros. unfold w_insert_pair, PartialFault.u_insert_pair. same_tac. Qed.
  Hint Resolve same_insert_pair : same.
  Lemma same_insert_left : forall l, same (w_insert_left V l) (PartialFault.u_insert_left E F l).
  Proof. intros. unfold w_insert_left, PartialFault.u_insert_left. same_tac. Qed.
  Hint Resolve same_insert_left : same.
  Lemma same_insert_right : forall r, same (w_insert_right V r) (PartialFault.u_insert_right E F r).
  Proof. intros. unfold w_insert_right, PartialFault.u_insert_right. same_tac. Qed.
  Hint Resolve same_insert_right : same.
  (* the two searches of the pair functions *)
  Lemma get_mut_fuse : forall {A} (t : table (mapping_pair A)) h (p : mapping_pair A -> bool) p',
    (forall e, same (p' e) (user (p e))) ->
    same (w_get_mut V t h p') (u_get (lo E) t h p ;;; ret (t_get_mut E t h p)).
  Proof.
    intros A t h p p' H w. unfold w_get_mut, u_get, bind. cbn [w_lo fused]. rewrite (fuse_find (lo E) t h p p' H w).
    destruct (ag_find (lo E) t h p w) as [(w' & _ & ->)|[_ ->]]; [|reflexivity]. reflexivity.
  Qed.
  Lemma find_both_fuse : forall m l r, same (w_find_both V m l r)
    (PartialFault.u_find_both E m l r ;;;
     ret (hashL E (hash_builder m) l, hashR E (hash_builder m) r,
          t_get_mut E (left_set m) (hashL E (hash_builder m) l) (equivalent_key (eqL E) l),
          t_get_mut E (right_set m) (hashR E (hash_builder m) r) (equivalent_key (eqR E) r))).
  Proof.
    intros m l r w. unfold w_find_both, PartialFault.u_find_both, PartialFault.hash_l, hash_l, PartialFault.hash_r, hash_r,
      PartialFault.find_left, PartialFault.find_right, bind. cbn [w_hashL w_hashR fused].
    destruct (ag_user (hashL E (hash_builder m) l) w) as [(w1 & _ & ->)|[_ ->]]; [|reflexivity]. cbn [inner].
    destruct (ag_user (hashR E (hash_builder m) r) w1) as [(w2 & _ & ->)|[_ ->]]; [|reflexivity]. cbn [inner].
    rewrite (get_mut_fuse _ _ (equivalent_key (eqL E) l)); [|intro; apply same_refl]. unfold bind.
    destruct (u_get _ _ _ _ w2) as [w3 a|w3]; [|reflexivity]. cbn [ret].
    rewrite (get_mut_fuse _ _ (equivalent_key (eqR E) r)); [|intro; apply same_refl]. unfold bind.
    destruct (u_get _ _ _ _ w3) as [w4 b|w4]; reflexivity.
  Qed.
  Lemma same_pair : forall l r, same (w_pair V l r) (PartialFault.u_pair E l r).
  Proof.
    intros l r [w m]. unfold w_pair, PartialFault.u_pair, bind, w_look, look. cbn [fst snd].
    rewrite (find_both_fuse m l r w). unfold bind. destruct (PartialFault.u_find_both E m l r w); reflexivity.
  Qed.
  Lemma same_unpair : forall l r, same (w_unpair V l r) (PartialFault.u_unpair E l r).
  Proof.
    intros l r [w m]. unfold w_unpair, PartialFault.u_unpair, bind, w_look, look. cbn [fst snd].
    rewrite (find_both_fuse m l r w). unfold bind. destruct (PartialFault.u_find_both E m l r w); reflexivity.
  Qed.
  Lemma same_pair_forced : forall l r, same (w_pair_forced V l r) (PartialFault.u_pair_forced E l r).
  Proof.
    intros l r [w m]. unfold w_pair_forced, PartialFault.u_pair_forced. unfold bind, w_look, look. cbn [fst snd].
    rewrite (same_are_paired m l r w).
    destruct (PartialFaultProofs.ag_are_paired E m l r w) as [(w' & _ & ->)|[_ ->]]; [|reflexivity]. cbn [inner].
    destruct (are_paired E m l r) eqn:Q; [reflexivity|]. cbn [fst snd].
    rewrite (find_both_fuse m l r w'). unfold bind. destruct (PartialFault.u_find_both E m l r w') as [w2 []|w2]; [|reflexivity].
    cbn [ret fst snd]. unfold w_calmly, calmly. cbn [fst snd].
    match goal with |- _ = with_fuse _ ?c => assert (X : c = pair_forced_found V (hashL E (hash_builder m) l) (hashR E (hash_builder m) r)
      (t_get_mut E (left_set m) (hashL E (hash_builder m) l) (equivalent_key (eqL E) l))
      (t_get_mut E (right_set m) (hashR E (hash_builder m) r) (equivalent_key (eqR E) r)) m) end.
    { unfold pair_forced. unfold bind at 1. cbn [getst]. rewrite Q. reflexivity. }
    rewrite X. reflexivity.
  Qed.
  Lemma same_pair_forced_remove : forall l r, same (w_pair_forced_remove V l r) (PartialFault.u_pair_forced_remove E l r).
  Proof.
    intros l r [w m]. unfold w_pair_forced_remove, PartialFault.u_pair_forced_remove. unfold bind, w_look, look. cbn [fst snd].
    rewrite (same_are_paired m l r w).
    destruct (PartialFaultProofs.ag_are_paired E m l r w) as [(w' & _ & ->)|[_ ->]]; [|reflexivity]. cbn [inner].
    destruct (are_paired E m l r) eqn:Q; [reflexivity|]. cbn [fst snd].
    rewrite (find_both_fuse m l r w'). unfold bind. destruct (PartialFault.u_find_both E m l r w') as [w2 []|w2]; [|reflexivity].
    cbn [ret fst snd]. unfold w_calmly, calmly. cbn [fst snd].
    match goal with |- _ = with_fuse _ ?c => assert (X : c = pair_forced_remove_found V (hashL E (hash_builder m) l) (hashR E (hash_builder m) r)
      (t_get_mut E (left_set m) (hashL E (hash_builder m) l) (equivalent_key (eqL E) l))
      (t_get_mut E (right_set m) (hashR E (hash_builder m) r) (equivalent_key (eqR E) r)) m) end.
    { unfold pair_forced_remove. unfold bind at 1. cbn [getst]. rewrite Q. reflexivity. }
    rewrite X. reflexivity.
  Qed.
  Hint Resolve same_pair same_unpair same_pair_forced same_pair_forced_remove : same.
  Lemma same_swap_left_eq_check : forall o n h, same (w_swap_left_eq_check V o n h) (PartialFault.u_swap_left_eq_check E o n h).
  Proof. intros. unfold w_swap_left_eq_check, PartialFault.u_swap_left_eq_check. same_tac. Qed.
  Hint Resolve same_swap_left_eq_check : same.
  Lemma same_swap_right_eq_check : forall o n h, same (w_swap_right_eq_check V o n h) (PartialFault.u_swap_right_eq_check E o n h).
  Proof. intros. unfold w_swap_right_eq_check, PartialFault.u_swap_right_eq_check. same_tac. Qed.
  Hint Resolve same_swap_right_eq_check : same.
  Lemma same_swap_left : forall o n, same (w_swap_left V o n) (PartialFault.u_swap_left E F o n).
  Proof. intros. unfold w_swap_left, PartialFault.u_swap_left. same_tac. Qed.
  Hint Resolve same_swap_left : same.
  Lemma same_swap_right : forall o n, same (w_swap_right V o n) (PartialFault.u_swap_right E F o n).
  Proof. intros. unfold w_swap_right, PartialFault.u_swap_right. same_tac. Qed.
  Hint Resolve same_swap_right : same.
  Lemma same_swap_left_checked : forall o e n, same (w_swap_left_checked V o e n) (PartialFault.u_swap_left_checked E F o e n).
  Proof. intros. unfold w_swap_left_checked, PartialFault.u_swap_left_checked. same_tac. Qed.
  Hint Resolve same_swap_left_checked : same.
  Lemma same_swap_right_checked : forall o e n, same (w_swap_right_checked V o e n) (PartialFault.u_swap_right_checked E F o e n).
  Proof. intros. unfold w_swap_right_checked, PartialFault.u_swap_right_checked. same_tac. Qed.
  Hint Resolve same_swap_right_checked : same.
  Lemma same_swap_left_or_insert : forall o e n, same (w_swap_left_or_insert V o e n) (PartialFault.u_swap_left_or_insert E F o e n).
  Proof. intros. unfold w_swap_left_or_insert, PartialFault.u_swap_left_or_insert. same_tac. Qed.
  Hint Resolve same_swap_left_or_insert : same.
  Lemma same_swap_right_or_insert : forall o e n, same (w_swap_right_or_insert V o e n) (PartialFault.u_swap_right_or_insert E F o e n).
  Proof. intros. unfold w_swap_right_or_insert, PartialFault.u_swap_right_or_insert. same_tac. Qed.
  Hint Resolve same_swap_right_or_insert : same.
  Lemma same_get_left : forall m r, same (w_get_left V m r) (PartialFault.u_get_left E m r).
  Proof. intros. unfold w_get_left, PartialFault.u_get_left. same_tac. Qed.
  Hint Resolve same_get_left : same.
  Lemma same_get_right : forall m l, same (w_get_right V m l) (PartialFault.u_get_right E m l).
  Proof. intros. unfold w_get_right, PartialFault.u_get_right. same_tac. Qed.
  Hint Resolve same_get_right : same.
  Lemma same_get_left_inner : forall m l, same (w_get_left_inner V m l) (PartialFault.u_get_left_inner E m l).
  Proof. intros. unfold w_get_left_inner, PartialFault.u_get_left_inner. same_tac. Qed.
  Hint Resolve same_get_left_inner : same.
  Lemma same_get_right_inner : forall m l, same (w_get_right_inner V m l) (PartialFault.u_get_right_inner E m l).
  Proof. intros. unfold w_get_right_inner, PartialFault.u_get_right_inner. same_tac. Qed.
  Hint Resolve same_get_right_inner : same.
  Lemma same_iter_next : forall m it, same (w_iter_next V m it) (PartialFault.u_iter_next E m it).
  Proof. intros. unfold w_iter_next, PartialFault.u_iter_next. same_tac. Qed.
  Hint Resolve same_iter_next : same.
  Lemma same_inner : forall {A} (o : outcome A), same (w_inner o) (inner o).
  Proof. intros A [a|] w; reflexivity. Qed.
  Hint Resolve same_inner : same.
  Lemma same_paired_next : forall m it, same (w_paired_next V m it) (PartialFault.u_paired_next E m it).
  Proof.
    intros m. induction it as [|[h e] it IH]; cbn [w_paired_next PartialFault.u_paired_next]; [apply same_refl|].
    destruct (phash e); [|exact IH]. apply same_bind; [apply same_refl|intro]. apply same_bind; [apply same_inner|intro; apply same_refl].
  Qed.
  Lemma same_collect : forall {I A} (nx nx' : I -> M fuse (option A * I)), (forall it, same (nx it) (nx' it)) ->
    forall n it, same (w_collect nx n it) (PartialFault.u_collect nx' n it).
  Proof. intros I A nx nx' H. induction n as [|n IH]; intros; cbn [w_collect PartialFault.u_collect]; same_tac. Qed.
  Lemma same_iter_all : forall m, same (w_iter_all V m) (PartialFault.u_iter_all E m).
  Proof. intros. apply same_collect. auto with same. Qed.
  Lemma same_paired_all : forall m, same (w_paired_all V m) (PartialFault.u_paired_all E m).
  Proof. intros. apply same_collect. apply same_paired_next. Qed.
  Hint Resolve same_paired_next same_iter_all same_paired_all : same.
  Lemma same_eq_item : forall o d, same (w_eq_item V o d) (PartialFault.u_eq_item E o d).
  Proof. intros. unfold w_eq_item, PartialFault.u_eq_item. same_tac. Qed.
  Hint Resolve same_eq_item : same.
  Lemma same_all_items : forall n m o it, same (w_all_items V m o n it) (PartialFault.u_all_items E m o n it).
  Proof. induction n as [|n IH]; intros; cbn [w_all_items PartialFault.u_all_items]; same_tac. Qed.
  Lemma same_map_eq : forall m o, same (w_map_eq V m o) (PartialFault.u_map_eq E m o).
  Proof. intros. unfold w_map_eq, PartialFault.u_map_eq. destruct (_ && _); [apply same_refl|apply same_all_items]. Qed.
  Lemma same_extend_pairs : forall xs, same (w_extend_pairs V xs) (PartialFault.u_extend_pairs E F xs).
  Proof. induction xs as [|[a b] xs IH]; cbn [w_extend_pairs PartialFault.u_extend_pairs]; same_tac. Qed.
  Lemma same_extend : forall xs, same (w_extend V xs) (PartialFault.u_extend E F xs).
  Proof. induction xs as [|[|a|b|a b] xs IH]; cbn [w_extend PartialFault.u_extend]; same_tac. Qed.
  Hint Resolve same_extend_pairs same_extend : same.
  Lemma same_opt : forall {A B} (f f' : A -> M fuse B) o, (forall a, same (f a) (f' a)) ->
    same (w_opt f o) (PartialFault.u_opt f' o).
  Proof. intros A B f f' [a|] H; cbn; [apply same_bind; [apply H|intro; apply same_refl]|apply same_refl]. Qed.
  Lemma same_retain_key : forall m d, same (w_retain_key V m d) (PartialFault.u_retain_key E m d).
  Proof.
    intros. unfold w_retain_key, PartialFault.u_retain_key. destruct (op_to_pair d) as [a b].
    apply same_bind; [apply same_opt; intro; apply same_refl|intro]. apply same_bind; [apply same_opt; intro; apply same_refl|intro].
    same_tac.
  Qed.
  Lemma same_retain_paired_key : forall m d, same (w_retain_paired_key V m d) (PartialFault.u_retain_paired_key E m d).
  Proof. intros. unfold w_retain_paired_key, PartialFault.u_retain_paired_key. same_tac. Qed.
  Lemma same_retain_unpaired_key : forall m d, same (w_retain_unpaired_key V m d) (PartialFault.u_retain_unpaired_key E m d).
  Proof. intros. unfold w_retain_unpaired_key, PartialFault.u_retain_unpaired_key. same_tac. Qed.
  Lemma same_retain_scan : forall {X A I} (f : X -> A -> X * verdict) (nx nx' : I -> M fuse (option A * I)) k k',
    (forall it, same (nx it) (nx' it)) -> (forall a, same (k a) (k' a)) ->
    forall n it x, same (w_retain_scan f nx k n it x) (PartialFault.u_retain_scan f nx' k' n it x).
  Proof.
    intros X A I f nx nx' k k' H1 H2. induction n as [|n IH]; intros; cbn [w_retain_scan PartialFault.u_retain_scan]; same_tac.
  Qed.
  Lemma same_retain_with : forall {X} (c c' : map -> M fuse (res X (list drop_tup))), (forall m, same (c m) (c' m)) ->
    same (w_retain_with V c) (PartialFault.u_retain_with E c').
  Proof. intros X c c' H. unfold w_retain_with, PartialFault.u_retain_with. go. apply H. Qed.
  Lemma same_retain : forall {X} (f : X -> optional_pair L R -> X * verdict) x,
    same (w_retain V f x) (PartialFault.u_retain E f x).
  Proof. intros. apply same_retain_with. intro. apply same_retain_scan; auto using same_retain_key with same. Qed.
  Lemma same_retain_paired : forall {X} (f : X -> L * R -> X * verdict) x,
    same (w_retain_paired V f x) (PartialFault.u_retain_paired E f x).
  Proof. intros. apply same_retain_with. intro. apply same_retain_scan; auto using same_retain_paired_key with same. Qed.
  Lemma same_retain_unpaired : forall {X} (f : X -> optional_pair L R -> X * verdict) x,
    same (w_retain_unpaired V f x) (PartialFault.u_retain_unpaired E f x).
  Proof. intros. apply same_retain_with. intro. apply same_retain_scan; auto using same_retain_unpaired_key, @same_inner with same. Qed.
  Lemma same_on_left : forall {A} c c',
    (forall s t w, c s t w = c' s t w) -> same (@on_left L R S fuse A c) (PartialFault.on_left c').
  Proof. intros A c c' H [w m]. unfold on_left, PartialFault.on_left. rewrite H. reflexivity. Qed.
  Lemma same_on_right : forall {A} c c',
    (forall s t w, c s t w = c' s t w) -> same (@on_right L R S fuse A c) (PartialFault.on_right c').
  Proof. intros A c c' H [w m]. unfold on_right, PartialFault.on_right. rewrite H. reflexivity. Qed.
  Lemma same_resize_left : forall z, same (w_resize_left V z) (PartialFault.u_resize_left E F z).
  Proof. intros. apply same_on_left. intros; apply fuse_resize; intros; apply same_refl. Qed.
  Lemma same_resize_right : forall z, same (w_resize_right V z) (PartialFault.u_resize_right E F z).
  Proof. intros. apply same_on_right. intros; apply fuse_resize; intros; apply same_refl. Qed.
  Lemma same_try_reserve_left : forall z, same (w_try_reserve_left V z) (PartialFault.u_try_reserve_left E F z).
  Proof. intros. apply same_on_left. intros; apply fuse_try_resize; intros; apply same_refl. Qed.
  Lemma same_try_reserve_right : forall z, same (w_try_reserve_right V z) (PartialFault.u_try_reserve_right E F z).
  Proof. intros. apply same_on_right. intros; apply fuse_try_resize; intros; apply same_refl. Qed.
  Hint Resolve same_resize_left same_resize_right same_try_reserve_left same_try_reserve_right
    same_retain same_retain_paired same_retain_unpaired : same.
  Lemma same_shrink_to_fit : same (w_shrink_to_fit V) (PartialFault.u_shrink_to_fit E F).
  Proof. unfold w_shrink_to_fit, PartialFault.u_shrink_to_fit. same_tac. Qed.
  Hint Resolve same_shrink_to_fit : same.

  Lemma same_via : forall {A} (k : A -> out L R) c c' (m : map) w, same c c' ->
    w_via k c m w = PartialFault.u_via k c' m w.
  Proof. intros A k c c' m w H. unfold w_via, PartialFault.u_via. rewrite H. reflexivity. Qed.
  (* with fixed answers and a fuse, the model is that of PartialFault.v *)
  Theorem wild_is_fault : forall o m w, w_xstep V m o w = PartialFault.u_xstep E F m o w.
  Proof.
    intros [o|n] m w.
    - destruct o; cbn [w_xstep PartialFault.u_xstep w_step PartialFault.u_step];
        try (apply same_via; auto with same; apply same_look; intro; auto with same; fail); try reflexivity.
    - reflexivity.
  Qed.
End Same.
Print Assumptions wild_is_fault.
