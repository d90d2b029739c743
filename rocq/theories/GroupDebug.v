(* GroupMap: what {:?} prints (property C78). *)
From Coq Require Import List NArith Lia Bool Permutation PeanoNat String.
From Verif Require Import Closures Prelude RawTable GroupMap ListFacts TableFacts GroupSpec GroupHistory
  IterFacts GroupProofs GroupProofs2 GroupProofs3 GroupProofs4 GroupProofs5 GroupProofs6
  GroupHistoryProofs Concrete GroupProps GroupProps2 Debug GroupDefects.
Import ListNotations.
Open Scope N_scope.

Section Fmt.
  Context {L R S : Type}.
  Variable E : env L R S.
  Variables (dl : L -> string) (dr : R -> string).

  (* src/group_map.rs:1056-1058 *)
  Definition fmt_map (m : gmap L R S) : M string unit :=
    debug_set (iter_next E m) (show_tuple (show_option dl) dr) (iter_bound (iter m)) (iter m).
  (* src/group_map.rs:1329-1331 *)
  Definition fmt_iter (m : gmap L R S) (it : iter_t) : M string unit :=
    debug_list (iter_next E m) (show_tuple (show_option dl) dr) (iter_bound (iter_clone it)) (iter_clone it).
  (* src/group_map.rs:1418-1427; the clones of the other iterators are copies (1409-1416,
     1482-1489, 1549-1556, 1592-1599, 1636-1644) *)
  Definition fmt_paired (m : gmap L R S) (it : iter_l) : M string unit :=
    debug_list (paired_next E m) (show_tuple dl dr) (List.length it) it.
  (* src/group_map.rs:1491-1500 *)
  Definition fmt_unpaired (it : @iter_r R) : M string unit :=
    debug_list unpaired_next dr (List.length it) it.
  (* src/group_map.rs:1558-1565 *)
  Definition fmt_left (it : @iter_l L) : M string unit := debug_list left_next dl (List.length it) it.
  (* src/group_map.rs:1601-1608 *)
  Definition fmt_right (it : @iter_r R) : M string unit := debug_list right_next dr (List.length it) it.
  (* src/group_map.rs:1646-1653 *)
  Definition fmt_pair_iter (m : gmap L R S) (it : pair_iter) : M string unit :=
    debug_list (pair_next E m) dl (List.length it) it.
End Fmt.

Section DebugProps.
  Context {L R S : Type}.
  Variable E : env L R S.
  Hypothesis OK : lawful E.
  Variables (dl : L -> string) (dr : R -> string).

  Definition pair_text (p : L * R) : string := ("(" ++ dl (fst p) ++ ", " ++ dr (snd p) ++ ")")%string.
  (* (Some(left), right) or (None, right) *)
  Definition entry_text (p : option L * R) : string :=
    ("(" ++ match fst p with Some l => "Some(" ++ dl l ++ ")" | None => "None" end
     ++ ", " ++ dr (snd p) ++ ")")%string.

  (* Printing the map never panics and shows every pair and every right item without left
     items once. *)
  Theorem C78_debug_map : forall room m, reachable E room m ->
    exists rs ps l, holds E m rs ps /\ Permutation l (all_items_of E rs ps) /\
    forall out, fmt_map E dl dr m out = Ret (out ++ text_of "{" "}" entry_text l)%string tt.
  Proof.
    intros room m H. destruct (C55_iter_partial E OK room m H) as (rs & ps & l & V & P & W).
    exists rs, ps, l. refine (conj V (conj P _)). intros out.
    destruct (W 0%nat) as (it & X & Y & _). inversion X; subst it.
    exact (debug_set_done _ (show_tuple (show_option dl) dr) _ _ _ out Y).
  Qed.
  (* C78 for the iterator of iter() (false in general, see C78_debug_iter_refuted): it prints the
     items still to come except those with the right item of the item yielded last. *)
  Theorem C78_debug_iter_partial : forall room m, reachable E room m ->
    exists rs ps l, holds E m rs ps /\ Permutation l (all_items_of E rs ps) /\
    forall n, exists it,
      nexts (iter_next E m) n (iter m) = Done (firstn n (map Some l) ++ repeat None (n - List.length l), it) /\
      let printed := match yielded_last n l with
                     | Some x => filter (fun p => negb (eqR E (snd x) (snd p))) (skipn n l)
                     | None => skipn n l
                     end in
      forall out, fmt_iter E dl dr m it out = Ret (out ++ text_of "[" "]" entry_text printed)%string tt.
  Proof.
    intros room m H. destruct (C55_clone_loses_partial E OK room m H) as (rs & ps & l & V & P & W).
    exists rs, ps, l. refine (conj V (conj P _)). intros n. destruct (W n) as (it & X & _ & C & _).
    exists it. split; [exact X|]. intros printed out.
    exact (debug_list_done _ (show_tuple (show_option dl) dr) _ _ _ out C).
  Qed.

  Lemma fmt_comes : forall {I A} (next : I -> outcome (option A * I)) len (show : A -> string) (size : I -> nat)
      it l n, comes next len it l ->
    (forall i k, len i = Done k -> (exists q, collect next (size i) i = Done q) \/ (k <= size i)%nat) ->
    exists xs it', nexts next n it = Done (xs, it') /\
      forall out, debug_list next show (size it') it' out =
        Ret (out ++ text_of "[" "]" show (skipn n l))%string tt.
  Proof.
    intros I A next len show size it l n C HS. destruct (C n) as (it' & X & LN).
    do 2 eexists. split; [exact X|]. intros out. apply debug_list_done.
    assert (Y : yielding next it' (skipn n l)).
    { eapply yielding_after; [|exact X]. intros k. destruct (C k) as (i & Z & _). eauto. }
    destruct (HS _ _ LN) as [(q & HQ)|HL].
    - rewrite HQ. f_equal. eapply collect_is; eauto.
    - apply collect_yielding; auto. rewrite skipn_length. auto.
  Qed.

  (* the other iterators show exactly what is still to come *)
  Theorem C78_debug_iterators : forall room m, reachable E room m ->
    exists rs ps, holds E m rs ps /\
    (forall n, exists xs it, nexts (paired_next E m) n (iter_paired m) = Done (xs, it) /\
       forall out, fmt_paired E dl dr m it out = Ret (out ++ text_of "[" "]" pair_text (skipn n ps))%string tt) /\
    (exists l, Permutation l (lonely E rs ps) /\
       forall n, exists xs it, nexts (@unpaired_next R) n (iter_unpaired m) = Done (xs, it) /\
       forall out, fmt_unpaired dr it out = Ret (out ++ text_of "[" "]" dr (skipn n l))%string tt) /\
    (exists l, Permutation l (map fst ps) /\
       forall n, exists xs it, nexts (@left_next L) n (iter_left m) = Done (xs, it) /\
       forall out, fmt_left dl it out = Ret (out ++ text_of "[" "]" dl (skipn n l))%string tt) /\
    (forall n, exists xs it, nexts (@right_next R) n (iter_right m) = Done (xs, it) /\
       forall out, fmt_right dr it out = Ret (out ++ text_of "[" "]" dr (skipn n rs))%string tt) /\
    (forall r i, get_left_iter E m r = Some i -> exists l, Permutation l (lefts_of E ps r) /\
       forall n, exists xs it, nexts (pair_next E m) n i = Done (xs, it) /\
       forall out, fmt_pair_iter E dl m it out = Ret (out ++ text_of "[" "]" dl (skipn n l))%string tt).
  Proof.
    intros room m H.
    destruct (C55_len E OK room m H)
      as (rs & ps & V & CP & _ & (lu & CU & PU & _) & (ll & CL & PL) & CR & CG).
    exists rs, ps. refine (conj V (conj _ (conj _ (conj _ (conj _ _))))).
    - intros n. apply (fmt_comes _ _ (show_tuple dl dr) (@List.length _) _ _ n CP).
      intros i k HK. left. unfold paired_len, paired_rest in HK.
      destruct (collect (paired_next E m) (List.length i) i) as [q|] eqn:C; [|discriminate].
      exists q. exact C.
    - exists lu. split; auto. intros n. apply (fmt_comes _ _ dr (@List.length _) _ _ n CU).
      intros i k HK. left. unfold unpaired_len, unpaired_rest in HK.
      destruct (collect unpaired_next (List.length i) i) as [q|] eqn:C; [|discriminate].
      exists q. exact C.
    - exists ll. split; auto. intros n. apply (fmt_comes _ _ dl (@List.length _) _ _ n CL).
      intros i k HK. right. inversion HK. auto.
    - intros n. apply (fmt_comes _ _ dr (@List.length _) _ _ n CR).
      intros i k HK. right. inversion HK. auto.
    - intros r i GI. destruct (CG r i GI) as (l & C & P). exists l. split; auto.
      intros n. apply (fmt_comes _ _ dl (@List.length _) _ _ n C).
      intros j k HK. right. inversion HK. auto.
  Qed.
End DebugProps.

(* ---- concrete cases ---- *)
Definition show_item (x : item) : string :=
  match fst x with
  | 1 => "a" | 2 => "b" | 5 => "e" | 6 => "f" | 7 => "g" | 8 => "h"
  | 10 => "A" | 30 => "C" | 40 => "D" | 70 => "G" | 90 => "I" | _ => "?"
  end%string.
Definition fmt_at (n : nat) : res string unit :=
  match nexts (iter_next env_collide gmc) n (iter gmc) with
  | Done (_, i) => fmt_iter env_collide show_item show_item gmc i ""%string
  | Panicked => Panic ""%string
  end.
Example C78_case : reachable env_collide 1 gmc /\
  fmt_map env_collide show_item show_item gmc "= "%string =
    Ret "= {(None, D), (Some(g), A), (Some(a), A), (Some(h), A), (Some(f), C), (Some(e), C), (Some(b), C), (None, G), (None, I)}"%string tt /\
  fmt_unpaired show_item (iter_unpaired gmc) ""%string = Ret "[D, G, I]"%string tt /\
  fmt_left show_item (iter_left gmc) ""%string = Ret "[g, e, a, b, f, h]"%string tt /\
  (* at the end of a group *)
  fmt_at 4 = Ret "[(Some(f), C), (Some(e), C), (Some(b), C), (None, G), (None, I)]"%string tt.
Proof.
  split; [apply gm1_reachable; [simpl; auto|reflexivity]|].
  repeat (split; [vm_compute; reflexivity|]). vm_compute; reflexivity.
Qed.
(* C78 as stated is false: (a, A) and (h, A) are still to come, but not printed *)
Theorem C78_debug_iter_refuted : exists (E : env item item N) m n xs i text l,
  lawful E /\ reachable E 1 m /\
  nexts (iter_next E m) n (iter m) = Done (xs, i) /\ iter_rest E m i = Done l /\
  In (Some (it 1), it 10) l /\
  fmt_iter E show_item show_item m i ""%string = Ret text tt /\
  index 0 (show_item (it 1)) text = None.
Proof.
  exists env_collide, gmc, 2%nat. do 4 eexists.
  split; [exact env_collide_ok|]. split; [apply gm1_reachable; [simpl; auto|reflexivity]|].
  split; [vm_compute; reflexivity|]. split; [vm_compute; reflexivity|].
  split; [left; reflexivity|]. split; [vm_compute; reflexivity|]. vm_compute; reflexivity.
Qed.
Print Assumptions C78_debug_map.
Print Assumptions C78_debug_iter_partial.
Print Assumptions C78_debug_iterators.
Print Assumptions C78_debug_iter_refuted.
