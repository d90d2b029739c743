(* CycleMap: what {:?} prints (property C76). *)
From Coq Require Import List NArith Lia Bool Permutation PeanoNat String.
From Verif Require Import Closures Prelude RawTable Optionals CycleMap ListFacts TableFacts CycleMapSpec
  CycleMapHistory CycleMapProofs CycleMapProofs2 CycleMapProofs3 CycleMapHistoryProofs Concrete
  CycleMapProps CycleMapProps2 Debug.
Import ListNotations.
Open Scope N_scope.

Section Fmt.
  Context {L R S : Type}.
  Variable E : env L R S.
  (* Debug of the items *)
  Variables (dl : L -> string) (dr : R -> string).

  (* src/cycle_map.rs:1131-1133 *)
  Definition fmt_map (m : cmap L R S) : M string unit :=
    debug_set (iter_next E m) (show_tuple dl dr) (List.length (iter m)) (iter m).
  (* src/cycle_map.rs:1205-1207 *)
  Definition fmt_iter (m : cmap L R S) (it : iter_t) : M string unit :=
    debug_list (iter_next E m) (show_tuple dl dr) (List.length (iter_clone it)) (iter_clone it).
  (* src/cycle_map.rs:1271-1273 (SingleIter::clone, 1258-1265, copies the RawIter) *)
  Definition fmt_single {T} (show : T -> string) (it : list (N * mapping_pair T)) : M string unit :=
    debug_list single_next show (List.length it) it.
End Fmt.

Section DebugProps.
  Context {L R S : Type}.
  Variable E : env L R S.
  Hypothesis OK : lawful E.
  Variables (dl : L -> string) (dr : R -> string).

  (* (left, right) *)
  Definition pair_text (p : L * R) : string := ("(" ++ dl (fst p) ++ ", " ++ dr (snd p) ++ ")")%string.

  (* Printing never panics.  The map prints as the set of its pairs, each once; an iterator
     prints as the list of what it has still to yield. *)
  Theorem C76_debug : forall room m, reachable E room m ->
    exists P ls rs, contents E m P /\ bijective (eqL E) (eqR E) P /\
    Permutation ls (map fst P) /\ Permutation rs (map snd P) /\
    (forall out, fmt_map E dl dr m out = Ret (out ++ text_of "{" "}" pair_text P)%string tt) /\
    (forall n, exists xs it, nexts (iter_next E m) n (iter m) = Done (xs, it) /\
       forall out, fmt_iter E dl dr m it out = Ret (out ++ text_of "[" "]" pair_text (skipn n P))%string tt) /\
    (forall n, exists xs it, nexts single_next n (iter_left m) = Done (xs, it) /\
       forall out, fmt_single dl it out = Ret (out ++ text_of "[" "]" dl (skipn n ls))%string tt) /\
    (forall n, exists xs it, nexts single_next n (iter_right m) = Done (xs, it) /\
       forall out, fmt_single dr it out = Ret (out ++ text_of "[" "]" dr (skipn n rs))%string tt).
  Proof.
    intros room m H.
    destruct (C13_iterators E OK room m H) as (P & V & BJ & HI & (ls & PL & HL) & (rs & PR & HR)).
    assert (NL : List.length ls = List.length P) by (rewrite (Permutation_length PL), map_length; auto).
    assert (NR : List.length rs = List.length P) by (rewrite (Permutation_length PR), map_length; auto).
    exists P, ls, rs. refine (conj V (conj BJ (conj PL (conj PR _)))).
    assert (Y : yielding (iter_next E m) (iter m) P) by (intros n; destruct (HI n) as (it & X & _); eauto).
    assert (YL : yielding single_next (iter_left m) ls)
      by (intros n; destruct (HL n) as (it & X & _); rewrite NL; eauto).
    assert (YR : yielding single_next (iter_right m) rs)
      by (intros n; destruct (HR n) as (it & X & _); rewrite NR; eauto).
    refine (conj _ (conj _ (conj _ _))).
    - intros out. apply debug_set_done. exact V.
    - intros n. destruct (HI n) as (it & X & LN & _). do 2 eexists. split; [exact X|].
      intros out. apply debug_list_done. apply collect_yielding.
      + eapply yielding_after; eauto.
      + rewrite skipn_length. unfold iter_len in LN. unfold iter_clone. rewrite LN. auto.
    - intros n. destruct (HL n) as (it & X & LN). do 2 eexists. split; [exact X|].
      intros out. apply debug_list_done. apply collect_yielding.
      + eapply yielding_after; eauto.
      + rewrite skipn_length. unfold single_len in LN. rewrite LN, NL. auto.
    - intros n. destruct (HR n) as (it & X & LN). do 2 eexists. split; [exact X|].
      intros out. apply debug_list_done. apply collect_yielding.
      + eapply yielding_after; eauto.
      + rewrite skipn_length. unfold single_len in LN. rewrite LN, NR. auto.
  Qed.
End DebugProps.

(* ---- concrete case: m1 is reachable and holds three pairs ---- *)
Definition show_item (x : item) : string :=
  match fst x with
  | 1 => "one" | 4 => "four" | 5 => "five" | 20 => "twenty" | 30 => "thirty" | _ => "fifty"
  end%string.
Example C76_case : exists xs i,
  fmt_map env_collide show_item show_item m1 "map: "%string =
    Ret "map: {(four, thirty), (one, twenty), (five, fifty)}"%string tt /\
  nexts (iter_next env_collide m1) 1 (iter m1) = Done (xs, i) /\
  fmt_iter env_collide show_item show_item m1 i ""%string = Ret "[(one, twenty), (five, fifty)]"%string tt /\
  fmt_single show_item (iter_left m1) ""%string = Ret "[four, one, five]"%string tt.
Proof. do 2 eexists. repeat (split; [vm_compute; reflexivity|]). vm_compute. reflexivity. Qed.
Print Assumptions C76_debug.
