(* CycleMap: what {:?} and {:#?} write, into any writer (property C145). *)
From Coq Require Import List NArith Lia Bool Permutation PeanoNat String.
From Verif Require Import Closures Prelude RawTable Optionals CycleMap ListFacts TableFacts CycleMapSpec
  CycleMapHistory CycleMapProofs CycleMapProofs2 CycleMapProofs3 CycleMapHistoryProofs Concrete
  CycleMapProps CycleMapProps2 Debug DebugWriter.
Import ListNotations.
Open Scope N_scope.

Section Fmt.
  Context {L R S : Type}.
  Variable E : env L R S.
  (* Debug of the items, with the flag # *)
  Variables (dl : bool -> L -> fmtr) (dr : bool -> R -> fmtr).
  Definition pair_fmt (pretty : bool) (p : L * R) : fmtr :=
    tuple_fmt pretty (dl pretty (fst p)) (dr pretty (snd p)).

  (* src/cycle_map.rs:1131-1133 *)
  Definition map_w (pretty : bool) (m : cmap L R S) W (wr : W -> string -> W * bool) (w : W) : res W bool :=
    debug_w (iter_next E m) (pair_fmt pretty) pretty wr "{" "}" (List.length (iter m)) (iter m) w.
  (* src/cycle_map.rs:1205-1207 *)
  Definition iter_w (pretty : bool) (m : cmap L R S) (it : iter_t) W (wr : W -> string -> W * bool) (w : W) : res W bool :=
    debug_w (iter_next E m) (pair_fmt pretty) pretty wr "[" "]" (List.length (iter_clone it)) (iter_clone it) w.
  (* src/cycle_map.rs:1271-1273 *)
  Definition single_w {T} (d : bool -> T -> fmtr) (pretty : bool) (it : list (N * mapping_pair T))
    W (wr : W -> string -> W * bool) (w : W) : res W bool :=
    debug_w single_next (d pretty) pretty wr "[" "]" (List.length it) it w.
End Fmt.

Section WriterProps.
  Context {L R S : Type}.
  Variable E : env L R S.
  Hypothesis OK : lawful E.
  Variables (dl : bool -> L -> fmtr) (dr : bool -> R -> fmtr).
  (* the texts of the items *)
  Variables (tl : bool -> L -> string) (tr : bool -> R -> string).
  Hypothesis DL : forall b l, says (dl b l) (tl b l).
  Hypothesis DR : forall b r, says (dr b r) (tr b r).
  Definition pair_at (b : bool) (p : L * R) : string := pair_said b (tl b (fst p)) (tr b (snd p)).

  (* For both flags: nothing panics, the writer is given the text piece by piece until it refuses
     one, and then nothing more; the call returns whether all was accepted.  The text is that of
     the set of the pairs, and for an iterator of the list of what it has still to yield. *)
  Theorem C145_writer : forall room m, reachable E room m ->
    exists P ls rs, contents E m P /\ bijective (eqL E) (eqR E) P /\
    Permutation ls (map fst P) /\ Permutation rs (map snd P) /\
    forall b,
    prints (map_w E dl dr b m) (listed b "{" "}" (map (pair_at b) P)) /\
    (forall n, exists xs it, nexts (iter_next E m) n (iter m) = Done (xs, it) /\
       prints (iter_w E dl dr b m it) (listed b "[" "]" (map (pair_at b) (skipn n P)))) /\
    (forall n, exists xs it, nexts single_next n (iter_left m) = Done (xs, it) /\
       prints (single_w dl b it) (listed b "[" "]" (map (tl b) (skipn n ls)))) /\
    (forall n, exists xs it, nexts single_next n (iter_right m) = Done (xs, it) /\
       prints (single_w dr b it) (listed b "[" "]" (map (tr b) (skipn n rs)))).
  Proof.
    intros room m H.
    destruct (C13_iterators E OK room m H) as (P & V & BJ & HI & (ls & PL & HL) & (rs & PR & HR)).
    assert (NL : List.length ls = List.length P) by (rewrite (Permutation_length PL), map_length; auto).
    assert (NR : List.length rs = List.length P) by (rewrite (Permutation_length PR), map_length; auto).
    exists P, ls, rs. refine (conj V (conj BJ (conj PL (conj PR _)))). intros b.
    assert (Y : yielding (iter_next E m) (iter m) P) by (intros n; destruct (HI n) as (it & X & _); eauto).
    assert (YL : yielding single_next (iter_left m) ls)
      by (intros n; destruct (HL n) as (it & X & _); rewrite NL; eauto).
    assert (YR : yielding single_next (iter_right m) rs)
      by (intros n; destruct (HR n) as (it & X & _); rewrite NR; eauto).
    assert (SP : forall p, says (pair_fmt dl dr b p) (pair_at b p))
      by (intros p; apply says_tuple; auto).
    refine (conj _ (conj _ (conj _ _))).
    - apply debug_w_done; auto.
    - intros n. destruct (HI n) as (it & X & LN & _). do 2 eexists. split; [exact X|].
      apply debug_w_done; auto. apply collect_yielding.
      + eapply yielding_after; eauto.
      + rewrite skipn_length. unfold iter_len in LN. unfold iter_clone. rewrite LN. auto.
    - intros n. destruct (HL n) as (it & X & LN). do 2 eexists. split; [exact X|].
      apply debug_w_done; auto. apply collect_yielding.
      + eapply yielding_after; eauto.
      + rewrite skipn_length. unfold single_len in LN. rewrite LN, NL. auto.
    - intros n. destruct (HR n) as (it & X & LN). do 2 eexists. split; [exact X|].
      apply debug_w_done; auto. apply collect_yielding.
      + eapply yielding_after; eauto.
      + rewrite skipn_length. unfold single_len in LN. rewrite LN, NR. auto.
  Qed.
End WriterProps.

(* ---- concrete case: m1 is reachable and holds three pairs ---- *)
(* an item of two lines under {:#?} *)
Definition item_pieces (b : bool) (x : item) : list string :=
  let name := match fst x with
    | 1 => "one" | 4 => "four" | 5 => "five" | 20 => "twenty" | 30 => "thirty" | _ => "fifty"
    end%string in
  if b then [name; newline; "."%string] else [name].
Definition item_fmt (b : bool) (x : item) : fmtr := say (item_pieces b x).
(* a writer that keeps the text and accepts as many pieces as it has room for *)
Definition full_after (w : string * nat) (s : string) : (string * nat) * bool :=
  match snd w with
  | O => (w, false)
  | Datatypes.S k => (((fst w ++ s)%string, k), true)
  end.
Definition unlines (ls : list string) : string := String.concat newline ls.
Example C145_case :
  (forall b x, says (item_fmt b x) (glued (item_pieces b x))) /\
  map_w env_collide item_fmt item_fmt true m1 _ full_after (""%string, 100%nat) =
    Ret (unlines ["{"; "    ("; "        four"; "        .,"; "        thirty"; "        .,"; "    ),";
                  "    ("; "        one"; "        .,"; "        twenty"; "        .,"; "    ),";
                  "    ("; "        five"; "        .,"; "        fifty"; "        .,"; "    ),"; "}"]%string, 34%nat) true /\
  map_w env_collide item_fmt item_fmt false m1 _ full_after (""%string, 10%nat) =
    Ret ("{(four, thirty), ("%string, 0%nat) false /\
  single_w item_fmt true (iter_left m1) _ full_after (""%string, 100%nat) =
    Ret (unlines ["["; "    four"; "    .,"; "    one"; "    .,"; "    five"; "    .,"; "]"]%string, 79%nat) true.
Proof.
  split; [intros b x; apply says_say|].
  repeat (split; [vm_compute; reflexivity|]). vm_compute. reflexivity.
Qed.
Print Assumptions C145_writer.
