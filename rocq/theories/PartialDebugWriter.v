(* PartialCycleMap and OptionalPair: what {:?} and {:#?} write, into any writer (property C146). *)
From Coq Require Import List NArith Lia Bool Permutation PeanoNat String.
From Verif Require Import Closures Prelude RawTable Optionals PartialCycleMap ListFacts TableFacts
  PartialSpec PartialHistory IterFacts PartialProofs PartialProofs2 PartialProofs3 PartialProofs4
  PartialProofs5 PartialProofs6 PartialProofs7 PartialProofs8 PartialHistoryProofs Concrete
  PartialProps PartialProps2 Debug DebugWriter.
Import ListNotations.
Open Scope N_scope.

Section Fmt.
  Context {L R S : Type}.
  Variable E : env L R S.
  (* Debug of the items, with the flag # *)
  Variables (dl : bool -> L -> fmtr) (dr : bool -> R -> fmtr).
  Definition pair_fmt (pretty : bool) (p : L * R) : fmtr :=
    tuple_fmt pretty (dl pretty (fst p)) (dr pretty (snd p)).

  (* src/partial_cycle_map.rs:1735-1737 *)
  Definition map_w (pretty : bool) (m : pmap L R S) W (wr : W -> string -> W * bool) (w : W) : res W bool :=
    debug_w (iter_next E m) (op_fmt dl dr) pretty wr "{" "}" (List.length (iter m)) (iter m) w.
  (* src/partial_cycle_map.rs:2003-2012 *)
  Definition iter_w (pretty : bool) (m : pmap L R S) (it : iter_l) W (wr : W -> string -> W * bool) (w : W) : res W bool :=
    debug_w (iter_next E m) (op_fmt dl dr) pretty wr "[" "]" (List.length it) it w.
  (* src/partial_cycle_map.rs:2074-2083 *)
  Definition paired_w (pretty : bool) (m : pmap L R S) (it : iter_l) W (wr : W -> string -> W * bool) (w : W) : res W bool :=
    debug_w (paired_next E m) (pair_fmt pretty) pretty wr "[" "]" (List.length it) it w.
  (* src/partial_cycle_map.rs:2151-2160 *)
  Definition unpaired_w (pretty : bool) (it : @iter_l L * @iter_r R) W (wr : W -> string -> W * bool) (w : W) : res W bool :=
    debug_w unpaired_next (op_fmt dl dr) pretty wr "[" "]" (List.length (fst it) + List.length (snd it)) it w.
  (* src/partial_cycle_map.rs:2229-2236 *)
  Definition single_w {T} (d : bool -> T -> fmtr) (pretty : bool) (it : list (N * mapping_pair T))
    W (wr : W -> string -> W * bool) (w : W) : res W bool :=
    debug_w single_next (d pretty) pretty wr "[" "]" (List.length it) it w.
End Fmt.

Section WriterProps.
  Context {L R S : Type}.
  Variable E : env L R S.
  Hypothesis OK : lawful E.
  Variables (dl : bool -> L -> fmtr) (dr : bool -> R -> fmtr).
  Variables (tl : bool -> L -> string) (tr : bool -> R -> string).
  Hypothesis DL : forall b l, says (dl b l) (tl b l).
  Hypothesis DR : forall b r, says (dr b r) (tr b r).
  Definition pair_at (b : bool) (p : L * R) : string := pair_said b (tl b (fst p)) (tr b (snd p)).
  (* an OptionalPair prints its items without the flag *)
  Definition entry_at (p : optional_pair L R) : string := op_said (tl false) (tr false) p.

  (* For both flags: nothing panics, the writer is given the text piece by piece until it refuses
     one, and then nothing more; the call returns whether all was accepted.  The map shows its
     pairs and unpaired left items (not the unpaired right items, see C77_debug_map_refuted). *)
  Theorem C146_writer_map : forall room m, reachable E room m ->
    exists P Q, contents E m P /\ Permutation Q (filter has_left_item P) /\ forall b,
    prints (map_w E dl dr b m) (listed b "{" "}" (map entry_at Q)) /\
    (forall n, exists xs it, nexts (iter_next E m) n (iter m) = Done (xs, it) /\
       prints (iter_w E dl dr b m it) (listed b "[" "]" (map entry_at (skipn n Q)))).
  Proof.
    intros room m H. destruct (C37_iter_partial E OK room m H) as (P & Q & V & PQ & HI).
    exists P, Q. refine (conj V (conj PQ _)). intros b.
    assert (Y : yielding (iter_next E m) (iter m) Q) by (intros n; destruct (HI n) as (it & X & _); eauto).
    assert (W : forall n it xs, nexts (iter_next E m) n (iter m) = Done (xs, it) ->
      collect (iter_next E m) (List.length it) it = Done (skipn n Q)).
    { intros n it xs X. destruct (HI n) as (it' & X' & LN). rewrite X in X'. inversion X'; subst it'.
      unfold iter_len in LN. destruct (collect (iter_next E m) (List.length it) it) as [l|] eqn:C;
        [|discriminate].
      f_equal. eapply collect_is; [|exact C]. eapply yielding_after; eauto. }
    assert (SO : forall p, says (op_fmt dl dr p) (entry_at p)) by (intros p; apply says_op; auto).
    split.
    - apply debug_w_done; auto. exact (W 0%nat (iter m) [] eq_refl).
    - intros n. destruct (HI n) as (it & X & _). do 2 eexists. split; [exact X|].
      apply debug_w_done; eauto.
  Qed.

  (* the other iterators show exactly what is still to come *)
  Theorem C146_writer_iterators : forall room m, reachable E room m ->
    exists Q UL UR ls rs, contents E m (map (fun p => SomeBoth (fst p) (snd p)) Q ++ map SomeLeft UL ++ map SomeRight UR) /\
    Permutation ls (map fst Q ++ UL) /\ Permutation rs (map snd Q ++ UR) /\ forall b,
    (forall n, exists xs it, nexts (paired_next E m) n (iter_paired m) = Done (xs, it) /\
       prints (paired_w E dl dr b m it) (listed b "[" "]" (map (pair_at b) (skipn n Q)))) /\
    (forall n, exists xs it, nexts unpaired_next n (iter_unpaired m) = Done (xs, it) /\
       prints (unpaired_w dl dr b it)
         (listed b "[" "]" (map entry_at (skipn n (map SomeLeft UL ++ map SomeRight UR))))) /\
    (forall n, exists xs it, nexts single_next n (iter_left m) = Done (xs, it) /\
       prints (single_w dl b it) (listed b "[" "]" (map (tl b) (skipn n ls)))) /\
    (forall n, exists xs it, nexts single_next n (iter_right m) = Done (xs, it) /\
       prints (single_w dr b it) (listed b "[" "]" (map (tr b) (skipn n rs)))).
  Proof.
    intros room m H.
    destruct (C38_iterators E OK room m H) as (Q & UL & UR & ls & rs & V & PL & PR & HP & HU & HL & HR).
    exists Q, UL, UR, ls, rs. refine (conj V (conj PL (conj PR _))). intros b.
    assert (SO : forall p, says (op_fmt dl dr p) (entry_at p)) by (intros p; apply says_op; auto).
    assert (SP : forall p, says (pair_fmt dl dr b p) (pair_at b p))
      by (intros p; apply says_tuple; auto).
    refine (conj _ (conj _ (conj _ _))); intros n.
    - destruct (HP n) as (it & X & LN). do 2 eexists. split; [exact X|].
      apply debug_w_done; auto. unfold paired_len, paired_rest in LN.
      destruct (collect (paired_next E m) (List.length it) it) as [l|] eqn:C; [|discriminate].
      f_equal. eapply collect_is; [|exact C]. eapply yielding_after; [|exact X].
      intros k. destruct (HP k) as (i & Z & _); eauto.
    - destruct (HU n) as (it & X & LN). do 2 eexists. split; [exact X|].
      apply debug_w_done; auto. unfold unpaired_len, unpaired_rest in LN.
      destruct (collect unpaired_next (List.length (fst it) + List.length (snd it)) it) as [l|] eqn:C;
        [|discriminate].
      f_equal. eapply collect_is; [|exact C]. eapply yielding_after; [|exact X].
      intros k. destruct (HU k) as (i & Z & _); eauto.
    - destruct (HL n) as (it & X & LN). do 2 eexists. split; [exact X|].
      apply debug_w_done; auto. apply collect_yielding.
      + eapply yielding_after; [|exact X]. intros k. destruct (HL k) as (i & Z & _); eauto.
      + rewrite skipn_length. unfold single_len in LN. rewrite LN. auto.
    - destruct (HR n) as (it & X & LN). do 2 eexists. split; [exact X|].
      apply debug_w_done; auto. apply collect_yielding.
      + eapply yielding_after; [|exact X]. intros k. destruct (HR k) as (i & Z & _); eauto.
      + rewrite skipn_length. unfold single_len in LN. rewrite LN. auto.
  Qed.

  (* An OptionalPair alone: the flag changes nothing. *)
  Theorem C146_writer_optional : forall p, says (op_fmt dl dr p) (entry_at p).
  Proof. intros p. apply says_op; auto. Qed.
End WriterProps.

(* ---- concrete case ---- *)
Definition item_pieces (b : bool) (x : item) : list string :=
  let name := match fst x with
    | 1 => "a" | 2 => "b" | 3 => "c" | 4 => "d" | 5 => "e" | 6 => "f"
    | 10 => "A" | 20 => "B" | 30 => "C" | 40 => "D" | 50 => "E" | 60 => "F" | _ => "?"
    end%string in
  if b then [name; newline; "."%string] else [name].
Definition item_fmt (b : bool) (x : item) : fmtr := say (item_pieces b x).
(* a writer that keeps the text and accepts as many pieces as it has room for *)
Definition full_after (w : string * nat) (s : string) : (string * nat) * bool :=
  match snd w with
  | O => (w, false)
  | Datatypes.S k => (((fst w ++ s)%string, k), true)
  end.
Definition unlines (ls : list string) : string := String.concat newline ls.
Example C146_case : exists xs i,
  reachable env_collide 1 pm1 /\
  (forall b x, says (item_fmt b x) (glued (item_pieces b x))) /\
  map_w env_collide item_fmt item_fmt true pm1 _ full_after (""%string, 100%nat) =
    Ret (unlines ["{"; "    SomeBoth( e, E ),"; "    SomeBoth( c, C ),"; "    SomeBoth( a, B ),";
                  "    SomeLeft( b ),"; "    SomeLeft( d ),"; "}"]%string, 66%nat) true /\
  map_w env_collide item_fmt item_fmt true pm1 _ full_after (""%string, 5%nat) =
    Ret (unlines ["{"; "    SomeBoth( e"]%string, 0%nat) false /\
  nexts (paired_next env_collide pm1) 2 (iter_paired pm1) = Done (xs, i) /\
  paired_w env_collide item_fmt item_fmt true pm1 i _ full_after (""%string, 100%nat) =
    Ret (unlines ["["; "    ("; "        a"; "        .,"; "        B"; "        .,"; "    ),"; "]"]%string, 76%nat) true.
Proof.
  do 2 eexists. split; [apply pm1_reachable; reflexivity|].
  split; [intros b x; apply says_say|].
  repeat (split; [vm_compute; reflexivity|]). vm_compute. reflexivity.
Qed.
Print Assumptions C146_writer_map.
Print Assumptions C146_writer_iterators.
Print Assumptions C146_writer_optional.
