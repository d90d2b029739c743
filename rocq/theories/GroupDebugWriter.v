(* GroupMap: what {:?} and {:#?} write, into any writer (property C147). *)
From Coq Require Import List NArith Lia Bool Permutation PeanoNat String.
From Verif Require Import Closures Prelude RawTable GroupMap ListFacts TableFacts GroupSpec GroupHistory
  IterFacts GroupProofs GroupProofs2 GroupProofs3 GroupProofs4 GroupProofs5 GroupProofs6
  GroupHistoryProofs Concrete GroupProps GroupProps2 Debug DebugWriter GroupDefects.
Import ListNotations.
Open Scope N_scope.

Section Fmt.
  Context {L R S : Type}.
  Variable E : env L R S.
  (* Debug of the items, with the flag # *)
  Variables (dl : bool -> L -> fmtr) (dr : bool -> R -> fmtr).
  Definition pair_fmt (pretty : bool) (p : L * R) : fmtr :=
    tuple_fmt pretty (dl pretty (fst p)) (dr pretty (snd p)).
  Definition entry_fmt_g (pretty : bool) (p : option L * R) : fmtr :=
    tuple_fmt pretty (option_fmt pretty (dl pretty) (fst p)) (dr pretty (snd p)).

  (* src/group_map.rs:1056-1058 *)
  Definition map_w (pretty : bool) (m : gmap L R S) W (wr : W -> string -> W * bool) (w : W) : res W bool :=
    debug_w (iter_next E m) (entry_fmt_g pretty) pretty wr "{" "}" (iter_bound (iter m)) (iter m) w.
  (* src/group_map.rs:1329-1331 *)
  Definition iter_w (pretty : bool) (m : gmap L R S) (it : iter_t) W (wr : W -> string -> W * bool) (w : W) : res W bool :=
    debug_w (iter_next E m) (entry_fmt_g pretty) pretty wr "[" "]" (iter_bound (iter_clone it)) (iter_clone it) w.
  (* src/group_map.rs:1418-1427 *)
  Definition paired_w (pretty : bool) (m : gmap L R S) (it : iter_l) W (wr : W -> string -> W * bool) (w : W) : res W bool :=
    debug_w (paired_next E m) (pair_fmt pretty) pretty wr "[" "]" (List.length it) it w.
  (* src/group_map.rs:1491-1500 *)
  Definition unpaired_w (pretty : bool) (it : @iter_r R) W (wr : W -> string -> W * bool) (w : W) : res W bool :=
    debug_w unpaired_next (dr pretty) pretty wr "[" "]" (List.length it) it w.
  (* src/group_map.rs:1558-1565 *)
  Definition left_w (pretty : bool) (it : @iter_l L) W (wr : W -> string -> W * bool) (w : W) : res W bool :=
    debug_w left_next (dl pretty) pretty wr "[" "]" (List.length it) it w.
  (* src/group_map.rs:1601-1608 *)
  Definition right_w (pretty : bool) (it : @iter_r R) W (wr : W -> string -> W * bool) (w : W) : res W bool :=
    debug_w right_next (dr pretty) pretty wr "[" "]" (List.length it) it w.
  (* src/group_map.rs:1646-1653 *)
  Definition pair_iter_w (pretty : bool) (m : gmap L R S) (it : pair_iter) W (wr : W -> string -> W * bool) (w : W) : res W bool :=
    debug_w (pair_next E m) (dl pretty) pretty wr "[" "]" (List.length it) it w.
End Fmt.

Section WriterProps.
  Context {L R S : Type}.
  Variable E : env L R S.
  Hypothesis OK : lawful E.
  Variables (dl : bool -> L -> fmtr) (dr : bool -> R -> fmtr).
  Variables (tl : bool -> L -> string) (tr : bool -> R -> string).
  Hypothesis DL : forall b l, says (dl b l) (tl b l).
  Hypothesis DR : forall b r, says (dr b r) (tr b r).
  Definition pair_at (b : bool) (p : L * R) : string := pair_said b (tl b (fst p)) (tr b (snd p)).
  Definition entry_at (b : bool) (p : option L * R) : string :=
    pair_said b (option_said b (option_map (tl b) (fst p))) (tr b (snd p)).

  (* For both flags: nothing panics, the writer is given the text piece by piece until it refuses
     one, and then nothing more; the call returns whether all was accepted.  The map shows every
     pair and every right item without left items once; an iterator of iter() what is still to come
     except the items with the right item of the item yielded last (see C78_debug_iter_refuted). *)
  Theorem C147_writer_map : forall room m, reachable E room m ->
    exists rs ps l, holds E m rs ps /\ Permutation l (all_items_of E rs ps) /\ forall b,
    prints (map_w E dl dr b m) (listed b "{" "}" (map (entry_at b) l)) /\
    forall n, exists it,
      nexts (iter_next E m) n (iter m) = Done (firstn n (map Some l) ++ repeat None (n - List.length l), it) /\
      let printed := match yielded_last n l with
                     | Some x => filter (fun p => negb (eqR E (snd x) (snd p))) (skipn n l)
                     | None => skipn n l
                     end in
      prints (iter_w E dl dr b m it) (listed b "[" "]" (map (entry_at b) printed)).
  Proof.
    intros room m H. destruct (C55_clone_loses_partial E OK room m H) as (rs & ps & l & V & P & W).
    exists rs, ps, l. refine (conj V (conj P _)). intros b.
    assert (SE : forall p, says (entry_fmt_g dl dr b p) (entry_at b p))
      by (intros p; apply says_tuple; auto; apply says_option; auto).
    split.
    - destruct (W 0%nat) as (it & X & Y & _). inversion X; subst it.
      exact (debug_w_done _ _ b _ SE _ _ _ _ _ Y).
    - intros n. destruct (W n) as (it & X & _ & C & _). exists it. split; [exact X|].
      exact (debug_w_done _ _ b _ SE _ _ _ _ _ C).
  Qed.

  Lemma comes_w : forall {I A} (next : I -> outcome (option A * I)) len (show : A -> fmtr) (said : A -> string)
      (size : I -> nat) b it l n, (forall a, says (show a) (said a)) -> comes next len it l ->
    (forall i k, len i = Done k -> (exists q, collect next (size i) i = Done q) \/ (k <= size i)%nat) ->
    exists xs it', nexts next n it = Done (xs, it') /\
      prints (fun W wr w => debug_w next show b wr "[" "]" (size it') it' w)
        (listed b "[" "]" (map said (skipn n l))).
  Proof.
    intros I A next len show said size b it l n SH C HS. destruct (C n) as (it' & X & LN).
    do 2 eexists. split; [exact X|]. apply debug_w_done; auto.
    assert (Y : yielding next it' (skipn n l)).
    { eapply yielding_after; [|exact X]. intros k. destruct (C k) as (i & Z & _). eauto. }
    destruct (HS _ _ LN) as [(q & HQ)|HL].
    - rewrite HQ. f_equal. eapply collect_is; eauto.
    - apply collect_yielding; auto. rewrite skipn_length. auto.
  Qed.

  (* the other iterators show exactly what is still to come *)
  Theorem C147_writer_iterators : forall room m, reachable E room m ->
    exists rs ps, holds E m rs ps /\ forall b,
    (forall n, exists xs it, nexts (paired_next E m) n (iter_paired m) = Done (xs, it) /\
       prints (paired_w E dl dr b m it) (listed b "[" "]" (map (pair_at b) (skipn n ps)))) /\
    (exists l, Permutation l (lonely E rs ps) /\
       forall n, exists xs it, nexts (@unpaired_next R) n (iter_unpaired m) = Done (xs, it) /\
       prints (unpaired_w dr b it) (listed b "[" "]" (map (tr b) (skipn n l)))) /\
    (exists l, Permutation l (map fst ps) /\
       forall n, exists xs it, nexts (@left_next L) n (iter_left m) = Done (xs, it) /\
       prints (left_w dl b it) (listed b "[" "]" (map (tl b) (skipn n l)))) /\
    (forall n, exists xs it, nexts (@right_next R) n (iter_right m) = Done (xs, it) /\
       prints (right_w dr b it) (listed b "[" "]" (map (tr b) (skipn n rs)))) /\
    (forall r i, get_left_iter E m r = Some i -> exists l, Permutation l (lefts_of E ps r) /\
       forall n, exists xs it, nexts (pair_next E m) n i = Done (xs, it) /\
       prints (pair_iter_w E dl b m it) (listed b "[" "]" (map (tl b) (skipn n l)))).
  Proof.
    intros room m H.
    destruct (C55_len E OK room m H)
      as (rs & ps & V & CP & _ & (lu & CU & PU & _) & (ll & CL & PL) & CR & CG).
    exists rs, ps. split; auto. intros b.
    assert (SP : forall p, says (pair_fmt dl dr b p) (pair_at b p))
      by (intros p; apply says_tuple; auto).
    refine (conj _ (conj _ (conj _ (conj _ _)))).
    - intros n. apply (comes_w _ _ _ _ (@List.length _) b _ _ n SP CP).
      intros i k HK. left. unfold paired_len, paired_rest in HK.
      destruct (collect (paired_next E m) (List.length i) i) as [q|] eqn:C; [|discriminate].
      exists q. exact C.
    - exists lu. split; auto. intros n. apply (comes_w _ _ _ _ (@List.length _) b _ _ n (DR b) CU).
      intros i k HK. left. unfold unpaired_len, unpaired_rest in HK.
      destruct (collect unpaired_next (List.length i) i) as [q|] eqn:C; [|discriminate].
      exists q. exact C.
    - exists ll. split; auto. intros n. apply (comes_w _ _ _ _ (@List.length _) b _ _ n (DL b) CL).
      intros i k HK. right. inversion HK. auto.
    - intros n. apply (comes_w _ _ _ _ (@List.length _) b _ _ n (DR b) CR).
      intros i k HK. right. inversion HK. auto.
    - intros r i GI. destruct (CG r i GI) as (l & C & P). exists l. split; auto.
      intros n. apply (comes_w _ _ _ _ (@List.length _) b _ _ n (DL b) C).
      intros j k HK. right. inversion HK. auto.
  Qed.
End WriterProps.

(* ---- concrete case ---- *)
Definition item_pieces (b : bool) (x : item) : list string :=
  let name := match fst x with
    | 1 => "a" | 2 => "b" | 5 => "e" | 6 => "f" | 7 => "g" | 8 => "h"
    | 10 => "A" | 30 => "C" | 40 => "D" | 70 => "G" | 90 => "I" | _ => "?"
    end%string in
  if b then [name; newline; "."%string] else [name].
Definition item_fmt (b : bool) (x : item) : fmtr := say (item_pieces b x).
(* a writer that keeps the text and accepts as many pieces as it has room for *)
Definition full_after (w : string * nat) (s : string) : (string * nat) * bool :=
  match snd w with
  | O => (w, false)
  | Datatypes.S k => (((fst w ++ s)%string, k), true)
  end.
Definition unlines (ls : list string) : string := String.concat newline ls.
Definition iter_at (n room : nat) : res (string * nat) bool :=
  match nexts (iter_next env_collide gmc) n (iter gmc) with
  | Done (_, i) => iter_w env_collide item_fmt item_fmt true gmc i _ full_after (""%string, room)
  | Panicked => Panic (""%string, room)
  end.
Example C147_case : reachable env_collide 1 gmc /\
  (forall b x, says (item_fmt b x) (glued (item_pieces b x))) /\
  iter_at 7 100 =
    Ret (unlines ["["; "    ("; "        None,"; "        G"; "        .,"; "    ),";
                  "    ("; "        None,"; "        I"; "        .,"; "    ),"; "]"]%string, 63%nat) true /\
  map_w env_collide item_fmt item_fmt true gmc _ full_after (""%string, 24%nat) =
    Ret (unlines ["{"; "    ("; "        None,"; "        D"; "        .,"; "    ),"; "    ("; "        Some"]%string, 0%nat) false /\
  unpaired_w item_fmt true (iter_unpaired gmc) _ full_after (""%string, 100%nat) =
    Ret (unlines ["["; "    D"; "    .,"; "    G"; "    .,"; "    I"; "    .,"; "]"]%string, 79%nat) true.
Proof.
  split; [apply gm1_reachable; [simpl; auto|reflexivity]|].
  split; [intros b x; apply says_say|].
  repeat (split; [vm_compute; reflexivity|]). vm_compute; reflexivity.
Qed.
Print Assumptions C147_writer_map.
Print Assumptions C147_writer_iterators.
