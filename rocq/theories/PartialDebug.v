(* PartialCycleMap and OptionalPair: what {:?} prints (properties C77, C79). *)
From Coq Require Import List NArith Lia Bool Permutation PeanoNat String.
From Verif Require Import Closures Prelude RawTable Optionals PartialCycleMap ListFacts TableFacts
  PartialSpec PartialHistory IterFacts PartialProofs PartialProofs2 PartialProofs3 PartialProofs4
  PartialProofs5 PartialProofs6 PartialProofs7 PartialProofs8 PartialHistoryProofs Concrete
  PartialProps PartialProps2 Debug.
Import ListNotations.
Open Scope N_scope.

Section Fmt.
  Context {L R S : Type}.
  Variable E : env L R S.
  Variables (dl : L -> string) (dr : R -> string).

  (* src/partial_cycle_map.rs:1735-1737 *)
  Definition fmt_map (m : pmap L R S) : M string unit :=
    debug_set (iter_next E m) (show_op dl dr) (List.length (iter m)) (iter m).
  (* src/partial_cycle_map.rs:2003-2012; all iterators here clone themselves field by field
     (1993-2000, 2064-2072, 2141-2149, 2220-2227) *)
  Definition fmt_iter (m : pmap L R S) (it : iter_l) : M string unit :=
    debug_list (iter_next E m) (show_op dl dr) (List.length it) it.
  (* src/partial_cycle_map.rs:2074-2083 *)
  Definition fmt_paired (m : pmap L R S) (it : iter_l) : M string unit :=
    debug_list (paired_next E m) (show_tuple dl dr) (List.length it) it.
  (* src/partial_cycle_map.rs:2151-2160 *)
  Definition fmt_unpaired (it : @iter_l L * @iter_r R) : M string unit :=
    debug_list unpaired_next (show_op dl dr) (List.length (fst it) + List.length (snd it)) it.
  (* src/partial_cycle_map.rs:2229-2236 *)
  Definition fmt_single {T} (show : T -> string) (it : list (N * mapping_pair T)) : M string unit :=
    debug_list single_next show (List.length it) it.
End Fmt.

(* ---- C79: the text of an OptionalPair ---- *)
Section Optional.
  Context {L R : Type} (dl : L -> string) (dr : R -> string).
  Lemma append_inj_r : forall a b c : string, (a ++ c = b ++ c)%string -> a = b.
  Proof.
    assert (LEN : forall a b : string, String.length (a ++ b) = (String.length a + String.length b)%nat).
    { induction a; simpl; auto. }
    induction a as [|x a IH]; intros [|y b] c H; auto.
    - apply (f_equal String.length) in H. cbn [append] in H. cbn [String.length] in H.
      rewrite LEN in H. lia.
    - apply (f_equal String.length) in H. cbn [append] in H. cbn [String.length] in H.
      rewrite LEN in H. lia.
    - inversion H. f_equal. eauto.
  Qed.
  Definition variant (p : optional_pair L R) : nat :=
    match p with Neither => 0 | SomeLeft _ => 1 | SomeRight _ => 2 | SomeBoth _ _ => 3 end%nat.
  (* The text tells which variant it is and, unless there are two items, the text of the item;
     both items' texts are in it in order. *)
  Theorem C79_debug_optional : forall p q,
    (show_op dl dr p = show_op dl dr q -> variant p = variant q /\
       (forall a b, p = SomeLeft a -> q = SomeLeft b -> dl a = dl b) /\
       (forall a b, p = SomeRight a -> q = SomeRight b -> dr a = dr b) /\
       (forall a b c d, p = SomeBoth a c -> q = SomeBoth b d ->
          (dl a = dl b -> dr c = dr d) /\ (dr c = dr d -> dl a = dl b))) /\
    (forall l, op_get_left p = Some l -> exists u v, show_op dl dr p = (u ++ dl l ++ v)%string) /\
    (forall r, op_get_right p = Some r -> exists u v, show_op dl dr p = (u ++ dr r ++ v)%string).
  Proof.
    intros p q. refine (conj _ (conj _ _)).
    - intros H. destruct p, q; simpl in H; try discriminate; (split; [reflexivity|]);
        (refine (conj _ (conj _ _)); intros; try discriminate).
      + inversion H0; inversion H1; subst. inversion H. eapply append_inj_r; eauto.
      + inversion H0; inversion H1; subst. inversion H. eapply append_inj_r; eauto.
      + inversion H0; inversion H1; subst. inversion H as [X]. split; intros Y.
        * rewrite Y in X. clear - X. revert X. generalize (dl b). intros w.
          induction w as [|x w IH]; intros X; [|inversion X; auto].
          inversion X as [Z]. eapply append_inj_r; eauto.
        * rewrite Y in X. eapply append_inj_r; eauto.
    - intros l Hl. destruct p; simpl in Hl; inversion Hl; subst.
      + exists "SomeLeft( "%string, " )"%string. reflexivity.
      + exists "SomeBoth( "%string, (", " ++ dr r ++ " )")%string. reflexivity.
    - intros r' Hr. destruct p; simpl in Hr; inversion Hr; subst.
      + exists "SomeRight( "%string, " )"%string. reflexivity.
      + exists ("SomeBoth( " ++ dl l ++ ", ")%string, " )"%string.
        rewrite !append_assoc. reflexivity.
  Qed.
End Optional.

Section DebugProps.
  Context {L R S : Type}.
  Variable E : env L R S.
  Hypothesis OK : lawful E.
  Variables (dl : L -> string) (dr : R -> string).

  Definition pair_text (p : L * R) : string := ("(" ++ dl (fst p) ++ ", " ++ dr (snd p) ++ ")")%string.
  Definition entry_text (p : optional_pair L R) : string :=
    match p with
    | Neither => "None"
    | SomeLeft l => "SomeLeft( " ++ dl l ++ " )"
    | SomeRight r => "SomeRight( " ++ dr r ++ " )"
    | SomeBoth l r => "SomeBoth( " ++ dl l ++ ", " ++ dr r ++ " )"
    end%string.

  (* C77 (false in general, see C77_debug_map_refuted): printing the map or an iterator over it
     never panics and shows every pair and unpaired left item once, after n calls of next what
     is still to come.  Missing: unpaired right items are not shown. *)
  Theorem C77_debug_map_partial : forall room m, reachable E room m ->
    exists P Q, contents E m P /\ Permutation Q (filter has_left_item P) /\
    (forall out, fmt_map E dl dr m out = Ret (out ++ text_of "{" "}" entry_text Q)%string tt) /\
    (forall n, exists xs it, nexts (iter_next E m) n (iter m) = Done (xs, it) /\
       forall out, fmt_iter E dl dr m it out = Ret (out ++ text_of "[" "]" entry_text (skipn n Q))%string tt).
  Proof.
    intros room m H. destruct (C37_iter_partial E OK room m H) as (P & Q & V & PQ & HI).
    exists P, Q. refine (conj V (conj PQ _)).
    assert (Y : yielding (iter_next E m) (iter m) Q) by (intros n; destruct (HI n) as (it & X & _); eauto).
    assert (W : forall n it xs, nexts (iter_next E m) n (iter m) = Done (xs, it) ->
      collect (iter_next E m) (List.length it) it = Done (skipn n Q)).
    { intros n it xs X. destruct (HI n) as (it' & X' & LN). rewrite X in X'. inversion X'; subst it'.
      unfold iter_len in LN. destruct (collect (iter_next E m) (List.length it) it) as [l|] eqn:C;
        [|discriminate].
      f_equal. eapply collect_is; [|exact C]. eapply yielding_after; eauto. }
    split.
    - intros out. apply debug_set_done. exact (W 0%nat (iter m) [] eq_refl).
    - intros n. destruct (HI n) as (it & X & _). do 2 eexists. split; [exact X|].
      intros out. apply debug_list_done. eauto.
  Qed.

  (* the other iterators show exactly what is still to come *)
  Theorem C77_debug_iterators : forall room m, reachable E room m ->
    exists Q UL UR ls rs, contents E m (map (fun p => SomeBoth (fst p) (snd p)) Q ++ map SomeLeft UL ++ map SomeRight UR) /\
    Permutation ls (map fst Q ++ UL) /\ Permutation rs (map snd Q ++ UR) /\
    (forall n, exists xs it, nexts (paired_next E m) n (iter_paired m) = Done (xs, it) /\
       forall out, fmt_paired E dl dr m it out = Ret (out ++ text_of "[" "]" pair_text (skipn n Q))%string tt) /\
    (forall n, exists xs it, nexts unpaired_next n (iter_unpaired m) = Done (xs, it) /\
       forall out, fmt_unpaired dl dr it out =
         Ret (out ++ text_of "[" "]" entry_text (skipn n (map SomeLeft UL ++ map SomeRight UR)))%string tt) /\
    (forall n, exists xs it, nexts single_next n (iter_left m) = Done (xs, it) /\
       forall out, fmt_single dl it out = Ret (out ++ text_of "[" "]" dl (skipn n ls))%string tt) /\
    (forall n, exists xs it, nexts single_next n (iter_right m) = Done (xs, it) /\
       forall out, fmt_single dr it out = Ret (out ++ text_of "[" "]" dr (skipn n rs))%string tt).
  Proof.
    intros room m H.
    destruct (C38_iterators E OK room m H) as (Q & UL & UR & ls & rs & V & PL & PR & HP & HU & HL & HR).
    exists Q, UL, UR, ls, rs. refine (conj V (conj PL (conj PR _))).
    refine (conj _ (conj _ (conj _ _))); intros n.
    - destruct (HP n) as (it & X & LN). do 2 eexists. split; [exact X|].
      intros out. apply debug_list_done. unfold paired_len, paired_rest in LN.
      destruct (collect (paired_next E m) (List.length it) it) as [l|] eqn:C; [|discriminate].
      f_equal. eapply collect_is; [|exact C]. eapply yielding_after; [|exact X].
      intros k. destruct (HP k) as (i & Z & _); eauto.
    - destruct (HU n) as (it & X & LN). do 2 eexists. split; [exact X|].
      intros out. apply debug_list_done. unfold unpaired_len, unpaired_rest in LN.
      destruct (collect unpaired_next (List.length (fst it) + List.length (snd it)) it) as [l|] eqn:C;
        [|discriminate].
      f_equal. eapply collect_is; [|exact C]. eapply yielding_after; [|exact X].
      intros k. destruct (HU k) as (i & Z & _); eauto.
    - destruct (HL n) as (it & X & LN). do 2 eexists. split; [exact X|].
      intros out. apply debug_list_done. apply collect_yielding.
      + eapply yielding_after; [|exact X]. intros k. destruct (HL k) as (i & Z & _); eauto.
      + rewrite skipn_length. unfold single_len in LN. rewrite LN. auto.
    - destruct (HR n) as (it & X & LN). do 2 eexists. split; [exact X|].
      intros out. apply debug_list_done. apply collect_yielding.
      + eapply yielding_after; [|exact X]. intros k. destruct (HR k) as (i & Z & _); eauto.
      + rewrite skipn_length. unfold single_len in LN. rewrite LN. auto.
  Qed.
End DebugProps.

(* ---- concrete cases ---- *)
Definition show_item (x : item) : string :=
  match fst x with
  | 1 => "a" | 2 => "b" | 3 => "c" | 4 => "d" | 5 => "e" | 6 => "f"
  | 10 => "A" | 20 => "B" | 30 => "C" | 40 => "D" | 50 => "E" | 60 => "F" | _ => "?"
  end%string.
Definition pm1_text : string :=
  "{SomeBoth( e, E ), SomeBoth( c, C ), SomeBoth( a, B ), SomeLeft( b ), SomeLeft( d )}".
Example C77_case : exists xs i,
  reachable env_collide 1 pm1 /\
  fmt_map env_collide show_item show_item pm1 ""%string = Ret pm1_text tt /\
  nexts unpaired_next 1 (iter_unpaired pm1) = Done (xs, i) /\
  fmt_unpaired show_item show_item i "rest "%string =
    Ret "rest [SomeLeft( d ), SomeRight( A ), SomeRight( D ), SomeRight( F )]"%string tt /\
  fmt_paired env_collide show_item show_item pm1 (iter_paired pm1) ""%string =
    Ret "[(e, E), (c, C), (a, B)]"%string tt.
Proof.
  do 2 eexists. split; [apply pm1_reachable; reflexivity|].
  repeat (split; [vm_compute; reflexivity|]). vm_compute. reflexivity.
Qed.
Example C79_case : show_op show_item show_item (SomeBoth (it 1) (it 10)) = "SomeBoth( a, A )"%string /\
  show_op show_item show_item (SomeRight (it 10)) = "SomeRight( A )"%string /\
  show_op show_item show_item (@Neither item item) = "None"%string.
Proof. vm_compute. auto. Qed.
(* C77 as stated is false: 10 is in the map, the text of the map has no entry for it *)
Theorem C77_debug_map_refuted : exists (E : env item item N) m text,
  lawful E /\ reachable E 1 m /\ contains_right E m (it 10) = true /\
  fmt_map E show_item show_item m ""%string = Ret text tt /\
  index 0 (show_item (it 10)) text = None.
Proof.
  exists env_collide, pm1, pm1_text. split; [exact env_collide_ok|].
  split; [apply pm1_reachable; reflexivity|].
  repeat (split; [vm_compute; reflexivity|]). vm_compute. reflexivity.
Qed.
Print Assumptions C77_debug_map_partial.
Print Assumptions C77_debug_iterators.
Print Assumptions C77_debug_map_refuted.
Print Assumptions C79_debug_optional.
