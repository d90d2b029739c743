(* fmt::Debug with {:?}.

   core::fmt is external: its builders are modelled as what they write for {:?} without the
   alternate flag ({:#?} and failing writers: DebugWriter.v).  The output written so far
   is the state, so that a panic in the middle leaves the text written before it.  The
   Debug implementations of the items are functions from items to text; a writer that
   reports errors is not modelled. *)
From Coq Require Import List NArith Lia String PeanoNat.
From Verif Require Import Prelude Optionals.
Import ListNotations.

(* fmt::Write::write_str *)
Definition write (s : string) : M string unit := fun out => Ret (out ++ s)%string tt.

Section Builders.
  Context {I A : Type}.
  Variable next : I -> outcome (option A * I).
  Variable show : A -> string.
  (* DebugSet::entries / DebugList::entries: for every item the iterator yields, a separator
     unless it is the first, and its text.  Fuel as in [collect]. *)
  Fixpoint entries (fuel : nat) (it : I) (first : bool) : M string unit :=
    match next it with
    | Panicked => panic
    | Done (None, _) => ret tt
    | Done (Some a, it') =>
        match fuel with
        | O => panic
        | Datatypes.S fuel' =>
            (if first then ret tt else write ", ") ;;; write (show a) ;;; entries fuel' it' false
        end
    end.
  (* Formatter::debug_set().entries(it).finish() *)
  Definition debug_set (fuel : nat) (it : I) : M string unit :=
    write "{" ;;; entries fuel it true ;;; write "}".
  (* Formatter::debug_list().entries(it).finish() *)
  Definition debug_list (fuel : nat) (it : I) : M string unit :=
    write "[" ;;; entries fuel it true ;;; write "]".
End Builders.

(* Debug of a pair (A, B) and of an Option, from core *)
Definition show_tuple {A B} (sa : A -> string) (sb : B -> string) (p : A * B) : string :=
  ("(" ++ sa (fst p) ++ ", " ++ sb (snd p) ++ ")")%string.
Definition show_option {A} (sa : A -> string) (o : option A) : string :=
  match o with None => "None" | Some a => "Some(" ++ sa a ++ ")" end%string.
(* src/optionals.rs:163-186 *)
Definition show_op {L R} (sl : L -> string) (sr : R -> string) (p : optional_pair L R) : string :=
  match p with
  | Neither => "None"
  | SomeLeft l => "SomeLeft( " ++ sl l ++ " )"
  | SomeRight r => "SomeRight( " ++ sr r ++ " )"
  | SomeBoth l r => "SomeBoth( " ++ sl l ++ ", " ++ sr r ++ " )"
  end%string.

(* ---- what the builders write, from what the iterator yields ---- *)
(* the text of a list of items: opened, separated by commas, closed *)
Definition text_of {A} (opening closing : string) (show : A -> string) (l : list A) : string :=
  (opening ++ String.concat ", " (map show l) ++ closing)%string.

Lemma append_assoc : forall a b c : string, ((a ++ b) ++ c = a ++ (b ++ c))%string.
Proof. induction a; simpl; intros; auto. f_equal; auto. Qed.
Lemma append_nil_r : forall a : string, (a ++ "" = a)%string.
Proof. induction a; simpl; auto. f_equal; auto. Qed.

Section BuilderFacts.
  Context {I A : Type}.
  Variable next : I -> outcome (option A * I).
  Variable show : A -> string.

  Definition tail_text (first : bool) (l : list A) : string :=
    if first then String.concat ", " (map show l)
    else String.concat "" (map (fun a => ", " ++ show a)%string l).
  Lemma tail_text_cons : forall first a l, tail_text first (a :: l)
    = ((if first then "" else ", ") ++ show a ++ tail_text false l)%string.
  Proof.
    assert (H : forall l a, String.concat "" (map (fun a => ", " ++ show a)%string (a :: l))
      = (", " ++ show a ++ String.concat "" (map (fun a => ", " ++ show a)%string l))%string).
    { intros [|b l] a; [cbn [map String.concat]; rewrite append_nil_r; auto|].
      cbn [map String.concat]. rewrite append_assoc. reflexivity. }
    intros [|] a l; [|unfold tail_text; rewrite H; auto].
    unfold tail_text. cbn [append]. revert a. induction l as [|b l IH]; intros a.
    - cbn [map String.concat]. rewrite append_nil_r. auto.
    - rewrite H. change (String.concat ", " (map show (a :: b :: l)))
        with (show a ++ ", " ++ String.concat ", " (map show (b :: l)))%string.
      rewrite IH. auto.
  Qed.

  Lemma entries_done : forall fuel it first l out, collect next fuel it = Done l ->
    entries next show fuel it first out = Ret (out ++ tail_text first l)%string tt.
  Proof.
    induction fuel as [|fuel IH]; intros it first l out H; cbn [collect entries] in *;
      destruct (next it) as [[[a|] it']|] eqn:N; try discriminate.
    - inversion H; subst. destruct first; simpl; rewrite append_nil_r; auto.
    - destruct (collect next fuel it') as [l'|] eqn:C; cbn [omap] in H; inversion H; subst.
      rewrite tail_text_cons. destruct first; cbn [bind ret write].
      + unfold bind, ret, write. rewrite (IH _ _ _ _ C), append_assoc. auto.
      + unfold bind, write. rewrite (IH _ _ _ _ C), !append_assoc. auto.
    - inversion H; subst. destruct first; simpl; rewrite append_nil_r; auto.
  Qed.
  Lemma entries_panicked : forall fuel it first out, collect next fuel it = Panicked ->
    exists out', entries next show fuel it first out = Panic out'.
  Proof.
    induction fuel as [|fuel IH]; intros it first out H; cbn [collect entries] in *;
      destruct (next it) as [[[a|] it']|] eqn:N; try discriminate; try (eexists; reflexivity).
    destruct (collect next fuel it') as [l'|] eqn:C; cbn [omap] in H; [discriminate|].
    destruct first; unfold bind, ret, write; apply IH; auto.
  Qed.

  Lemma debug_set_done : forall fuel it l out, collect next fuel it = Done l ->
    debug_set next show fuel it out = Ret (out ++ text_of "{" "}" show l)%string tt.
  Proof.
    intros fuel it l out H. unfold debug_set, bind, write.
    rewrite (entries_done _ _ _ _ _ H). unfold text_of. rewrite !append_assoc. auto.
  Qed.
  Lemma debug_list_done : forall fuel it l out, collect next fuel it = Done l ->
    debug_list next show fuel it out = Ret (out ++ text_of "[" "]" show l)%string tt.
  Proof.
    intros fuel it l out H. unfold debug_list, bind, write.
    rewrite (entries_done _ _ _ _ _ H). unfold text_of. rewrite !append_assoc. auto.
  Qed.

  (* next yields the items of l, then None *)
  Definition yielding (it : I) (l : list A) : Prop := forall n, exists it',
    nexts next n it = Done (firstn n (map Some l) ++ repeat None (n - List.length l), it').

  Lemma nexts_app : forall n k it, nexts next (n + k) it =
    match nexts next n it with
    | Panicked => Panicked
    | Done (xs, it') => match nexts next k it' with
                        | Panicked => Panicked
                        | Done (ys, it'') => Done (xs ++ ys, it'')
                        end
    end.
  Proof.
    induction n; intros k it; cbn [nexts Nat.add].
    - destruct (nexts next k it) as [[ys it'']|]; auto.
    - destruct (next it) as [[a it']|]; auto. rewrite IHn.
      destruct (nexts next n it') as [[xs it'']|]; auto.
      destruct (nexts next k it'') as [[ys it3]|]; auto.
  Qed.

  Lemma yielding_after : forall it l n xs it', yielding it l -> nexts next n it = Done (xs, it') ->
    yielding it' (skipn n l).
  Proof.
    intros it l n xs it' H HN k. destruct (H (n + k)%nat) as (it2 & E). rewrite nexts_app, HN in E.
    destruct (nexts next k it') as [[ys it3]|] eqn:K; [|discriminate].
    destruct (H n) as (it4 & E4). rewrite HN in E4. inversion E4; subst xs. clear E4.
    exists it3. f_equal. f_equal. inversion E as [X]. clear E K HN H.
    revert k ys X. revert n. induction l as [|a l IH]; intros n k ys X.
    - rewrite skipn_nil. cbn [map List.length] in X |- *.
      rewrite !firstn_nil, !Nat.sub_0_r in X. rewrite firstn_nil, Nat.sub_0_r. cbn [app] in X |- *.
      rewrite repeat_app in X. apply app_inv_head in X. auto.
    - destruct n as [|n].
      + exact X.
      + cbn [map firstn skipn List.length Nat.sub Nat.add app] in *. inversion X. eauto.
  Qed.

  Lemma collect_yielding : forall fuel it l, yielding it l -> (List.length l <= fuel)%nat ->
    collect next fuel it = Done l.
  Proof.
    induction fuel as [|fuel IH]; intros it l H HF.
    - destruct l; [|simpl in HF; lia]. destruct (H 1%nat) as (it' & E). cbn in E. cbn [collect].
      destruct (next it) as [[a it2]|]; [|discriminate]. inversion E. auto.
    - destruct (H 1%nat) as (it' & E). cbn [collect]. cbn [nexts] in E.
      destruct (next it) as [[a it2]|] eqn:N; [|discriminate].
      destruct l as [|b l]; cbn in E; inversion E; subst; auto.
      rewrite (IH it' l); auto; [|simpl in HF; lia].
      change l with (skipn 1 (b :: l)). eapply yielding_after; [exact H|].
      cbn [nexts]. rewrite N. reflexivity.
  Qed.
  Lemma collect_is : forall fuel it l l', yielding it l -> collect next fuel it = Done l' -> l' = l.
  Proof.
    induction fuel as [|fuel IH]; intros it l l' H C; cbn [collect] in C;
      destruct (H 1%nat) as (it' & E); cbn [nexts] in E;
      destruct (next it) as [[[a|] it2]|] eqn:N; try discriminate.
    - inversion C; subst. destruct l; cbn in E; inversion E; auto.
    - destruct (collect next fuel it2) as [l2|] eqn:C2; cbn [omap] in C; inversion C; subst.
      destruct l as [|b l]; cbn in E; inversion E; subst. f_equal. eapply IH; [|exact C2].
      change l with (skipn 1 (b :: l)). eapply yielding_after; [exact H|].
      cbn [nexts]. rewrite N. reflexivity.
    - inversion C; subst. destruct l; cbn in E; inversion E; auto.
  Qed.
End BuilderFacts.
