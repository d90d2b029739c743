(* fmt::Debug with {:?} and {:#?} into any writer (C145).

   core::fmt is external; its builders are modelled after library/core/src/fmt/builders.rs: a writer
   is user code, a state and a write_str that may refuse (fmt::Error); an error stops the writing at
   once, but DebugSet::entries goes on calling next.  {:#?} indents through PadAdapter.  The Debug
   implementations of the items write a list of pieces, which may depend on the flag, and hand on
   errors. *)
From Coq Require Import List NArith Lia String Ascii Bool PeanoNat.
From Verif Require Import Prelude Optionals Debug.
Import ListNotations.

Definition newline : string := String "010"%char EmptyString.

(* code that writes to a formatter: true = Ok, false = Err *)
Definition fmtr : Type := forall W : Type, (W -> string -> W * bool) -> W -> W * bool.

(* pieces written one after the other until one is refused *)
Fixpoint feed {W} (wr : W -> string -> W * bool) (w : W) (ps : list string) : W * bool :=
  match ps with
  | [] => (w, true)
  | p :: ps' =>
      match wr w p with
      | (w', true) => feed wr w' ps'
      | (w', false) => (w', false)
      end
  end.
Definition say (ps : list string) : fmtr := fun W wr w => feed wr w ps.
(* Formatter::write_str *)
Definition put (s : string) : fmtr := fun W wr w => wr w s.
(* f(..)?; g(..) *)
Definition and_then (f g : fmtr) : fmtr := fun W wr w =>
  match f W wr w with
  | (w', true) => g W wr w'
  | (w', false) => (w', false)
  end.

(* str::split_inclusive('\n') *)
Fixpoint lines (s : string) : list string :=
  match s with
  | EmptyString => []
  | String c s' =>
      if Ascii.eqb c "010" then String c EmptyString :: lines s'
      else match lines s' with [] => [String c EmptyString] | h :: t => String c h :: t end
  end.
(* str::ends_with('\n'), of a piece that is not empty *)
Fixpoint ends_line (s : string) : bool :=
  match s with
  | EmptyString => false
  | String c EmptyString => Ascii.eqb c "010"
  | String _ s' => ends_line s'
  end.

(* PadAdapter::write_str; the flag is PadAdapterState::on_newline *)
Fixpoint pad_lines {W} (wr : W -> string -> W * bool) (w : W) (nl : bool) (ls : list string) : (W * bool) * bool :=
  match ls with
  | [] => ((w, nl), true)
  | l :: ls' =>
      match (if nl then wr w "    "%string else (w, true)) with
      | (w1, false) => ((w1, nl), false)
      | (w1, true) =>
          match wr w1 l with
          | (w2, false) => ((w2, ends_line l), false)
          | (w2, true) => pad_lines wr w2 (ends_line l) ls'
          end
      end
  end.
Definition pad_write {W} (wr : W -> string -> W * bool) (st : W * bool) (s : string) : (W * bool) * bool :=
  pad_lines wr (fst st) (snd st) (lines s).
(* PadAdapter::wrap with a new state *)
Definition padded (f : fmtr) : fmtr := fun W wr w =>
  let (st, ok) := f (W * bool)%type (pad_write wr) (w, true) in (fst st, ok).

(* DebugInner::entry without the bookkeeping (builders.rs); [pretty]: the flag # *)
Definition entry_fmt (pretty first : bool) (f : fmtr) : fmtr :=
  if pretty then and_then (if first then put newline else say []) (padded (and_then f (put ("," ++ newline))))
  else and_then (if first then say [] else put ", ") f.

Section Builder.
  Context {I A : Type}.
  Variable next : I -> outcome (option A * I).
  Variable show : A -> fmtr.
  Variable pretty : bool.
  Context {W : Type}.
  Variable wr : W -> string -> W * bool.
  (* DebugSet::entries / DebugList::entries; [ok]: no error so far.  Fuel as in [collect]. *)
  Fixpoint entries_w (fuel : nat) (it : I) (first ok : bool) (w : W) : res W bool :=
    match next it with
    | Panicked => Panic w
    | Done (None, _) => Ret w ok
    | Done (Some a, it') =>
        match fuel with
        | O => Panic w
        | Datatypes.S fuel' =>
            let (w', ok') := if ok then entry_fmt pretty first (show a) W wr w else (w, false) in
            entries_w fuel' it' false ok' w'
        end
    end.
  (* debug_set() / debug_list(), entries(it), finish() *)
  Definition debug_w (opening closing : string) (fuel : nat) (it : I) (w : W) : res W bool :=
    let (w0, ok0) := wr w opening in
    match entries_w fuel it true ok0 w0 with
    | Panic w1 => Panic w1
    | Ret w1 false => Ret w1 false
    | Ret w1 true => let (w2, ok2) := wr w1 closing in Ret w2 ok2
    end.
End Builder.

(* DebugTuple::field (builders.rs) *)
Definition field_fmt (pretty first : bool) (f : fmtr) : fmtr :=
  if pretty then and_then (if first then put ("(" ++ newline) else say []) (padded (and_then f (put ("," ++ newline))))
  else and_then (if first then put "(" else put ", ") f.
(* Debug of a pair: debug_tuple("") with two fields; of Option: debug_tuple("Some") with one *)
Definition tuple_fmt (pretty : bool) (f g : fmtr) : fmtr :=
  and_then (put "") (and_then (field_fmt pretty true f) (and_then (field_fmt pretty false g) (put ")"))).
Definition option_fmt {A} (pretty : bool) (show : A -> fmtr) (o : option A) : fmtr :=
  match o with
  | None => put "None"
  | Some a => and_then (put "Some") (and_then (field_fmt pretty true (show a)) (put ")"))
  end.
(* src/optionals.rs:163-186: write! formats its arguments with {:?}, whatever the flag *)
Definition op_fmt {L R} (sl : bool -> L -> fmtr) (sr : bool -> R -> fmtr) (p : optional_pair L R) : fmtr :=
  match p with
  | Neither => put "None"
  | SomeLeft l => and_then (put "SomeLeft( ") (and_then (sl false l) (put " )"))
  | SomeRight r => and_then (put "SomeRight( ") (and_then (sr false r) (put " )"))
  | SomeBoth l r => and_then (put "SomeBoth( ") (and_then (sl false l) (and_then (put ", ") (and_then (sr false r) (put " )"))))
  end.

(* ---- specification: the text ---- *)
Definition glued (ps : list string) : string := String.concat "" ps.
(* four blanks at the beginning of each line *)
Fixpoint indent (start : bool) (s : string) : string :=
  match s with
  | EmptyString => EmptyString
  | String c s' => (if start then "    " else "") ++ String c (indent (Ascii.eqb c "010") s')
  end%string.
(* {:?}: separated by commas.  {:#?}: each on lines of its own, indented, with a comma behind it *)
Definition listed (pretty : bool) (opening closing : string) (ts : list string) : string :=
  if pretty
  then (opening ++ match ts with [] => "" | _ => newline end ++
        glued (map (fun t => indent true (t ++ "," ++ newline)) ts) ++ closing)%string
  else (opening ++ String.concat ", " ts ++ closing)%string.
Definition pair_said (pretty : bool) (a b : string) : string := listed pretty "(" ")" [a; b].
Definition option_said (pretty : bool) (o : option string) : string :=
  match o with None => "None" | Some a => listed pretty "Some(" ")" [a] end.
Definition op_said {L R} (tl : L -> string) (tr : R -> string) (p : optional_pair L R) : string :=
  match p with
  | Neither => "None"
  | SomeLeft l => "SomeLeft( " ++ tl l ++ " )"
  | SomeRight r => "SomeRight( " ++ tr r ++ " )"
  | SomeBoth l r => "SomeBoth( " ++ tl l ++ ", " ++ tr r ++ " )"
  end%string.
(* code that writes the text t, piece by piece, until a piece is refused *)
Definition says (f : fmtr) (t : string) : Prop := exists ps, glued ps = t /\
  forall W (wr : W -> string -> W * bool) w, f W wr w = feed wr w ps.

(* the same of code that may panic: it does not, and returns whether all pieces were accepted *)
Definition prints (d : forall W : Type, (W -> string -> W * bool) -> W -> res W bool) (t : string) : Prop :=
  exists ps, glued ps = t /\
  forall W (wr : W -> string -> W * bool) w, d W wr w = (let (w', ok) := feed wr w ps in Ret w' ok).

(* ---- facts ---- *)
Lemma glued_cons : forall p ps, glued (p :: ps) = (p ++ glued ps)%string.
Proof.
  intros p [|q ps]; unfold glued; cbn [String.concat]; [rewrite append_nil_r; auto|]. auto.
Qed.
Lemma glued_app : forall ps qs, glued (ps ++ qs) = (glued ps ++ glued qs)%string.
Proof.
  induction ps as [|p ps IH]; intros qs; [auto|].
  cbn [app]. rewrite !glued_cons, IH, append_assoc. auto.
Qed.
Lemma feed_app : forall W (wr : W -> string -> W * bool) ps qs w, feed wr w (ps ++ qs) =
  match feed wr w ps with (w', true) => feed wr w' qs | (w', false) => (w', false) end.
Proof.
  induction ps as [|p ps IH]; intros qs w; cbn [app feed]; auto.
  destruct (wr w p) as [w' [|]]; auto.
Qed.

Lemma says_put : forall s, says (put s) s.
Proof.
  intros s. exists [s]. split; [unfold glued; simpl; auto|]. intros W wr w. unfold put. cbn [feed].
  destruct (wr w s) as [w' [|]]; auto.
Qed.
Lemma says_say : forall ps, says (say ps) (glued ps).
Proof. intros ps. exists ps. split; auto. Qed.
Lemma says_then : forall f g s t, says f s -> says g t -> says (and_then f g) (s ++ t)%string.
Proof.
  intros f g s t (ps & <- & F) (qs & <- & G). exists (ps ++ qs). split; [apply glued_app|].
  intros W wr w. unfold and_then. rewrite F, feed_app. destruct (feed wr w ps) as [w' [|]]; auto.
Qed.

(* the pieces that PadAdapter hands on *)
Fixpoint pad_pieces (nl : bool) (ls : list string) : list string :=
  match ls with
  | [] => []
  | l :: ls' => (if nl then ["    "%string] else []) ++ l :: pad_pieces (ends_line l) ls'
  end.
Definition last_nl (nl : bool) (ls : list string) : bool := fold_left (fun _ l => ends_line l) ls nl.
Lemma pad_lines_feed : forall W (wr : W -> string -> W * bool) ls w nl,
  exists nl', pad_lines wr w nl ls = ((fst (feed wr w (pad_pieces nl ls)), nl'), snd (feed wr w (pad_pieces nl ls))) /\
    (snd (feed wr w (pad_pieces nl ls)) = true -> nl' = last_nl nl ls).
Proof.
  induction ls as [|l ls IH]; intros w nl; cbn [pad_lines pad_pieces].
  - exists nl. auto.
  - rewrite feed_app.
    assert (X : (if nl then wr w "    "%string else (w, true)) = feed wr w (if nl then ["    "%string] else [])).
    { destruct nl; cbn [feed]; auto. destruct (wr w "    "%string) as [w' [|]]; auto. }
    rewrite X. destruct (feed wr w (if nl then ["    "%string] else [])) as [w1 [|]].
    + cbn [feed]. destruct (wr w1 l) as [w2 [|]].
      * destruct (IH w2 (ends_line l)) as (nl' & E1 & E2). exists nl'. auto.
      * exists (ends_line l). split; auto. discriminate.
    + exists nl. split; auto. discriminate.
Qed.
Lemma lines_glued : forall s, glued (lines s) = s.
Proof.
  induction s as [|c s IH]; cbn [lines]; auto.
  destruct (Ascii.eqb c "010"); [rewrite glued_cons, IH; auto|].
  destruct (lines s) as [|h t] eqn:L.
  - cbn in IH. rewrite <- IH. auto.
  - rewrite glued_cons in *. cbn [append]. rewrite IH. auto.
Qed.

(* a piece that is a line: a newline at most at its end, and not empty *)
Fixpoint is_line (s : string) : Prop :=
  match s with
  | EmptyString => False
  | String c EmptyString => True
  | String c s' => Ascii.eqb c "010" = false /\ is_line s'
  end.
Lemma lines_lines : forall s, Forall is_line (lines s).
Proof.
  induction s as [|c s IH]; cbn [lines]; auto.
  destruct (Ascii.eqb c "010") eqn:C; [constructor; cbn; auto|].
  destruct (lines s) as [|h t]; [constructor; cbn; auto|].
  inversion IH; subst. constructor; auto. cbn. destruct h; auto.
Qed.
Fixpoint last_line (nl : bool) (s : string) : bool :=
  match s with EmptyString => nl | String c s' => last_line (Ascii.eqb c "010") s' end.
Lemma indent_app : forall s t nl, indent nl (s ++ t) = (indent nl s ++ indent (last_line nl s) t)%string.
Proof.
  induction s as [|c s IH]; intros t nl; cbn [append indent last_line]; auto.
  rewrite IH. rewrite append_assoc. auto.
Qed.
Lemma indent_line : forall l nl, is_line l -> indent nl l = ((if nl then "    " else "") ++ l)%string /\
  last_line nl l = ends_line l.
Proof.
  assert (G : forall l c, is_line (String c l) -> indent (Ascii.eqb c "010") l = l /\
    last_line (Ascii.eqb c "010") l = ends_line (String c l)).
  { induction l as [|d l IH]; intros c H; cbn [indent last_line]; auto.
    destruct H as [H1 H2]. rewrite H1. destruct (IH d H2) as [E1 E2]. cbn [append].
    rewrite E1, E2. auto. }
  intros [|c l] nl H; [destruct H|]. cbn [indent last_line]. destruct (G l c H) as [-> ->]. auto.
Qed.
Lemma pad_pieces_indent : forall ls nl, Forall is_line ls -> glued (pad_pieces nl ls) = indent nl (glued ls) /\
  last_nl nl ls = last_line nl (glued ls).
Proof.
  assert (LA : forall s t nl, last_line nl (s ++ t) = last_line (last_line nl s) t).
  { induction s; intros; cbn; auto. }
  induction ls as [|l ls IH]; intros nl H; [auto|]. inversion H; subst.
  cbn [pad_pieces]. rewrite glued_app, !glued_cons, indent_app, LA.
  destruct (indent_line l nl) as [E1 E2]; auto. rewrite E1, E2.
  destruct (IH (ends_line l)) as [E3 E4]; auto. rewrite E3, <- E4. split; [|reflexivity].
  rewrite append_assoc. f_equal. destruct nl; auto.
Qed.

Lemma says_padded : forall f s, says f s -> says (padded f) (indent true s).
Proof.
  intros f s (ps & <- & F).
  assert (G : forall ps nl, exists qs, glued qs = indent nl (glued ps) /\
    forall W (wr : W -> string -> W * bool) w, exists nl',
      feed (pad_write wr) (w, nl) ps = ((fst (feed wr w qs), nl'), snd (feed wr w qs))).
  { clear. induction ps as [|p ps IH]; intros nl.
    - exists []. split; auto. intros W wr w. exists nl. auto.
    - destruct (pad_pieces_indent (lines p) nl (lines_lines p)) as [E1 E2]. rewrite lines_glued in E1, E2.
      destruct (IH (last_line nl p)) as (qs & Q1 & Q2). exists (pad_pieces nl (lines p) ++ qs). split.
      + rewrite glued_app, glued_cons, indent_app, E1, Q1. auto.
      + intros W wr w. cbn [feed]. unfold pad_write at 1. cbn [fst snd].
        destruct (pad_lines_feed W wr (lines p) w nl) as (nl' & P1 & P2). rewrite P1, feed_app.
        destruct (feed wr w (pad_pieces nl (lines p))) as [w1 [|]]; cbn [fst snd] in *.
        * rewrite P2, E2 by auto. apply Q2.
        * exists nl'. auto. }
  destruct (G ps true) as (qs & Q1 & Q2). exists qs. split; auto.
  intros W wr w. unfold padded. rewrite F. destruct (Q2 W wr w) as (nl' & ->). cbn [fst].
  destruct (feed wr w qs); auto.
Qed.

Lemma says_entry : forall pretty first f t, says f t -> says (entry_fmt pretty first f)
  (if pretty then (if first then newline else "") ++ indent true (t ++ "," ++ newline)
   else (if first then "" else ", ") ++ t)%string.
Proof.
  intros pretty first f t H. unfold entry_fmt. destruct pretty.
  - apply says_then; [destruct first; [apply says_put|apply (says_say [])]|].
    apply says_padded, says_then; auto. apply says_put.
  - apply says_then; auto. destruct first; [apply (says_say [])|apply says_put].
Qed.
Lemma says_field : forall pretty first f t, says f t -> says (field_fmt pretty first f)
  (if pretty then (if first then "(" ++ newline else "") ++ indent true (t ++ "," ++ newline)
   else (if first then "(" else ", ") ++ t)%string.
Proof.
  intros pretty first f t H. unfold field_fmt. destruct pretty.
  - apply says_then; [destruct first; [apply says_put|apply (says_say [])]|].
    apply says_padded, says_then; auto. apply says_put.
  - apply says_then; auto. destruct first; apply says_put.
Qed.
Lemma says_as : forall f s t, says f s -> s = t -> says f t.
Proof. intros f s t H <-. auto. Qed.

Lemma says_tuple : forall pretty f g a b, says f a -> says g b ->
  says (tuple_fmt pretty f g) (pair_said pretty a b).
Proof.
  intros pretty f g a b F G. eapply says_as.
  - apply says_then; [apply says_put|]. apply says_then; [apply says_field; exact F|].
    apply says_then; [apply says_field; exact G|apply says_put].
  - unfold pair_said, listed. destruct pretty; cbn [map].
    + rewrite !glued_cons. unfold glued at 1. cbn [String.concat]. rewrite ?append_assoc. reflexivity.
    + cbn [String.concat]. rewrite ?append_assoc. reflexivity.
Qed.
Lemma says_option : forall A pretty (show : A -> fmtr) (t : A -> string) o, (forall a, says (show a) (t a)) ->
  says (option_fmt pretty show o) (option_said pretty (option_map t o)).
Proof.
  intros A pretty show t [a|] H; cbn [option_fmt option_said option_map]; [|apply says_put].
  eapply says_as.
  - apply says_then; [apply says_put|]. apply says_then; [apply says_field; apply H|apply says_put].
  - unfold listed. destruct pretty; cbn [map].
    + rewrite glued_cons. unfold glued. cbn [String.concat]. rewrite ?append_assoc. reflexivity.
    + cbn [String.concat]. rewrite ?append_assoc. reflexivity.
Qed.
Lemma says_op : forall L R (sl : bool -> L -> fmtr) (sr : bool -> R -> fmtr) tl tr p,
  (forall l, says (sl false l) (tl l)) -> (forall r, says (sr false r) (tr r)) ->
  says (op_fmt sl sr p) (op_said tl tr p).
Proof.
  intros L R sl sr tl tr p HL HR. destruct p; cbn [op_fmt op_said]; repeat (apply says_then || apply says_put || auto).
Qed.

(* ---- the builders ---- *)
Section Builds.
  Context {I A : Type}.
  Variable next : I -> outcome (option A * I).
  Variable show : A -> fmtr.
  Variable pretty : bool.

  Definition rest_said (first : bool) (ts : list string) : string :=
    if pretty
    then ((if first then match ts with [] => "" | _ => newline end else "") ++
          glued (map (fun t => indent true (t ++ "," ++ newline)) ts))%string
    else if first then String.concat ", " ts else glued (map (fun t => ", " ++ t)%string ts).
  Lemma rest_said_cons : forall first t ts, rest_said first (t :: ts) =
    ((if pretty then (if first then newline else "") ++ indent true (t ++ "," ++ newline)
      else (if first then "" else ", ") ++ t) ++ rest_said false ts)%string.
  Proof.
    intros first t ts. unfold rest_said. destruct pretty.
    - cbn [map]. rewrite glued_cons, append_assoc. reflexivity.
    - destruct first; [|cbn [map]; rewrite glued_cons; reflexivity].
      cbn [append]. revert t. induction ts as [|u ts IH]; intros t.
      + cbn [String.concat map]. unfold glued. cbn [String.concat]. rewrite append_nil_r. auto.
      + change (String.concat ", " (t :: u :: ts)) with (t ++ ", " ++ String.concat ", " (u :: ts))%string.
        rewrite IH. cbn [map]. rewrite glued_cons. auto.
  Qed.

  Variable said : A -> string.
  Hypothesis SH : forall a, says (show a) (said a).
  Lemma entries_w_done : forall fuel it first l, collect next fuel it = Done l ->
    exists ps, glued ps = rest_said first (map said l) /\
      forall W (wr : W -> string -> W * bool) w,
        entries_w next show pretty wr fuel it first true w = (let (w', ok) := feed wr w ps in Ret w' ok) /\
        entries_w next show pretty wr fuel it first false w = Ret w false.
  Proof.
    assert (N0 : forall first, rest_said first (map said []) = ""%string).
    { intros []; unfold rest_said; destruct pretty; auto. }
    induction fuel as [|fuel IH]; intros it first l H; cbn [collect entries_w] in *;
      destruct (next it) as [[[a|] it']|] eqn:N; try discriminate.
    - inversion H; subst. exists []. rewrite N0. auto.
    - destruct (collect next fuel it') as [l'|] eqn:C; cbn [omap] in H; inversion H; subst.
      destruct (IH it' false l' C) as (qs & Q1 & Q2).
      destruct (says_entry pretty first (show a) _ (SH a)) as (ps & P1 & P2).
      exists (ps ++ qs). cbn [map]. rewrite rest_said_cons, glued_app, P1, Q1. split; auto.
      intros W wr w. split; [|apply Q2]. rewrite P2, feed_app.
      destruct (feed wr w ps) as [w' [|]]; [apply Q2|apply Q2].
    - inversion H; subst. exists []. rewrite N0. auto.
  Qed.
  Lemma entries_w_panicked : forall fuel it first, collect next fuel it = Panicked ->
    forall W (wr : W -> string -> W * bool) w ok, exists w', entries_w next show pretty wr fuel it first ok w = Panic w'.
  Proof.
    induction fuel as [|fuel IH]; intros it first H W wr w ok; cbn [collect entries_w] in *;
      destruct (next it) as [[[a|] it']|] eqn:N; try discriminate; try (eexists; reflexivity).
    destruct (collect next fuel it') as [l'|] eqn:C; cbn [omap] in H; [discriminate|].
    destruct (if ok then _ else _) as [w' ok']. apply IH; auto.
  Qed.

  Lemma debug_w_done : forall opening closing fuel it l, collect next fuel it = Done l ->
    prints (fun W wr w => debug_w next show pretty wr opening closing fuel it w)
      (listed pretty opening closing (map said l)).
  Proof.
    intros opening closing fuel it l H. destruct (entries_w_done fuel it true l H) as (ps & P1 & P2).
    exists (opening :: ps ++ [closing]). split.
    - rewrite glued_cons, glued_app, P1. unfold rest_said, listed.
      replace (glued [closing]) with closing by (unfold glued; auto).
      destruct pretty; [|auto]. rewrite ?append_assoc. destruct l; auto.
    - intros W wr w. unfold debug_w. cbn [feed]. destruct (wr w opening) as [w0 [|]].
      + rewrite (proj1 (P2 W wr w0)), feed_app. destruct (feed wr w0 ps) as [w1 [|]]; auto.
        cbn [feed]. destruct (wr w1 closing) as [w2 [|]]; auto.
      + rewrite (proj2 (P2 W wr w0)). auto.
  Qed.
  Lemma debug_w_panicked : forall opening closing fuel it, collect next fuel it = Panicked ->
    forall W (wr : W -> string -> W * bool) w, exists w',
      debug_w next show pretty wr opening closing fuel it w = Panic w'.
  Proof.
    intros opening closing fuel it H W wr w. unfold debug_w. destruct (wr w opening) as [w0 ok].
    destruct (entries_w_panicked fuel it true H W wr w0 ok) as (w' & ->). eauto.
  Qed.
End Builds.
