(* Lists visited by a stateful closure that may panic: what retain, drain_filter and their
   destructors do to the elements, independent of any map. *)
From Coq Require Import List Bool Permutation Lia PeanoNat.
From Verif Require Import RawTable.
Import ListNotations.

Section Closures.
  Context {T X : Type} (f : X -> T -> X * option bool).

  (* Call f on the elements in order until the end or until it panics.  Result: closure
     state; the elements answered true; all the others (answered false, the one at which f
     panicked, and those not visited because of the panic); whether f panicked. *)
  Fixpoint s_filter (x : X) (l : list T) : X * list T * list T * bool :=
    match l with
    | [] => (x, [], [], false)
    | a :: t =>
        match f x a with
        | (x', None) => (x', [], a :: t, true)
        | (x', Some b) =>
            let '(x'', yes, others, pn) := s_filter x' t in
            if b then (x'', a :: yes, others, pn) else (x'', yes, a :: others, pn)
        end
    end.

  (* The elements that remain if, after the first panic of f, the panic unwinds through the
     iterator and its destructor visits the elements not visited yet (a second panic aborts
     the process; the result then is what remains at that moment). *)
  Fixpoint s_unwind (x : X) (l : list T) : list T :=
    match l with
    | [] => []
    | a :: t =>
        match f x a with
        | (x', None) => let '(_, _, others, _) := s_filter x' t in a :: others
        | (x', Some true) => s_unwind x' t
        | (x', Some false) => a :: s_unwind x' t
        end
    end.

  (* One call of a filtering iterator's next: skip elements answered false (they are kept)
     up to the first answered true. *)
  Inductive s_next_res :=
  | SYield (a : T)     (* a was answered true: taken out and returned *)
  | SEnd               (* nothing left to visit *)
  | SPanic.            (* the closure panicked *)

  (* result: closure state, elements kept during this call, elements not yet visited;
     an element at which the closure panics is kept *)
  Fixpoint s_next (x : X) (rest : list T) : X * list T * list T * s_next_res :=
    match rest with
    | [] => (x, [], [], SEnd)
    | a :: t =>
        match f x a with
        | (x', None) => (x', [a], t, SPanic)
        | (x', Some true) => (x', [], t, SYield a)
        | (x', Some false) =>
            let '(x'', k, t', r) := s_next x' t in (x'', a :: k, t', r)
        end
    end.
End Closures.
Arguments SYield {T} _.
Arguments SEnd {T}.
Arguments SPanic {T}.

Lemma s_filter_perm : forall {T X} (f : X -> T -> X * option bool) l x x' yes no pn,
  s_filter f x l = (x', yes, no, pn) -> Permutation l (yes ++ no).
Proof.
  induction l; simpl; intros x x' yes no pn H.
  - inversion H; subst; auto.
  - destruct (f x a) as [x1 [b|]].
    + destruct (s_filter f x1 l) as [[[x2 y] n] pn'] eqn:Q. apply IHl in Q.
      destruct b; inversion H; subst.
      * simpl. constructor; auto.
      * etransitivity; [constructor; exact Q|]. apply Permutation_middle.
    + inversion H; subst. auto.
Qed.

Lemma s_filter_map : forall {T U X} (g : U -> T) (f : X -> T -> X * option bool) l x,
  s_filter f x (map g l) =
    let '(x', yes, no, pn) := s_filter (fun x u => f x (g u)) x l in
    (x', map g yes, map g no, pn).
Proof.
  induction l; simpl; intros x; auto.
  destruct (f x (g a)) as [x1 [b|]]; auto.
  rewrite IHl. destruct (s_filter _ x1 l) as [[[x2 y] n] pn]; auto.
  destruct b; auto.
Qed.

Lemma s_next_map : forall {T U X} (g : U -> T) (f : X -> T -> X * option bool) l x,
  s_next f x (map g l) =
    let '(x', k, t, r) := s_next (fun x u => f x (g u)) x l in
    (x', map g k, map g t, match r with SYield a => SYield (g a) | SEnd => SEnd | SPanic => SPanic end).
Proof.
  induction l; simpl; intros x; auto.
  destruct (f x (g a)) as [x1 [[|]|]]; auto.
  rewrite IHl. destruct (s_next _ x1 l) as [[[x2 k] t] r]; auto.
Qed.

Lemma nth_map_app : forall {A B} (g : A -> B) K a T,
  nth_error (map g (K ++ a :: T)) (length K) = Some (g a).
Proof.
  intros. rewrite map_app, nth_error_app2; rewrite map_length; auto.
  rewrite PeanoNat.Nat.sub_diag. reflexivity.
Qed.

Lemma remove_nth_app : forall {A} (K : list A) a T, remove_nth (length K) (K ++ a :: T) = K ++ T.
Proof. induction K; simpl; intros; auto. f_equal; auto. Qed.

(* one next, seen from the whole scan *)
Lemma s_next_filter : forall {T X} (g : X -> T -> X * option bool) l x,
  match s_next g x l with
  | (x', k, rest, SYield a) =>
      s_filter g x l = (let '(x'', y, n, pn) := s_filter g x' rest in
                        (x'', a :: y, k ++ n, pn)) /\ (length rest < length l)%nat
  | (x', k, rest, SEnd) => s_filter g x l = (x', [], k, false) /\ rest = []
  | (x', k, rest, SPanic) => s_filter g x l = (x', [], k ++ rest, true)
  end.
Proof.
  induction l; simpl; intros x; auto.
  destruct (g x a) as [x1 [[|]|]].
  - split; [|lia]. destruct (s_filter g x1 l) as [[[x2 y] n] pn]; auto.
  - specialize (IHl x1). destruct (s_next g x1 l) as [[[x2 k] rest] [b| |]].
    + destruct IHl as [-> Hl]. split; [|lia].
      destruct (s_filter g x2 rest) as [[[x3 y] n] pn]; auto.
    + destruct IHl as [-> ->]. auto.
    + rewrite IHl. auto.
  - auto.
Qed.

Lemma s_next_unwind : forall {T X} (g : X -> T -> X * option bool) l x,
  match s_next g x l with
  | (x', k, rest, SYield a) => s_unwind g x l = k ++ s_unwind g x' rest
  | (x', k, rest, SEnd) => s_unwind g x l = k
  | (x', k, rest, SPanic) =>
      s_unwind g x l = let '(_, _, others, _) := s_filter g x' rest in k ++ others
  end.
Proof.
  induction l; simpl; intros x; auto.
  destruct (g x a) as [x1 [[|]|]]; auto.
  specialize (IHl x1). destruct (s_next g x1 l) as [[[x2 k] rest] [b| |]]; rewrite IHl; auto.
  destruct (s_filter g x2 rest) as [[[x3 y] n] pn]; auto.
Qed.

Lemma s_filter_panics : forall {T X} (f : X -> T -> X * option bool) (xs : list T) x,
  snd (s_filter f x xs) = true -> exists y a, snd (f y a) = None.
Proof.
  induction xs; simpl; intros x H; [discriminate|].
  destruct (f x a) as [x' [b|]] eqn:F.
  - specialize (IHxs x'). destruct (s_filter f x' xs) as [[[x2 y] n] pn].
    apply IHxs. destruct b; auto.
  - exists x, a. rewrite F. auto.
Qed.
