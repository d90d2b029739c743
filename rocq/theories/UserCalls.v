(* A record of the calls of user code, and what may be in it (C151 to C153). *)
From Coq Require Import List NArith Lia Bool Permutation.
From Verif Require Import Prelude RawTable TableFacts Faults Conserve Wild HasherKept.
Import ListNotations.
Open Scope N_scope.

(* one call of user code: of Hash with a hasher, of == and of != *)
Inductive ucall (L R S : Type) : Type :=
| CHashL (s : S) (l : L) | CHashR (s : S) (r : R)
| CEqL (a b : L) | CEqR (a b : R)
| CNeL (a b : L) | CNeR (a b : R).
Arguments CHashL {L R S}. Arguments CHashR {L R S}. Arguments CEqL {L R S}.
Arguments CEqR {L R S}. Arguments CNeL {L R S}. Arguments CNeR {L R S}.

(* the user code E, every call written down before it runs; E cannot see the record *)
Definition note {W C A} (c : C) (f : M W A) : M (W * list C) A :=
  fun w => match f (fst w) with
           | Ret w' a => Ret (w', snd w ++ [c]) a
           | Panic w' => Panic (w', snd w ++ [c])
           end.
Definition logged {L R S W} (E : wenv L R S W) : wenv L R S (W * list (ucall L R S)) :=
  WEnv _ _ _ _ (fun s l => note (CHashL s l) (w_hashL E s l)) (fun s r => note (CHashR s r) (w_hashR E s r))
    (fun a b => note (CEqL a b) (w_eqL E a b)) (fun a b => note (CEqR a b) (w_eqR E a b))
    (fun a b => note (CNeL a b) (w_neL E a b)) (fun a b => note (CNeR a b) (w_neR E a b))
    (w_hashP E) (w_lo E) (w_fault E) (w_ovf E).
Lemma logged_tame : forall {L R S W} (E : wenv L R S W), tame E -> tame (logged E).
Proof. intros L R S W E H. exact H. Qed.

(* ---- invariants with a say about the value ---- *)
Section Yields.
  Context {T : Type} (I : T -> Prop).
  Definition yields {A} (P : A -> Prop) (c : M T A) : Prop :=
    forall s, I s -> match c s with Ret s' a => I s' /\ P a | Panic s' => I s' end.
  Definition any {A : Type} (_ : A) : Prop := True.
  Lemma yields_ret : forall {A} (P : A -> Prop) a, P a -> yields P (ret a).
  Proof. intros A P a H s X. split; auto. Qed.
  Lemma yields_panic : forall {A} (P : A -> Prop), yields P (@panic T A).
  Proof. intros A P s H. exact H. Qed.
  Lemma yields_unwrap : forall {A} (P : A -> Prop) o, (forall a, o = Some a -> P a) -> yields P (unwrap o).
  Proof. intros A P [a|] H s X; [split; auto|exact X]. Qed.
  Lemma yields_put : forall s, I s -> yields any (putst s).
  Proof. intros s H t _. split; auto. exact Logic.I. Qed.
  Lemma yields_bind : forall {A B} (P : A -> Prop) (Q : B -> Prop) (c : M T A) (f : A -> M T B),
    yields P c -> (forall a, P a -> yields Q (f a)) -> yields Q (bind c f).
  Proof.
    intros A B P Q c f H1 H2 s H. unfold bind. specialize (H1 s H). destruct (c s); auto.
    destruct H1 as [H1 H3]. apply (H2 _ H3 _ H1).
  Qed.
  Lemma yields_get : forall {B} (Q : B -> Prop) (f : T -> M T B),
    (forall s, I s -> yields Q (f s)) -> yields Q (bind getst f).
  Proof. intros B Q f H s X. exact (H s X s X). Qed.
  Lemma yields_any : forall {A} (P : A -> Prop) (c : M T A), yields P c -> yields any c.
  Proof. intros A P c H s X. specialize (H s X). destruct (c s); auto. split; [apply H|exact Logic.I]. Qed.
End Yields.

Section Record_.
  Context {L R S W : Type} (ok : ucall L R S -> Prop).
  (* every call written down is ok *)
  Definition clean (w : W * list (ucall L R S)) : Prop := Forall ok (snd w).
  Lemma note_clean : forall {A} c (f : M W A), ok c -> yields clean any (note c f).
  Proof.
    intros A c f H w X. unfold note. destruct (f (fst w)).
    - split; [|exact Logic.I]. apply Forall_app. split; auto.
    - apply Forall_app. split; auto.
  Qed.
End Record_.

(* ---- the tables ---- *)
Section Tables.
  Variable lo : layout.
  Variable F : fault.
  Context {W A : Type} (I : W -> Prop).

  Lemma find_yields : forall (t : table A) h (p : A -> M W bool),
    (forall e, In e (entries t) -> yields I any (p e)) -> yields I any (w_find lo t h p).
  Proof.
    intros t h p H. unfold w_find. induction (hb_probe lo (lay t) h (map fst (slots t))) as [|i l IH]; cbn [wsearch].
    - apply yields_ret. exact Logic.I.
    - destruct (nth_error (slots t) i) as [[h' e]|] eqn:X; [|exact IH].
      eapply yields_bind; [apply H; apply nth_error_In in X; apply (in_map snd) in X; exact X|].
      intros [|] _; [apply yields_ret; exact Logic.I|exact IH].
  Qed.
  Lemma entry_in : forall (t : table A) i e, t_entry t i = Some e -> In e (entries t).
  Proof.
    intros t i e H. unfold t_entry in H. destruct (nth_error (slots t) i) as [[h' x]|] eqn:X; [|discriminate].
    injection H as <-. apply nth_error_In in X. apply (in_map snd) in X. exact X.
  Qed.
  Lemma get_yields : forall (t : table A) h (p : A -> M W bool),
    (forall e, In e (entries t) -> yields I any (p e)) ->
    yields I (fun o => forall e, o = Some e -> In e (entries t)) (w_get lo t h p).
  Proof.
    intros t h p H. unfold w_get. eapply yields_bind; [apply find_yields, H|].
    intros [i|] _; apply yields_ret; intros e X; [eapply entry_in; eauto|discriminate].
  Qed.
  Lemma remove_at_incl : forall (t : table A) i, incl (entries (t_remove_at lo t i)) (entries t).
  Proof.
    intros t i. unfold entries, t_remove_at. cbn [slots]. apply incl_map.
    generalize (slots t). clear. intros l. revert i. induction l as [|x l IH]; intros [|i] y H; simpl in *; auto.
    destruct H as [<-|H]; auto. right. eapply IH; eauto.
  Qed.
  Lemma remove_yields : forall (t : table A) h (p : A -> M W bool),
    (forall e, In e (entries t) -> yields I any (p e)) ->
    yields I (fun o => forall e t', o = Some (e, t') -> In e (entries t) /\ incl (entries t') (entries t))
      (w_remove_entry lo t h p).
  Proof.
    intros t h p H. unfold w_remove_entry. eapply yields_bind; [apply find_yields, H|].
    intros [i|] _; apply yields_ret; intros e t' X; [|discriminate].
    destruct (t_entry t i) eqn:Y; [|discriminate]. injection X as <- <-.
    split; [eapply entry_in; eauto|apply remove_at_incl].
  Qed.
  Lemma calm_remove_in : forall (t : table A) h p e t', t_remove_entry lo t h p = Some (e, t') ->
    In e (entries t) /\ incl (entries t') (entries t).
  Proof.
    intros t h p e t' H. unfold t_remove_entry in H. destruct (t_find _ _ _ _); [|discriminate].
    destruct (t_entry t n) eqn:X; [|discriminate]. injection H as <- <-.
    split; [eapply entry_in; eauto|apply remove_at_incl].
  Qed.
  Lemma calm_get_in : forall (t : table A) h p e, t_get lo t h p = Some e -> In e (entries t).
  Proof.
    intros t h p e H. unfold t_get in H. destruct (t_find _ _ _ _); [|discriminate]. eapply entry_in; eauto.
  Qed.
  Lemma modify_entries : forall (t : table A) i f e, In e (entries (t_modify t i f)) ->
    exists x, In x (entries t) /\ (e = x \/ e = f x).
  Proof.
    intros t i f e. unfold entries, t_modify. cbn [slots]. generalize (slots t). clear. intros l. revert i.
    induction l as [|[h x] l IH]; intros [|i] H; simpl in *; try contradiction.
    - destruct H as [<-|H]; [exists x; auto|exists e; auto].
    - destruct H as [<-|H]; [exists x; auto|]. destruct (IH _ H) as (y & H1 & H2). exists y. auto.
  Qed.

  Lemma rehash_yields : forall (hasher : A -> M W N) s k w,
    (forall e, In e (map snd s) -> yields I any (hasher e)) -> I w -> I (fst (rehash_all hasher s k w)).
  Proof.
    intros hasher. induction s as [|[h e] s IH]; intros k w H X; cbn [rehash_all]; [exact X|].
    assert (Y := H e (or_introl eq_refl) w X). destruct (hasher e w) as [w' h'|w']; [|exact Y].
    destruct Y as [Y _]. specialize (IH (Datatypes.S k) w' (fun x Hx => H x (or_intror Hx)) Y).
    destruct (rehash_all hasher s (Datatypes.S k) w') as [w'' [j|s']]; exact IH.
  Qed.
  Hypothesis OP : forall B l (xs : list B), Permutation (hb_order lo B l xs) xs.
  Hypothesis FO : fault_ok F.
  Lemma lost_incl : forall {X} (xs lost ys : list X), Permutation (xs ++ lost) ys -> incl xs ys.
  Proof. intros X xs lost ys P x H. eapply Permutation_in; [exact P|]. apply in_or_app. auto. Qed.
  Lemma perm_incl : forall {X} (xs ys : list X), Permutation xs ys -> incl xs ys.
  Proof. intros X xs ys P x H. eapply Permutation_in; eauto. Qed.
  Lemma insert_yields : forall (t : table A) h e (hasher : A -> M W N) w,
    (forall x, In x (entries t) -> yields I any (hasher x)) -> I w ->
    match w_insert lo F t h e hasher w with
    | Ret (w', t') _ => I w' /\ incl (entries t') (e :: entries t)
    | Panic (w', t') => I w' /\ incl (entries t') (entries t)
    end.
  Proof.
    intros t h e hasher w H X. assert (P := winsert_entries lo F OP FO t h e hasher w).
    assert (Y : match w_insert lo F t h e hasher w with Ret (w', _) _ | Panic (w', _) => I w' end).
    { unfold w_insert, w_rehashing. destruct (hb_grow lo _); [|exact X].
      assert (Z := rehash_yields hasher (slots t) 0 w H X).
      destruct (rehash_all _ _ _ _) as [w' [k|s]]; exact Z. }
    destruct (w_insert _ _ _ _ _ _ _) as [[w' t'] u|[w' t']]; (split; [exact Y|]).
    - apply perm_incl, P.
    - destruct P as [lost P]. eapply lost_incl, P.
  Qed.
  Lemma resize_yields : forall (t : table A) z (hasher : A -> M W N) w,
    (forall x, In x (entries t) -> yields I any (hasher x)) -> I w ->
    match w_resize lo F t z hasher w with
    | Ret (w', t') _ | Panic (w', t') => I w' /\ incl (entries t') (entries t)
    end.
  Proof.
    intros t z hasher w H X. assert (P := wresize_entries lo F OP FO t z hasher w).
    assert (Y : match w_resize lo F t z hasher w with Ret (w', _) _ | Panic (w', _) => I w' end).
    { unfold w_resize, w_rehashing. destruct (hb_grow lo _); [|exact X].
      assert (Z := rehash_yields hasher (slots t) 0 w H X).
      destruct (rehash_all _ _ _ _) as [w' [k|s]]; exact Z. }
    destruct (w_resize _ _ _ _ _ _) as [[w' t'] u|[w' t']]; (split; [exact Y|]).
    - apply perm_incl, P.
    - destruct P as [lost P]. eapply lost_incl, P.
  Qed.
  Lemma try_resize_yields : forall (t : table A) n (hasher : A -> M W N) w,
    (forall x, In x (entries t) -> yields I any (hasher x)) -> I w ->
    match w_try_resize lo F t n hasher w with
    | Ret (w', t') _ | Panic (w', t') => I w' /\ incl (entries t') (entries t)
    end.
  Proof.
    intros t n hasher w H X. unfold w_try_resize. destruct (hb_try lo _); [|split; [exact X|apply incl_refl]].
    assert (Y := resize_yields t (Grow n) hasher w H X).
    destruct (w_resize _ _ _ _ _ _) as [[w' t'] []|[w' t']]; auto.
  Qed.
End Tables.

(* ---- calls on a map ---- *)
Section OnMap.
  Context {W map : Type} (K : W -> Prop) (I : map -> Prop).
  Definition both (s : W * map) : Prop := K (fst s) /\ I (snd s).
  Lemma yields_calmly : forall {A} (P : A -> Prop) (c : M map A), yields I P c -> yields both P (w_calmly c).
  Proof.
    intros A P c H [w m] [X Y]. unfold w_calmly, w_with. cbn [fst snd] in *. specialize (H m Y).
    destruct (c m); [destruct H; split; [split|]; auto|split; auto].
  Qed.
  Lemma yields_look : forall {A} (P : A -> Prop) (f : map -> M W A),
    (forall m, I m -> yields K P (f m)) -> yields both P (w_look f).
  Proof.
    intros A P f H [w m] [X Y]. unfold w_look. cbn [fst snd] in *. specialize (H m Y w X).
    destruct (f m w); [destruct H; split; [split|]; auto|split; auto].
  Qed.
End OnMap.

Lemma unwrap_seen : forall {T A} (Q : T -> Prop) (o : option A), yields Q any (unwrap o).
Proof. intros. apply yields_unwrap. intros; exact Logic.I. Qed.
Lemma ret_seen : forall {T A} (Q : T -> Prop) (a : A), yields Q any (ret a).
Proof. intros. apply yields_ret. exact Logic.I. Qed.

(* bind by bind; functions are unfolded unless a lemma in the database covers them *)
Create HintDb ys.
Ltac ys1 :=
  lazymatch goal with
  | |- yields _ any (ret _) => apply ret_seen
  | |- yields _ any panic => apply yields_panic
  | |- yields _ any (unwrap _) => apply unwrap_seen
  | |- yields _ any (bind getst _) => apply yields_get; intros
  | |- yields _ any (bind _ _) => apply (yields_bind _ any); [|intros ? _]
  | |- yields _ any (putst _) => apply yields_put; auto with ys
  | |- yields _ any (w_calmly _) => apply yields_calmly
  | |- yields _ any (w_look _) => apply yields_look; intros
  | |- yields _ any (note _ _) => apply note_clean; auto
  | |- yields _ any (match ?x with _ => _ end) => destruct x
  | |- yields _ any (let _ := _ in _) => cbv zeta
  | |- yields _ any ?c => first [solve [eauto with ys] | let h := head c in unfold h]
  end.
Ltac ys := intros; repeat (progress ys1).

(* ---- the record changes nothing ---- *)
(* c does with a record what c' does without *)
Section Shadow.
  Context {W C : Type}.
  Definition shadows {A} (c : M (W * list C) A) (c' : M W A) : Prop :=
    forall w g, match c (w, g), c' w with
                | Ret (w1, _) a, Ret w2 b => w1 = w2 /\ a = b
                | Panic (w1, _), Panic w2 => w1 = w2
                | _, _ => False
                end.
  (* on a map, or on a table *)
  Definition mshadows {map A} (c : M ((W * list C) * map) A) (c' : M (W * map) A) : Prop :=
    forall w g m, match c ((w, g), m), c' (w, m) with
                  | Ret (w1, _, m1) a, Ret (w2, m2) b => w1 = w2 /\ m1 = m2 /\ a = b
                  | Panic (w1, _, m1), Panic (w2, m2) => w1 = w2 /\ m1 = m2
                  | _, _ => False
                  end.
  Definition tshadows {T A} (c : W * list C -> res ((W * list C) * T) A) (c' : W -> res (W * T) A) : Prop :=
    forall w g, match c (w, g), c' w with
                | Ret (w1, _, m1) a, Ret (w2, m2) b => w1 = w2 /\ m1 = m2 /\ a = b
                | Panic (w1, _, m1), Panic (w2, m2) => w1 = w2 /\ m1 = m2
                | _, _ => False
                end.
  Lemma note_shadows : forall {A} (c : C) (f : M W A), shadows (note c f) f.
  Proof. intros A c f w g. unfold note. cbn [fst snd]. destruct (f w); auto. Qed.
  Lemma ret_shadows : forall {A} (a : A), shadows (ret a) (ret a).
  Proof. intros A a w g. cbn. auto. Qed.
  Lemma panic_shadows : forall {A}, shadows (@panic _ A) (@panic _ A).
  Proof. intros A w g. cbn. auto. Qed.
  Lemma unwrap_shadows : forall {A} (o : option A), shadows (unwrap o) (unwrap o).
  Proof. intros A [a|] w g; cbn; auto. Qed.
  Lemma bind_shadows : forall {A B} c c' (f f' : A -> M _ B), shadows c c' -> (forall a, shadows (f a) (f' a)) ->
    shadows (bind c f) (bind c' f').
  Proof.
    intros A B c c' f f' H1 H2 w g. unfold bind. specialize (H1 w g).
    destruct (c (w, g)) as [[w1 g1] a|[w1 g1]], (c' w) as [w2 b|w2]; try contradiction; auto.
    destruct H1 as [<- <-]. apply H2.
  Qed.
  Lemma ret_mshadows : forall {map A} (a : A), @mshadows map A (ret a) (ret a).
  Proof. intros map A a w g m. cbn. auto. Qed.
  Lemma panic_mshadows : forall {map A}, @mshadows map A panic panic.
  Proof. intros map A w g m. cbn. auto. Qed.
  Lemma unwrap_mshadows : forall {map A} (o : option A), @mshadows map A (unwrap o) (unwrap o).
  Proof. intros map A [a|] w g m; cbn; auto. Qed.
  Lemma bind_mshadows : forall {map A B} c c' (f f' : A -> M _ B), @mshadows map A c c' ->
    (forall a, mshadows (f a) (f' a)) -> mshadows (bind c f) (bind c' f').
  Proof.
    intros map A B c c' f f' H1 H2 w g m. unfold bind. specialize (H1 w g m).
    destruct (c (w, g, m)) as [[[w1 g1] m1] a|[[w1 g1] m1]], (c' (w, m)) as [[w2 m2] b|[w2 m2]]; try contradiction; auto.
    destruct H1 as (<- & <- & <-). apply H2.
  Qed.
  Lemma calmly_mshadows : forall {map A} (c : M map A), mshadows (w_calmly c) (w_calmly c).
  Proof. intros map A c w g m. unfold w_calmly, w_with. cbn [fst snd]. destruct (c m); auto. Qed.
  Lemma look_mshadows : forall {map A} (f : map -> M _ A) f', (forall m, shadows (f m) (f' m)) ->
    mshadows (w_look f) (w_look f').
  Proof.
    intros map A f f' H w g m. unfold w_look. cbn [fst snd]. specialize (H m w g).
    destruct (f m (w, g)) as [[w1 g1] a|[w1 g1]], (f' m w); try contradiction; intuition.
  Qed.

  Section ShadowTable.
    Variable lo : layout.
    Variable F : fault.
    Context {A : Type}.
    Lemma find_shadows : forall (t : table A) h p p', (forall e, shadows (p e) (p' e)) ->
      shadows (w_find lo t h p) (w_find lo t h p').
    Proof.
      intros t h p p' H. unfold w_find. induction (hb_probe lo (lay t) h (map fst (slots t))) as [|i l IH]; cbn [wsearch].
      - apply ret_shadows.
      - destruct (nth_error (slots t) i) as [[h' e]|]; [|exact IH].
        apply bind_shadows; [apply H|]. intros [|]; [apply ret_shadows|exact IH].
    Qed.
    Lemma get_shadows : forall (t : table A) h p p', (forall e, shadows (p e) (p' e)) ->
      shadows (w_get lo t h p) (w_get lo t h p').
    Proof. intros. apply bind_shadows; [apply find_shadows; auto|]. intros. apply ret_shadows. Qed.
    Lemma remove_shadows : forall (t : table A) h p p', (forall e, shadows (p e) (p' e)) ->
      shadows (w_remove_entry lo t h p) (w_remove_entry lo t h p').
    Proof. intros. apply bind_shadows; [apply find_shadows; auto|]. intros. apply ret_shadows. Qed.
    Lemma rehash_shadows : forall (hasher : A -> M (W * list C) N) hasher' s k w g, (forall e, shadows (hasher e) (hasher' e)) ->
      fst (fst (rehash_all hasher s k (w, g))) = fst (rehash_all hasher' s k w) /\
      snd (rehash_all hasher s k (w, g)) = snd (rehash_all hasher' s k w).
    Proof.
      intros hasher hasher' s k w g H. revert k w g. induction s as [|[h e] s IH]; intros k w g; cbn [rehash_all]; [auto|].
      specialize (H e w g). destruct (hasher e (w, g)) as [[w1 g1] a|[w1 g1]], (hasher' e w) as [w2 b|w2]; try contradiction;
        [|subst; auto].
      destruct H as [<- <-]. specialize (IH (Datatypes.S k) w1 g1).
      destruct (rehash_all hasher s (Datatypes.S k) (w1, g1)) as [[w3 g3] [j|s3]],
        (rehash_all hasher' s (Datatypes.S k) w1) as [w4 [j4|s4]]; cbn [fst snd] in *; destruct IH as [-> IH];
        try discriminate; injection IH as ->; auto.
    Qed.
    Lemma rehashing_shadows : forall b (t : table A) l' hasher hasher' put, (forall e, shadows (hasher e) (hasher' e)) ->
      tshadows (w_rehashing lo F b t l' hasher put) (w_rehashing lo F b t l' hasher' put).
    Proof.
      intros b t l' hasher hasher' put H w g. unfold w_rehashing. destruct (hb_grow lo l'); [|auto].
      destruct (rehash_shadows hasher hasher' (slots t) 0 w g H) as [H1 H2].
      destruct (rehash_all hasher _ _ _) as [[w3 g3] [j|s3]], (rehash_all hasher' _ _ _) as [w4 [j4|s4]]; cbn [fst snd] in *;
        try discriminate; injection H2 as ->; auto.
    Qed.
    Lemma insert_shadows : forall (t : table A) h e hasher hasher', (forall e, shadows (hasher e) (hasher' e)) ->
      tshadows (w_insert lo F t h e hasher) (w_insert lo F t h e hasher').
    Proof. intros. apply rehashing_shadows; auto. Qed.
    Lemma resize_shadows : forall (t : table A) z hasher hasher', (forall e, shadows (hasher e) (hasher' e)) ->
      tshadows (w_resize lo F t z hasher) (w_resize lo F t z hasher').
    Proof. intros. apply rehashing_shadows; auto. Qed.
    Lemma try_resize_shadows : forall (t : table A) n hasher hasher', (forall e, shadows (hasher e) (hasher' e)) ->
      tshadows (w_try_resize lo F t n hasher) (w_try_resize lo F t n hasher').
    Proof.
      intros t n hasher hasher' H w g. unfold w_try_resize. destruct (hb_try lo _); [|auto].
      assert (X := resize_shadows t (Grow n) _ _ H w g).
      destruct (w_resize _ _ _ _ hasher _) as [[[w1 g1] t1] u|[[w1 g1] t1]], (w_resize _ _ _ _ hasher' _) as [[w2 t2] u'|[w2 t2]];
        try contradiction; intuition.
    Qed.
  End ShadowTable.
End Shadow.

Create HintDb shw.
Ltac shw1 :=
  lazymatch goal with
  | |- shadows (note _ _) _ => apply note_shadows
  | |- shadows (ret _) _ => apply ret_shadows
  | |- shadows panic _ => apply panic_shadows
  | |- shadows (unwrap _) _ => apply unwrap_shadows
  | |- shadows (bind _ _) _ => apply bind_shadows; [|intros]
  | |- shadows (w_get _ _ _ _) _ => apply get_shadows; intros
  | |- shadows (w_remove_entry _ _ _ _) _ => apply remove_shadows; intros
  | |- shadows (w_hashL _ _ _) _ => apply note_shadows
  | |- shadows (w_hashR _ _ _) _ => apply note_shadows
  | |- shadows (w_eqL _ _ _) _ => apply note_shadows
  | |- shadows (w_eqR _ _ _) _ => apply note_shadows
  | |- shadows (w_neL _ _ _) _ => apply note_shadows
  | |- shadows (w_neR _ _ _) _ => apply note_shadows
  | |- mshadows (ret _) _ => apply ret_mshadows
  | |- mshadows panic _ => apply panic_mshadows
  | |- mshadows (unwrap _) _ => apply unwrap_mshadows
  | |- mshadows (bind _ _) _ => apply bind_mshadows; [|intros]
  | |- mshadows (w_calmly _) _ => apply calmly_mshadows
  | |- mshadows (w_look _) _ => apply look_mshadows; intros
  | |- tshadows (w_insert _ _ _ _ _ _) _ => apply insert_shadows; intros
  | |- tshadows (w_resize _ _ _ _ _) _ => apply resize_shadows; intros
  | |- tshadows (w_try_resize _ _ _ _ _) _ => apply try_resize_shadows; intros
  | |- _ (match ?x with _ => _ end) _ => destruct x
  | |- _ ?c _ => first [solve [auto with shw nocore] | let h := head c in unfold h]
  end.
Ltac shw := intros; repeat (progress shw1).

(* ---- what a call writes down, exactly ---- *)
Section Adds.
  Context {W C : Type}.
  (* what c writes down *)
  Definition adds {A} (P : list C -> Prop) (c : M (W * list C) A) : Prop :=
    forall w g, exists d, P d /\ snd (res_state (c (w, g))) = g ++ d.
  Lemma adds_note : forall {A} (c : C) (f : M W A), adds (eq [c]) (note c f).
  Proof. intros A c f w g. exists [c]. split; auto. unfold note. cbn [fst snd]. destruct (f w); auto. Qed.
  Lemma adds_ret : forall {A} (a : A), adds (eq []) (ret a).
  Proof. intros A a w g. exists []. split; auto. cbn. rewrite app_nil_r. auto. Qed.
  (* a call and what follows, which a panic may cut off *)
  Lemma adds_bind : forall {A B} (P Q P' : list C -> Prop) (c : M (W * list C) A) (f : A -> M _ B),
    adds P c -> (forall a, adds Q (f a)) -> (forall d, P d -> P' d) -> (forall d d', P d -> Q d' -> P' (d ++ d')) ->
    adds P' (bind c f).
  Proof.
    intros A B P Q P' c f H1 H2 X Y w g. unfold bind. destruct (H1 w g) as (d & H & K).
    destruct (c (w, g)) as [[w' g'] a|[w' g']]; cbn [res_state snd] in K; subst g'.
    - destruct (H2 a w' (g ++ d)) as (d' & H' & K'). exists (d ++ d'). split; [auto|]. rewrite K', app_assoc. auto.
    - exists d. split; auto.
  Qed.
  Lemma adds_find : forall {A} lo (t : table A) h (f : A -> C) (p : A -> M W bool),
    adds (fun d => exists es, incl es (entries t) /\ d = List.map f es) (w_find lo t h (fun e => note (f e) (p e))).
  Proof.
    intros A lo t h f p. unfold w_find.
    induction (hb_probe lo (lay t) h (List.map fst (slots t))) as [|i l IH]; cbn [wsearch].
    - intros w g. exists []. split; [exists []; split; [intros x []|auto]|]. cbn. rewrite app_nil_r. auto.
    - destruct (nth_error (slots t) i) as [[h' e]|] eqn:X; [|exact IH].
      apply nth_error_In in X. apply (in_map snd) in X. cbn [snd] in X.
      eapply adds_bind with (Q := fun d => exists es, incl es (entries t) /\ d = List.map f es); [apply adds_note| | |].
      + intros [|]; [|exact IH]. intros w g. exists [].
        split; [exists []; split; [intros x []|auto]|]. cbn. rewrite app_nil_r. auto.
      + intros d <-. exists [e]. split; auto. intros x [<-|[]]. exact X.
      + intros d d' <- (es & Q & ->). exists (e :: es). split; auto. intros x [<-|Hx]; auto.
  Qed.
  Lemma adds_get : forall {A} lo (t : table A) h (f : A -> C) (p : A -> M W bool),
    adds (fun d => exists es, incl es (entries t) /\ d = List.map f es) (w_get lo t h (fun e => note (f e) (p e))).
  Proof.
    intros. unfold w_get. eapply adds_bind; [apply adds_find|intros; apply adds_ret|auto|].
    intros d d' H <-. rewrite app_nil_r. auto.
  Qed.
  Lemma adds_lookup : forall {A B X D} (f : list X -> list C) h Y (c : M (W * list C) D) (c2 : D -> M _ A) (k : D -> A -> B),
    adds (eq [h]) c -> (forall a, adds (fun d => exists bs, incl bs Y /\ d = f bs) (c2 a)) -> f [] = [] ->
    adds (fun d => exists bs, incl bs Y /\ d = h :: f bs) (bind c (fun a => bind (c2 a) (fun o => ret (k a o)))).
  Proof.
    intros A B X D f h Y c c2 k H1 H2 N.
    eapply adds_bind with (Q := fun d => exists bs, incl bs Y /\ d = f bs); [exact H1| | |].
    - intros a. eapply adds_bind; [apply H2|intros; apply adds_ret|auto|].
      intros d d' Z <-. rewrite app_nil_r. auto.
    - intros d <-. exists []. rewrite N. split; [intros x []|auto].
    - intros d d' <- (bs & Z & ->). exists bs. auto.
  Qed.
End Adds.
