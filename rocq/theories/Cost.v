(* How often does a call run user code (Hash, Eq)?  A call that returns on the fuse [Some n] has
   run it at most n times; [spends] is a small program logic for such bounds. *)
From Coq Require Import List NArith Lia Bool Permutation PeanoNat.
From Verif Require Import Prelude RawTable ListFacts TableFacts SoundTables Concrete Capacity Faults FaultTables.
Import ListNotations.
Open Scope N_scope.

(* A search inspects a bucket only if a part of the stored hash, the tag, agrees with that of the
   hash searched for, and inspects no bucket twice.
   hashbrown 0.12: tag = h2, the top 7 bits of the hash ("match_byte(h2)"; on targets without SSE2
   match_byte may confuse tags that differ in the lowest bit, so there the tag is the other 6); a
   probe sequence visits every group of buckets at most once. *)
Record frugal (lo : layout) (tag : N -> N) : Prop := {
  probe_once : forall l h hs, NoDup (hb_probe lo l h hs);
  probe_tag : forall l h hs i, In i (hb_probe lo l h hs) ->
    exists h', nth_error hs i = Some h' /\ tag h' = tag h
}.

Section Alike.
  Variable tag : N -> N.

  Definition alike (h h' : N) : bool := tag h' =? tag h.
  (* the number of hashes with the tag of h *)
  Definition alikes (h : N) (hs : list N) : nat := length (filter (alike h) hs).

  Lemma alikes_perm : forall h hs hs', Permutation hs hs' -> alikes h hs = alikes h hs'.
  Proof. intros. apply Permutation_length, filter_perm. auto. Qed.
  Lemma alikes_app : forall h a b, alikes h (a ++ b) = (alikes h a + alikes h b)%nat.
  Proof. intros. unfold alikes. rewrite filter_app, app_length. auto. Qed.
  Lemma alikes_remove : forall h {A} (s : list (N * A)) i,
    (alikes h (map fst (remove_nth i s)) <= alikes h (map fst s))%nat.
  Proof.
    induction s as [|x s IH]; intros [|i]; simpl; auto; unfold alikes in *; simpl; destruct (alike h (fst x)); simpl; auto.
    specialize (IH i). lia.
  Qed.
  Lemma alikes_update : forall h {A} f (s : list (N * A)) i, (forall x, fst (f x) = fst x) ->
    alikes h (map fst (update_nth i f s)) = alikes h (map fst s).
  Proof.
    intros h A f s i H. f_equal. revert i. induction s as [|x s IH]; intros [|i]; simpl; auto; f_equal; auto.
  Qed.
  Lemma remove_length : forall {A} (s : list A) i, (length (remove_nth i s) <= length s)%nat.
  Proof. induction s as [|x s IH]; intros [|i]; simpl; auto. specialize (IH i). lia. Qed.
  Lemma update_length : forall {A} f (s : list A) i, length (update_nth i f s) = length s.
  Proof. induction s as [|x s IH]; intros [|i]; simpl; auto. Qed.

  Lemma alikes_le : forall h hs, (alikes h hs <= length hs)%nat.
  Proof. intros. unfold alikes. induction hs; simpl; auto. destruct (alike h a); simpl; lia. Qed.

  Lemma filter_seq : forall h hs k,
    length (filter (fun i => match nth_error hs (i - k) with Some h' => alike h h' | None => false end)
              (seq k (length hs))) = alikes h hs.
  Proof.
    induction hs as [|x hs IH]; intros k; simpl; auto. rewrite Nat.sub_diag. unfold alikes in *. simpl.
    assert (Q : length (filter (fun i => match nth_error (x :: hs) (i - k) with Some h' => alike h h' | None => false end)
                  (seq (S k) (length hs))) = length (filter (alike h) hs)).
    { rewrite <- (IH (S k)). f_equal. apply filter_ext_in. intros i Hi. apply in_seq in Hi.
      replace (i - k)%nat with (S (i - S k)) by lia. reflexivity. }
    destruct (alike h x); simpl; lia.
  Qed.
  Lemma shown_le : forall lo, frugal lo tag -> forall l h hs, (length (hb_probe lo l h hs) <= alikes h hs)%nat.
  Proof.
    intros lo FR l h hs. rewrite <- (filter_seq h hs 0). apply NoDup_incl_length; [apply (probe_once _ _ FR)|].
    intros i Hi. apply (probe_tag _ _ FR) in Hi as (h' & Q & T). apply filter_In. split.
    - apply in_seq. assert (i < length hs)%nat by (apply nth_error_Some; congruence). lia.
    - rewrite Nat.sub_0_r, Q. apply N.eqb_eq. auto.
  Qed.
End Alike.

(* ---- code that reads ---- *)
Definition cheap {A} (n : nat) (c : M fuse A) (Q : A -> Prop) : Prop :=
  forall w, (n <= w)%nat -> exists w', (w <= w' + n)%nat /\
    match c (Some w) with Ret f a => f = Some w' /\ Q a | Panic f => f = Some w' end.

Lemma ch_ret : forall {A} n (a : A) (Q : A -> Prop), Q a -> cheap n (ret a) Q.
Proof. intros A n a Q H w _. exists w. split; [lia|]. simpl. auto. Qed.
Lemma ch_user : forall {A} (a : A) (Q : A -> Prop), Q a -> cheap 1 (user a) Q.
Proof. intros A a Q H [|w] Hw; [lia|]. exists w. split; [lia|]. simpl. auto. Qed.
Lemma ch_panic : forall {A} n (Q : A -> Prop), cheap n panic Q.
Proof. intros A n Q w _. exists w. split; [lia|]. simpl. auto. Qed.
Lemma ch_unwrap : forall {A} n (o : option A) (Q : A -> Prop), (forall a, o = Some a -> Q a) -> cheap n (unwrap o) Q.
Proof. intros A n [a|] Q H; [apply ch_ret; auto|apply ch_panic]. Qed.
Lemma ch_bind : forall {A B} n k (c : M fuse A) (f : A -> M fuse B) Q P,
  cheap n c Q -> (forall a, Q a -> cheap k (f a) P) -> cheap (n + k) (bind c f) P.
Proof.
  intros A B n k c f Q P H1 H2 w Hw. unfold bind. destruct (H1 w) as (w1 & L1 & X); [lia|].
  destruct (c (Some w)) as [s a|s]; [destruct X as [-> X]|subst; exists w1; split; [lia|auto]].
  destruct (H2 a X w1) as (w2 & L2 & Y); [lia|]. exists w2. split; [lia|exact Y].
Qed.
Lemma ch_more : forall {A} n k (c : M fuse A) (Q P : A -> Prop), cheap n c Q -> (n <= k)%nat ->
  (forall a, Q a -> P a) -> cheap k c P.
Proof.
  intros A n k c Q P H L HQ w Hw. destruct (H w) as (w' & L' & X); [lia|]. exists w'. split; [lia|].
  destruct (c (Some w)) as [s a|s]; [destruct X; split; auto|auto].
Qed.

Lemma ch_then : forall {A B} n k t (c : M fuse A) (f : A -> M fuse B) Q P,
  cheap n c Q -> (forall a, Q a -> cheap k (f a) P) -> (n + k <= t)%nat -> cheap t (bind c f) P.
Proof. intros A B n k t c f Q P H1 H2 H. eapply ch_more; [eapply ch_bind; eauto|exact H|auto]. Qed.

Lemma cheap_agrees : forall {A} n (c : M fuse A) o Q, agrees c o -> cheap n c Q ->
  forall w, (n <= w)%nat -> exists w', c (Some w) = inner o (Some w').
Proof.
  intros A n c o Q T SP w Hw. destruct (SP w Hw) as (w' & _ & X).
  destruct (T (Some w)) as [(f & _ & HC)|(_ & HC)]; rewrite HC in X; [|discriminate].
  exists w'. rewrite HC. destruct o; simpl in *; [destruct X as [-> _]|rewrite X]; reflexivity.
Qed.

Section ReadTable.
  Variable lo : layout.
  Variable tag : N -> N.
  Hypothesis FR : frugal lo tag.
  Context {A : Type}.
  Implicit Types t : table A.

  Definition hashes_of t : list N := map fst (slots t).
  (* the buckets a search for h may inspect *)
  Definition near t (h : N) : nat := alikes tag h (hashes_of t).

  Lemma ch_search : forall p (s : list (N * A)) idx,
    cheap (length idx) (search p s idx) (fun o => forall i, o = Some i -> exists x, nth_error s i = Some x).
  Proof.
    induction idx as [|i t IH]; simpl; [apply ch_ret; discriminate|].
    destruct (nth_error s i) as [[h e]|] eqn:Q; [|eapply ch_more; [exact IH|lia|auto]].
    apply (ch_bind 1 _ _ _ (fun _ => True)); [apply ch_user; auto|]. intros b _. destruct b; [|exact IH].
    apply ch_ret. intros j [= <-]. eauto.
  Qed.
  Lemma ch_find : forall t h p, cheap (near t h) (u_find lo t h p) (fun _ => True).
  Proof. intros. eapply ch_more; [apply ch_search|apply shown_le; auto|auto]. Qed.
  Lemma ch_get : forall t h p, cheap (near t h) (u_get lo t h p) (fun _ => True).
  Proof.
    intros. eapply ch_more; [eapply (ch_bind _ 0); [apply ch_find|]|lia|]; [|intros ? X; exact X].
    intros i _. apply ch_ret. auto.
  Qed.
  (* t with some buckets taken out and others changed *)
  Inductive less t : table A -> Prop :=
  | less_refl : less t t
  | less_remove : forall t1 h p e t2, less t t1 -> t_remove_entry lo t1 h p = Some (e, t2) -> less t t2
  | less_modify : forall t1 i f, less t t1 -> less t (t_modify t1 i f).
  Lemma less_trans : forall t1 t2 t3, less t1 t2 -> less t2 t3 -> less t1 t3.
  Proof. intros t1 t2 t3 H1 H2. induction H2; [auto|eapply less_remove; eauto|apply less_modify; auto]. Qed.
  Lemma less_near : forall t t' h, less t t' -> (near t' h <= near t h)%nat.
  Proof.
    intros t t' h H. induction H as [|t1 h1 p e t2 _ IH Q|t1 i f _ IH]; [auto| |].
    - apply remove_entry_at in Q as (i & _ & _ & _ & ->). etransitivity; [apply alikes_remove|exact IH].
    - unfold near, hashes_of in *. simpl. rewrite alikes_update; auto.
  Qed.
  Lemma less_len : forall t t', less t t' -> (t_len t' <= t_len t)%nat.
  Proof.
    intros t t' H. induction H as [|t1 h1 p e t2 _ IH Q|t1 i f _ IH]; [auto| |].
    - apply remove_entry_at in Q as (i & _ & _ & _ & ->). etransitivity; [apply remove_length|exact IH].
    - unfold t_len in *. simpl. rewrite update_length. auto.
  Qed.
  Lemma ch_remove_entry : forall t h p,
    cheap (near t h) (u_remove_entry lo t h p) (fun o => forall e t', o = Some (e, t') -> less t t').
  Proof.
    intros t h p w Hw. destruct (cheap_agrees _ _ _ _ (ag_find lo t h p) (ch_find t h p) w Hw) as (w' & HC).
    destruct (ch_find t h p w Hw) as (w2 & HL & X). rewrite HC in X. destruct X as [[= ->] _].
    exists w2. split; auto. unfold u_remove_entry, bind. rewrite HC. simpl. split; auto.
    intros e t' Q. eapply (less_remove t t h p e); [apply less_refl|exact Q].
  Qed.
End ReadTable.

(* ---- code that writes ---- *)
Section OnMap.
  Context {map : Type}.
  Notation FM A := (M (fuse * map) A).

  (* run in m on a fuse that allows n calls of user code, c ends with at least what was beyond n
     left; Q if it returns *)
  Definition spends {A} (n : nat) (m : map) (c : FM A) (Q : map -> A -> Prop) : Prop :=
    forall w, (n <= w)%nat -> exists w', (w <= w' + n)%nat /\
      match c (Some w, m) with
      | Ret (f, m') a => f = Some w' /\ Q m' a
      | Panic (f, _) => f = Some w'
      end.

  Lemma sp_ret : forall {A} n m (a : A) (Q : map -> A -> Prop), Q m a -> spends n m (ret a) Q.
  Proof. intros A n m a Q H w _. exists w. split; [lia|]. simpl. auto. Qed.
  Lemma sp_panic : forall {A} n m (Q : map -> A -> Prop), spends n m panic Q.
  Proof. intros A n m Q w _. exists w. split; [lia|]. simpl. auto. Qed.
  Lemma sp_unwrap : forall {A} n m (o : option A) (Q : map -> A -> Prop),
    (forall a, o = Some a -> Q m a) -> spends n m (unwrap o) Q.
  Proof. intros A n m [a|] Q H; [apply sp_ret; auto|apply sp_panic]. Qed.
  Lemma sp_calm : forall {A} n m (c : M map A) (Q : map -> A -> Prop),
    (forall m' a, c m = Ret m' a -> Q m' a) -> spends n m (calmly c) Q.
  Proof.
    intros A n m c Q H w _. exists w. split; [lia|]. unfold calmly. simpl.
    destruct (c m) as [m' a|m'] eqn:X; simpl; auto.
  Qed.
  Lemma sp_look : forall {A} n m (f : map -> M fuse A) (Q : A -> Prop), cheap n (f m) Q ->
    spends n m (look f) (fun m' a => m' = m /\ Q a).
  Proof.
    intros A n m f Q H w Hw. destruct (H w Hw) as (w' & L & X). exists w'. split; [lia|].
    unfold look. simpl. destruct (f m (Some w)) as [s a|s]; [destruct X; auto|auto].
  Qed.
  Lemma sp_bind : forall {A B} n k m (c : FM A) (f : A -> FM B) Q P,
    spends n m c Q -> (forall m' a, Q m' a -> spends k m' (f a) P) -> spends (n + k) m (bind c f) P.
  Proof.
    intros A B n k m c f Q P H1 H2 w Hw. unfold bind. destruct (H1 w) as (w1 & L1 & X); [lia|].
    destruct (c (Some w, m)) as [[s m'] a|[s m']]; [destruct X as [-> X]|subst; exists w1; split; [lia|auto]].
    destruct (H2 m' a X w1) as (w2 & L2 & Y); [lia|]. exists w2. split; [lia|exact Y].
  Qed.
  Lemma sp_more : forall {A} n k m (c : FM A) (Q P : map -> A -> Prop), spends n m c Q -> (n <= k)%nat ->
    (forall m' a, Q m' a -> P m' a) -> spends k m c P.
  Proof.
    intros A n k m c Q P H L HQ w Hw. destruct (H w) as (w' & L' & X); [lia|]. exists w'. split; [lia|].
    destruct (c (Some w, m)) as [[s m'] a|[s m']]; [destruct X; split; auto|auto].
  Qed.
  Lemma sp_look_bind : forall {A B} n k m (f : map -> M fuse A) (g : A -> FM B) Q P,
    cheap n (f m) Q -> (forall a, Q a -> spends k m (g a) P) -> spends (n + k) m (bind (look f) g) P.
  Proof.
    intros A B n k m f g Q P H1 H2. eapply sp_bind; [apply sp_look; exact H1|].
    intros m' a [-> HQ]. auto.
  Qed.
  Lemma sp_then : forall {A B} n k t m (c : FM A) (f : A -> FM B) Q P,
    spends n m c Q -> (forall m' a, Q m' a -> spends k m' (f a) P) -> (n + k <= t)%nat -> spends t m (bind c f) P.
  Proof. intros A B n k t m c f Q P H1 H2 H. eapply sp_more; [eapply sp_bind; eauto|exact H|auto]. Qed.
  Lemma sp_look_then : forall {A B} n k t m (f : map -> M fuse A) (g : A -> FM B) Q P,
    cheap n (f m) Q -> (forall a, Q a -> spends k m (g a) P) -> (n + k <= t)%nat -> spends t m (bind (look f) g) P.
  Proof. intros A B n k t m f g Q P H1 H2 H. eapply sp_more; [eapply sp_look_bind; eauto|exact H|auto]. Qed.
  (* within the budget the call does what it does when user code returns *)
  Lemma spends_tracks : forall {A} n m (c : FM A) c0 K Q, tracks m c c0 K -> spends n m c Q ->
    forall w, (n <= w)%nat -> exists w', c (Some w, m) = with_fuse (Some w') (c0 m).
  Proof.
    intros A n m c c0 K Q T SP w Hw. destruct (SP w Hw) as (w' & _ & X).
    destruct (T (Some w)) as [(f & _ & HC)|(_ & m' & HC & _)]; rewrite HC in X; [|discriminate].
    exists w'. rewrite HC. destruct (c0 m); simpl in *; [destruct X as [-> _]|rewrite X]; reflexivity.
  Qed.
End OnMap.

(* ---- rehashing ---- *)
Section Rehash.
  Variable lo : layout.
  Variable F : fault.
  Local Open Scope nat_scope.
  (* what an insertion or a change of size that ends in the layout l' costs *)
  Definition rehash_cost {A} (t : table A) (l' : N) : nat := if hb_grow lo l' then t_len t else 0.
  Lemma rehash_le : forall {A} (t : table A) l', rehash_cost t l' <= t_len t.
  Proof. intros. unfold rehash_cost. destruct (hb_grow _ _); lia. Qed.
  Lemma rehashing_cost : forall {A} ip (t : table A) l' t' w, rehash_cost t l' <= w -> exists w',
    w <= w' + rehash_cost t l' /\ rehashing lo F ip t l' t' (Some w) = Ret (Some w', t') tt.
  Proof.
    intros A ip t l' t' w H. unfold rehashing, rehash_cost in *. destruct (hb_grow lo l'); [|exists w; split; [lia|auto]].
    simpl. rewrite (proj2 (Nat.leb_le _ _) H). exists (w - t_len t). split; [lia|auto].
  Qed.
  Lemma less_room : forall {A} (t t' : table A) k, capacity_ok lo -> less lo t t' ->
    room_for lo k t -> room_for lo k t'.
  Proof.
    intros A t t' k CO H RM. induction H as [|t1 h1 p e t2 _ IH Q|t1 i f _ IH]; auto.
    - eapply (room_uses _ 0); [eapply remove_entry_uses; eauto|auto].
    - eapply (room_uses _ 0); [apply modify_uses|auto].
  Qed.
End Rehash.

(* ---- in terms of the items stored ---- *)
Lemma near_hashed : forall tag {A T} (v : A -> T) h (t : table A) k, hashed (fun x => h (v x)) (slots t) ->
  near tag t k = length (filter (fun x => N.eqb (tag (h x)) (tag k)) (t_values v t)).
Proof.
  intros tag A T v h t k H. unfold near, alikes, hashes_of, t_values.
  assert (Q : List.map fst (slots t) = List.map h (List.map (fun x => v (snd x)) (slots t))).
  { rewrite map_map. apply map_ext_in. intros x Hx. apply (H x Hx). }
  rewrite Q. unfold alike. clear. induction (List.map (fun x => v (snd x)) (slots t)) as [|x xs IH]; simpl; auto.
  destruct (N.eqb (tag (h x)) (tag k)); simpl; auto.
Qed.
Lemma near_items : forall tag {A T} (v : A -> T) e h G (t : table A) k, sound v e h G t ->
  near tag t k = length (filter (fun x => N.eqb (tag (h x)) (tag k)) (t_values v t)).
Proof. intros tag A T v e h G t k (H & _). apply near_hashed, H. Qed.
Lemma filter_one : forall {T} (e : T -> T -> bool) (p : T -> bool) (xs : list T), distinct e xs ->
  (forall a b, In a xs -> In b xs -> p a = true -> p b = true -> e a b = true) -> (length (filter p xs) <= 1)%nat.
Proof.
  intros T e p xs D H. destruct (filter p xs) as [|a [|b t]] eqn:Q; simpl; auto. exfalso.
  assert (DF : distinct e (filter p xs)) by (apply distinct_filter; auto). rewrite Q in DF.
  apply distinct_cons in DF as [DF _]. specialize (DF b (or_introl eq_refl)).
  assert (I1 : In a (filter p xs)) by (rewrite Q; left; auto).
  assert (I2 : In b (filter p xs)) by (rewrite Q; right; left; auto).
  apply filter_In in I1 as [? ?]. apply filter_In in I2 as [? ?]. rewrite H in DF; auto. discriminate.
Qed.

(* ---- the contract can be met ---- *)
Lemma lo_room_frugal : frugal lo_room (fun _ => 0).
Proof.
  constructor; simpl; intros.
  - apply seq_NoDup.
  - apply in_seq in H. destruct (nth_error hs i) as [h'|] eqn:Q; [eauto|]. apply nth_error_None in Q. lia.
Qed.
Lemma lo_h7_frugal : frugal lo_h7 (fun h => N.land h 127).
Proof.
  constructor; simpl; intros.
  - apply NoDup_filter, seq_NoDup.
  - apply filter_In in H as [_ H]. destruct (nth_error hs i) as [h'|]; [|discriminate].
    exists h'. split; auto. symmetry. apply N.eqb_eq. auto.
Qed.
