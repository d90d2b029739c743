(* Exact accounting over the state monad, beside the inequality of Conserve.v: [settles g c h]
   says that a call that is given g items of the kind counted by [w] and returns (does not
   panic) has put every one of them into the state or handed it back ([h]), and has taken from
   the state only what it handed back. *)
From Coq Require Import List NArith Lia Bool Permutation.
From Verif Require Import Prelude RawTable TableFacts Conserve Faults Wild.
Import ListNotations.
Local Open Scope nat_scope.

Section Settles.
  Context {T : Type} (w : T -> nat).
  (* [k]: the answers for which the account is claimed *)
  Definition settles_on {A} (k : A -> Prop) (g : nat) (c : M T A) (h : A -> nat) : Prop :=
    forall s s' a, c s = Ret s' a -> k a -> w s' + h a = w s + g.
  Definition settles {A} := @settles_on A (fun _ => True).

  Lemma settles_ret : forall {A} (k : A -> Prop) g (a : A) h, (k a -> h a = g) -> settles_on k g (ret a) h.
  Proof. intros A k g a h H s s' b X K. injection X as <- <-. specialize (H K). lia. Qed.
  Lemma settles_panic : forall {A} (k : A -> Prop) g h, settles_on k g (@panic T A) h.
  Proof. intros A k g h s s' a X. discriminate. Qed.
  Lemma settles_unwrap : forall {A} g (o : option A) h, (forall a, o = Some a -> h a = g) -> settles g (unwrap o) h.
  Proof. intros A g [a|] h H; [apply settles_ret; auto|apply settles_panic]. Qed.
  (* of the g items given, [u] are used by the first call *)
  Lemma settles_bind : forall {A B} (c : M T A) (f : A -> M T B) k u g h1 h2,
    settles u c h1 -> u <= g -> (forall a, settles_on k (g - u + h1 a) (f a) h2) -> settles_on k g (bind c f) h2.
  Proof.
    intros A B c f k u g h1 h2 H1 L H2 s s' b X K. unfold bind in X.
    destruct (c s) as [s1 a|s1] eqn:Q; [|discriminate]. specialize (H1 _ _ _ Q I). specialize (H2 a _ _ _ X K). lia.
  Qed.
  Lemma settles_nothing : forall {A B} (c : M T A) (f : A -> M T B) k g h2,
    settles 0 c (fun _ => 0) -> (forall a, settles_on k g (f a) h2) -> settles_on k g (bind c f) h2.
  Proof.
    intros A B c f k g h2 H1 H2. apply (settles_bind c f k 0 g (fun _ => 0) h2); [exact H1|lia|]. intros a.
    replace (g - 0 + 0) with g by lia. auto.
  Qed.
  Lemma settles_then : forall {A B} (c : M T A) (f : A -> M T B) k g h1 h2,
    settles 0 c h1 -> (forall a, settles_on k (g + h1 a) (f a) h2) -> settles_on k g (bind c f) h2.
  Proof.
    intros A B c f k g h1 h2 H1 H2. apply (settles_bind c f k 0 g h1 h2); [exact H1|lia|]. intros a.
    rewrite PeanoNat.Nat.sub_0_r. auto.
  Qed.
  Lemma settles_get_any : forall {B} (f : T -> M T B) k g h, (forall s, settles_on k g (f s) h) ->
    settles_on k g (bind getst f) h.
  Proof. intros B f k g h H s s' b X K. exact (H s _ _ _ X K). Qed.
  Lemma settles_unwrap_bind : forall {A B} (o : option A) (f : A -> M T B) k g h,
    (forall a, o = Some a -> settles_on k g (f a) h) -> settles_on k g (bind (unwrap o) f) h.
  Proof. intros A B [a|] f k g h H s s' b X K; [eapply H; eauto|discriminate]. Qed.
  Lemma settles_change : forall {A} (c : M T A) (k k' : A -> Prop) g h h',
    settles_on k g c h -> (forall a, k' a -> k a) -> (forall a, k' a -> h a = h' a) -> settles_on k' g c h'.
  Proof.
    intros A c k k' g h h' H K HH s s' a X Y. specialize (H _ _ _ X (K _ Y)). specialize (HH _ Y). lia.
  Qed.
  (* a call that keeps the account if it returns *)
  Lemma settles_given : forall {A} (c : M T A) (k : A -> Prop) g g' h, settles_on k g c h -> g = g' -> settles_on k g' c h.
  Proof. intros. subst. auto. Qed.
End Settles.

Section WildSettles.
  Context {W map : Type} (v : map -> nat).
  Notation wsettles := (settles_on (fun s : W * map => v (snd s))).

  Lemma settles_calmly : forall {A} k g (c : M map A) h, settles_on v k g c h -> wsettles k g (w_calmly c) h.
  Proof.
    intros A k g c h H [w m] [w' m'] a X K. unfold w_calmly, w_with in X. cbn [fst snd] in X.
    destruct (c m) as [m1 a1|m1] eqn:Q; [|discriminate]. injection X as <- <- <-. exact (H _ _ _ Q K).
  Qed.
  Lemma settles_look : forall {A} (f : map -> M W A), wsettles (fun _ => True) 0 (w_look f) (fun _ => 0%nat).
  Proof.
    intros A f [w m] s' a X _. unfold w_look in X. cbn [fst snd] in X.
    destruct (f m w); [|discriminate]. injection X as <- <-. cbn [snd]. lia.
  Qed.
  Lemma settles_looked : forall {A B} (f : map -> M W A) (c : A -> M (W * map) B) k g h,
    (forall a, wsettles k g (c a) h) -> wsettles k g (bind (w_look f) c) h.
  Proof. intros. eapply settles_nothing; [apply settles_look|auto]. Qed.
End WildSettles.

Section WildWeightKept.
  Variable lo : layout.
  Variable F : fault.
  Hypothesis OP : keeps_buckets lo.
  Hypothesis FO : fault_ok F.
  Context {W A : Type} (p : A -> bool).
  Lemma wtw_resize_kept : forall (t : table A) z (hasher : A -> M W N) w w' t' a,
    w_resize lo F t z hasher w = Ret (w', t') a -> tw p t' = tw p t.
  Proof.
    intros t z hasher w w' t' a H. assert (X := wresize_entries lo F OP FO t z hasher w).
    rewrite H in X. rewrite !tw_entries. apply cnt_perm, X.
  Qed.
  Lemma wtw_try_resize_kept : forall (t : table A) n (hasher : A -> M W N) w w' t' a,
    w_try_resize lo F t n hasher w = Ret (w', t') a -> tw p t' = tw p t.
  Proof.
    intros t n hasher w w' t' a H. assert (X := wtry_resize_entries lo F OP FO t n hasher w).
    rewrite H in X. rewrite !tw_entries. apply cnt_perm, X.
  Qed.
End WildWeightKept.
