(* Counting items: an accounting logic over the state monad.  [w] counts, in a state, the
   items that pass some test; a call that is given g such items and hands back h of them
   must have paid for both from the state. *)
From Coq Require Import List NArith Lia Bool Permutation.
From Verif Require Import Prelude RawTable TableFacts.
Import ListNotations.
Local Open Scope nat_scope.

(* how many elements of l pass the test p *)
Definition cnt {A} (p : A -> bool) (l : list A) : nat := length (filter p l).
Definition one {A} (p : A -> bool) (a : A) : nat := cnt p [a].
Definition cnt_opt {A} (p : A -> nat) (o : option A) : nat := match o with Some a => p a | None => 0 end.

Lemma cnt_cons : forall {A} (p : A -> bool) a l, cnt p (a :: l) = one p a + cnt p l.
Proof. intros. unfold one, cnt. simpl. destruct (p a); auto. Qed.
Lemma cnt_app : forall {A} (p : A -> bool) l l', cnt p (l ++ l') = cnt p l + cnt p l'.
Proof. intros. unfold cnt. rewrite filter_app, app_length. auto. Qed.
Lemma cnt_perm : forall {A} (p : A -> bool) l l', Permutation l l' -> cnt p l = cnt p l'.
Proof. induction 1; rewrite ?cnt_cons; lia. Qed.
Lemma cnt_map : forall {A B} (g : A -> B) p l, cnt p (map g l) = cnt (fun a => p (g a)) l.
Proof. induction l; simpl; rewrite ?cnt_cons; auto. rewrite IHl. unfold one, cnt. simpl. destruct (p (g a)); auto. Qed.

(* hashbrown moves buckets about, but neither loses nor duplicates any *)
Definition keeps_buckets (lo : layout) : Prop :=
  forall A l (xs : list A), Permutation (hb_order lo A l xs) xs.
Lemma keeps_buckets_ok : forall lo, layout_ok lo -> keeps_buckets lo.
Proof. intros lo H A l xs. apply H. Qed.

Section Tables.
  Context {A : Type} (lo : layout) (p : A -> bool).
  Hypothesis OP : forall B l (xs : list B), Permutation (hb_order lo B l xs) xs.

  Definition tw (t : table A) : nat := cnt p (map snd (slots t)).

  Lemma tw_remove_at : forall t i e, t_entry t i = Some e -> tw (t_remove_at lo t i) + one p e = tw t.
  Proof.
    intros t i e H. unfold t_entry in H. destruct (nth_error (slots t) i) as [[h x]|] eqn:X; [|discriminate].
    injection H as <-. apply remove_nth_perm in X. apply (Permutation_map snd) in X.
    unfold tw. rewrite (cnt_perm p _ _ X). simpl. rewrite cnt_cons. simpl. lia.
  Qed.
  Lemma tw_remove_entry : forall t h q e t', t_remove_entry lo t h q = Some (e, t') -> tw t' + one p e = tw t.
  Proof.
    intros t h q e t' H. unfold t_remove_entry in H. destruct (t_find _ _ _ _); [|discriminate].
    destruct (t_entry t n) eqn:X; [|discriminate]. injection H as <- <-. apply tw_remove_at; auto.
  Qed.
  Lemma rehash_values : forall l hasher (s : list (N * A)), map snd (t_rehash lo l hasher s) = map snd s.
  Proof. intros. unfold t_rehash. destruct (hb_grow lo l); auto. rewrite map_map. auto. Qed.
  Lemma tw_insert : forall t h e hasher, tw (t_insert lo t h e hasher) = one p e + tw t.
  Proof.
    intros. unfold tw, t_insert. cbn [slots]. rewrite (cnt_perm p _ _ (Permutation_map snd (OP _ _ _))).
    simpl map. rewrite rehash_values, cnt_cons. auto.
  Qed.
  Lemma tw_resize : forall t z hasher, tw (t_resize lo t z hasher) = tw t.
  Proof.
    intros. unfold tw, t_resize. cbn [slots]. rewrite (cnt_perm p _ _ (Permutation_map snd (OP _ _ _))).
    rewrite rehash_values. auto.
  Qed.
  Lemma tw_try_resize : forall t n hasher, tw (snd (t_try_resize lo t n hasher)) = tw t.
  Proof. intros. unfold t_try_resize. destruct (hb_try lo _); cbn [snd]; auto. apply tw_resize. Qed.
  Lemma tw_modify : forall t i f, (forall e, p (f e) = p e) -> tw (t_modify t i f) = tw t.
  Proof.
    intros t i f H. unfold tw, t_modify. cbn [slots]. revert i. induction (slots t) as [|[h x] s IH]; intros [|i]; simpl; auto.
    - rewrite !cnt_cons. assert (X : one p (f x) = one p x) by (unfold one, cnt; simpl; rewrite H; destruct (p x); auto). lia.
    - rewrite !cnt_cons. auto.
  Qed.
  Lemma tw_clear : forall t, tw (t_clear lo t) = 0.
  Proof. reflexivity. Qed.
  Lemma tw_new : forall l, tw (t_new l) = 0.
  Proof. reflexivity. Qed.
End Tables.

Section Pays.
  Context {T : Type} (w : T -> nat).

  Definition pays {A} (g : nat) (c : M T A) (h : A -> nat) : Prop :=
    forall s, match c s with
              | Ret s' a => w s' + h a <= w s + g
              | Panic s' => w s' <= w s + g
              end.

  Lemma pays_ret : forall {A} g (a : A) h, h a <= g -> pays g (ret a) h.
  Proof. intros A g a h H s. simpl. lia. Qed.
  Lemma pays_panic : forall {A} g h, pays g (@panic T A) h.
  Proof. intros A g h s. simpl. lia. Qed.
  Lemma pays_unwrap : forall {A} g (o : option A) h, cnt_opt h o <= g -> pays g (unwrap o) h.
  Proof. intros A g [a|] h H; [apply pays_ret; auto|apply pays_panic]. Qed.
  (* of the g items given, [u] are used by the first call *)
  Lemma pays_bind : forall {A B} (c : M T A) (k : A -> M T B) u g h1 h2,
    pays u c h1 -> u <= g -> (forall a, pays (g - u + h1 a) (k a) h2) -> pays g (bind c k) h2.
  Proof.
    intros A B c k u g h1 h2 H1 L H2 s. unfold bind. specialize (H1 s).
    destruct (c s) as [s' a|s']; [|lia]. specialize (H2 a s'). destruct (k a s'); lia.
  Qed.
  Lemma pays_get : forall {B} (k : T -> M T B) g h, (forall s, match k s s with
      | Ret s' a => w s' + h a <= w s + g | Panic s' => w s' <= w s + g end) -> pays g (bind getst k) h.
  Proof. intros B k g h H s. unfold bind, getst. apply H. Qed.
  Lemma pays_get_any : forall {B} (k : T -> M T B) g h, (forall s, pays g (k s) h) -> pays g (bind getst k) h.
  Proof. intros B k g h H s. unfold bind, getst. apply H. Qed.
  Lemma pays_weaken : forall {A} (c : M T A) g h g' h', pays g c h -> g <= g' -> (forall a, h' a <= h a) ->
    pays g' c h'.
  Proof.
    intros A c g h g' h' H L1 L2 s. specialize (H s). destruct (c s) as [s' a|s']; [|lia].
    specialize (L2 a). lia.
  Qed.
  Lemma pays_then : forall {A B} (c : M T A) (k : A -> M T B) g h1 h2,
    pays 0 c h1 -> (forall a, pays (g + h1 a) (k a) h2) -> pays g (bind c k) h2.
  Proof.
    intros A B c k g h1 h2 H1 H2. eapply pays_bind; [exact H1|lia|]. intros a.
    rewrite PeanoNat.Nat.sub_0_r. auto.
  Qed.
  Lemma pays_nothing : forall {A B} (c : M T A) (k : A -> M T B) g h2,
    pays 0 c (fun _ => 0) -> (forall a, pays g (k a) h2) -> pays g (bind c k) h2.
  Proof.
    intros A B c k g h2 H1 H2. eapply pays_then; [exact H1|]. intros a.
    rewrite PeanoNat.Nat.add_0_r. auto.
  Qed.
  Lemma pays_unwrap_bind : forall {A B} (o : option A) (k : A -> M T B) g h,
    (forall a, o = Some a -> pays g (k a) h) -> pays g (bind (unwrap o) k) h.
  Proof.
    intros A B [a|] k g h H s; unfold bind; simpl; [apply H; auto|lia].
  Qed.
End Pays.
