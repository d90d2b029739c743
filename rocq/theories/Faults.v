(* User code that panics: Hash::hash, BuildHasher and PartialEq::eq of the items are called by
   the maps, and each of these calls may panic.  The other models take them to return; here
   every such call is a step of its own.

   A call of the public API runs with a [fuse]: [Some n] means that the first n calls of user
   code return and the next one panics, [None] that they all return.  A panic ends the call, so
   every way in which user code can make one call panic is some fuse. *)
From Coq Require Import List NArith Lia Bool Permutation PeanoNat.
From Verif Require Import Prelude RawTable ListFacts TableFacts SoundTables.
Import ListNotations.
Open Scope N_scope.

Notation fuse := (option nat).

(* one call of user code, with result a *)
Definition user {A} (a : A) : M fuse A :=
  fun w => match w with
           | None => Ret None a
           | Some O => Panic None
           | Some (S n) => Ret (Some n) a
           end.
(* a call that returns a value or panics by itself (Option::unwrap) *)
Definition inner {A} (o : outcome A) : M fuse A :=
  fun w => match o with Done a => Ret w a | Panicked => Panic w end.

(* hashbrown leaves open which entries survive when the hasher closure panics during a rehash.
   RawTable::resize works on a new allocation and leaves the old one as it was;
   RawTable::rehash_in_place drops the entries not yet rehashed ("we lost their hash").
   insert, reserve and try_reserve may do either, shrink_to never rehashes in place.
   [f_keep A l k xs]: the buckets left after k calls of the hasher; [f_lay]: the layout. *)
Record fault := Fault {
  f_keep : forall A : Type, N -> nat -> list A -> list A;
  f_lay : N -> nat -> N
}.
(* buckets may get lost, nothing else *)
Definition fault_ok (F : fault) : Prop :=
  forall A l k (xs : list A), exists lost, Permutation (f_keep F A l k xs ++ lost) xs.

Section FaultyTable.
  Variable lo : layout.
  Variable F : fault.
  Context {A : Type}.

  (* RawTable::find with a closure that runs user code: one call for every bucket inspected *)
  Fixpoint search (p : A -> bool) (s : list (N * A)) (idx : list nat) : M fuse (option nat) :=
    match idx with
    | [] => ret None
    | i :: t =>
        match nth_error s i with
        | None => search p s t
        | Some (_, e) => b <- user (p e) ;; if b then ret (Some i) else search p s t
        end
    end.
  Definition u_find (t : table A) (h : N) (p : A -> bool) : M fuse (option nat) :=
    search p (slots t) (hb_probe lo (lay t) h (map fst (slots t))).
  (* RawTable::get *)
  Definition u_get (t : table A) (h : N) (p : A -> bool) : M fuse (option A) :=
    i <- u_find t h p ;;
    ret (match i with Some i => t_entry t i | None => None end).
  (* RawTable::remove_entry: the search, then the removal *)
  Definition u_remove_entry (t : table A) (h : N) (p : A -> bool) : M fuse (option (A * table A)) :=
    i <- u_find t h p ;;
    ret (match i with
         | Some i => match t_entry t i with
                     | Some e => Some (e, t_remove_at lo t i)
                     | None => None
                     end
         | None => None
         end).

  (* n calls of the hasher closure: the number of them made before the panic, if any *)
  Definition hashes (n : nat) (w : fuse) : fuse * option nat :=
    match w with
    | None => (None, None)
    | Some f => if Nat.leb n f then (Some (f - n)%nat, None) else (None, Some f)
    end.
  (* RawTable::insert, reserve, shrink_to: the rehash, if the layout l' asks for one, before
     anything else ([t'] is the table if nothing panics; [inplace]: see [fault]).
     The stored hashes are kept here also for entries already rehashed: they are the same, see
     [hashed] *)
  Definition rehashing (inplace : bool) (t : table A) (l' : N) (t' : table A) (w : fuse)
      : res (fuse * table A) unit :=
    if hb_grow lo l' then
      match hashes (t_len t) w with
      | (w', None) => Ret (w', t') tt
      | (w', Some k) => Panic (w', if inplace then Tbl (f_keep F _ l' k (slots t)) (f_lay F l' k) else t)
      end
    else Ret (w, t') tt.
  Definition u_insert (t : table A) (h : N) (e : A) (hasher : A -> N) : fuse -> res (fuse * table A) unit :=
    rehashing true t (hb_next lo (lay t) (CInsert h (N.of_nat (t_len t)))) (t_insert lo t h e hasher).
  Definition u_resize (t : table A) (z : sizing) (hasher : A -> N) : fuse -> res (fuse * table A) unit :=
    rehashing (match z with Grow _ => true | Shrink _ => false end) t
      (hb_next lo (lay t) (CSize z (N.of_nat (t_len t)))) (t_resize lo t z hasher).
  (* RawTable::try_reserve: errors are found before anything is hashed *)
  Definition u_try_resize (t : table A) (n : N) (hasher : A -> N) (w : fuse) : res (fuse * table A) bool :=
    if hb_try lo (hb_next lo (lay t) (CSize (Grow n) (N.of_nat (t_len t))))
    then match u_resize t (Grow n) hasher w with
         | Ret wt _ => Ret wt true
         | Panic wt => Panic wt
         end
    else Ret (w, t) false.
End FaultyTable.

(* ---- agreement with the pure functions ---- *)

(* c returns what o says, or user code makes it panic *)
Definition agrees {A} (c : M fuse A) (o : outcome A) : Prop :=
  forall w, (exists w', (w = None -> w' = None) /\ c w = inner o w') \/ (w <> None /\ c w = Panic None).
Notation returns c a := (agrees c (Done a)).

Lemma ag_ret : forall {A} (a : A), returns (ret a) a.
Proof. intros A a w. left. exists w. auto. Qed.
Lemma ag_user : forall {A} (a : A), returns (user a) a.
Proof.
  intros A a [[|n]|].
  - right. split; [discriminate|reflexivity].
  - left. exists (Some n). split; [discriminate|reflexivity].
  - left. exists None. auto.
Qed.
Lemma ag_inner : forall {A} (o : outcome A), agrees (inner o) o.
Proof. intros A o w. left. exists w. auto. Qed.
Lemma ag_bind : forall {A B} (c : M fuse A) (k : A -> M fuse B) a o,
  returns c a -> agrees (k a) o -> agrees (bind c k) o.
Proof.
  intros A B c k a o H1 H2 w. unfold bind. destruct (H1 w) as [(w' & N & ->)|[N ->]]; [|right; auto].
  simpl. destruct (H2 w') as [(w'' & N' & ->)|[N' ->]]; [left; exists w''; auto|right].
  split; auto.
Qed.
(* the same when c itself may panic *)
Lemma ag_bind_o : forall {A B} (c : M fuse A) (k : A -> M fuse B) o o',
  agrees c o -> (forall a, o = Done a -> agrees (k a) (o' a)) ->
  agrees (bind c k) (match o with Done a => o' a | Panicked => Panicked end).
Proof.
  intros A B c k [a|] o' H1 H2.
  - eapply ag_bind; eauto.
  - intros w. unfold bind. destruct (H1 w) as [(w' & N & ->)|[N ->]]; [left; exists w'; auto|right; auto].
Qed.

Section FaultyTableFacts.
  Variable lo : layout.
  Variable F : fault.
  Context {A : Type}.

  Lemma ag_search : forall p (s : list (N * A)) idx,
    returns (search p s idx)
      (find (fun i => match nth_error s i with Some (_, e) => p e | None => false end) idx).
  Proof.
    induction idx as [|i t IH]; simpl; [apply ag_ret|].
    destruct (nth_error s i) as [[h e]|]; [|exact IH].
    eapply ag_bind; [apply ag_user|]. destruct (p e); [apply ag_ret|exact IH].
  Qed.
  Lemma ag_find : forall (t : table A) h p, returns (u_find lo t h p) (t_find lo t h p).
  Proof. intros. apply ag_search. Qed.
  Lemma ag_get : forall (t : table A) h p, returns (u_get lo t h p) (t_get lo t h p).
  Proof. intros. eapply ag_bind; [apply ag_find|]. apply ag_ret. Qed.
  Lemma ag_remove_entry : forall (t : table A) h p,
    returns (u_remove_entry lo t h p) (t_remove_entry lo t h p).
  Proof. intros. eapply ag_bind; [apply ag_find|]. apply ag_ret. Qed.

  (* some buckets of t may have got lost in t' *)
  Definition torn (t t' : table A) : Prop := exists lost, Permutation (slots t' ++ lost) (slots t).
  (* what a panicking hasher leaves of t when it is rehashed for the layout l' *)
  Definition spoilt (inplace : bool) (t : table A) (l' : N) (t' : table A) : Prop :=
    hb_grow lo l' = true /\ slots t <> [] /\
    if inplace then
      exists k, (k < t_len t)%nat /\ t' = Tbl (f_keep F _ l' k (slots t)) (f_lay F l' k)
    else t' = t.

  Lemma ag_rehashing : forall ip (t : table A) l' t' w,
    (exists w', (w = None -> w' = None) /\ rehashing lo F ip t l' t' w = Ret (w', t') tt) \/
    (w <> None /\ exists t2, spoilt ip t l' t2 /\ rehashing lo F ip t l' t' w = Panic (None, t2)).
  Proof.
    intros ip t l' t' w. unfold rehashing, spoilt. destruct (hb_grow lo l'); [|left; exists w; auto].
    destruct w as [f|]; simpl; [|left; exists None; auto].
    destruct (Nat.leb (t_len t) f) eqn:Q; [left; eexists; split; [|reflexivity]; discriminate|].
    apply Nat.leb_gt in Q. right. split; [discriminate|]. eexists. split; [|reflexivity].
    split; auto. split; [|destruct ip; [exists f|]; auto].
    unfold t_len in Q. destruct (slots t); [simpl in Q; lia|discriminate].
  Qed.
  Lemma spoilt_torn : fault_ok F -> forall ip (t : table A) l' t', spoilt ip t l' t' -> torn t t'.
  Proof.
    intros FO [|] t l' t' (_ & _ & H).
    - destruct H as (k & _ & ->). apply FO.
    - subst. exists []. rewrite app_nil_r. reflexivity.
  Qed.
End FaultyTableFacts.

(* ---- calls on a map ---- *)
Section OnMap.
  Context {map : Type}.
  Notation FM A := (M (fuse * map) A).

  Definition with_fuse {A} (w : fuse) (r : res map A) : res (fuse * map) A :=
    match r with Ret m a => Ret (w, m) a | Panic m => Panic (w, m) end.
  (* code that calls no user code *)
  Definition calmly {A} (c : M map A) : FM A := fun wm => with_fuse (fst wm) (c (snd wm)).
  (* code that only reads the map *)
  Definition look {A} (f : map -> M fuse A) : FM A :=
    fun wm => match f (snd wm) (fst wm) with
              | Ret w a => Ret (w, snd wm) a
              | Panic w => Panic (w, snd wm)
              end.

  (* run in m, c does what c0 does, or user code panics and leaves a map with K *)
  Definition tracks {A} (m : map) (c : FM A) (c0 : M map A) (K : map -> Prop) : Prop :=
    forall w, (exists w', (w = None -> w' = None) /\ c (w, m) = with_fuse w' (c0 m)) \/
              (w <> None /\ exists m', c (w, m) = Panic (None, m') /\ K m').

  Lemma tr_weaken : forall {A} m (c : FM A) c0 (K K' : map -> Prop),
    tracks m c c0 K -> (forall m', K m' -> K' m') -> tracks m c c0 K'.
  Proof.
    intros A m c c0 K K' H HK w. destruct (H w) as [?|(N & m' & Q & HK')]; [left; auto|right; eauto].
  Qed.
  (* the pure function may be written differently *)
  Lemma tr_same : forall {A} m (c : FM A) c0 c1 K, c0 m = c1 m -> tracks m c c0 K -> tracks m c c1 K.
  Proof. intros A m c c0 c1 K HE H w. rewrite <- HE. apply H. Qed.
  Lemma tr_getst : forall {A} m (c : FM A) (k : map -> M map A) K,
    tracks m c (k m) K -> tracks m c (m <- getst ;; k m) K.
  Proof. intros A m c k K H. exact H. Qed.
  Lemma tr_ret : forall {A} m (a : A) K, tracks m (ret a) (ret a) K.
  Proof. intros A m a K w. left. exists w. auto. Qed.
  Lemma tr_panic : forall {A} m K, tracks m (@panic (fuse * map) A) panic K.
  Proof. intros A m K w. left. exists w. auto. Qed.
  Lemma tr_unwrap : forall {A} m (o : option A) K, tracks m (unwrap o) (unwrap o) K.
  Proof. intros A m [a|] K w; left; exists w; auto. Qed.
  Lemma tr_calm : forall {A} m (c : M map A) K, tracks m (calmly c) c K.
  Proof. intros A m c K w. left. exists w. auto. Qed.
  Lemma tr_bind : forall {A B} m (c : FM A) (k : A -> FM B) c0 k0 K,
    tracks m c c0 K -> (forall m' a, c0 m = Ret m' a -> tracks m' (k a) (k0 a) K) ->
    tracks m (bind c k) (bind c0 k0) K.
  Proof.
    intros A B m c k c0 k0 K H1 H2 w. unfold bind.
    destruct (H1 w) as [(w' & N & ->)|(N & m' & -> & HK)]; [|right; eauto].
    destruct (c0 m) as [m' a|m'] eqn:Q; simpl; [|left; exists w'; auto].
    destruct (H2 m' a eq_refl w') as [(w'' & N' & ->)|(N' & m'' & -> & HK)]; [left; exists w''; auto|right].
    split; eauto.
  Qed.
  Lemma tr_look : forall {A B} m (f : map -> M fuse A) a (k : A -> FM B) c0 (K : map -> Prop),
    returns (f m) a -> K m -> tracks m (k a) c0 K -> tracks m (bind (look f) k) c0 K.
  Proof.
    intros A B m f a k c0 K H1 KM H2 w. unfold bind, look. simpl.
    destruct (H1 w) as [(w' & N & ->)|(N & ->)]; [|right; eauto].
    simpl. destruct (H2 w') as [(w'' & N' & ->)|(N' & m'' & -> & HK)]; [left; exists w''; auto|right; split; eauto].
  Qed.
  Lemma tr_read : forall {A} m (f : map -> M fuse A) o c0 (K : map -> Prop),
    agrees (f m) o -> K m -> c0 m = match o with Done a => Ret m a | Panicked => Panic m end ->
    tracks m (look f) c0 K.
  Proof.
    intros A m f o c0 K H1 KM HC w. unfold look. simpl. rewrite HC.
    destruct (H1 w) as [(w' & N & ->)|(N & ->)]; [|right; eauto]. left. exists w'. split; auto.
    destruct o; reflexivity.
  Qed.

End OnMap.

Lemma ag_unwrap : forall {A} (o : option A),
  agrees (unwrap o) (match o with Some a => Done a | None => Panicked end).
Proof. intros A [a|] w; left; exists w; auto. Qed.
Lemma ag_panic : forall {A}, agrees (@panic fuse A) Panicked.
Proof. intros A w. left. exists w. auto. Qed.
Lemma ag_eq : forall {A} (c : M fuse A) o o', agrees c o -> o = o' -> agrees c o'.
Proof. intros; subst; auto. Qed.


Section TornFacts.
  Context {A T : Type}.
  Variable v : A -> T.
  Variable e : T -> T -> bool.
  Hypothesis EQ : equivalence e.
  Variable h : T -> N.
  Variable G : T -> Prop.

  Lemma torn_values : forall (t t' : table A), torn t t' ->
    exists lost, Permutation (t_values v t' ++ lost) (t_values v t).
  Proof.
    intros t t' (lost & P). exists (map (fun x => v (snd x)) lost). unfold t_values.
    rewrite <- map_app. apply Permutation_map, P.
  Qed.
  Lemma distinct_prefix : forall a b : list T, distinct e (a ++ b) -> distinct e a.
  Proof.
    induction a as [|x a IH]; intros b D; [constructor|]. simpl in D.
    apply distinct_cons in D as [D1 D2]. apply distinct_cons. split; [|eapply IH; eauto].
    intros y Hy. apply D1. apply in_or_app; auto.
  Qed.
  Lemma sound_torn : forall t t', torn t t' -> sound v e h G t -> sound v e h G t'.
  Proof.
    intros t t' H (H1 & H2 & H3). destruct (torn_values _ _ H) as [lv PV]. destruct H as [lost P].
    split; [|split].
    - intros x Hx. apply H1. eapply Permutation_in; [exact P|]. apply in_or_app; auto.
    - eapply distinct_prefix, (distinct_perm e EQ); [symmetry; exact PV|exact H2].
    - apply Forall_forall. intros x Hx. rewrite Forall_forall in H3. apply H3.
      eapply Permutation_in; [exact PV|]. apply in_or_app; auto.
  Qed.
End TornFacts.
