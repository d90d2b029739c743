(* User code that does as it likes: Hash::hash, BuildHasher, PartialEq::eq and PartialEq::ne of
   the items may have side effects, give other answers every time they are asked, contradict
   one another, and panic.  Only this is assumed, and guaranteed by safe Rust: they cannot reach
   into the map that is calling them.

   The state of the outside world is a value of any type W; a call of user code is a
   computation on it.  Faults.v is the special case where the answers are those of fixed
   functions and W is a fuse ([fuse_*] below). *)
From Coq Require Import List NArith Lia Bool Permutation PeanoNat.
From Verif Require Import Prelude RawTable ListFacts TableFacts Faults FaultTables Conserve Concrete.
Import ListNotations.
Open Scope N_scope.

(* the user code a map calls, and what Faults.v and RawTable.v leave open about hashbrown *)
Record wenv (L R S W : Type) := WEnv {
  w_hashL : S -> L -> M W N;
  w_hashR : S -> R -> M W N;
  w_eqL : L -> L -> M W bool;      (* a == b *)
  w_eqR : R -> R -> M W bool;
  w_neL : L -> L -> M W bool;      (* a != b: a function of its own in Rust *)
  w_neR : R -> R -> M W bool;
  w_hashP : N -> N * N -> N;       (* the sets of GroupMap: no user code *)
  w_lo : layout;
  w_fault : fault;
  w_ovf : bool
}.
Arguments w_hashL {L R S W}. Arguments w_hashR {L R S W}. Arguments w_eqL {L R S W}.
Arguments w_eqR {L R S W}. Arguments w_neL {L R S W}. Arguments w_neR {L R S W}.
Arguments w_hashP {L R S W}. Arguments w_lo {L R S W}. Arguments w_fault {L R S W}.
Arguments w_ovf {L R S W}.

(* for code that runs no user code *)
Definition calm_env {L R S W} (E : wenv L R S W) : env L R S :=
  Env _ _ _ (fun _ _ => false) (fun _ _ => false) (fun _ _ => 0) (fun _ _ => 0) (w_hashP E) (w_lo E) (w_ovf E).
(* fixed answers and a fuse *)
Definition fused {L R S} (E : env L R S) (F : fault) : wenv L R S fuse :=
  WEnv _ _ _ _ (fun s l => user (hashL E s l)) (fun s r => user (hashR E s r))
    (fun a b => user (eqL E a b)) (fun a b => user (eqR E a b))
    (fun a b => user (negb (eqL E a b))) (fun a b => user (negb (eqR E a b)))
    (hashP E) (lo E) F (ovf E).

Section WildTable.
  Variable lo : layout.
  Variable F : fault.
  Context {W A : Type}.

  (* RawTable::find: one call of the closure for every bucket inspected *)
  Fixpoint wsearch (p : A -> M W bool) (s : list (N * A)) (idx : list nat) : M W (option nat) :=
    match idx with
    | [] => ret None
    | i :: t =>
        match nth_error s i with
        | None => wsearch p s t
        | Some (_, e) => b <- p e ;; if b then ret (Some i) else wsearch p s t
        end
    end.
  Definition w_find (t : table A) (h : N) (p : A -> M W bool) : M W (option nat) :=
    wsearch p (slots t) (hb_probe lo (lay t) h (map fst (slots t))).
  (* RawTable::get *)
  Definition w_get (t : table A) (h : N) (p : A -> M W bool) : M W (option A) :=
    i <- w_find t h p ;;
    ret (match i with Some i => t_entry t i | None => None end).
  (* RawTable::remove_entry: the search, then the removal *)
  Definition w_remove_entry (t : table A) (h : N) (p : A -> M W bool) : M W (option (A * table A)) :=
    i <- w_find t h p ;;
    ret (match i with
         | Some i => match t_entry t i with
                     | Some e => Some (e, t_remove_at lo t i)
                     | None => None
                     end
         | None => None
         end).

  (* the hasher closure is run on every bucket: the buckets with their new hashes, or the number
     of runs before the one that panicked *)
  Fixpoint rehash_all (hasher : A -> M W N) (s : list (N * A)) (k : nat) (w : W)
      : W * (nat + list (N * A)) :=
    match s with
    | [] => (w, inr [])
    | (_, e) :: t =>
        match hasher e w with
        | Panic w' => (w', inl k)
        | Ret w' h => match rehash_all hasher t (Datatypes.S k) w' with
                      | (w'', inr t') => (w'', inr ((h, e) :: t'))
                      | (w'', inl k') => (w'', inl k')
                      end
        end
    end.
  (* insert, reserve, shrink_to: the rehash, if the layout l' asks for one, before anything else
     ([put]: what then happens to the buckets; [inplace]: see [fault] in Faults.v) *)
  Definition w_rehashing (inplace : bool) (t : table A) (l' : N) (hasher : A -> M W N)
      (put : list (N * A) -> table A) (w : W) : res (W * table A) unit :=
    if hb_grow lo l' then
      match rehash_all hasher (slots t) 0 w with
      | (w', inr s) => Ret (w', put s) tt
      | (w', inl k) => Panic (w', if inplace then Tbl (f_keep F _ l' k (slots t)) (f_lay F l' k) else t)
      end
    else Ret (w, put (slots t)) tt.
  Definition w_insert (t : table A) (h : N) (e : A) (hasher : A -> M W N) : W -> res (W * table A) unit :=
    let l' := hb_next lo (lay t) (CInsert h (N.of_nat (t_len t))) in
    w_rehashing true t l' hasher (fun s => Tbl (hb_order lo _ l' ((h, e) :: s)) l').
  Definition w_resize (t : table A) (z : sizing) (hasher : A -> M W N) : W -> res (W * table A) unit :=
    let l' := hb_next lo (lay t) (CSize z (N.of_nat (t_len t))) in
    w_rehashing (match z with Grow _ => true | Shrink _ => false end) t l' hasher
      (fun s => Tbl (hb_order lo _ l' s) l').
  (* RawTable::try_reserve: errors are found before anything is hashed *)
  Definition w_try_resize (t : table A) (n : N) (hasher : A -> M W N) (w : W) : res (W * table A) bool :=
    if hb_try lo (hb_next lo (lay t) (CSize (Grow n) (N.of_nat (t_len t))))
    then match w_resize t (Grow n) hasher w with
         | Ret wt _ => Ret wt true
         | Panic wt => Panic wt
         end
    else Ret (w, t) false.
End WildTable.

(* ---- calls on a map ---- *)
Section OnMap.
  Context {W map : Type}.
  Definition w_with {A} (w : W) (r : res map A) : res (W * map) A :=
    match r with Ret m a => Ret (w, m) a | Panic m => Panic (w, m) end.
  (* code that calls no user code *)
  Definition w_calmly {A} (c : M map A) : M (W * map) A := fun wm => w_with (fst wm) (c (snd wm)).
  (* code that only reads the map *)
  Definition w_look {A} (f : map -> M W A) : M (W * map) A :=
    fun wm => match f (snd wm) (fst wm) with
              | Ret w a => Ret (w, snd wm) a
              | Panic w => Panic (w, snd wm)
              end.
End OnMap.

(* ---- the models of Faults.v as a special case ---- *)
Definition same {T A} (c c' : M T A) : Prop := forall s, c s = c' s.
Lemma same_refl : forall {T A} (c : M T A), same c c.
Proof. intros T A c s. reflexivity. Qed.
Lemma same_bind : forall {T A B} (c c' : M T A) (k k' : A -> M T B),
  same c c' -> (forall a, same (k a) (k' a)) -> same (bind c k) (bind c' k').
Proof. intros T A B c c' k k' H1 H2 s. unfold bind. rewrite H1. destruct (c' s); auto. apply H2. Qed.
Lemma same_calmly : forall {map A} (c : M map A), same (@w_calmly fuse map A c) (calmly c).
Proof. intros map A c s. reflexivity. Qed.
Lemma same_look : forall {map A} (f f' : map -> M fuse A),
  (forall m, same (f m) (f' m)) -> same (w_look f) (look f').
Proof. intros map A f f' H s. unfold w_look, look. rewrite H. reflexivity. Qed.

Section FuseTable.
  Variable lo : layout.
  Variable F : fault.
  Context {A : Type}.
  Lemma fuse_search : forall (p : A -> bool) p' s idx, (forall e, same (p' e) (user (p e))) ->
    same (wsearch p' s idx) (search p s idx).
  Proof.
    induction idx as [|i t IH]; intros H; simpl; [apply same_refl|].
    destruct (nth_error s i) as [[h e]|]; auto. apply same_bind; auto.
    intros [|]; [apply same_refl|auto].
  Qed.
  Lemma fuse_find : forall t h (p : A -> bool) p', (forall e, same (p' e) (user (p e))) ->
    same (w_find lo t h p') (u_find lo t h p).
  Proof. intros. apply fuse_search; auto. Qed.
  Lemma fuse_get : forall t h (p : A -> bool) p', (forall e, same (p' e) (user (p e))) ->
    same (w_get lo t h p') (u_get lo t h p).
  Proof. intros. apply same_bind; [apply fuse_find; auto|]. intros; apply same_refl. Qed.
  Lemma fuse_remove_entry : forall t h (p : A -> bool) p', (forall e, same (p' e) (user (p e))) ->
    same (w_remove_entry lo t h p') (u_remove_entry lo t h p).
  Proof. intros. apply same_bind; [apply fuse_find; auto|]. intros; apply same_refl. Qed.

  Lemma fuse_rehash : forall (hasher : A -> N) hasher' s k w, (forall e, same (hasher' e) (user (hasher e))) ->
    rehash_all hasher' s k w =
    match hashes (length s) w with
    | (w', None) => (w', inr (map (fun x => (hasher (snd x), snd x)) s))
    | (w', Some j) => (w', inl (k + j)%nat)
    end.
  Proof.
    intros hasher hasher' s k w H. revert k w. induction s as [|[h e] s IH]; intros k w.
    - destruct w as [f|]; simpl; auto. rewrite Nat.sub_0_r. auto.
    - cbn [rehash_all length]. rewrite (H e w). destruct w as [[|f]|]; cbn [user].
      + cbn. rewrite Nat.add_0_r. auto.
      + rewrite IH. cbn [hashes]. change (Nat.leb (Datatypes.S (length s)) (Datatypes.S f)) with (Nat.leb (length s) f).
        destruct (Nat.leb (length s) f); simpl; auto. rewrite Nat.add_succ_r. auto.
      + rewrite IH. reflexivity.
  Qed.
  Lemma fuse_insert : forall (t : table A) h e hasher hasher' w, (forall e, same (hasher' e) (user (hasher e))) ->
    w_insert lo F t h e hasher' w = u_insert lo F t h e hasher w.
  Proof.
    intros. unfold w_insert, u_insert, w_rehashing, rehashing, t_insert, t_rehash.
    destruct (hb_grow lo _) eqn:G; auto. rewrite (fuse_rehash hasher); auto. unfold t_len.
    destruct (hashes _ _) as [w' [j|]]; auto.
  Qed.
  Lemma fuse_resize : forall (t : table A) z hasher hasher' w, (forall e, same (hasher' e) (user (hasher e))) ->
    w_resize lo F t z hasher' w = u_resize lo F t z hasher w.
  Proof.
    intros. unfold w_resize, u_resize, w_rehashing, rehashing, t_resize, t_rehash.
    destruct (hb_grow lo _) eqn:G; auto. rewrite (fuse_rehash hasher); auto. unfold t_len.
    destruct (hashes _ _) as [w' [j|]]; auto.
  Qed.
  Lemma fuse_try_resize : forall (t : table A) n hasher hasher' w, (forall e, same (hasher' e) (user (hasher e))) ->
    w_try_resize lo F t n hasher' w = u_try_resize lo F t n hasher w.
  Proof.
    intros. unfold w_try_resize, u_try_resize. destruct (hb_try lo _); auto.
    rewrite (fuse_resize t (Grow n) hasher); auto.
  Qed.
End FuseTable.

(* ---- facts about the tables ---- *)
Section WildTableFacts.
  Variable lo : layout.
  Variable F : fault.
  Context {W A : Type}.

  Lemma wget_entry : forall (t : table A) h (p : A -> M W bool) w w' e,
    w_get lo t h p w = Ret w' (Some e) -> In e (map snd (slots t)).
  Proof.
    intros t h p w w' e H. unfold w_get, bind in H. destruct (w_find _ _ _ _ _) as [w1 [i|]|w1]; try discriminate.
    unfold ret in H. injection H as _ H. unfold t_entry in H. destruct (nth_error (slots t) i) as [[h' x]|] eqn:X; [|discriminate].
    injection H as <-. apply nth_error_In in X. apply (in_map snd) in X. exact X.
  Qed.
  Lemma wremove_entry : forall (t : table A) h (p : A -> M W bool) w w' e t',
    w_remove_entry lo t h p w = Ret w' (Some (e, t')) ->
    exists i, t_entry t i = Some e /\ t' = t_remove_at lo t i.
  Proof.
    intros t h p w w' e t' H. unfold w_remove_entry, bind in H.
    destruct (w_find _ _ _ _ _) as [w1 [i|]|w1]; try discriminate.
    unfold ret in H. injection H as _ H. destruct (t_entry t i) eqn:X; [|discriminate].
    injection H as <- <-. exists i. auto.
  Qed.
  Lemma rehash_all_values : forall (hasher : A -> M W N) s k w w' s',
    rehash_all hasher s k w = (w', inr s') -> map snd s' = map snd s.
  Proof.
    induction s as [|[h e] s IH]; intros k w w' s' H; cbn in H; [injection H as _ <-; auto|].
    destruct (hasher e w) as [w1 h'|w1]; [|discriminate].
    destruct (rehash_all hasher s (Datatypes.S k) w1) as [w2 [j|s2]] eqn:X; [discriminate|].
    injection H as _ <-. simpl. f_equal. eauto.
  Qed.

  (* the entries of t, those of l taken away: what is left *)
  Definition entries (t : table A) : list A := map snd (slots t).
  Hypothesis OP : forall B l (xs : list B), Permutation (hb_order lo B l xs) xs.
  Hypothesis FO : fault_ok F.
  Lemma winsert_entries : forall (t : table A) h e (hasher : A -> M W N) w,
    match w_insert lo F t h e hasher w with
    | Ret (_, t') _ => Permutation (entries t') (e :: entries t)
    | Panic (_, t') => exists lost, Permutation (entries t' ++ lost) (entries t)
    end.
  Proof.
    intros. unfold w_insert, w_rehashing, entries. set (l' := hb_next _ _ _).
    destruct (hb_grow lo l').
    - destruct (rehash_all hasher (slots t) 0 w) as [w' [k|s]] eqn:X.
      + cbn [slots]. destruct (FO _ l' k (slots t)) as [lost P]. exists (map snd lost).
        rewrite <- map_app. apply Permutation_map, P.
      + cbn [slots]. rewrite <- (rehash_all_values _ _ _ _ _ _ X).
        etransitivity; [apply Permutation_map, OP|]. reflexivity.
    - cbn [slots]. etransitivity; [apply Permutation_map, OP|]. reflexivity.
  Qed.
  Lemma wresize_entries : forall (t : table A) z (hasher : A -> M W N) w,
    match w_resize lo F t z hasher w with
    | Ret (_, t') _ => Permutation (entries t') (entries t)
    | Panic (_, t') => exists lost, Permutation (entries t' ++ lost) (entries t)
    end.
  Proof.
    intros. unfold w_resize, w_rehashing, entries. set (l' := hb_next _ _ _).
    destruct (hb_grow lo l').
    - destruct (rehash_all hasher (slots t) 0 w) as [w' [k|s]] eqn:X.
      + destruct z; [|exists []; rewrite app_nil_r; reflexivity].
        cbn [slots]. destruct (FO _ l' k (slots t)) as [lost P]. exists (map snd lost).
        rewrite <- map_app. apply Permutation_map, P.
      + cbn [slots]. rewrite <- (rehash_all_values _ _ _ _ _ _ X).
        etransitivity; [apply Permutation_map, OP|]. reflexivity.
    - cbn [slots]. etransitivity; [apply Permutation_map, OP|]. reflexivity.
  Qed.
  Lemma wtry_resize_entries : forall (t : table A) n (hasher : A -> M W N) w,
    match w_try_resize lo F t n hasher w with
    | Ret (_, t') _ => Permutation (entries t') (entries t)
    | Panic (_, t') => exists lost, Permutation (entries t' ++ lost) (entries t)
    end.
  Proof.
    intros. unfold w_try_resize. destruct (hb_try lo _); [|reflexivity].
    assert (X := wresize_entries t (Grow n) hasher w).
    destruct (w_resize _ _ _ _ _ _) as [[w' t'] []|[w' t']]; auto.
  Qed.
End WildTableFacts.

(* what is assumed of hashbrown, whatever user code does: it loses and duplicates no bucket,
   except that buckets may get lost when the hasher panics *)
Definition tame {L R S W} (E : wenv L R S W) : Prop :=
  keeps_buckets (w_lo E) /\ fault_ok (w_fault E).

(* ---- the accounting logic of Conserve.v ---- *)
Section WildPays.
  Context {W map : Type} (v : map -> nat).
  Notation wpays := (pays (fun s : W * map => v (snd s))).

  Lemma pays_calmly : forall {A} g (c : M map A) h, pays v g c h -> wpays g (w_calmly c) h.
  Proof.
    intros A g c h H [w m]. specialize (H m). unfold w_calmly, w_with. cbn [fst snd].
    destruct (c m); cbn [snd]; auto.
  Qed.
  Lemma pays_look : forall {A} (f : map -> M W A), wpays 0 (w_look f) (fun _ => 0%nat).
  Proof.
    intros A f [w m]. unfold w_look. cbn [fst snd]. destruct (f m w); cbn [snd]; lia.
  Qed.
  Lemma pays_looked : forall {A B} (f : map -> M W A) (k : A -> M (W * map) B) g h,
    (forall a, wpays g (k a) h) -> wpays g (bind (w_look f) k) h.
  Proof. intros. eapply pays_nothing; [apply pays_look|auto]. Qed.
End WildPays.

Section WildWeight.
  Variable lo : layout.
  Variable F : fault.
  Hypothesis OP : keeps_buckets lo.
  Hypothesis FO : fault_ok F.
  Context {W A : Type} (p : A -> bool).
  Lemma tw_entries : forall t : table A, tw p t = cnt p (entries t).
  Proof. reflexivity. Qed.
  Lemma wtw_insert : forall (t : table A) h e (hasher : A -> M W N) w,
    match w_insert lo F t h e hasher w with
    | Ret (_, t') _ => tw p t' = (one p e + tw p t)%nat
    | Panic (_, t') => (tw p t' <= tw p t)%nat
    end.
  Proof.
    intros. assert (X := winsert_entries lo F OP FO t h e hasher w).
    destruct (w_insert _ _ _ _ _ _ _) as [[w' t'] []|[w' t']]; rewrite !tw_entries.
    - rewrite (cnt_perm p _ _ X), cnt_cons. auto.
    - destruct X as [lost X]. rewrite <- (cnt_perm p _ _ X), cnt_app. lia.
  Qed.
  Lemma wtw_resize : forall (t : table A) z (hasher : A -> M W N) w,
    match w_resize lo F t z hasher w with Ret (_, t') _ | Panic (_, t') => (tw p t' <= tw p t)%nat end.
  Proof.
    intros. assert (X := wresize_entries lo F OP FO t z hasher w).
    destruct (w_resize _ _ _ _ _ _) as [[w' t'] []|[w' t']]; rewrite !tw_entries.
    - rewrite (cnt_perm p _ _ X). auto.
    - destruct X as [lost X]. rewrite <- (cnt_perm p _ _ X), cnt_app. lia.
  Qed.
  Lemma wtw_try_resize : forall (t : table A) n (hasher : A -> M W N) w,
    match w_try_resize lo F t n hasher w with Ret (_, t') _ | Panic (_, t') => (tw p t' <= tw p t)%nat end.
  Proof.
    intros. assert (X := wtry_resize_entries lo F OP FO t n hasher w).
    destruct (w_try_resize _ _ _ _ _ _) as [[w' t'] b|[w' t']]; rewrite !tw_entries.
    - rewrite (cnt_perm p _ _ X). auto.
    - destruct X as [lost X]. rewrite <- (cnt_perm p _ _ X), cnt_app. lia.
  Qed.
  Lemma wtw_remove : forall (t : table A) h (q : A -> M W bool) w w' e t',
    w_remove_entry lo t h q w = Ret w' (Some (e, t')) -> (tw p t' + one p e = tw p t)%nat.
  Proof.
    intros t h q w w' e t' H. apply wremove_entry in H as (i & H & ->). apply tw_remove_at; auto.
  Qed.
End WildWeight.

(* ---- for the examples: user code that is told what to do, and does the usual thing when its
   orders run out ---- *)
Definition told (a b : N) (w : list (option bool)) : res (list (option bool)) bool :=
  match w with [] => Ret [] (a =? b) | None :: t => Panic t | Some v :: t => Ret t v end.
Definition told_ne (a b : N) (w : list (option bool)) : res (list (option bool)) bool :=
  match w with [] => Ret [] (negb (a =? b)) | None :: t => Panic t | Some v :: t => Ret t v end.
Definition told_hash (_ a : N) (w : list (option bool)) : res (list (option bool)) N :=
  match w with None :: t => Panic t | _ => Ret w (a mod 2) end.
Definition told_env : wenv N N N (list (option bool)) :=
  WEnv _ _ _ _ told_hash told_hash told told told_ne told_ne (fun _ _ => 0) lo_wild f_in_place true.
Lemma told_tame : tame told_env.
Proof. split; [apply keeps_buckets_ok, lo_wild_ok|apply f_in_place_ok]. Qed.
Definition calls {O} (cs : list (list (option bool) * O)) := map (fun c => (told_env, fst c, snd c)) cs.
Lemma told_all : forall {O} (cs : list (list (option bool) * O)), Forall (fun c => tame (fst (fst c))) (calls cs).
Proof. intros O cs. unfold calls. apply Forall_forall. intros c H. apply in_map_iff in H as (x & <- & _). apply told_tame. Qed.
