(* GroupMap with panicking user code (GroupFault.v): every call either does what GroupMap.v
   says or panics in one of the states described by [P_step]. *)
From Coq Require Import List NArith Lia Bool Permutation PeanoNat.
From Verif Require Import Closures Prelude RawTable GroupMap ListFacts TableFacts SoundTables
  GroupSpec GroupHistory Faults GroupFault.
Import ListNotations.
Open Scope N_scope.

Lemma tr_assoc : forall {map A B C} m (u : M (fuse * map) C) (c : M map A) (k : A -> M map B) (k' : B -> M map C) K,
  tracks m u (bind (bind c k) k') K -> tracks m u (bind c (fun a => bind (k a) k')) K.
Proof.
  intros map A B C m u c k k' K H. eapply tr_same; [|exact H]. unfold bind. destruct (c m); reflexivity.
Qed.

Section Tracks.
  Context {L R S : Type}.
  Variable E : env L R S.
  Variable F : fault.
  Notation map := (gmap L R S).
  Notation FM A := (M (fuse * gmap L R S) A).

  Lemma tr_left_remove : forall m h l (K : map -> Prop), K m ->
    tracks m (u_left_remove_entry E h l) (left_remove_entry E h (equivalent_key_left (eqL E) l)) K.
  Proof.
    intros m h l K KM. unfold u_left_remove_entry. eapply tr_look; [apply ag_remove_entry|exact KM|].
    intros w. left. exists w. split; auto. unfold left_remove_entry, bind, getst.
    destruct (t_remove_entry _ _ _ _) as [[e t]|]; reflexivity.
  Qed.
  Lemma tr_right_remove : forall m h r (K : map -> Prop), K m ->
    tracks m (u_right_remove_entry E h r) (right_remove_entry E h (equivalent_key_right (eqR E) r)) K.
  Proof.
    intros m h l K KM. unfold u_right_remove_entry. eapply tr_look; [apply ag_remove_entry|exact KM|].
    intros w. left. exists w. split; auto. unfold right_remove_entry, bind, getst.
    destruct (t_remove_entry _ _ _ _) as [[e t]|]; reflexivity.
  Qed.

  (* ---- reading ---- *)
  Ltac ag := repeat (eapply ag_bind; [first [apply ag_user|apply ag_get]|]).
  Lemma ag_get_mut : forall {A} (t : table A) h p, returns (u_get_mut E t h p) (t_get_mut E t h p).
  Proof. intros. unfold u_get_mut. eapply ag_bind; [apply ag_find|]. apply ag_ret. Qed.
  Lemma ag_mut_left : forall m h l,
    returns (mut_left E m h l) (t_get_mut E (left_set m) h (equivalent_key_left (eqL E) l)).
  Proof. intros. apply ag_get_mut. Qed.
  Lemma ag_mut_right : forall m h r,
    returns (mut_right E m h r) (t_get_mut E (right_set m) h (equivalent_key_right (eqR E) r)).
  Proof. intros. apply ag_get_mut. Qed.
  Lemma ag_are_paired : forall m l r, returns (u_are_paired E m l r) (are_paired E m l r).
  Proof. intros. unfold u_are_paired, hash_l, hash_r, u_find_left, u_find_right. ag. apply ag_ret. Qed.
  Lemma ag_contains_left : forall m l, returns (u_contains_left E m l) (contains_left E m l).
  Proof. intros. unfold u_contains_left, hash_l, u_find_left. ag. apply ag_ret. Qed.
  Lemma ag_contains_right : forall m r, returns (u_contains_right E m r) (contains_right E m r).
  Proof. intros. unfold u_contains_right, hash_r, u_find_right. ag. apply ag_ret. Qed.
  Lemma ag_is_right_paired : forall m r, returns (u_is_right_paired E m r) (is_right_paired E m r).
  Proof. intros. unfold u_is_right_paired, hash_r, u_find_right. ag. apply ag_ret. Qed.
  Lemma ag_get_right : forall m l, returns (u_get_right E m l) (get_right E m l).
  Proof. intros. unfold u_get_right, hash_l, u_find_left. ag. apply ag_ret. Qed.
  Lemma ag_get_left_all : forall m r, agrees (u_get_left_all E m r)
    (match get_left_iter E m r with None => Done None | Some it => omap Some (pair_rest E m it) end).
  Proof.
    intros. unfold u_get_left_all, hash_r, u_find_right, get_left_iter, get_left_iter_q. ag.
    destruct (t_get _ _ _ _) as [e|]; simpl; [|apply ag_ret].
    eapply ag_eq; [eapply ag_bind_o with (o' := fun ls => Done (Some ls)); [apply ag_inner|]; intros; apply ag_ret|].
    destruct (pair_rest _ _ _); reflexivity.
  Qed.
  Lemma ag_seen : forall l seen, returns (u_seen E l seen) (existsb (eqL E l) seen).
  Proof.
    induction seen as [|x t IH]; simpl; [apply ag_ret|]. eapply ag_bind; [apply ag_user|].
    destruct (eqL E l x); [apply ag_ret|exact IH].
  Qed.
  Lemma ag_eq_item : forall other x, returns (u_eq_item E other x) (eq_item E other x).
  Proof.
    intros other [[l|] r]; unfold u_eq_item, eq_item; simpl; [apply ag_are_paired|].
    eapply ag_bind; [apply ag_is_right_paired|]. apply ag_ret.
  Qed.
  Lemma ag_all_items : forall m other fuel it,
    agrees (u_all_items E m other fuel it) (all_items E m other fuel it).
  Proof.
    induction fuel as [|fuel IH]; intros it; cbn [u_all_items all_items].
    - eapply ag_eq; [eapply ag_bind_o with (o' := fun x => match x with
         | (None, _) => Done true
         | (Some y, it') => if eq_item E other y then Panicked else Done false
         end); [apply ag_inner|]|].
      + intros [[y|] it'] _; [|apply ag_ret].
        eapply ag_bind; [apply ag_eq_item|]. destruct (eq_item E other y); [apply ag_panic|apply ag_ret].
      + destruct (iter_next E m it) as [[[y|] it']|]; reflexivity.
    - eapply ag_eq; [eapply ag_bind_o with (o' := fun x => match x with
         | (None, _) => Done true
         | (Some y, it') => if eq_item E other y then all_items E m other fuel it' else Done false
         end); [apply ag_inner|]|].
      + intros [[y|] it'] _; [|apply ag_ret].
        eapply ag_bind; [apply ag_eq_item|]. destruct (eq_item E other y); [apply IH|apply ag_ret].
      + destruct (iter_next E m it) as [[[y|] it']|]; reflexivity.
  Qed.
  Lemma ag_map_eq : forall m other, agrees (u_map_eq E m other) (map_eq E m other).
  Proof.
    intros. unfold u_map_eq, map_eq. destruct (_ && _); [apply ag_ret|apply ag_all_items].
  Qed.

  Notation or_panic o := (match o with Some a => Done a | None => Panicked end).
  Lemma ag_retain_paired_key : forall m p, agrees (u_retain_paired_key E m p) (or_panic (retain_paired_key E m p)).
  Proof.
    intros m p. unfold u_retain_paired_key, retain_paired_key, hash_l, u_find_left, find_left. ag.
    destruct (t_get _ _ _ _); simpl; [apply ag_ret|apply ag_panic].
  Qed.
  Lemma ag_retain_unpaired_key : forall m r, agrees (u_retain_unpaired_key E m r) (or_panic (retain_unpaired_key E m r)).
  Proof.
    intros m r. unfold u_retain_unpaired_key, retain_unpaired_key, hash_r, u_find_right, find_right. ag.
    destruct (t_get _ _ _ _); simpl; [apply ag_ret|apply ag_panic].
  Qed.

  (* the scan of the retain functions: panics of the closure are values, other panics are panics *)
  Section Retain.
    Context {X A I : Type}.
    Variable f : X -> A -> X * verdict.
    Variable next0 : I -> outcome (option A * I).
    Variable key : A -> M fuse (N * N).
    Variable key0 : A -> option (N * N).
    Hypothesis HK : forall a, agrees (key a) (or_panic (key0 a)).
    Definition told (o : outcome (res X (list (N * N)))) (r : res X (list (N * N))) : Prop :=
      match o with Done r' => r = r' | Panicked => exists x', r = Panic x' end.
    Lemma ag_dropped : forall a (ans : bool),
      agrees (if ans then t <- key a ;; ret [t] else ret [])
        (if ans then match key0 a with None => Panicked | Some t => Done [t] end else Done []).
    Proof.
      intros a [|]; [|apply ag_ret].
      eapply ag_eq; [eapply ag_bind_o with (o' := fun t => Done [t]); [apply HK|]; intros; apply ag_ret|].
      destruct (key0 a); reflexivity.
    Qed.
    Lemma ag_retain_scan : forall fuel it x,
      exists o, agrees (u_retain_scan f next0 key fuel it x) o /\ told o (retain_scan f next0 key0 fuel it x).
    Proof.
      induction fuel as [|fuel IH]; intros it x; cbn [u_retain_scan retain_scan]; assert (AN := ag_inner (next0 it));
        destruct (next0 it) as [[[a|] it']|].
      - destruct (f x a) as [x' [ans|]] eqn:FX.
        + exists Panicked. split.
          * eapply ag_bind; [exact AN|]. cbv beta iota. rewrite FX.
            eapply ag_eq; [eapply ag_bind_o with (o' := fun _ => Panicked); [apply ag_dropped|]; intros; apply ag_panic|].
            destruct ans; [destruct (key0 a)|]; reflexivity.
          * simpl. destruct ans; [destruct (key0 a)|]; eauto.
        + exists (Done (Panic x')). split; [|reflexivity].
          eapply ag_bind; [exact AN|]. cbv beta iota. rewrite FX. apply ag_ret.
      - exists (Done (Ret x [])). split; [|reflexivity]. eapply ag_bind; [exact AN|]. apply ag_ret.
      - exists Panicked. split; [|simpl; eauto].
        eapply ag_eq; [eapply ag_bind_o with (o' := fun _ => Panicked); [exact AN|discriminate]|reflexivity].
      - destruct (f x a) as [x' [ans|]] eqn:FX.
        + destruct (IH it' x') as (o & AG & HO).
          exists (match (if ans then match key0 a with None => Panicked | Some t => Done [t] end else Done []) with
                  | Panicked => Panicked
                  | Done d => match o with
                              | Panicked => Panicked
                              | Done r => Done (match r with Ret x'' l => Ret x'' (d ++ l) | Panic x'' => Panic x'' end)
                              end
                  end). split.
          * eapply ag_bind; [exact AN|]. cbv beta iota. rewrite FX.
            eapply ag_bind_o with (o' := fun d => match o with
               | Panicked => Panicked
               | Done r => Done (match r with Ret x'' l => Ret x'' (d ++ l) | Panic x'' => Panic x'' end)
               end); [apply ag_dropped|]. intros d _.
            eapply ag_bind_o with (o' := fun r => Done (match r with Ret x'' l => Ret x'' (d ++ l) | Panic x'' => Panic x'' end));
              [exact AG|]. intros r _. apply ag_ret.
          * unfold told in HO. destruct ans; [destruct (key0 a); [|simpl; eauto]|].
            { destruct o as [[x'' l|x'']|]; [rewrite HO; reflexivity|rewrite HO; reflexivity|].
              destruct HO as [x'' ->]. simpl. eauto. }
            { destruct o as [[x'' l|x'']|]; [rewrite HO; reflexivity|rewrite HO; reflexivity|].
              destruct HO as [x'' ->]. simpl. eauto. }
        + exists (Done (Panic x')). split; [|reflexivity].
          eapply ag_bind; [exact AN|]. cbv beta iota. rewrite FX. apply ag_ret.
      - exists (Done (Ret x [])). split; [|reflexivity]. eapply ag_bind; [exact AN|]. apply ag_ret.
      - exists Panicked. split; [|simpl; eauto].
        eapply ag_eq; [eapply ag_bind_o with (o' := fun _ => Panicked); [exact AN|discriminate]|reflexivity].
    Qed.
  End Retain.
  (* retain, the closure's state forgotten *)
  Definition forget {X} (r : map -> res (map * X) unit) : M map unit :=
    fun m => match r m with Ret (m', _) _ => Ret m' tt | Panic (m', _) => Panic m' end.
  Lemma tr_retain_with : forall {X A I} (f : X -> A -> X * verdict) next0 key0 da fuel (it : I) m x
      (scan : map -> M fuse (res X (list (N * N)))) (K : map -> Prop),
    (exists o, agrees (scan m) o /\ told o (retain_scan f next0 key0 fuel it x)) -> K m ->
    tracks m (u_retain_with scan da) (forget (fun m => retain_with f next0 key0 da fuel it (m, x))) K.
  Proof.
    intros X A I f next0 key0 da fuel it m x scan K (o & AG & HO) KM. unfold u_retain_with, told in *.
    destruct o as [r|].
    - eapply tr_look; [exact AG|exact KM|]. destruct r as [x' l|x'].
      + eapply tr_same; [|apply tr_calm]. unfold forget, retain_with. rewrite HO.
        destruct (da l m) as [m' []|m']; reflexivity.
      + eapply tr_same; [|apply tr_panic]. unfold forget, retain_with. rewrite HO. reflexivity.
    - destruct HO as [x' HO]. intros w. unfold bind, look, forget, retain_with. simpl. rewrite HO.
      destruct (AG w) as [(w' & N & ->)|(N & ->)]; [left; exists w'; auto|right; eauto].
  Qed.
  Lemma tr_retain_paired : forall {X} (f : X -> L * R -> X * verdict) m x (K : map -> Prop), K m ->
    tracks m (u_retain_paired E f x) (forget (fun m => retain_paired E f (m, x))) K.
  Proof.
    intros X f m x K KM. eapply tr_same; [|eapply tr_retain_with; [|exact KM]]; [reflexivity|].
    apply ag_retain_scan. apply ag_retain_paired_key.
  Qed.
  Lemma tr_retain_unpaired : forall {X} (f : X -> R -> X * verdict) m x (K : map -> Prop), K m ->
    tracks m (u_retain_unpaired E f x) (forget (fun m => retain_unpaired E f (m, x))) K.
  Proof.
    intros X f m x K KM. eapply tr_same; [|eapply tr_retain_with; [|exact KM]]; [reflexivity|].
    apply ag_retain_scan. apply ag_retain_unpaired_key.
  Qed.

  (* ---- what a panic of user code leaves behind ---- *)
  Notation lhash m l := (hashL E (hash_builder m) l).
  Notation rhash m r := (hashR E (hash_builder m) r).
  Notation eqkl l := (equivalent_key_left (eqL E) l).
  Notation eqkr r := (equivalent_key_right (eqR E) r).

  (* the left (right) table was being rehashed before the insertion of an entry with hash h *)
  Definition lost_l (h : N) (m m' : map) : Prop :=
    exists t, spoilt (lo E) F true (left_set m)
                (hb_next (lo E) (lay (left_set m)) (CInsert h (N.of_nat (t_len (left_set m))))) t /\
              m' = set_left t m.
  Definition lost_r (h : N) (m m' : map) : Prop :=
    exists t, spoilt (lo E) F true (right_set m)
                (hb_next (lo E) (lay (right_set m)) (CInsert h (N.of_nat (t_len (right_set m))))) t /\
              m' = set_right t m.

  (* remove_right: before anything, or when r and some of its left items are gone *)
  Definition P_remove_right (r : R) (m m' : map) : Prop :=
    m' = m \/
    exists m1 e ps1 ps2 ls,
      right_remove_entry E (rhash m r) (eqkr r) m = Ret m1 (Some e) /\
      hs_elems (r_pairs e) = ps1 ++ ps2 /\ ps1 <> [] /\ remove_pairs E ps1 m1 = Ret m' ls.
  Definition P_remove (l : L) (r : R) (m m' : map) : Prop :=
    m' = m \/ (are_paired E m l r = true /\ P_remove_right r m m').
  (* insert: before anything; both items new: while the left table grows, or when l is stored
     and the right table grows; l known, r new: when l points to the new right item already
     and the right table grows; l new, r known: when r lists l and the left table grows *)
  Definition move_off (lh rh rc : N) (i : nat) (l : left_item L) : M map unit :=
    m <- getst ;;
    b <- unwrap (t_get_mut E (right_set m) (l_hash l) (right_with_left_pair E (lh, l_id l))) ;;
    left_assign i (set_l_hash rh) ;;;
    left_assign i (set_l_rid rc) ;;;
    right_assign (fst b) (pairs_remove E (lh, l_id l)).
  Definition P_insert (l : L) (r : R) (m m' : map) : Prop :=
    m' = m \/
    match t_get_mut E (left_set m) (lhash m l) (eqkl l), t_get_mut E (right_set m) (rhash m r) (eqkr r) with
    | None, None =>
        lost_l (lhash m l) m m' \/
        exists m1, left_insert E (lhash m l) (LI l (rhash m r) (right_counter m) (left_counter m)) m = Ret m1 tt /\
                   lost_r (rhash m r) m1 m'
    | Some (i, e), None =>
        exists m1, move_off (lhash m l) (rhash m r) (right_counter m) i e m = Ret m1 tt /\
                   lost_r (rhash m r) m1 m'
    | None, Some (j, _) =>
        exists m1, right_assign j (pairs_insert E (lhash m l, left_counter m)) m = Ret m1 tt /\
                   lost_l (lhash m l) m1 m'
    | Some _, Some _ => False
    end.
  (* insert_right: in remove_right, after it, while the right table grows *)
  Definition P_insert_right (r : R) (m m' : map) : Prop :=
    P_remove_right r m m' \/
    exists m1 a, remove_right E r m = Ret m1 a /\
      (m' = m1 \/ exists m2, incr_right E m1 = Ret m2 tt /\ lost_r (rhash m1 r) m2 m').
  (* insert_remove: before anything, in remove_right, after it, while the tables grow *)
  Definition P_insert_remove (l : L) (r : R) (m m' : map) : Prop :=
    m' = m \/
    exists m1 a, remove_left E l m = Ret m1 a /\
      (P_remove_right r m1 m' \/
       exists m2 b, remove_right E r m1 = Ret m2 b /\
         (m' = m2 \/
          exists m3, (incr_left E ;;; incr_right E) m2 = Ret m3 tt /\
            (lost_l (lhash m2 l) m3 m' \/
             exists m4, left_insert E (lhash m2 l) (LI l (rhash m2 r) (right_counter m2) (left_counter m2)) m3
                          = Ret m4 tt /\
                        lost_r (rhash m2 r) m4 m'))).
  (* insert_left: before anything, when r lists the id of the new entry, and so while the left
     table grows *)
  Definition P_insert_left (l : L) (r : R) (m m' : map) : Prop :=
    m' = m \/
    exists j e m1,
      t_get_mut E (right_set m) (rhash m r) (eqkr r) = Some (j, e) /\
      right_assign j (pairs_insert E (lhash m l, left_counter m)) m = Ret m1 tt /\
      (m' = m1 \/
       exists m2 a m3, remove_left E l m1 = Ret m2 a /\ incr_left E m2 = Ret m3 tt /\
                       lost_l (lhash m l) m3 m').
  (* swap_right: before anything, in insert_right(new), when old has lost its left items *)
  Definition P_swap_right (old new : R) (m m' : map) : Prop :=
    m' = m \/
    match t_get_mut E (right_set m) (rhash m old) (eqkr old) with
    | None => P_insert_right new m m'
    | Some (j, e) =>
        exists m1, right_assign j (set_pairs (t_clear (lo E) (r_pairs e))) m = Ret m1 tt /\
                   (m' = m1 \/ lost_r (rhash m1 new) m1 m')
    end.
  (* swap_right_remove: before anything, in insert_right(new), when old is gone *)
  Definition P_swap_right_remove (old new : R) (m m' : map) : Prop :=
    m' = m \/
    exists m1 o, right_remove_entry E (rhash m old) (eqkr old) m = Ret m1 o /\
      match o with
      | None => P_insert_right new m1 m'
      | Some _ => m' = m1 \/ lost_r (rhash m1 new) m1 m'
      end.
  (* pair: before anything, or when l points to r but r does not list l yet *)
  Definition half_pair (lh rh : N) (i : nat) (l : left_item L) (r : right_item R) : M map unit :=
    left_assign i (set_l_hash rh) ;;;
    left_assign i (set_l_rid (r_id r)) ;;;
    m <- getst ;;
    b <- unwrap (t_get_mut E (right_set m) (l_hash l) (right_with_right_id (l_rid l))) ;;
    right_assign (fst b) (pairs_remove E (lh, l_id l)).
  Definition P_pair (l : L) (r : R) (m m' : map) : Prop :=
    m' = m \/
    exists i e f,
      t_get_mut E (left_set m) (lhash m l) (eqkl l) = Some (i, e) /\ find_right E m r = Some f /\
      half_pair (lhash m l) (rhash m r) i e f m = Ret m' tt.
  Fixpoint P_extend_pairs (xs : list (L * R)) (m m' : map) : Prop :=
    match xs with
    | [] => False
    | (l, r) :: t => P_insert l r m m' \/ exists m1, insert E l r m = Ret m1 tt /\ P_extend_pairs t m1 m'
    end.
  Fixpoint P_extend (xs : list (option L * R)) (m m' : map) : Prop :=
    match xs with
    | [] => False
    | (Some l, r) :: t => P_insert l r m m' \/ exists m1, insert E l r m = Ret m1 tt /\ P_extend t m1 m'
    | (None, r) :: t => P_insert_right r m m' \/ exists m1 d, insert_right E r m = Ret m1 d /\ P_extend t m1 m'
    end.

  (* the map after a panic of user code in the call o on m *)
  Definition P_step (o : op L R) (m m' : map) : Prop :=
    match o with
    | Insert l r => P_insert l r m m'
    | InsertRemove l r => P_insert_remove l r m m'
    | InsertLeft l r => P_insert_left l r m m'
    | InsertRight r => P_insert_right r m m'
    | SwapRight old new => P_swap_right old new m m'
    | SwapRightRemove old new => P_swap_right_remove old new m m'
    | Pair l r => P_pair l r m m'
    | Remove l r => P_remove l r m m'
    | RemoveRight r => P_remove_right r m m'
    | ExtendPairs xs => P_extend_pairs xs m m'
    | Extend xs => P_extend xs m m'
    | _ => m' = m
    end.

  Lemma tr_left_insert : forall m h e (K : map -> Prop),
    (forall m', lost_l h m m' -> K m') -> tracks m (u_left_insert E F h e) (left_insert E h e) K.
  Proof.
    intros m h e K HK w. unfold u_left_insert, on_left, u_insert. simpl.
    destruct (ag_rehashing (lo E) F true (left_set m) (hb_next (lo E) (lay (left_set m)) (CInsert h (N.of_nat (t_len (left_set m)))))
                (t_insert (lo E) (left_set m) h e (make_hasher_l E (hash_builder m))) w)
      as [(w' & N & ->)|(N & t2 & SP & ->)].
    - left. exists w'. auto.
    - right. split; auto. eexists. split; [reflexivity|]. apply HK. exists t2. auto.
  Qed.
  Lemma tr_right_insert : forall m h e (K : map -> Prop),
    (forall m', lost_r h m m' -> K m') -> tracks m (u_right_insert E F h e) (right_insert E h e) K.
  Proof.
    intros m h e K HK w. unfold u_right_insert, on_right, u_insert. simpl.
    destruct (ag_rehashing (lo E) F true (right_set m) (hb_next (lo E) (lay (right_set m)) (CInsert h (N.of_nat (t_len (right_set m)))))
                (t_insert (lo E) (right_set m) h e (make_hasher_r E (hash_builder m))) w)
      as [(w' & N & ->)|(N & t2 & SP & ->)].
    - left. exists w'. auto.
    - right. split; auto. eexists. split; [reflexivity|]. apply HK. exists t2. auto.
  Qed.

  Lemma tr_remove_left : forall m l (K : map -> Prop), K m -> tracks m (u_remove_left E l) (remove_left E l) K.
  Proof.
    intros m l K KM. unfold u_remove_left. eapply tr_look; [apply ag_user|exact KM|].
    unfold remove_left. apply tr_getst. cbv zeta.
    apply tr_bind; [apply tr_left_remove; auto|]. intros m' [e|] _; [|apply tr_ret].
    eapply tr_same with (c0 := (mm <- getst ;;
        b <- unwrap (t_get_mut E (right_set mm) (l_hash e) (right_with_left_pair E (lhash m l, l_id e))) ;;
        right_assign (fst b) (pairs_remove E (lhash m l, l_id e))) ;;; ret (Some (l_value e))).
    - unfold bind, getst. destruct (t_get_mut _ _ _ _) as [[? ?]|]; reflexivity.
    - apply tr_bind; [apply tr_calm|]. intros. apply tr_ret.
  Qed.
  Lemma tr_remove_pairs : forall ps seen m (K : map -> Prop),
    (forall ps1 ps2 m' ls, ps = ps1 ++ ps2 -> ps1 <> [] -> remove_pairs E ps1 m = Ret m' ls -> K m') ->
    tracks m (u_remove_pairs E seen ps) (ls <- remove_pairs E ps ;; ret (collect_set E seen ls)) K.
  Proof.
    induction ps as [|[h i] t IH]; intros seen m K HK; cbn [u_remove_pairs remove_pairs];
      [eapply tr_same; [|apply tr_ret]; reflexivity|].
    eapply tr_same with (c0 := o <- left_remove_entry E h (left_with_left_id i) ;;
        e <- unwrap o ;; rest <- remove_pairs E t ;; ret (collect_set E seen (l_value e :: rest))).
    { unfold bind. destruct (left_remove_entry E h (left_with_left_id i) m) as [m1 [e|]|]; simpl; auto.
      destruct (remove_pairs E t m1); reflexivity. }
    apply tr_bind; [apply tr_calm|]. intros m1 [e|] H1; [|apply tr_panic].
    match goal with |- tracks m1 (bind (unwrap (Some e)) ?k) (bind (unwrap (Some e)) ?k0) ?K =>
      change (tracks m1 (k e) (k0 e) K) end. cbv beta.
    assert (K1 : K m1).
    { apply (HK [(h, i)] t m1 [l_value e]); [reflexivity|discriminate|]. cbn [remove_pairs].
      unfold bind. rewrite H1. reflexivity. }
    eapply tr_look; [apply ag_user|exact K1|]. eapply tr_look; [apply ag_seen|exact K1|].
    eapply tr_same; [|apply IH].
    - cbn [collect_set]. unfold bind. destruct (remove_pairs E t m1); [|reflexivity].
      destruct (existsb _ _); reflexivity.
    - intros ps1 ps2 m' ls -> NE HR. apply (HK ((h, i) :: ps1) ps2 m' (l_value e :: ls)); [reflexivity|discriminate|].
      cbn [remove_pairs]. unfold bind. rewrite H1. simpl. rewrite HR. reflexivity.
  Qed.
  Lemma tr_remove_right : forall m r, tracks m (u_remove_right E r) (remove_right E r) (P_remove_right r m).
  Proof.
    intros m r. unfold u_remove_right. eapply tr_look; [apply ag_user|left; auto|].
    unfold remove_right. apply tr_getst. cbv zeta.
    apply tr_bind; [apply tr_right_remove; left; auto|]. intros m1 [e|] H1; [|apply tr_ret].
    eapply tr_same with (c0 := ls <- (ls <- remove_pairs E (hs_elems (r_pairs e)) ;; ret (collect_set E [] ls)) ;;
                               ret (Some (ls, r_value e))).
    { unfold bind. destruct (remove_pairs _ _ m1); reflexivity. }
    apply tr_bind; [|intros; apply tr_ret]. apply tr_remove_pairs.
    intros ps1 ps2 m' ls Q NE HR. right. exists m1, e, ps1, ps2, ls. auto.
  Qed.
  Lemma tr_remove : forall m l r, tracks m (u_remove E l r) (remove E l r) (P_remove l r m).
  Proof.
    intros m l r. unfold u_remove, remove. eapply tr_look; [apply ag_are_paired|left; auto|].
    apply tr_getst. destruct (are_paired E m l r) eqn:AP; [|apply tr_ret].
    eapply tr_weaken; [apply tr_remove_right|]. intros m' H. right. auto.
  Qed.

  Lemma tr_insert : forall m l r, tracks m (u_insert_pair E F l r) (insert E l r) (P_insert l r m).
  Proof.
    intros m l r. unfold u_insert_pair. assert (K0 : P_insert l r m m) by (left; auto).
    eapply tr_look; [apply ag_user|exact K0|]. eapply tr_look; [apply ag_user|exact K0|].
    eapply tr_look; [apply ag_mut_left|exact K0|]. eapply tr_look; [apply ag_mut_right|exact K0|].
    eapply tr_look; [apply ag_ret|exact K0|]. eapply tr_look; [apply ag_ret|exact K0|].
    unfold insert. apply tr_getst. cbv zeta. unfold P_insert. clear K0.
    destruct (t_get_mut E (left_set m) (lhash m l) (eqkl l)) as [[i e]|];
      destruct (t_get_mut E (right_set m) (rhash m r) (eqkr r)) as [[j f]|].
    - apply tr_calm.
    - eapply tr_same with (c0 := move_off (lhash m l) (rhash m r) (right_counter m) i e ;;;
        right_insert E (rhash m r) (RI r (set_insert E (right_counter m) (set_new (right_counter m)) (lhash m l, l_id e)) (right_counter m)) ;;;
        incr_right E).
      { unfold move_off, bind at 1 2, getst. unfold bind at 6. destruct (t_get_mut _ _ _ _) as [[k f]|]; reflexivity. }
      apply tr_bind; [apply (tr_calm m (move_off (lhash m l) (rhash m r) (right_counter m) i e))|].
      intros m1 [] H1. apply tr_bind; [|intros; apply tr_calm].
      apply tr_right_insert. intros m' HL. right. eauto.
    - apply tr_bind; [apply tr_calm|]. intros m1 [] H1. apply tr_bind; [|intros; apply tr_calm].
      apply tr_left_insert. intros m' HL. right. eauto.
    - apply tr_bind; [apply tr_left_insert; auto|]. intros m1 [] H1.
      apply tr_bind; [|intros; apply tr_calm]. apply tr_right_insert. intros m' HL. right. right. eauto.
  Qed.
  Lemma tr_insert_right : forall m r, tracks m (u_insert_right E F r) (insert_right E r) (P_insert_right r m).
  Proof.
    intros m r. unfold u_insert_right, insert_right.
    apply tr_bind; [eapply tr_weaken; [apply tr_remove_right|left; auto]|]. intros m1 a H1.
    assert (K1 : P_insert_right r m m1) by (right; exists m1, a; auto).
    eapply tr_look; [apply ag_user|exact K1|]. eapply tr_look; [apply ag_ret|exact K1|]. apply tr_getst. cbv zeta.
    apply tr_bind; [apply tr_calm|]. intros m2 [] H2. apply tr_bind; [|intros; apply tr_ret].
    apply tr_right_insert. intros m' HL. right. exists m1, a. split; auto. right. exists m2. auto.
  Qed.
  Lemma tr_insert_remove : forall m l r,
    tracks m (u_insert_remove E F l r) (insert_remove E l r) (P_insert_remove l r m).
  Proof.
    intros m l r. unfold u_insert_remove, insert_remove.
    apply tr_bind; [apply tr_remove_left; left; auto|]. intros m1 a H1.
    apply tr_bind; [eapply tr_weaken; [apply tr_remove_right|]; right; exists m1, a; auto|]. intros m2 b H2.
    assert (K2 : P_insert_remove l r m m2) by (right; exists m1, a; split; auto; right; exists m2, b; auto).
    eapply tr_look; [apply ag_user|exact K2|]. eapply tr_look; [apply ag_user|exact K2|].
    eapply tr_look; [apply ag_ret|exact K2|]. eapply tr_look; [apply ag_ret|exact K2|]. apply tr_getst. cbv zeta.
    apply tr_assoc. apply tr_bind; [apply (tr_calm m2 (incr_left E ;;; incr_right E))|]. intros m3 [] H3.
    apply tr_bind; [apply tr_left_insert|intros m4 [] H4; apply tr_bind; [apply tr_right_insert|intros; apply tr_ret]].
    - intros m' HL. right. exists m1, a. split; auto. right. exists m2, b. split; auto. right. exists m3. auto.
    - intros m' HL. right. exists m1, a. split; auto. right. exists m2, b. split; auto. right. exists m3.
      split; auto. right. eauto.
  Qed.
  Lemma tr_insert_left : forall m l r,
    tracks m (u_insert_left E F l r) (insert_left E l r) (P_insert_left l r m).
  Proof.
    intros m l r. unfold u_insert_left. assert (K0 : P_insert_left l r m m) by (left; auto).
    eapply tr_look; [apply ag_user|exact K0|]. eapply tr_look; [apply ag_mut_right|exact K0|].
    unfold insert_left. apply tr_getst. cbv zeta.
    destruct (t_get_mut E (right_set m) (rhash m r) (eqkr r)) as [[j e]|] eqn:G; [|apply tr_ret].
    eapply tr_look; [apply ag_user|exact K0|]. eapply tr_look; [apply ag_ret|exact K0|].
    apply tr_bind; [apply tr_calm|]. intros m1 [] H1.
    apply tr_bind; [apply tr_remove_left; right; exists j, e, m1; auto|]. intros m2 a H2.
    apply tr_bind; [apply tr_calm|]. intros m3 [] H3. apply tr_bind; [|intros; apply tr_ret].
    apply tr_left_insert. intros m' HL. right. exists j, e, m1. split; auto. split; auto. right. exists m2, a, m3. auto.
  Qed.
  Lemma tr_swap_right : forall m old new,
    tracks m (u_swap_right E F old new) (swap_right E old new) (P_swap_right old new m).
  Proof.
    intros m old new. unfold u_swap_right. assert (K0 : P_swap_right old new m m) by (left; auto).
    eapply tr_look; [apply ag_user|exact K0|]. eapply tr_look; [apply ag_mut_right|exact K0|].
    unfold swap_right. apply tr_getst. cbv zeta. unfold P_swap_right in *.
    destruct (t_get_mut E (right_set m) (rhash m old) (eqkr old)) as [[j e]|] eqn:G.
    - eapply tr_look; [apply ag_ret|exact K0|].
      apply tr_bind; [apply tr_calm|]. intros m1 [] H1.
      eapply tr_look; [apply ag_user|right; exists m1; auto|].
      assert (HB : hash_builder m1 = hash_builder m) by (injection H1 as <-; reflexivity). rewrite <- HB.
      apply tr_bind; [apply tr_right_insert; intros m' HL; right; exists m1; auto|]. intros. apply tr_calm.
    - apply tr_bind; [eapply tr_weaken; [apply tr_insert_right|auto]|]. intros. apply tr_ret.
  Qed.
  Lemma tr_swap_right_remove : forall m old new,
    tracks m (u_swap_right_remove E F old new) (swap_right_remove E old new) (P_swap_right_remove old new m).
  Proof.
    intros m old new. unfold u_swap_right_remove.
    eapply tr_look; [apply ag_user|left; auto|].
    unfold swap_right_remove. apply tr_getst. cbv zeta.
    apply tr_bind; [apply tr_right_remove; left; auto|]. intros m1 [e|] H1.
    - assert (HB : hash_builder m1 = hash_builder m /\ right_counter m1 = right_counter m).
      { unfold right_remove_entry, bind, getst in H1. destruct (t_remove_entry _ _ _ _) as [[? ?]|];
          injection H1 as <- _; auto. }
      destruct HB as [HB HC]. rewrite <- HB, <- HC.
      assert (K1 : P_swap_right_remove old new m m1) by (right; exists m1, (Some e); auto).
      eapply tr_look; [apply ag_ret|exact K1|]. eapply tr_look; [apply ag_user|exact K1|].
      apply tr_bind; [apply tr_right_insert; intros m' HL; right; exists m1, (Some e); auto|].
      intros m2 [] _. apply tr_assoc. apply tr_bind; [|intros; apply tr_ret].
      apply (tr_calm m2 (incr_right E ;;; rehash_pairs E (rhash m1 new) (hs_elems (set_collect E (right_counter m1) (hs_elems (r_pairs e)))))).
    - apply tr_bind; [eapply tr_weaken; [apply tr_insert_right|]|intros; apply tr_ret].
      intros m' HP. right. exists m1, None. auto.
  Qed.
  Lemma tr_pair : forall m l r, tracks m (u_pair E l r) (pair E l r) (P_pair l r m).
  Proof.
    intros m l r. unfold u_pair. assert (K0 : P_pair l r m m) by (left; auto).
    eapply tr_look; [apply ag_user|exact K0|]. eapply tr_look; [apply ag_user|exact K0|].
    eapply tr_look; [apply ag_mut_left|exact K0|]. eapply tr_look; [apply ag_get|exact K0|].
    unfold pair. apply tr_getst. cbv zeta. change (t_get (lo E) (right_set m) (rhash m r) (eqkr r)) with (find_right E m r).
    destruct (t_get_mut E (left_set m) (lhash m l) (eqkl l)) as [[i e]|] eqn:G; [|apply tr_ret].
    destruct (find_right E m r) as [f|] eqn:G'; [|apply tr_ret].
    eapply tr_same with (c0 := half_pair (lhash m l) (rhash m r) i e f ;;;
        m1 <- getst ;; b' <- unwrap (t_get_mut E (right_set m1) (rhash m r) (eqkr r)) ;;
        right_assign (fst b') (pairs_insert E (lhash m l, l_id e)) ;;; ret true).
    { unfold half_pair, bind, getst, left_assign, right_assign, putst. simpl.
      destruct (t_get_mut E _ (l_hash e) _) as [[? ?]|]; reflexivity. }
    apply tr_bind; [apply (tr_calm m (half_pair (lhash m l) (rhash m r) i e f))|]. intros m1 [] H1.
    eapply tr_look; [apply ag_mut_right|right; exists i, e, f; auto|]. apply tr_getst.
    apply tr_bind; [apply tr_unwrap|]. intros m2 b _. apply tr_bind; [apply tr_calm|]. intros. apply tr_ret.
  Qed.
  Lemma tr_extend_pairs : forall xs m, tracks m (u_extend_pairs E F xs) (extend_pairs E xs) (P_extend_pairs xs m).
  Proof.
    induction xs as [|[l r] t IH]; intros m; simpl; [apply tr_ret|].
    apply tr_bind; [eapply tr_weaken; [apply tr_insert|]; auto|].
    intros m1 [] H. eapply tr_weaken; [apply IH|]. intros m' HP. right. eauto.
  Qed.
  Lemma tr_extend : forall xs m, tracks m (u_extend E F xs) (extend E xs) (P_extend xs m).
  Proof.
    induction xs as [|[[l|] r] t IH]; intros m; simpl; [apply tr_ret| |].
    - apply tr_bind; [eapply tr_weaken; [apply tr_insert|]; auto|].
      intros m1 [] H. eapply tr_weaken; [apply IH|]. intros m' HP. right. eauto.
    - apply tr_bind; [eapply tr_weaken; [apply tr_insert_right|]; auto|].
      intros m1 d H. eapply tr_weaken; [apply IH|]. intros m' HP. right. eauto.
  Qed.

  (* every call *)
  Lemma tr_via : forall {A} m w (k : A -> out L R) (c : FM A) c0 (K : map -> Prop), tracks m c c0 K ->
    u_via k c m w = via k (c0 m) \/ (w <> None /\ exists m', u_via k c m w = (m', OPanic) /\ K m').
  Proof.
    intros A m w k c c0 K H. unfold u_via, via. destruct (H w) as [(w' & N & ->)|(N & m' & -> & HK)].
    - left. destruct (c0 m); reflexivity.
    - right. eauto.
  Qed.
  Definition reads {A} (o : outcome A) : M map A :=
    fun m => match o with Done a => Ret m a | Panicked => Panic m end.
  Lemma tr_reads : forall {A} m w (k : A -> out L R) (f : map -> M fuse A) o, agrees (f m) o ->
    u_via k (look f) m w = seen m k o \/ (w <> None /\ exists m', u_via k (look f) m w = (m', OPanic) /\ m' = m).
  Proof.
    intros A m w k f o H. destruct (tr_via m w k (look f) (reads o) (fun m' => m' = m)) as [Q|Q].
    - eapply tr_read; [exact H|reflexivity|reflexivity].
    - left. rewrite Q. destruct o; reflexivity.
    - right. exact Q.
  Qed.

  Lemma tr_forget : forall {X} m w (u : FM unit) (r : map -> res (map * X) unit),
    tracks m u (forget r) (fun m' => m' = m) ->
    u_via (fun _ => OUnit) u m w = via_closure (r m) \/
    (w <> None /\ exists m', u_via (fun _ => OUnit) u m w = (m', OPanic) /\ m' = m).
  Proof.
    intros X m w u r H. destruct (tr_via m w (fun _ => OUnit) u _ _ H) as [Q|Q]; [left|right; exact Q].
    rewrite Q. unfold forget. destruct (r m) as [[? ?] []|[? ?]]; reflexivity.
  Qed.

  Theorem u_step_cases : forall m o w,
    u_step E F m o w = step E m o \/
    (w <> None /\ exists m', u_step E F m o w = (m', OPanic) /\ P_step o m m').
  Proof.
    intros m o w. destruct o; cbn [u_step step P_step]; auto.
    - apply tr_via, tr_insert.
    - apply tr_via, tr_insert_remove.
    - apply tr_via, tr_insert_left.
    - apply tr_via, tr_insert_right.
    - apply tr_via, tr_swap_right.
    - apply tr_via, tr_swap_right_remove.
    - apply tr_via, tr_pair.
    - apply tr_via, tr_remove.
    - apply tr_via, tr_remove_left; auto.
    - apply tr_via, tr_remove_right.
    - apply (tr_reads m w OBool (fun m => u_is_right_paired E m r) (Done _)), ag_is_right_paired.
    - apply (tr_reads m w OBool (fun m => u_are_paired E m l r) (Done _)), ag_are_paired.
    - apply (tr_reads m w OBool (fun m => u_contains_left E m l) (Done _)), ag_contains_left.
    - apply (tr_reads m w OBool (fun m => u_contains_right E m r) (Done _)), ag_contains_right.
    - apply (tr_reads m w OR (fun m => u_get_right E m l) (Done _)), ag_get_right.
    - destruct (tr_reads m w OLsO (fun m => u_get_left_all E m r) _ (ag_get_left_all m r)) as [Q|Q]; [left|right; exact Q].
      rewrite Q. destruct (get_left_iter E m r) as [it|]; [|reflexivity].
      destruct (pair_rest E m it); reflexivity.
    - apply (tr_forget m w _ (fun m => retain_paired E f (m, x))), tr_retain_paired; auto.
    - apply (tr_forget m w _ (fun m => retain_unpaired E f (m, x))), tr_retain_unpaired; auto.
    - apply tr_via, tr_extend_pairs.
    - apply tr_via, tr_extend.
  Qed.
  (* user code that does not panic: the model of GroupMap.v *)
  Corollary u_step_calm : forall m o, u_step E F m o None = step E m o.
  Proof. intros m o. destruct (u_step_cases m o None) as [Q|[Q _]]; [auto|congruence]. Qed.
  Corollary u_run_calm : forall ops m, u_run E F m (List.map (fun o => (o, None)) ops) = run E m ops.
  Proof.
    induction ops as [|o t IH]; intros m; simpl; [reflexivity|]. rewrite u_step_calm.
    destruct (step E m o) as [m' a]. rewrite IH. reflexivity.
  Qed.
End Tracks.
