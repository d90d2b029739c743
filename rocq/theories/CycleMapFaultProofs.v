(* CycleMap with panicking user code (CycleMapFault.v): every call either does what CycleMap.v
   says or panics in one of the states described by [P_step]. *)
From Coq Require Import List NArith Lia Bool Permutation PeanoNat.
From Verif Require Import Closures Prelude RawTable Optionals CycleMap ListFacts TableFacts SoundTables
  CycleMapSpec CycleMapHistory CycleMapAny Faults CycleMapFault.
Import ListNotations.
Open Scope N_scope.

Section Tracks.
  Context {L R S : Type}.
  Variable E : env L R S.
  Variable F : fault.
  Notation map := (cmap L R S).
  Notation FM A := (M (fuse * cmap L R S) A).

  Lemma tr_left_remove : forall m h l (K : map -> Prop), K m ->
    tracks m (u_left_remove_entry E h l) (left_remove_entry E h (equivalent_key (eqL E) l)) K.
  Proof.
    intros m h l K KM. unfold u_left_remove_entry. eapply tr_look; [apply ag_remove_entry|exact KM|].
    intros w. left. exists w. split; auto. unfold left_remove_entry, bind, getst.
    destruct (t_remove_entry _ _ _ _) as [[e t]|]; reflexivity.
  Qed.
  Lemma tr_right_remove : forall m h r (K : map -> Prop), K m ->
    tracks m (u_right_remove_entry E h r) (right_remove_entry E h (equivalent_key (eqR E) r)) K.
  Proof.
    intros m h l K KM. unfold u_right_remove_entry. eapply tr_look; [apply ag_remove_entry|exact KM|].
    intros w. left. exists w. split; auto. unfold right_remove_entry, bind, getst.
    destruct (t_remove_entry _ _ _ _) as [[e t]|]; reflexivity.
  Qed.

  (* ---- reading ---- *)
  Ltac ag := repeat (eapply ag_bind; [first [apply ag_user|apply ag_get]|]).
  Lemma ag_are_paired : forall m l r, returns (u_are_paired E m l r) (are_paired E m l r).
  Proof. intros. unfold u_are_paired, hash_l, hash_r, find_left, find_right. ag. apply ag_ret. Qed.
  Lemma ag_contains_left : forall m l, returns (u_contains_left E m l) (contains_left E m l).
  Proof. intros. unfold u_contains_left, hash_l, find_left. ag. apply ag_ret. Qed.
  Lemma ag_contains_right : forall m r, returns (u_contains_right E m r) (contains_right E m r).
  Proof. intros. unfold u_contains_right, hash_r, find_right. ag. apply ag_ret. Qed.
  Lemma ag_get_left : forall m r, returns (u_get_left E m r) (get_left E m r).
  Proof. intros. unfold u_get_left, hash_r, find_right. ag. apply ag_ret. Qed.
  Lemma ag_get_right : forall m l, returns (u_get_right E m l) (get_right E m l).
  Proof. intros. unfold u_get_right, hash_l, find_left. ag. apply ag_ret. Qed.
  Lemma ag_get_left_inner : forall m l, returns (u_get_left_inner E m l) (get_left_inner E m l).
  Proof. intros. unfold u_get_left_inner, hash_l, find_left. ag. apply ag_get. Qed.
  Lemma ag_iter_next : forall m it, agrees (u_iter_next E m it) (iter_next E m it).
  Proof.
    intros m [|[h l] rest]; simpl; [apply ag_ret|].
    eapply ag_bind; [apply ag_get_right|]. destruct (get_right E m (value l)); simpl; [|apply ag_panic].
    apply ag_ret.
  Qed.
  Lemma ag_iter_rest : forall m fuel it, agrees (u_iter_rest E m fuel it) (collect (iter_next E m) fuel it).
  Proof.
    induction fuel as [|fuel IH]; intros it; simpl.
    - eapply ag_eq; [eapply ag_bind_o with (o' := fun x => match x with
         | (None, _) => Done [] | (Some p, it') => Panicked end); [apply ag_iter_next|]|].
      + intros [[p|] it'] _; [apply ag_panic|apply ag_ret].
      + destruct (iter_next E m it) as [[[p|] it']|]; reflexivity.
    - eapply ag_eq; [eapply ag_bind_o with (o' := fun x => match x with
         | (None, _) => Done [] | (Some p, it') => omap (cons p) (collect (iter_next E m) fuel it') end);
         [apply ag_iter_next|]|].
      + intros [[p|] it'] _; [|apply ag_ret].
        eapply ag_eq; [eapply ag_bind_o with (o' := fun l => Done (p :: l)); [apply IH|]|].
        * intros a _. apply ag_ret.
        * destruct (collect _ fuel it'); reflexivity.
      + destruct (iter_next E m it) as [[[p|] it']|]; reflexivity.
  Qed.
  Lemma ag_iter_all : forall m, agrees (u_iter_all E m) (iter_all E m).
  Proof. intros. apply ag_iter_rest. Qed.
  Lemma ag_all_paired : forall m other fuel it,
    agrees (u_all_paired E m other fuel it) (all_paired E m other fuel it).
  Proof.
    induction fuel as [|fuel IH]; intros it; simpl.
    - eapply ag_eq; [eapply ag_bind_o with (o' := fun x => match x with
         | (None, _) => Done true | (Some (l, r), it') => if are_paired E other l r then Panicked else Done false
         end); [apply ag_iter_next|]|].
      + intros [[[l r]|] it'] _; [|apply ag_ret]. eapply ag_bind; [apply ag_are_paired|].
        destruct (are_paired E other l r); [apply ag_panic|apply ag_ret].
      + destruct (iter_next E m it) as [[[[l r]|] it']|]; reflexivity.
    - eapply ag_eq; [eapply ag_bind_o with (o' := fun x => match x with
         | (None, _) => Done true
         | (Some (l, r), it') => if are_paired E other l r then all_paired E m other fuel it' else Done false
         end); [apply ag_iter_next|]|].
      + intros [[[l r]|] it'] _; [|apply ag_ret]. eapply ag_bind; [apply ag_are_paired|].
        destruct (are_paired E other l r); [apply IH|apply ag_ret].
      + destruct (iter_next E m it) as [[[[l r]|] it']|]; reflexivity.
  Qed.
  Lemma ag_map_eq : forall m other, agrees (u_map_eq E m other) (map_eq E m other).
  Proof.
    intros. unfold u_map_eq, map_eq. destruct (negb _); [apply ag_ret|apply ag_all_paired].
  Qed.

  (* the scan of retain: panics of the closure are values, other panics are panics *)
  Section Retain.
    Context {X : Type}.
    Variable f : X -> L -> R -> X * verdict.
    (* what the pure scan says, with the two kinds of panic told apart *)
    Lemma ag_retain_scan : forall m fuel it x,
      exists o, agrees (u_retain_scan E f m fuel it x) o /\
        match o with
        | Done (Ret x' l) => retain_scan E f m fuel it x = Ret x' l
        | Done (Panic x') => retain_scan E f m fuel it x = Panic x'
        | Panicked => exists x', retain_scan E f m fuel it x = Panic x'
        end.
    Proof.
      assert (HD : forall m lft rgt keep,
        agrees (if negb keep then
                  l_hash <- hash_l E m lft ;; r_hash <- hash_r E m rgt ;;
                  p <- u_get_left_inner E m lft ;; p <- unwrap p ;; ret [(l_hash, r_hash, pid p)]
                else ret [])
          (if negb keep then
             match get_left_inner E m lft with
             | None => Panicked
             | Some p => Done [(hashL E (hash_builder m) lft, hashR E (hash_builder m) rgt, pid p)]
             end
           else Done [])).
      { intros m lft rgt [|]; simpl; [apply ag_ret|]. unfold hash_l, hash_r. ag.
        eapply ag_bind; [apply ag_get_left_inner|]. destruct (get_left_inner E m lft); simpl; [apply ag_ret|apply ag_panic]. }
      intros m. induction fuel as [|fuel IH]; intros it x; simpl.
      - assert (AN := ag_iter_next m it). destruct (iter_next E m it) as [[[[lft rgt]|] it']|].
        + destruct (f x lft rgt) as [x' [keep|]] eqn:FX.
          * exists Panicked. split.
            { eapply ag_bind; [exact AN|].
              simpl. rewrite FX. eapply ag_eq; [eapply ag_bind_o with (o' := fun _ => Panicked); [apply HD|]; intros; apply ag_panic|].
              destruct (negb keep); [destruct (get_left_inner _ _ _)|]; reflexivity. }
            { destruct (negb keep); [destruct (get_left_inner _ _ _)|]; eauto. }
          * exists (Done (Panic x')). split; auto.
            eapply ag_bind; [exact AN|].
            simpl. rewrite FX. apply ag_ret.
        + exists (Done (Ret x [])). split; auto.
          eapply ag_bind; [exact AN|].
          apply ag_ret.
        + exists Panicked. split; eauto.
          eapply ag_eq; [eapply ag_bind_o with (o' := fun _ => Panicked); [exact AN|discriminate]|reflexivity].
      - assert (AN := ag_iter_next m it). destruct (iter_next E m it) as [[[[lft rgt]|] it']|].
        + destruct (f x lft rgt) as [x' [keep|]] eqn:FX.
          * destruct (IH it' x') as (o & AG & HO).
            set (d := if negb keep then
                 match get_left_inner E m lft with
                 | None => Panicked
                 | Some p => Done [(hashL E (hash_builder m) lft, hashR E (hash_builder m) rgt, pid p)]
                 end else Done []).
            exists (match d with
                    | Panicked => Panicked
                    | Done d => match o with
                                | Panicked => Panicked
                                | Done r => Done (match r with Ret x'' l => Ret x'' (d ++ l) | Panic x'' => Panic x'' end)
                                end
                    end). split.
            { eapply ag_bind; [exact AN|].
              cbv beta iota. rewrite FX. eapply ag_bind_o with (o' := fun d => match o with
                 | Panicked => Panicked
                 | Done r => Done (match r with Ret x'' l => Ret x'' (d ++ l) | Panic x'' => Panic x'' end)
                 end); [apply HD|]. intros a _.
              eapply ag_bind_o with (o' := fun r => Done (match r with Ret x'' l => Ret x'' (a ++ l) | Panic x'' => Panic x'' end));
                [exact AG|]. intros r _. apply ag_ret. }
            { subst d. destruct (negb keep).
              - destruct (get_left_inner E m lft); [|eauto].
                destruct o as [[x'' l|x'']|]; [rewrite HO; auto|rewrite HO; auto|].
                destruct HO as [x'' ->]. eauto.
              - destruct o as [[x'' l|x'']|]; [rewrite HO; auto|rewrite HO; auto|].
                destruct HO as [x'' ->]. eauto. }
          * exists (Done (Panic x')). split; auto.
            eapply ag_bind; [exact AN|].
            cbv beta iota. rewrite FX. apply ag_ret.
        + exists (Done (Ret x [])). split; auto.
          eapply ag_bind; [exact AN|].
          apply ag_ret.
        + exists Panicked. split; eauto.
          eapply ag_eq; [eapply ag_bind_o with (o' := fun _ => Panicked); [exact AN|discriminate]|reflexivity].
    Qed.
    (* retain, the closure's state forgotten *)
    Definition retain_m (x : X) : M map unit :=
      fun m => match retain E f (m, x) with
               | Ret (m', _) _ => Ret m' tt
               | Panic (m', _) => Panic m'
               end.
    Lemma tr_retain : forall m x (K : map -> Prop), K m -> tracks m (u_retain E f x) (retain_m x) K.
    Proof.
      intros m x K KM. unfold u_retain, retain_m, retain.
      destruct (ag_retain_scan m (length (iter m)) (iter m) x) as (o & AG & HO).
      destruct o as [r|].
      - eapply tr_look; [exact AG|exact KM|]. destruct r as [x' l|x'].
        + eapply tr_same; [|apply tr_calm]. simpl. rewrite HO. destruct (drop_all E l m) as [m' []|m']; reflexivity.
        + eapply tr_same; [|apply tr_panic]. simpl. rewrite HO. reflexivity.
      - destruct HO as [x' HO]. intros w. unfold bind, look. simpl. rewrite HO.
        destruct (AG w) as [(w' & N & ->)|(N & ->)]; [left; exists w'; auto|right; eauto].
    Qed.
  End Retain.

  (* ---- what a panic of user code leaves behind ---- *)
  Notation lhash m l := (hashL E (hash_builder m) l).
  Notation rhash m r := (hashR E (hash_builder m) r).

  Definition in_place (c : N -> change) : bool :=
    match c 0 with CSize (Shrink _) _ => false | _ => true end.
  (* the left (right) table was being rehashed for the change c *)
  Definition lost_l (c : N -> change) (m m' : map) : Prop :=
    exists t, spoilt (lo E) F (in_place c) (left_set m)
                (hb_next (lo E) (lay (left_set m)) (c (N.of_nat (t_len (left_set m))))) t /\
              m' = set_left t m.
  Definition lost_r (c : N -> change) (m m' : map) : Prop :=
    exists t, spoilt (lo E) F (in_place c) (right_set m)
                (hb_next (lo E) (lay (right_set m)) (c (N.of_nat (t_len (right_set m))))) t /\
              m' = set_right t m.

  (* insert: before anything, after the first removal, after both, while the left table grows
     (the new pair is lost), while the right table grows (the left half of it stays) *)
  Definition P_insert (l : L) (r : R) (m m' : map) : Prop :=
    m' = m \/ (exists a, remove_via_left E l m = Ret m' a) \/
    exists m1 a m2 b, remove_via_left E l m = Ret m1 a /\ remove_via_right E r m1 = Ret m2 b /\
      (m' = m2 \/
       exists m3, incr_counter E m2 = Ret m3 tt /\
         (lost_l (CInsert (lhash m2 l)) m3 m' \/
          exists m4, left_insert E (lhash m2 l) (MP l (rhash m2 r) (counter m2)) m3 = Ret m4 tt /\
                     lost_r (CInsert (rhash m2 r)) m4 m')).
  (* swap_left: before anything, after the pair of new is gone, after the right entry was
     changed, while the left table grows *)
  Definition repoint_r (m : map) (lp : mapping_pair L) (i : nat) (new_hash : N) : map :=
    set_right (t_modify (right_set m) i (fun p => MP (value p) new_hash (pid p))) m.
  Definition repoint_l (m : map) (rp : mapping_pair R) (i : nat) (new_hash : N) : map :=
    set_left (t_modify (left_set m) i (fun p => MP (value p) new_hash (pid p))) m.
  Definition P_swap_left (old new : L) (m m' : map) : Prop :=
    m' = m \/
    exists m1 a, swap_left_eq_check E old new (lhash m new) m = Ret m1 a /\
      (m' = m1 \/
       exists lp i,
         t_get (lo E) (left_set m1) (lhash m1 old) (equivalent_key (eqL E) old) = Some lp /\
         t_find (lo E) (right_set m1) (phash lp) (hash_and_id (lhash m1 old) (pid lp)) = Some i /\
         (m' = repoint_r m1 lp i (lhash m new) \/
          exists m3 e, left_remove_entry E (lhash m1 old) (equivalent_key (eqL E) old)
                         (repoint_r m1 lp i (lhash m new)) = Ret m3 (Some e) /\
                       lost_l (CInsert (lhash m new)) m3 m')).
  Definition P_swap_right (old new : R) (m m' : map) : Prop :=
    m' = m \/
    exists m1 a, swap_right_eq_check E old new (rhash m new) m = Ret m1 a /\
      (m' = m1 \/
       exists rp i,
         t_get (lo E) (right_set m1) (rhash m1 old) (equivalent_key (eqR E) old) = Some rp /\
         t_find (lo E) (left_set m1) (phash rp) (hash_and_id (rhash m1 old) (pid rp)) = Some i /\
         (m' = repoint_l m1 rp i (rhash m1 new) \/
          exists m3 e, right_remove_entry E (rhash m1 old) (equivalent_key (eqR E) old)
                         (repoint_l m1 rp i (rhash m1 new)) = Ret m3 (Some e) /\
                       lost_r (CInsert (rhash m1 new)) m3 m')).
  Fixpoint P_extend (xs : list (L * R)) (m m' : map) : Prop :=
    match xs with
    | [] => False
    | (l, r) :: t => P_insert l r m m' \/ exists m1 d, insert E l r m = Ret m1 d /\ P_extend t m1 m'
    end.
  Definition P_resize (z : sizing) (m m' : map) : Prop :=
    lost_l (CSize z) m m' \/
    lost_r (CSize z) (set_left (t_resize (lo E) (left_set m) z (make_hasher_l E (hash_builder m))) m) m'.
  Definition P_shrink_to_fit (m m' : map) : Prop := P_resize (Shrink (N.of_nat (len m))) m m'.

  (* the map after a panic of user code in the call o on m *)
  Definition P_step (o : op L R) (m m' : map) : Prop :=
    match o with
    | Insert l r => P_insert l r m m'
    | SwapLeft old new | SwapLeftChecked old _ new => P_swap_left old new m m'
    | SwapLeftOrInsert old new ti => P_swap_left old new m m' \/ P_insert new ti m m'
    | SwapRight old new | SwapRightChecked old _ new => P_swap_right old new m m'
    | SwapRightOrInsert old new ti => P_swap_right old new m m' \/ P_insert ti new m m'
    | Extend xs => P_extend xs m m'
    | ShrinkTo n => P_resize (Shrink n) m m'
    | ShrinkToFit => P_shrink_to_fit m m'
    | Reserve n | TryReserve n => P_resize (Grow n) m m'
    | _ => m' = m
    end.

  Lemma tr_left_insert : forall m h e (K : map -> Prop),
    (forall m', lost_l (CInsert h) m m' -> K m') -> tracks m (u_left_insert E F h e) (left_insert E h e) K.
  Proof.
    intros m h e K HK w. unfold u_left_insert, on_left, u_insert. simpl.
    destruct (ag_rehashing (lo E) F true (left_set m) (hb_next (lo E) (lay (left_set m)) (CInsert h (N.of_nat (t_len (left_set m)))))
                (t_insert (lo E) (left_set m) h e (make_hasher_l E (hash_builder m))) w)
      as [(w' & N & ->)|(N & t2 & SP & ->)].
    - left. exists w'. auto.
    - right. split; auto. eexists. split; [reflexivity|]. apply HK. exists t2. auto.
  Qed.
  Lemma tr_right_insert : forall m h e (K : map -> Prop),
    (forall m', lost_r (CInsert h) m m' -> K m') -> tracks m (u_right_insert E F h e) (right_insert E h e) K.
  Proof.
    intros m h e K HK w. unfold u_right_insert, on_right, u_insert. simpl.
    destruct (ag_rehashing (lo E) F true (right_set m) (hb_next (lo E) (lay (right_set m)) (CInsert h (N.of_nat (t_len (right_set m)))))
                (t_insert (lo E) (right_set m) h e (make_hasher_r E (hash_builder m))) w)
      as [(w' & N & ->)|(N & t2 & SP & ->)].
    - left. exists w'. auto.
    - right. split; auto. eexists. split; [reflexivity|]. apply HK. exists t2. auto.
  Qed.
  Lemma tr_left_resize : forall m z (K : map -> Prop), (forall m', lost_l (CSize z) m m' -> K m') ->
    tracks m (on_left (fun s t => u_resize (lo E) F t z (make_hasher_l E s)))
      (m <- getst ;; putst (set_left (t_resize (lo E) (left_set m) z (make_hasher_l E (hash_builder m))) m)) K.
  Proof.
    intros m z K HK w. unfold on_left, u_resize. change (match z with Grow _ => true | Shrink _ => false end) with (in_place (CSize z)). simpl.
    destruct (ag_rehashing (lo E) F (in_place (CSize z)) (left_set m) (hb_next (lo E) (lay (left_set m)) (CSize z (N.of_nat (t_len (left_set m)))))
                (t_resize (lo E) (left_set m) z (make_hasher_l E (hash_builder m))) w)
      as [(w' & N & ->)|(N & t2 & SP & ->)].
    - left. exists w'. auto.
    - right. split; auto. eexists. split; [reflexivity|]. apply HK. exists t2. auto.
  Qed.
  Lemma tr_right_resize : forall m z (K : map -> Prop), (forall m', lost_r (CSize z) m m' -> K m') ->
    tracks m (on_right (fun s t => u_resize (lo E) F t z (make_hasher_r E s)))
      (m <- getst ;; putst (set_right (t_resize (lo E) (right_set m) z (make_hasher_r E (hash_builder m))) m)) K.
  Proof.
    intros m z K HK w. unfold on_right, u_resize. change (match z with Grow _ => true | Shrink _ => false end) with (in_place (CSize z)). simpl.
    destruct (ag_rehashing (lo E) F (in_place (CSize z)) (right_set m) (hb_next (lo E) (lay (right_set m)) (CSize z (N.of_nat (t_len (right_set m)))))
                (t_resize (lo E) (right_set m) z (make_hasher_r E (hash_builder m))) w)
      as [(w' & N & ->)|(N & t2 & SP & ->)].
    - left. exists w'. auto.
    - right. split; auto. eexists. split; [reflexivity|]. apply HK. exists t2. auto.
  Qed.

  Lemma tr_remove_via_left : forall m l (K : map -> Prop), K m ->
    tracks m (u_remove_via_left E l) (remove_via_left E l) K.
  Proof.
    intros m l K KM. unfold u_remove_via_left. eapply tr_look; [apply ag_user|exact KM|].
    unfold remove_via_left. apply tr_getst. cbv zeta.
    apply tr_bind; [apply tr_left_remove; auto|]. intros m' [lp|] _; [|apply tr_ret].
    apply tr_bind; [apply tr_calm|]. intros m'' ro _.
    apply tr_bind; [apply tr_unwrap|]. intros. apply tr_ret.
  Qed.
  Lemma tr_remove_via_right : forall m r (K : map -> Prop), K m ->
    tracks m (u_remove_via_right E r) (remove_via_right E r) K.
  Proof.
    intros m l K KM. unfold u_remove_via_right. eapply tr_look; [apply ag_user|exact KM|].
    unfold remove_via_right. apply tr_getst. cbv zeta.
    apply tr_bind; [apply tr_right_remove; auto|]. intros m' [lp|] _; [|apply tr_ret].
    apply tr_bind; [apply tr_calm|]. intros m'' ro _.
    apply tr_bind; [apply tr_unwrap|]. intros. apply tr_ret.
  Qed.
  Lemma tr_remove : forall m l r (K : map -> Prop), K m -> tracks m (u_remove E l r) (remove E l r) K.
  Proof.
    intros m l r K KM. unfold u_remove. eapply tr_look; [apply ag_are_paired|exact KM|].
    eapply tr_same with (c0 := if are_paired E m l r then remove_via_left E l else ret None); [reflexivity|].
    destruct (are_paired E m l r); [apply tr_remove_via_left; auto|apply tr_ret].
  Qed.
  Lemma tr_insert : forall m l r, tracks m (u_insert_pair E F l r) (insert E l r) (P_insert l r m).
  Proof.
    intros m l r. unfold u_insert_pair, insert.
    apply tr_bind; [apply tr_remove_via_left; left; auto|]. intros m1 a H1.
    apply tr_bind; [apply tr_remove_via_right; right; left; eauto|]. intros m2 b H2.
    assert (K2 : P_insert l r m m2) by (right; right; exists m1, a, m2, b; auto).
    eapply tr_look; [apply ag_user|exact K2|]. eapply tr_look; [apply ag_user|exact K2|].
    eapply tr_look; [apply ag_ret|exact K2|].
    eapply tr_same with (c0 := _ <- incr_counter E ;;
       (left_insert E (lhash m2 l) (MP l (rhash m2 r) (counter m2)) ;;;
        right_insert E (rhash m2 r) (MP r (lhash m2 l) (counter m2)) ;;; ret (op_from_pair (a, b)))); [reflexivity|].
    apply tr_bind; [apply tr_calm|]. intros m3 [] H3.
    apply tr_bind.
    - apply tr_left_insert. intros m' HL. right; right. exists m1, a, m2, b. repeat (split; [auto|]). right. exists m3. auto.
    - intros m4 [] H4. apply tr_bind; [|intros; apply tr_ret].
      apply tr_right_insert. intros m' HL. right; right. exists m1, a, m2, b. repeat (split; [auto|]).
      right. exists m3. split; auto. right. exists m4. auto.
  Qed.
  Lemma tr_swap_left_eq_check : forall m old new h (K : map -> Prop), K m ->
    tracks m (u_swap_left_eq_check E old new h) (swap_left_eq_check E old new h) K.
  Proof.
    intros m old new h K KM. unfold u_swap_left_eq_check. eapply tr_look; [apply ag_get|exact KM|].
    eapply tr_same with (c0 := match t_get (lo E) (left_set m) h (equivalent_key (eqL E) new) with
      | None => ret None | Some _ => if negb (eqL E new old) then remove_via_left E new else ret None end); [reflexivity|].
    destruct (t_get _ _ _ _); [|apply tr_ret]. eapply tr_look; [apply ag_user|exact KM|].
    destruct (negb (eqL E new old)); [apply tr_remove_via_left; auto|apply tr_ret].
  Qed.
  Lemma tr_swap_right_eq_check : forall m old new h (K : map -> Prop), K m ->
    tracks m (u_swap_right_eq_check E old new h) (swap_right_eq_check E old new h) K.
  Proof.
    intros m old new h K KM. unfold u_swap_right_eq_check. eapply tr_look; [apply ag_get|exact KM|].
    eapply tr_same with (c0 := match t_get (lo E) (right_set m) h (equivalent_key (eqR E) new) with
      | None => ret None | Some _ => if negb (eqR E new old) then remove_via_right E new else ret None end); [reflexivity|].
    destruct (t_get _ _ _ _); [|apply tr_ret]. eapply tr_look; [apply ag_user|exact KM|].
    destruct (negb (eqR E new old)); [apply tr_remove_via_right; auto|apply tr_ret].
  Qed.
  Lemma tr_swap_left : forall m old new, tracks m (u_swap_left E F old new) (swap_left E old new) (P_swap_left old new m).
  Proof.
    intros m old new. assert (K0 : P_swap_left old new m m) by (left; auto).
    unfold u_swap_left, swap_left. eapply tr_look; [apply ag_user|exact K0|].
    apply tr_getst. cbv zeta.
    apply tr_bind; [apply tr_swap_left_eq_check; auto|]. intros m1 a H1.
    assert (K1 : P_swap_left old new m m1) by (right; exists m1, a; auto).
    eapply tr_look; [apply ag_user|exact K1|]. eapply tr_look; [apply ag_get|exact K1|].
    apply tr_getst. cbv zeta.
    destruct (t_get (lo E) (left_set m1) (lhash m1 old) (equivalent_key (eqL E) old)) as [lp|] eqn:G;
      [|apply tr_ret].
    eapply tr_same with (c0 := (mm <- getst ;;
                i <- unwrap (t_find (lo E) (right_set mm) (phash lp)
                               (hash_and_id (lhash m1 old) (pid lp))) ;;
                putst (set_right (t_modify (right_set mm) i
                                    (fun p => MP (value p) (lhash m new) (pid p))) mm)) ;;;
        o <- left_remove_entry E (lhash m1 old) (equivalent_key (eqL E) old) ;;
        old_pairing <- unwrap o ;;
        left_insert E (lhash m new) (MP new (phash lp) (pid lp)) ;;;
        ret (op_from_pair (Some (value old_pairing), a))).
    { unfold bind, getst.
      destruct (t_find (lo E) (right_set m1) (phash lp) (hash_and_id (lhash m1 old) (pid lp))) as [i|]; reflexivity. }
    apply tr_bind; [apply tr_calm|]. intros m2 [] H2.
    unfold bind, getst in H2.
    destruct (t_find (lo E) (right_set m1) (phash lp) (hash_and_id (lhash m1 old) (pid lp))) as [i|] eqn:FI;
      [|discriminate]. simpl in H2. injection H2 as <-.
    apply tr_bind.
    - apply tr_left_remove. right. exists m1, a. split; auto. right. exists lp, i. auto.
    - intros m3 o H3. destruct o as [e|]; [|apply tr_panic].
      eapply tr_same with (c0 := left_insert E (lhash m new) (MP new (phash lp) (pid lp)) ;;;
        ret (op_from_pair (Some (value e), a))); [reflexivity|].
      change (tracks m3 (u_left_insert E F (lhash m new) (MP new (phash lp) (pid lp)) ;;;
        ret (op_from_pair (Some (value e), a))) (left_insert E (lhash m new) (MP new (phash lp) (pid lp)) ;;;
        ret (op_from_pair (Some (value e), a))) (P_swap_left old new m)).
      apply tr_bind; [|intros; apply tr_ret].
      apply tr_left_insert. intros m' HL. right. exists m1, a. split; auto. right. exists lp, i.
      split; auto. split; auto. right. exists m3, e. auto.
  Qed.
  Lemma tr_swap_right : forall m old new, tracks m (u_swap_right E F old new) (swap_right E old new) (P_swap_right old new m).
  Proof.
    intros m old new. assert (K0 : P_swap_right old new m m) by (left; auto).
    unfold u_swap_right, swap_right. eapply tr_look; [apply ag_user|exact K0|].
    apply tr_getst. cbv zeta.
    apply tr_bind; [apply tr_swap_right_eq_check; auto|]. intros m1 a H1.
    assert (K1 : P_swap_right old new m m1) by (right; exists m1, a; auto).
    eapply tr_look; [apply ag_user|exact K1|]. eapply tr_look; [apply ag_get|exact K1|].
    apply tr_getst. cbv zeta.
    destruct (t_get (lo E) (right_set m1) (rhash m1 old) (equivalent_key (eqR E) old)) as [rp|] eqn:G;
      [|apply tr_ret].
    eapply tr_same with (c0 := i <- (mm <- getst ;; unwrap (t_find (lo E) (left_set mm) (phash rp)
                                             (hash_and_id (rhash m1 old) (pid rp)))) ;;
        putst (repoint_l m1 rp i (rhash m1 new)) ;;;
        o <- right_remove_entry E (rhash m1 old) (equivalent_key (eqR E) old) ;;
        old_pairing <- unwrap o ;;
        right_insert E (rhash m1 new) (MP new (phash rp) (pid rp)) ;;;
        ret (op_from_pair (Some (value old_pairing), a))); [reflexivity|].
    apply tr_bind; [apply tr_calm|]. intros m2 i H2. unfold bind, getst in H2.
    destruct (t_find (lo E) (left_set m1) (phash rp) (hash_and_id (rhash m1 old) (pid rp))) as [j|] eqn:FI;
      [|discriminate]. simpl in H2. injection H2 as <- <-.
    eapply tr_look; [apply ag_user|exact K1|].
    eapply tr_same with (c0 := (mm <- getst ;; putst (repoint_l mm rp j (rhash m1 new))) ;;;
        o <- right_remove_entry E (rhash m1 old) (equivalent_key (eqR E) old) ;;
        old_pairing <- unwrap o ;;
        right_insert E (rhash m1 new) (MP new (phash rp) (pid rp)) ;;;
        ret (op_from_pair (Some (value old_pairing), a))); [reflexivity|].
    apply tr_bind; [apply tr_calm|]. intros m2 [] H2. unfold bind, getst, putst in H2. injection H2 as <-.
    apply tr_bind.
    - apply tr_right_remove. right. exists m1, a. split; auto. right. exists rp, j. auto.
    - intros m3 o H3. destruct o as [e|]; [|apply tr_panic].
      change (tracks m3 (u_right_insert E F (rhash m1 new) (MP new (phash rp) (pid rp)) ;;;
        ret (op_from_pair (Some (value e), a))) (right_insert E (rhash m1 new) (MP new (phash rp) (pid rp)) ;;;
        ret (op_from_pair (Some (value e), a))) (P_swap_right old new m)).
      apply tr_bind; [|intros; apply tr_ret].
      apply tr_right_insert. intros m' HL. right. exists m1, a. split; auto. right. exists rp, j.
      split; auto. split; auto. right. exists m3, e. auto.
  Qed.
  Lemma tr_swap_left_checked : forall m old ex new,
    tracks m (u_swap_left_checked E F old ex new) (swap_left_checked E old ex new) (P_swap_left old new m).
  Proof.
    intros. unfold u_swap_left_checked. eapply tr_look; [apply ag_are_paired|left; auto|].
    eapply tr_same with (c0 := if negb (are_paired E m old ex) then ret Neither else swap_left E old new); [reflexivity|].
    destruct (negb _); [apply tr_ret|apply tr_swap_left].
  Qed.
  Lemma tr_swap_right_checked : forall m old ex new,
    tracks m (u_swap_right_checked E F old ex new) (swap_right_checked E old ex new) (P_swap_right old new m).
  Proof.
    intros. unfold u_swap_right_checked. eapply tr_look; [apply ag_are_paired|left; auto|].
    eapply tr_same with (c0 := if negb (are_paired E m ex old) then ret Neither else swap_right E old new); [reflexivity|].
    destruct (negb _); [apply tr_ret|apply tr_swap_right].
  Qed.
  Lemma tr_swap_left_or_insert : forall m old new ti,
    tracks m (u_swap_left_or_insert E F old new ti) (swap_left_or_insert E old new ti)
      (fun m' => P_swap_left old new m m' \/ P_insert new ti m m').
  Proof.
    intros. assert (K0 : P_swap_left old new m m \/ P_insert new ti m m) by (left; left; auto).
    unfold u_swap_left_or_insert. eapply tr_look; [apply ag_user|exact K0|]. eapply tr_look; [apply ag_get|exact K0|].
    eapply tr_same with (c0 := match t_get (lo E) (left_set m) (lhash m old) (equivalent_key (eqL E) old) with
      | Some _ => swap_left E old new | None => d <- insert E new ti ;; ret (op_map_left fst d) end); [reflexivity|].
    destruct (t_get _ _ _ _).
    - eapply tr_weaken; [apply tr_swap_left|]. auto.
    - apply tr_bind; [|intros; apply tr_ret]. eapply tr_weaken; [apply tr_insert|]. auto.
  Qed.
  Lemma tr_swap_right_or_insert : forall m old new ti,
    tracks m (u_swap_right_or_insert E F old new ti) (swap_right_or_insert E old new ti)
      (fun m' => P_swap_right old new m m' \/ P_insert ti new m m').
  Proof.
    intros. assert (K0 : P_swap_right old new m m \/ P_insert ti new m m) by (left; left; auto).
    unfold u_swap_right_or_insert. eapply tr_look; [apply ag_user|exact K0|]. eapply tr_look; [apply ag_get|exact K0|].
    eapply tr_same with (c0 := match t_get (lo E) (right_set m) (rhash m old) (equivalent_key (eqR E) old) with
      | Some _ => swap_right E old new
      | None => d <- insert E ti new ;; match d with | Neither => ret Neither | SomeRight pr => ret (SomeRight pr) | _ => panic end
      end); [reflexivity|].
    destruct (t_get _ _ _ _).
    - eapply tr_weaken; [apply tr_swap_right|]. auto.
    - apply tr_bind; [|intros m' [|?|?|? ?] _; (apply tr_ret || apply tr_panic)].
      eapply tr_weaken; [apply tr_insert|]. auto.
  Qed.
  Lemma tr_extend : forall xs m, tracks m (u_extend E F xs) (extend E xs) (P_extend xs m).
  Proof.
    induction xs as [|[l r] t IH]; intros m; simpl; [apply tr_ret|].
    apply tr_bind; [eapply tr_weaken; [apply tr_insert|]; auto|].
    intros m1 d H. eapply tr_weaken; [apply IH|]. intros m' HP. right. eauto.
  Qed.
  Lemma tr_resize_both : forall m z, tracks m (u_resize_both E F z) (resize_both E z) (P_resize z m).
  Proof.
    intros m z. unfold u_resize_both.
    eapply tr_same with (c0 := (m <- getst ;; putst (set_left (t_resize (lo E) (left_set m) z (make_hasher_l E (hash_builder m))) m)) ;;;
      (m <- getst ;; putst (set_right (t_resize (lo E) (right_set m) z (make_hasher_r E (hash_builder m))) m))); [reflexivity|].
    apply tr_bind; [apply tr_left_resize; intros; left; auto|].
    intros m' [] H. unfold bind, getst, putst in H. injection H as <-.
    apply tr_right_resize. intros; right; auto.
  Qed.
  Lemma tr_try_resize_l : forall m n (K : map -> Prop), (forall m', lost_l (CSize (Grow n)) m m' -> K m') ->
    tracks m (on_left (fun s t => u_try_resize (lo E) F t n (make_hasher_l E s)))
      (m <- getst ;; let (ok, t) := t_try_resize (lo E) (left_set m) n (make_hasher_l E (hash_builder m)) in
        putst (set_left t m) ;;; ret ok) K.
  Proof.
    intros m z K HK w. unfold on_left, u_try_resize, t_try_resize, u_resize, bind, getst. simpl.
    destruct (hb_try _ _); [|left; exists w; auto].
    destruct (ag_rehashing (lo E) F true (left_set m) (hb_next (lo E) (lay (left_set m)) (CSize (Grow z) (N.of_nat (t_len (left_set m)))))
                (t_resize (lo E) (left_set m) (Grow z) (make_hasher_l E (hash_builder m))) w)
      as [(w' & N & ->)|(N & t2 & SP & ->)].
    - left. exists w'. auto.
    - right. split; auto. eexists. split; [reflexivity|]. apply HK. exists t2. auto.
  Qed.
  Lemma tr_try_resize_r : forall m n (K : map -> Prop), (forall m', lost_r (CSize (Grow n)) m m' -> K m') ->
    tracks m (on_right (fun s t => u_try_resize (lo E) F t n (make_hasher_r E s)))
      (m <- getst ;; let (ok, t) := t_try_resize (lo E) (right_set m) n (make_hasher_r E (hash_builder m)) in
        putst (set_right t m) ;;; ret ok) K.
  Proof.
    intros m z K HK w. unfold on_right, u_try_resize, t_try_resize, u_resize, bind, getst. simpl.
    destruct (hb_try _ _); [|left; exists w; auto].
    destruct (ag_rehashing (lo E) F true (right_set m) (hb_next (lo E) (lay (right_set m)) (CSize (Grow z) (N.of_nat (t_len (right_set m)))))
                (t_resize (lo E) (right_set m) (Grow z) (make_hasher_r E (hash_builder m))) w)
      as [(w' & N & ->)|(N & t2 & SP & ->)].
    - left. exists w'. auto.
    - right. split; auto. eexists. split; [reflexivity|]. apply HK. exists t2. auto.
  Qed.
  Lemma tr_try_reserve : forall m n, tracks m (u_try_reserve E F n) (try_reserve E n) (P_resize (Grow n) m).
  Proof.
    intros m n. unfold u_try_reserve.
    eapply tr_same with (c0 := ok <- (m <- getst ;; let (ok, t) := t_try_resize (lo E) (left_set m) n (make_hasher_l E (hash_builder m)) in
        putst (set_left t m) ;;; ret ok) ;;
      if ok : bool then (m <- getst ;; let (ok, t) := t_try_resize (lo E) (right_set m) n (make_hasher_r E (hash_builder m)) in
        putst (set_right t m) ;;; ret ok) else ret false).
    { unfold try_reserve, bind, getst. destruct (t_try_resize _ _ _ _) as [[|] t]; reflexivity. }
    apply tr_bind; [apply tr_try_resize_l; intros; left; auto|].
    intros m' [|] H; [|apply tr_ret]. unfold bind, getst, putst, t_try_resize in H.
    destruct (hb_try _ _); [|discriminate]. injection H as <-.
    apply tr_try_resize_r. intros; right; auto.
  Qed.
  Lemma tr_shrink_to_fit : forall m, layout_ok (lo E) -> tracks m (u_shrink_to_fit E F) (shrink_to_fit E) (P_shrink_to_fit m).
  Proof.
    intros m LO. unfold u_shrink_to_fit, P_shrink_to_fit.
    intros w. unfold bind at 1, look at 1. simpl.
    revert w.
    change (tracks m (on_left (fun s t => u_resize (lo E) F t (Shrink (N.of_nat (len m))) (make_hasher_l E s)) ;;;
       n <- look (fun m => ret (len m)) ;;
       on_right (fun s t => u_resize (lo E) F t (Shrink (N.of_nat n)) (make_hasher_r E s)))
      (shrink_to_fit E) (P_resize (Shrink (N.of_nat (len m))) m)).
    eapply tr_same with (c0 := (m1 <- getst ;; putst (set_left (t_resize (lo E) (left_set m1) (Shrink (N.of_nat (len m))) (make_hasher_l E (hash_builder m1))) m1)) ;;;
      (m <- getst ;; putst (set_right (t_resize (lo E) (right_set m) (Shrink (N.of_nat (len m))) (make_hasher_r E (hash_builder m))) m)));
      [reflexivity|].
    apply tr_bind; [apply tr_left_resize; intros; left; auto|].
    intros m' [] H. unfold bind, getst, putst in H. injection H as <-.
    set (m1 := set_left _ m).
    assert (HL : len m1 = len m).
    { unfold m1, len, t_len, set_left. simpl. rewrite (Permutation_length (order_perm _ LO _ _ _)).
      unfold t_rehash. destruct (hb_grow _ _); rewrite ?map_length; auto. }
    intros w. unfold bind, look. simpl. rewrite HL.
    apply (tr_right_resize m1 (Shrink (N.of_nat (len m)))). intros; right; auto.
  Qed.

  (* every call *)
  Lemma tr_via : forall {A} m w (k : A -> out L R) (c : FM A) c0 (K : map -> Prop), tracks m c c0 K ->
    u_via k c m w = via k (c0 m) \/ (w <> None /\ exists m', u_via k c m w = (m', OPanic) /\ K m').
  Proof.
    intros A m w k c c0 K H. unfold u_via, via. destruct (H w) as [(w' & N & ->)|(N & m' & -> & HK)].
    - left. destruct (c0 m); reflexivity.
    - right. eauto.
  Qed.
  Definition reads {A} (o : outcome A) : M map A :=
    fun m => match o with Done a => Ret m a | Panicked => Panic m end.
  Lemma tr_reads : forall {A} m w (k : A -> out L R) (f : map -> M fuse A) o, agrees (f m) o ->
    u_via k (look f) m w = seen m k o \/ (w <> None /\ exists m', u_via k (look f) m w = (m', OPanic) /\ m' = m).
  Proof.
    intros A m w k f o H. destruct (tr_via m w k (look f) (reads o) (fun m' => m' = m)) as [Q|Q].
    - eapply tr_read; [exact H|reflexivity|reflexivity].
    - left. rewrite Q. destruct o; reflexivity.
    - right. exact Q.
  Qed.

  Theorem u_step_cases : layout_ok (lo E) -> forall m o w,
    u_step E F m o w = step E m o \/
    (w <> None /\ exists m', u_step E F m o w = (m', OPanic) /\ P_step o m m').
  Proof.
    intros LO m o w. destruct o; cbn [u_step step P_step]; auto.
    - apply tr_via, tr_insert.
    - apply tr_via, tr_remove; auto.
    - apply tr_via, tr_remove_via_left; auto.
    - apply tr_via, tr_remove_via_right; auto.
    - apply tr_via, tr_swap_left.
    - apply tr_via, tr_swap_left_checked.
    - apply tr_via, tr_swap_left_or_insert.
    - apply tr_via, tr_swap_right.
    - apply tr_via, tr_swap_right_checked.
    - apply tr_via, tr_swap_right_or_insert.
    - apply (tr_reads m w OBool (fun m => u_are_paired E m l r) (Done _)), ag_are_paired.
    - apply (tr_reads m w OBool (fun m => u_contains_left E m l) (Done _)), ag_contains_left.
    - apply (tr_reads m w OBool (fun m => u_contains_right E m r) (Done _)), ag_contains_right.
    - apply (tr_reads m w OL (fun m => u_get_left E m r) (Done _)), ag_get_left.
    - apply (tr_reads m w OR (fun m => u_get_right E m l) (Done _)), ag_get_right.
    - apply tr_reads, ag_iter_all.
    - apply tr_via, tr_extend.
    - destruct (tr_via m w (fun _ => OUnit) (u_retain E f x) (retain_m f x) (fun m' => m' = m)) as [Q|Q];
        [apply tr_retain; auto| |right; exact Q]. left. rewrite Q. unfold retain_m.
      destruct (retain E f (m, x)) as [[? ?] []|[? ?]]; reflexivity.
    - apply (tr_via m w (fun _ => OUnit) _ (resize_both E (Shrink n))), tr_resize_both.
    - apply tr_via, tr_shrink_to_fit; auto.
    - apply (tr_via m w (fun _ => OUnit) _ (resize_both E (Grow n))), tr_resize_both.
    - apply tr_via, tr_try_reserve.
  Qed.
  (* user code that does not panic: the model of CycleMap.v *)
  Corollary u_step_calm : layout_ok (lo E) -> forall m o, u_step E F m o None = step E m o.
  Proof. intros LO m o. destruct (u_step_cases LO m o None) as [Q|[Q _]]; [auto|congruence]. Qed.
End Tracks.
