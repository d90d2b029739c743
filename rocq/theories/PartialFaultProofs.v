(* PartialCycleMap with panicking user code (PartialFault.v): every call either does what
   PartialCycleMap.v says or panics in one of the states described by [P_step]. *)
From Coq Require Import List NArith Lia Bool Permutation PeanoNat.
From Verif Require Import Closures Prelude RawTable Optionals PartialCycleMap ListFacts TableFacts SoundTables
  PartialSpec PartialHistory PartialAny Faults PartialFault.
Import ListNotations.
Open Scope N_scope.

Section Tracks.
  Context {L R S : Type}.
  Variable E : env L R S.
  Variable F : fault.
  Notation map := (pmap L R S).
  Notation FM A := (M (fuse * pmap L R S) A).

  Lemma tr_left_remove : forall m h l (K : map -> Prop), K m ->
    tracks m (u_left_remove_entry E h l) (left_remove_entry E h (equivalent_key (eqL E) l)) K.
  Proof.
    intros m h l K KM. unfold u_left_remove_entry. eapply tr_look; [apply ag_remove_entry|exact KM|].
    intros w. left. exists w. split; auto. unfold left_remove_entry, bind, getst.
    destruct (t_remove_entry _ _ _ _) as [[e t]|]; reflexivity.
  Qed.
  Lemma tr_right_remove : forall m h r (K : map -> Prop), K m ->
    tracks m (u_right_remove_entry E h r) (right_remove_entry E h (equivalent_key (eqR E) r)) K.
  Proof.
    intros m h l K KM. unfold u_right_remove_entry. eapply tr_look; [apply ag_remove_entry|exact KM|].
    intros w. left. exists w. split; auto. unfold right_remove_entry, bind, getst.
    destruct (t_remove_entry _ _ _ _) as [[e t]|]; reflexivity.
  Qed.

  (* ---- reading ---- *)
  Ltac ag := repeat (eapply ag_bind; [first [apply ag_user|apply ag_get]|]).
  Lemma ag_are_paired : forall m l r, returns (u_are_paired E m l r) (are_paired E m l r).
  Proof. intros. unfold u_are_paired, hash_l, hash_r, find_left, find_right. ag. apply ag_ret. Qed.
  Lemma ag_contains_left : forall m l, returns (u_contains_left E m l) (contains_left E m l).
  Proof. intros. unfold u_contains_left, hash_l, find_left. ag. apply ag_ret. Qed.
  Lemma ag_contains_right : forall m r, returns (u_contains_right E m r) (contains_right E m r).
  Proof. intros. unfold u_contains_right, hash_r, find_right. ag. apply ag_ret. Qed.
  Lemma ag_is_left_paired : forall m l, returns (u_is_left_paired E m l) (is_left_paired E m l).
  Proof. intros. unfold u_is_left_paired, hash_l, find_left. ag. apply ag_ret. Qed.
  Lemma ag_is_right_paired : forall m r, returns (u_is_right_paired E m r) (is_right_paired E m r).
  Proof. intros. unfold u_is_right_paired, hash_r, find_right. ag. apply ag_ret. Qed.
  Lemma ag_get_left : forall m r, returns (u_get_left E m r) (get_left E m r).
  Proof. intros. unfold u_get_left, hash_r, find_right. ag. apply ag_ret. Qed.
  Lemma ag_get_right : forall m l, returns (u_get_right E m l) (get_right E m l).
  Proof. intros. unfold u_get_right, hash_l, find_left. ag. apply ag_ret. Qed.
  Lemma ag_get_left_inner : forall m l, returns (u_get_left_inner E m l) (get_left_inner E m l).
  Proof. intros. unfold u_get_left_inner, hash_l, find_left. ag. apply ag_get. Qed.
  Lemma ag_get_right_inner : forall m r, returns (u_get_right_inner E m r) (get_right_inner E m r).
  Proof. intros. unfold u_get_right_inner, hash_r, find_right. ag. apply ag_get. Qed.
  Lemma ag_find_both : forall m l r, returns (u_find_both E m l r) tt.
  Proof. intros. unfold u_find_both, hash_l, hash_r, find_left, find_right. ag. apply ag_ret. Qed.
  Lemma ag_iter_next : forall m it, agrees (u_iter_next E m it) (iter_next E m it).
  Proof.
    intros m [|[h l] rest]; simpl; [apply ag_ret|]. eapply ag_bind; [apply ag_get_right|]. apply ag_ret.
  Qed.
  Lemma ag_paired_next : forall m it, agrees (u_paired_next E m it) (paired_next E m it).
  Proof.
    intros m it. induction it as [|[h l] rest IH]; cbn [u_paired_next paired_next]; [apply ag_ret|].
    destruct (phash l) as [hh|]; [|exact IH]. eapply ag_bind; [apply ag_user|].
    eapply ag_eq; [eapply ag_bind_o with (o' := fun o => Done (o, rest)); [apply ag_inner|]|].
    - intros. apply ag_ret.
    - destruct (get_via_hashes_and_id _ _ _ _ _); reflexivity.
  Qed.
  Lemma ag_collect : forall {I A} (next : I -> M fuse (option A * I)) (next0 : I -> outcome (option A * I)),
    (forall it, agrees (next it) (next0 it)) -> forall fuel it, agrees (u_collect next fuel it) (collect next0 fuel it).
  Proof.
    intros I A next next0 HN. induction fuel as [|fuel IH]; intros it; simpl.
    - eapply ag_eq; [eapply ag_bind_o with (o' := fun x => match x with
         | (None, _) => Done [] | (Some p, it') => Panicked end); [apply HN|]|].
      + intros [[p|] it'] _; [apply ag_panic|apply ag_ret].
      + destruct (next0 it) as [[[p|] it']|]; reflexivity.
    - eapply ag_eq; [eapply ag_bind_o with (o' := fun x => match x with
         | (None, _) => Done [] | (Some p, it') => omap (cons p) (collect next0 fuel it') end);
         [apply HN|]|].
      + intros [[p|] it'] _; [|apply ag_ret].
        eapply ag_eq; [eapply ag_bind_o with (o' := fun l => Done (p :: l)); [apply IH|]|].
        * intros a _. apply ag_ret.
        * destruct (collect _ fuel it'); reflexivity.
      + destruct (next0 it) as [[[p|] it']|]; reflexivity.
  Qed.
  Lemma ag_iter_all : forall m, agrees (u_iter_all E m) (iter_all E m).
  Proof. intros. apply ag_collect, ag_iter_next. Qed.
  Lemma ag_paired_all : forall m, agrees (u_paired_all E m) (paired_rest E m (iter_paired m)).
  Proof. intros. apply ag_collect, ag_paired_next. Qed.
  Lemma ag_eq_item : forall other op, agrees (u_eq_item E other op) (eq_item E other op).
  Proof.
    intros other [|l|r|l r]; simpl; [apply ag_panic| | |apply ag_are_paired].
    - eapply ag_bind; [apply ag_get_right|]. apply ag_ret.
    - eapply ag_bind; [apply ag_get_left|]. apply ag_ret.
  Qed.
  Lemma ag_all_items : forall m other fuel it,
    agrees (u_all_items E m other fuel it) (all_items E m other fuel it).
  Proof.
    induction fuel as [|fuel IH]; intros it; cbn [u_all_items all_items].
    - eapply ag_eq; [eapply ag_bind_o with (o' := fun x => match x with
         | (None, _) => Done true
         | (Some op, it') => match eq_item E other op with
                             | Panicked => Panicked | Done false => Done false | Done true => Panicked end
         end); [apply ag_iter_next|]|].
      + intros [[op|] it'] _; [|apply ag_ret].
        eapply ag_eq; [eapply ag_bind_o with (o' := fun b : bool => if b then Panicked else Done false); [apply ag_eq_item|]|].
        * intros [|] _; [apply ag_panic|apply ag_ret].
        * destruct (eq_item E other op) as [[|]|]; reflexivity.
      + destruct (iter_next E m it) as [[[op|] it']|]; reflexivity.
    - eapply ag_eq; [eapply ag_bind_o with (o' := fun x => match x with
         | (None, _) => Done true
         | (Some op, it') => match eq_item E other op with
                             | Panicked => Panicked | Done false => Done false
                             | Done true => all_items E m other fuel it' end
         end); [apply ag_iter_next|]|].
      + intros [[op|] it'] _; [|apply ag_ret].
        eapply ag_eq; [eapply ag_bind_o with (o' := fun b : bool => if b then all_items E m other fuel it' else Done false); [apply ag_eq_item|]|].
        * intros [|] _; [apply IH|apply ag_ret].
        * destruct (eq_item E other op) as [[|]|]; reflexivity.
      + destruct (iter_next E m it) as [[[op|] it']|]; reflexivity.
  Qed.
  Lemma ag_map_eq : forall m other, agrees (u_map_eq E m other) (map_eq E m other).
  Proof.
    intros. unfold u_map_eq, map_eq. destruct (_ && _); [apply ag_ret|apply ag_all_items].
  Qed.

  Notation or_panic o := (match o with Some a => Done a | None => Panicked end).
  Lemma ag_retain_key : forall m op, agrees (u_retain_key E m op) (or_panic (retain_key E m op)).
  Proof.
    intros m op. unfold u_retain_key, retain_key. destruct (op_to_pair op) as [lft rgt].
    assert (HO : forall {A B} (f : A -> M fuse B) (g : A -> B) (o : option A), (forall a, returns (f a) (g a)) ->
      returns (u_opt f o) (option_map g o)).
    { intros A B f g [a|] HF; simpl; [|apply ag_ret]. eapply ag_bind; [apply HF|]. apply ag_ret. }
    eapply ag_bind; [apply HO; intros; apply ag_user|]. eapply ag_bind; [apply HO; intros; apply ag_user|].
    destruct lft as [l|].
    - eapply ag_bind; [apply ag_get_left_inner|]. destruct (get_left_inner E m l); simpl; [apply ag_ret|apply ag_panic].
    - destruct rgt as [r|]; [|apply ag_panic].
      eapply ag_bind; [apply ag_get_right_inner|]. destruct (get_right_inner E m r); simpl; [apply ag_ret|apply ag_panic].
  Qed.
  Lemma ag_retain_paired_key : forall m p, agrees (u_retain_paired_key E m p) (or_panic (retain_paired_key E m p)).
  Proof.
    intros m p. unfold u_retain_paired_key, retain_paired_key, hash_l, hash_r. ag.
    eapply ag_bind; [apply ag_get_left_inner|]. destruct (get_left_inner E m (fst p)); simpl; [apply ag_ret|apply ag_panic].
  Qed.
  Lemma ag_retain_unpaired_key : forall m op, agrees (u_retain_unpaired_key E m op) (or_panic (retain_unpaired_key E m op)).
  Proof.
    intros m [|l|r|l r]; simpl; try apply ag_panic; unfold hash_l, hash_r, find_left, find_right; ag.
    - unfold get_left_inner. destruct (t_get _ _ _ _); simpl; [apply ag_ret|apply ag_panic].
    - unfold get_right_inner. destruct (t_get _ _ _ _); simpl; [apply ag_ret|apply ag_panic].
  Qed.

  (* the scan of the retain functions: panics of the closure are values, other panics are panics *)
  Section Retain.
    Context {X A I : Type}.
    Variable f : X -> A -> X * verdict.
    Variable next : I -> M fuse (option A * I).
    Variable next0 : I -> outcome (option A * I).
    Variable key : A -> M fuse drop_tup.
    Variable key0 : A -> option drop_tup.
    Hypothesis HN : forall it, agrees (next it) (next0 it).
    Hypothesis HK : forall a, agrees (key a) (or_panic (key0 a)).
    Definition told (o : outcome (res X (list drop_tup))) (r : res X (list drop_tup)) : Prop :=
      match o with Done r' => r = r' | Panicked => exists x', r = Panic x' end.
    Lemma ag_dropped : forall a (ans : bool),
      agrees (if ans then t <- key a ;; ret [t] else ret [])
        (if ans then match key0 a with None => Panicked | Some t => Done [t] end else Done []).
    Proof.
      intros a [|]; [|apply ag_ret].
      eapply ag_eq; [eapply ag_bind_o with (o' := fun t => Done [t]); [apply HK|]; intros; apply ag_ret|].
      destruct (key0 a); reflexivity.
    Qed.
    Lemma ag_retain_scan : forall fuel it x,
      exists o, agrees (u_retain_scan f next key fuel it x) o /\ told o (retain_scan f next0 key0 fuel it x).
    Proof.
      induction fuel as [|fuel IH]; intros it x; cbn [u_retain_scan retain_scan]; assert (AN := HN it);
        destruct (next0 it) as [[[a|] it']|].
      - destruct (f x a) as [x' [ans|]] eqn:FX.
        + exists Panicked. split.
          * eapply ag_bind; [exact AN|]. cbv beta iota. rewrite FX.
            eapply ag_eq; [eapply ag_bind_o with (o' := fun _ => Panicked); [apply ag_dropped|]; intros; apply ag_panic|].
            destruct ans; [destruct (key0 a)|]; reflexivity.
          * simpl. destruct ans; [destruct (key0 a)|]; eauto.
        + exists (Done (Panic x')). split; [|reflexivity].
          eapply ag_bind; [exact AN|]. cbv beta iota. rewrite FX. apply ag_ret.
      - exists (Done (Ret x [])). split; [|reflexivity]. eapply ag_bind; [exact AN|]. apply ag_ret.
      - exists Panicked. split; [|simpl; eauto].
        eapply ag_eq; [eapply ag_bind_o with (o' := fun _ => Panicked); [exact AN|discriminate]|reflexivity].
      - destruct (f x a) as [x' [ans|]] eqn:FX.
        + destruct (IH it' x') as (o & AG & HO).
          exists (match (if ans then match key0 a with None => Panicked | Some t => Done [t] end else Done []) with
                  | Panicked => Panicked
                  | Done d => match o with
                              | Panicked => Panicked
                              | Done r => Done (match r with Ret x'' l => Ret x'' (d ++ l) | Panic x'' => Panic x'' end)
                              end
                  end). split.
          * eapply ag_bind; [exact AN|]. cbv beta iota. rewrite FX.
            eapply ag_bind_o with (o' := fun d => match o with
               | Panicked => Panicked
               | Done r => Done (match r with Ret x'' l => Ret x'' (d ++ l) | Panic x'' => Panic x'' end)
               end); [apply ag_dropped|]. intros d _.
            eapply ag_bind_o with (o' := fun r => Done (match r with Ret x'' l => Ret x'' (d ++ l) | Panic x'' => Panic x'' end));
              [exact AG|]. intros r _. apply ag_ret.
          * unfold told in HO. destruct ans; [destruct (key0 a); [|simpl; eauto]|].
            { destruct o as [[x'' l|x'']|]; [rewrite HO; reflexivity|rewrite HO; reflexivity|].
              destruct HO as [x'' ->]. simpl. eauto. }
            { destruct o as [[x'' l|x'']|]; [rewrite HO; reflexivity|rewrite HO; reflexivity|].
              destruct HO as [x'' ->]. simpl. eauto. }
        + exists (Done (Panic x')). split; [|reflexivity].
          eapply ag_bind; [exact AN|]. cbv beta iota. rewrite FX. apply ag_ret.
      - exists (Done (Ret x [])). split; [|reflexivity]. eapply ag_bind; [exact AN|]. apply ag_ret.
      - exists Panicked. split; [|simpl; eauto].
        eapply ag_eq; [eapply ag_bind_o with (o' := fun _ => Panicked); [exact AN|discriminate]|reflexivity].
    Qed.
  End Retain.
  (* retain, the closure's state forgotten *)
  Definition forget {X} (r : map -> res (map * X) unit) : M map unit :=
    fun m => match r m with Ret (m', _) _ => Ret m' tt | Panic (m', _) => Panic m' end.
  Lemma tr_retain_with : forall {X A I} (f : X -> A -> X * verdict) next0 key0 fuel (it : I) m x
      (scan : map -> M fuse (res X (list drop_tup))) (K : map -> Prop),
    (exists o, agrees (scan m) o /\ told o (retain_scan f next0 key0 fuel it x)) -> K m ->
    tracks m (u_retain_with E scan) (forget (fun m => retain_with E f next0 key0 fuel it (m, x))) K.
  Proof.
    intros X A I f next0 key0 fuel it m x scan K (o & AG & HO) KM. unfold u_retain_with, told in *.
    destruct o as [r|].
    - eapply tr_look; [exact AG|exact KM|]. destruct r as [x' l|x'].
      + eapply tr_same; [|apply tr_calm]. unfold forget, retain_with. rewrite HO.
        destruct (drop_all E l m) as [m' []|m']; reflexivity.
      + eapply tr_same; [|apply tr_panic]. unfold forget, retain_with. rewrite HO. reflexivity.
    - destruct HO as [x' HO]. intros w. unfold bind, look, forget, retain_with. simpl. rewrite HO.
      destruct (AG w) as [(w' & N & ->)|(N & ->)]; [left; exists w'; auto|right; eauto].
  Qed.
  Lemma tr_retain : forall {X} (f : X -> optional_pair L R -> X * verdict) m x (K : map -> Prop), K m ->
    tracks m (u_retain E f x) (forget (fun m => retain E f (m, x))) K.
  Proof.
    intros X f m x K KM. eapply tr_same; [|eapply tr_retain_with; [|exact KM]]; [reflexivity|].
    apply ag_retain_scan; [apply ag_iter_next|apply ag_retain_key].
  Qed.
  Lemma tr_retain_paired : forall {X} (f : X -> L * R -> X * verdict) m x (K : map -> Prop), K m ->
    tracks m (u_retain_paired E f x) (forget (fun m => retain_paired E f (m, x))) K.
  Proof.
    intros X f m x K KM. eapply tr_same; [|eapply tr_retain_with; [|exact KM]]; [reflexivity|].
    apply ag_retain_scan; [apply ag_paired_next|apply ag_retain_paired_key].
  Qed.
  Lemma tr_retain_unpaired : forall {X} (f : X -> optional_pair L R -> X * verdict) m x (K : map -> Prop), K m ->
    tracks m (u_retain_unpaired E f x) (forget (fun m => retain_unpaired E f (m, x))) K.
  Proof.
    intros X f m x K KM. eapply tr_same; [|eapply tr_retain_with; [|exact KM]]; [reflexivity|].
    apply ag_retain_scan; [intros; apply ag_inner|apply ag_retain_unpaired_key].
  Qed.

  (* ---- what a panic of user code leaves behind ---- *)
  Notation lhash m l := (hashL E (hash_builder m) l).
  Notation rhash m r := (hashR E (hash_builder m) r).

  Definition in_place (c : N -> change) : bool :=
    match c 0 with CSize (Shrink _) _ => false | _ => true end.
  (* the left (right) table was being rehashed for the change c *)
  Definition lost_l (c : N -> change) (m m' : map) : Prop :=
    exists t, spoilt (lo E) F (in_place c) (left_set m)
                (hb_next (lo E) (lay (left_set m)) (c (N.of_nat (t_len (left_set m))))) t /\
              m' = set_left t m.
  Definition lost_r (c : N -> change) (m m' : map) : Prop :=
    exists t, spoilt (lo E) F (in_place c) (right_set m)
                (hb_next (lo E) (lay (right_set m)) (c (N.of_nat (t_len (right_set m))))) t /\
              m' = set_right t m.

  (* insert: before anything, after the first removal, after both, while the left table grows
     (the new pair is lost), while the right table grows (the left half of it stays) *)
  Definition P_insert (l : L) (r : R) (m m' : map) : Prop :=
    m' = m \/ (exists a, remove_via_left E l m = Ret m' a) \/
    exists m1 a m2 b, remove_via_left E l m = Ret m1 a /\ remove_via_right E r m1 = Ret m2 b /\
      (m' = m2 \/
       exists m3, incr_counter E m2 = Ret m3 tt /\
         (lost_l (CInsert (lhash m2 l)) m3 m' \/
          exists m4, left_insert E (lhash m2 l) (MP l (Some (rhash m2 r)) (counter m2)) m3 = Ret m4 tt /\
                     lost_r (CInsert (rhash m2 r)) m4 m')).
  (* insert_left, insert_right: before anything, after the removal, while the table grows *)
  Definition P_insert_left (l : L) (m m' : map) : Prop :=
    m' = m \/
    exists m1 a, remove_via_left E l m = Ret m1 a /\
      (m' = m1 \/ exists m2, incr_counter E m1 = Ret m2 tt /\ lost_l (CInsert (lhash m1 l)) m2 m').
  Definition P_insert_right (r : R) (m m' : map) : Prop :=
    m' = m \/
    exists m1 a, remove_via_right E r m = Ret m1 a /\
      (m' = m1 \/ exists m2, incr_counter E m1 = Ret m2 tt /\ lost_r (CInsert (rhash m1 r)) m2 m').
  (* swap_left: before anything, after the entry of new is gone, after the partner's entry was
     changed, while the left table grows *)
  Definition repoint_r (old_hash new_hash : N) (lp : mapping_pair L) : M map unit :=
    match phash lp with
    | Some hash =>
        m <- getst ;;
        b <- unwrap (t_get_mut E (right_set m) hash (hash_and_id old_hash (pid lp))) ;;
        right_assign (fst b) (set_hash (Some new_hash))
    | None => ret tt
    end.
  Definition repoint_l (old_hash new_hash : N) (rp : mapping_pair R) : M map unit :=
    match phash rp with
    | Some hash =>
        m <- getst ;;
        b <- unwrap (t_get_mut E (left_set m) hash (hash_and_id old_hash (pid rp))) ;;
        left_assign (fst b) (set_hash (Some new_hash))
    | None => ret tt
    end.
  Definition P_swap_left (old new : L) (m m' : map) : Prop :=
    m' = m \/
    exists m1 a, swap_left_eq_check E old new (lhash m new) m = Ret m1 a /\
      (m' = m1 \/
       exists lp m2,
         t_get (lo E) (left_set m1) (lhash m1 old) (equivalent_key (eqL E) old) = Some lp /\
         repoint_r (lhash m1 old) (lhash m new) lp m1 = Ret m2 tt /\
         (m' = m2 \/
          exists m3 e, left_remove_entry E (lhash m1 old) (equivalent_key (eqL E) old) m2 = Ret m3 (Some e) /\
                       lost_l (CInsert (lhash m new)) m3 m')).
  Definition P_swap_right (old new : R) (m m' : map) : Prop :=
    m' = m \/
    exists m1 a, swap_right_eq_check E old new (rhash m new) m = Ret m1 a /\
      (m' = m1 \/
       exists rp m2,
         t_get (lo E) (right_set m1) (rhash m1 old) (equivalent_key (eqR E) old) = Some rp /\
         repoint_l (rhash m1 old) (rhash m new) rp m1 = Ret m2 tt /\
         (m' = m2 \/
          exists m3 e, right_remove_entry E (rhash m1 old) (equivalent_key (eqR E) old) m2 = Ret m3 (Some e) /\
                       lost_r (CInsert (rhash m new)) m3 m')).
  Fixpoint P_extend_pairs (xs : list (L * R)) (m m' : map) : Prop :=
    match xs with
    | [] => False
    | (l, r) :: t => P_insert l r m m' \/ exists m1 d, insert E l r m = Ret m1 d /\ P_extend_pairs t m1 m'
    end.
  Fixpoint P_extend (xs : list (optional_pair L R)) (m m' : map) : Prop :=
    match xs with
    | [] => False
    | Neither :: t => P_extend t m m'
    | SomeLeft l :: t => P_insert_left l m m' \/ exists m1 d, insert_left E l m = Ret m1 d /\ P_extend t m1 m'
    | SomeRight r :: t => P_insert_right r m m' \/ exists m1 d, insert_right E r m = Ret m1 d /\ P_extend t m1 m'
    | SomeBoth l r :: t => P_insert l r m m' \/ exists m1 d, insert E l r m = Ret m1 d /\ P_extend t m1 m'
    end.
  Definition P_shrink_to_fit (m m' : map) : Prop :=
    lost_l (CSize (Shrink (N.of_nat (len_left m)))) m m' \/
    exists m1, resize_left E (Shrink (N.of_nat (len_left m))) m = Ret m1 tt /\
               lost_r (CSize (Shrink (N.of_nat (len_right m)))) m1 m'.

  (* the map after a panic of user code in the call o on m *)
  Definition P_step (o : op L R) (m m' : map) : Prop :=
    match o with
    | Insert l r => P_insert l r m m'
    | InsertLeft l => P_insert_left l m m'
    | InsertRight r => P_insert_right r m m'
    | SwapLeft old new | SwapLeftChecked old _ new => P_swap_left old new m m'
    | SwapLeftOrInsert old new ti => P_swap_left old new m m' \/ P_insert new ti m m'
    | SwapRight old new | SwapRightChecked old _ new => P_swap_right old new m m'
    | SwapRightOrInsert old new ti => P_swap_right old new m m' \/ P_insert ti new m m'
    | ExtendPairs xs => P_extend_pairs xs m m'
    | Extend xs => P_extend xs m m'
    | ShrinkToLeft n => lost_l (CSize (Shrink n)) m m'
    | ShrinkToRight n => lost_r (CSize (Shrink n)) m m'
    | ShrinkToFit => P_shrink_to_fit m m'
    | ReserveLeft n | TryReserveLeft n => lost_l (CSize (Grow n)) m m'
    | ReserveRight n | TryReserveRight n => lost_r (CSize (Grow n)) m m'
    | _ => m' = m
    end.

  Lemma tr_left_insert : forall m h e (K : map -> Prop),
    (forall m', lost_l (CInsert h) m m' -> K m') -> tracks m (u_left_insert E F h e) (left_insert E h e) K.
  Proof.
    intros m h e K HK w. unfold u_left_insert, on_left, u_insert. simpl.
    destruct (ag_rehashing (lo E) F true (left_set m) (hb_next (lo E) (lay (left_set m)) (CInsert h (N.of_nat (t_len (left_set m)))))
                (t_insert (lo E) (left_set m) h e (make_hasher_l E (hash_builder m))) w)
      as [(w' & N & ->)|(N & t2 & SP & ->)].
    - left. exists w'. auto.
    - right. split; auto. eexists. split; [reflexivity|]. apply HK. exists t2. auto.
  Qed.
  Lemma tr_right_insert : forall m h e (K : map -> Prop),
    (forall m', lost_r (CInsert h) m m' -> K m') -> tracks m (u_right_insert E F h e) (right_insert E h e) K.
  Proof.
    intros m h e K HK w. unfold u_right_insert, on_right, u_insert. simpl.
    destruct (ag_rehashing (lo E) F true (right_set m) (hb_next (lo E) (lay (right_set m)) (CInsert h (N.of_nat (t_len (right_set m)))))
                (t_insert (lo E) (right_set m) h e (make_hasher_r E (hash_builder m))) w)
      as [(w' & N & ->)|(N & t2 & SP & ->)].
    - left. exists w'. auto.
    - right. split; auto. eexists. split; [reflexivity|]. apply HK. exists t2. auto.
  Qed.
  Lemma tr_left_resize : forall m z (K : map -> Prop), (forall m', lost_l (CSize z) m m' -> K m') ->
    tracks m (on_left (fun s t => u_resize (lo E) F t z (make_hasher_l E s)))
      (m <- getst ;; putst (set_left (t_resize (lo E) (left_set m) z (make_hasher_l E (hash_builder m))) m)) K.
  Proof.
    intros m z K HK w. unfold on_left, u_resize. change (match z with Grow _ => true | Shrink _ => false end) with (in_place (CSize z)). simpl.
    destruct (ag_rehashing (lo E) F (in_place (CSize z)) (left_set m) (hb_next (lo E) (lay (left_set m)) (CSize z (N.of_nat (t_len (left_set m)))))
                (t_resize (lo E) (left_set m) z (make_hasher_l E (hash_builder m))) w)
      as [(w' & N & ->)|(N & t2 & SP & ->)].
    - left. exists w'. auto.
    - right. split; auto. eexists. split; [reflexivity|]. apply HK. exists t2. auto.
  Qed.
  Lemma tr_right_resize : forall m z (K : map -> Prop), (forall m', lost_r (CSize z) m m' -> K m') ->
    tracks m (on_right (fun s t => u_resize (lo E) F t z (make_hasher_r E s)))
      (m <- getst ;; putst (set_right (t_resize (lo E) (right_set m) z (make_hasher_r E (hash_builder m))) m)) K.
  Proof.
    intros m z K HK w. unfold on_right, u_resize. change (match z with Grow _ => true | Shrink _ => false end) with (in_place (CSize z)). simpl.
    destruct (ag_rehashing (lo E) F (in_place (CSize z)) (right_set m) (hb_next (lo E) (lay (right_set m)) (CSize z (N.of_nat (t_len (right_set m)))))
                (t_resize (lo E) (right_set m) z (make_hasher_r E (hash_builder m))) w)
      as [(w' & N & ->)|(N & t2 & SP & ->)].
    - left. exists w'. auto.
    - right. split; auto. eexists. split; [reflexivity|]. apply HK. exists t2. auto.
  Qed.

  Lemma tr_remove_via_left : forall m l (K : map -> Prop), K m ->
    tracks m (u_remove_via_left E l) (remove_via_left E l) K.
  Proof.
    intros m l K KM. unfold u_remove_via_left. eapply tr_look; [apply ag_user|exact KM|].
    unfold remove_via_left. apply tr_getst. cbv zeta.
    apply tr_bind; [apply tr_left_remove; auto|]. intros m' [lp|] _; [|apply tr_ret].
    destruct (phash lp); [|apply tr_ret].
    apply tr_bind; [apply tr_calm|]. intros m'' ro _.
    apply tr_bind; [apply tr_unwrap|]. intros. apply tr_ret.
  Qed.
  Lemma tr_remove_via_right : forall m r (K : map -> Prop), K m ->
    tracks m (u_remove_via_right E r) (remove_via_right E r) K.
  Proof.
    intros m l K KM. unfold u_remove_via_right. eapply tr_look; [apply ag_user|exact KM|].
    unfold remove_via_right. apply tr_getst. cbv zeta.
    apply tr_bind; [apply tr_right_remove; auto|]. intros m' [lp|] _; [|apply tr_ret].
    destruct (phash lp); [|apply tr_ret].
    apply tr_bind; [apply tr_calm|]. intros m'' ro _.
    apply tr_bind; [apply tr_unwrap|]. intros. apply tr_ret.
  Qed.
  Lemma tr_remove_left : forall m l (K : map -> Prop), K m -> tracks m (u_remove_left E l) (remove_left E l) K.
  Proof.
    intros m l K KM. unfold u_remove_left. eapply tr_look; [apply ag_user|exact KM|].
    unfold remove_left. apply tr_getst. cbv zeta.
    apply tr_bind; [apply tr_left_remove; auto|]. intros m' [lp|] _; [|apply tr_ret].
    destruct (phash lp) as [h|]; [|apply tr_ret].
    eapply tr_same with (c0 := (mm <- getst ;; b <- unwrap (t_get_mut E (right_set mm) h (just_id (pid lp))) ;;
                                right_assign (fst b) (set_hash None)) ;;; ret (Some (value lp))).
    - unfold bind, getst. destruct (t_get_mut _ _ _ _) as [[? ?]|]; reflexivity.
    - apply tr_bind; [apply tr_calm|]. intros. apply tr_ret.
  Qed.
  Lemma tr_remove_right : forall m r (K : map -> Prop), K m -> tracks m (u_remove_right E r) (remove_right E r) K.
  Proof.
    intros m l K KM. unfold u_remove_right. eapply tr_look; [apply ag_user|exact KM|].
    unfold remove_right. apply tr_getst. cbv zeta.
    apply tr_bind; [apply tr_right_remove; auto|]. intros m' [lp|] _; [|apply tr_ret].
    destruct (phash lp) as [h|]; [|apply tr_ret].
    eapply tr_same with (c0 := (mm <- getst ;; b <- unwrap (t_get_mut E (left_set mm) h (just_id (pid lp))) ;;
                                left_assign (fst b) (set_hash None)) ;;; ret (Some (value lp))).
    - unfold bind, getst. destruct (t_get_mut _ _ _ _) as [[? ?]|]; reflexivity.
    - apply tr_bind; [apply tr_calm|]. intros. apply tr_ret.
  Qed.
  Lemma tr_remove : forall m l r (K : map -> Prop), K m -> tracks m (u_remove E l r) (remove E l r) K.
  Proof.
    intros m l r K KM. unfold u_remove, remove. eapply tr_look; [apply ag_are_paired|exact KM|].
    apply tr_getst. destruct (are_paired E m l r); [|apply tr_ret].
    apply tr_bind; [apply tr_remove_via_left; auto|]. intros m' d _.
    destruct (op_to_opt d) as [[ol orr]|]; [|apply tr_ret].
    apply tr_bind; [apply tr_unwrap|]. intros. apply tr_bind; [apply tr_unwrap|]. intros. apply tr_ret.
  Qed.
  (* pair, unpair and the like: user code first, then the effect *)
  Lemma tr_both_then : forall {A} m l r (c : M map A) (K : map -> Prop), K m ->
    tracks m (look (fun m => u_find_both E m l r) ;;; calmly c) c K.
  Proof. intros. eapply tr_look; [apply ag_find_both|auto|]. apply tr_calm. Qed.
  Lemma tr_forced : forall {A} m l r a (c : M map A) (K : map -> Prop), K m ->
    (are_paired E m l r = true -> c m = Ret m a) ->
    tracks m (b <- look (fun m => u_are_paired E m l r) ;; if b : bool then ret a else
              look (fun m => u_find_both E m l r) ;;; calmly c) c K.
  Proof.
    intros A m l r a c K KM H. eapply tr_look; [apply ag_are_paired|auto|]. destruct (are_paired E m l r).
    - eapply tr_same; [|apply tr_ret]. rewrite H; reflexivity.
    - apply tr_both_then; auto.
  Qed.
  Lemma tr_pair_forced : forall m l r (K : map -> Prop), K m -> tracks m (u_pair_forced E l r) (pair_forced E l r) K.
  Proof.
    intros. apply tr_forced; auto. intros Q. unfold pair_forced. unfold bind at 1, getst at 1.
    rewrite Q. reflexivity.
  Qed.
  Lemma tr_pair_forced_remove : forall m l r (K : map -> Prop), K m ->
    tracks m (u_pair_forced_remove E l r) (pair_forced_remove E l r) K.
  Proof.
    intros. apply tr_forced; auto. intros Q. unfold pair_forced_remove. unfold bind at 1, getst at 1.
    rewrite Q. reflexivity.
  Qed.

  Lemma tr_insert : forall m l r, tracks m (u_insert_pair E F l r) (insert E l r) (P_insert l r m).
  Proof.
    intros m l r. unfold u_insert_pair, insert.
    apply tr_bind; [apply tr_remove_via_left; left; auto|]. intros m1 a H1.
    apply tr_bind; [apply tr_remove_via_right; right; left; eauto|]. intros m2 b H2.
    assert (K2 : P_insert l r m m2) by (right; right; exists m1, a, m2, b; auto).
    eapply tr_look; [apply ag_user|exact K2|]. eapply tr_look; [apply ag_user|exact K2|].
    eapply tr_look; [apply ag_ret|exact K2|]. apply tr_getst. cbv zeta.
    apply tr_bind; [apply tr_calm|]. intros m3 [] H3.
    apply tr_bind.
    - apply tr_left_insert. intros m' HL. right; right. exists m1, a, m2, b. repeat (split; [auto|]). right. exists m3. auto.
    - intros m4 [] H4. apply tr_bind; [|intros; apply tr_ret].
      apply tr_right_insert. intros m' HL. right; right. exists m1, a, m2, b. repeat (split; [auto|]).
      right. exists m3. split; auto. right. exists m4. auto.
  Qed.
  Lemma tr_insert_left : forall m l, tracks m (u_insert_left E F l) (insert_left E l) (P_insert_left l m).
  Proof.
    intros m l. unfold u_insert_left, insert_left.
    apply tr_bind; [apply tr_remove_via_left; left; auto|]. intros m1 a H1.
    assert (K1 : P_insert_left l m m1) by (right; exists m1, a; auto).
    eapply tr_look; [apply ag_user|exact K1|]. eapply tr_look; [apply ag_ret|exact K1|]. apply tr_getst. cbv zeta.
    apply tr_bind; [apply tr_calm|]. intros m2 [] H2. apply tr_bind; [|intros; apply tr_ret].
    apply tr_left_insert. intros m' HL. right. exists m1, a. split; auto. right. exists m2. auto.
  Qed.
  Lemma tr_insert_right : forall m r, tracks m (u_insert_right E F r) (insert_right E r) (P_insert_right r m).
  Proof.
    intros m l. unfold u_insert_right, insert_right.
    apply tr_bind; [apply tr_remove_via_right; left; auto|]. intros m1 a H1.
    assert (K1 : P_insert_right l m m1) by (right; exists m1, a; auto).
    eapply tr_look; [apply ag_user|exact K1|]. eapply tr_look; [apply ag_ret|exact K1|]. apply tr_getst. cbv zeta.
    apply tr_bind; [apply tr_calm|]. intros m2 [] H2. apply tr_bind; [|intros; apply tr_ret].
    apply tr_right_insert. intros m' HL. right. exists m1, a. split; auto. right. exists m2. auto.
  Qed.
  Lemma tr_swap_left_eq_check : forall m old new h (K : map -> Prop), K m ->
    tracks m (u_swap_left_eq_check E old new h) (swap_left_eq_check E old new h) K.
  Proof.
    intros m old new h K KM. unfold u_swap_left_eq_check, swap_left_eq_check. eapply tr_look; [apply ag_get|exact KM|].
    apply tr_getst.
    destruct (t_get (lo E) (left_set m) h (equivalent_key (eqL E) new)); [|apply tr_ret].
    eapply tr_look; [apply ag_user|exact KM|]. simpl.
    destruct (negb (eqL E new old)); [apply tr_remove_via_left; auto|apply tr_ret].
  Qed.
  Lemma tr_swap_right_eq_check : forall m old new h (K : map -> Prop), K m ->
    tracks m (u_swap_right_eq_check E old new h) (swap_right_eq_check E old new h) K.
  Proof.
    intros m old new h K KM. unfold u_swap_right_eq_check, swap_right_eq_check. eapply tr_look; [apply ag_get|exact KM|].
    apply tr_getst.
    destruct (t_get (lo E) (right_set m) h (equivalent_key (eqR E) new)); [|apply tr_ret].
    eapply tr_look; [apply ag_user|exact KM|]. simpl.
    destruct (negb (eqR E new old)); [apply tr_remove_via_right; auto|apply tr_ret].
  Qed.
  Lemma tr_swap_left : forall m old new, tracks m (u_swap_left E F old new) (swap_left E old new) (P_swap_left old new m).
  Proof.
    intros m old new. assert (K0 : P_swap_left old new m m) by (left; auto).
    unfold u_swap_left, swap_left. eapply tr_look; [apply ag_user|exact K0|].
    apply tr_getst. cbv zeta.
    apply tr_bind; [apply tr_swap_left_eq_check; auto|]. intros m1 a H1.
    assert (K1 : P_swap_left old new m m1) by (right; exists m1, a; auto).
    eapply tr_look; [apply ag_user|exact K1|]. eapply tr_look; [apply ag_get|exact K1|].
    apply tr_getst. cbv zeta.
    destruct (t_get (lo E) (left_set m1) (lhash m1 old) (equivalent_key (eqL E) old)) as [lp|] eqn:G;
      [|apply tr_ret].
    eapply tr_same with (c0 := repoint_r (lhash m1 old) (lhash m new) lp ;;;
        o <- left_remove_entry E (lhash m1 old) (equivalent_key (eqL E) old) ;;
        old_left <- unwrap o ;;
        left_insert E (lhash m new) (MP new (phash lp) (pid lp)) ;;;
        match a with Neither => ret (SomeLeft (value old_left)) | _ => ret (SomeBoth (value old_left) a) end).
    { unfold bind at 1. unfold bind at 5. unfold repoint_r. destruct (phash lp); reflexivity. }
    apply tr_bind; [apply (tr_calm m1 (repoint_r (lhash m1 old) (lhash m new) lp))|]. intros m2 [] H2.
    apply tr_bind.
    - apply tr_left_remove. right. exists m1, a. split; auto. right. exists lp, m2. auto.
    - intros m3 o H3. destruct o as [e|]; [|apply tr_panic].
      match goal with |- tracks m3 (bind (unwrap (Some e)) ?k) (bind (unwrap (Some e)) ?k0) ?K =>
        change (tracks m3 (k e) (k0 e) K) end. cbv beta.
      apply tr_bind; [|intros; destruct a; apply tr_ret].
      apply tr_left_insert. intros m' HL. right. exists m1, a. split; auto. right. exists lp, m2.
      split; auto. split; auto. right. exists m3, e. auto.
  Qed.
  Lemma tr_swap_right : forall m old new, tracks m (u_swap_right E F old new) (swap_right E old new) (P_swap_right old new m).
  Proof.
    intros m old new. assert (K0 : P_swap_right old new m m) by (left; auto).
    unfold u_swap_right, swap_right. eapply tr_look; [apply ag_user|exact K0|].
    apply tr_getst. cbv zeta.
    apply tr_bind; [apply tr_swap_right_eq_check; auto|]. intros m1 a H1.
    assert (K1 : P_swap_right old new m m1) by (right; exists m1, a; auto).
    eapply tr_look; [apply ag_user|exact K1|]. eapply tr_look; [apply ag_get|exact K1|].
    apply tr_getst. cbv zeta.
    destruct (t_get (lo E) (right_set m1) (rhash m1 old) (equivalent_key (eqR E) old)) as [rp|] eqn:G;
      [|apply tr_ret].
    eapply tr_same with (c0 := repoint_l (rhash m1 old) (rhash m new) rp ;;;
        o <- right_remove_entry E (rhash m1 old) (equivalent_key (eqR E) old) ;;
        old_right <- unwrap o ;;
        right_insert E (rhash m new) (MP new (phash rp) (pid rp)) ;;;
        match a with Neither => ret (SomeLeft (value old_right)) | _ => ret (SomeBoth (value old_right) a) end).
    { unfold bind at 1. unfold bind at 5. unfold repoint_l. destruct (phash rp); reflexivity. }
    apply tr_bind; [apply (tr_calm m1 (repoint_l (rhash m1 old) (rhash m new) rp))|]. intros m2 [] H2.
    apply tr_bind.
    - apply tr_right_remove. right. exists m1, a. split; auto. right. exists rp, m2. auto.
    - intros m3 o H3. destruct o as [e|]; [|apply tr_panic].
      match goal with |- tracks m3 (bind (unwrap (Some e)) ?k) (bind (unwrap (Some e)) ?k0) ?K =>
        change (tracks m3 (k e) (k0 e) K) end. cbv beta.
      apply tr_bind; [|intros; destruct a; apply tr_ret].
      apply tr_right_insert. intros m' HL. right. exists m1, a. split; auto. right. exists rp, m2.
      split; auto. split; auto. right. exists m3, e. auto.
  Qed.
  Lemma tr_swap_left_checked : forall m old ex new,
    tracks m (u_swap_left_checked E F old ex new) (swap_left_checked E old ex new) (P_swap_left old new m).
  Proof.
    intros. unfold u_swap_left_checked. eapply tr_look; [apply ag_are_paired|left; auto|].
    eapply tr_same with (c0 := if negb (are_paired E m old ex) then ret Neither else swap_left E old new); [reflexivity|].
    destruct (negb _); [apply tr_ret|apply tr_swap_left].
  Qed.
  Lemma tr_swap_right_checked : forall m old ex new,
    tracks m (u_swap_right_checked E F old ex new) (swap_right_checked E old ex new) (P_swap_right old new m).
  Proof.
    intros. unfold u_swap_right_checked. eapply tr_look; [apply ag_are_paired|left; auto|].
    eapply tr_same with (c0 := if negb (are_paired E m ex old) then ret Neither else swap_right E old new); [reflexivity|].
    destruct (negb _); [apply tr_ret|apply tr_swap_right].
  Qed.
  Lemma tr_swap_left_or_insert : forall m old new ti,
    tracks m (u_swap_left_or_insert E F old new ti) (swap_left_or_insert E old new ti)
      (fun m' => P_swap_left old new m m' \/ P_insert new ti m m').
  Proof.
    intros. assert (K0 : P_swap_left old new m m \/ P_insert new ti m m) by (left; left; auto).
    unfold u_swap_left_or_insert, swap_left_or_insert.
    eapply tr_look; [apply ag_user|exact K0|]. eapply tr_look; [apply ag_get|exact K0|]. apply tr_getst.
    destruct (is_some _).
    - eapply tr_weaken; [apply tr_swap_left|]. auto.
    - apply tr_bind; [eapply tr_weaken; [apply tr_insert|]; auto|].
      intros m' [[|?|?|? ?] [|?|?|? ?]] _; (apply tr_ret || apply tr_panic).
  Qed.
  Lemma tr_swap_right_or_insert : forall m old new ti,
    tracks m (u_swap_right_or_insert E F old new ti) (swap_right_or_insert E old new ti)
      (fun m' => P_swap_right old new m m' \/ P_insert ti new m m').
  Proof.
    intros. assert (K0 : P_swap_right old new m m \/ P_insert ti new m m) by (left; left; auto).
    unfold u_swap_right_or_insert, swap_right_or_insert.
    eapply tr_look; [apply ag_user|exact K0|]. eapply tr_look; [apply ag_get|exact K0|]. apply tr_getst.
    destruct (is_some _).
    - eapply tr_weaken; [apply tr_swap_right|]. auto.
    - apply tr_bind; [eapply tr_weaken; [apply tr_insert|]; auto|].
      intros m' [[|?|?|? ?] [|?|?|? ?]] _; (apply tr_ret || apply tr_panic).
  Qed.
  Lemma tr_extend_pairs : forall xs m, tracks m (u_extend_pairs E F xs) (extend_pairs E xs) (P_extend_pairs xs m).
  Proof.
    induction xs as [|[l r] t IH]; intros m; simpl; [apply tr_ret|].
    apply tr_bind; [eapply tr_weaken; [apply tr_insert|]; auto|].
    intros m1 d H. eapply tr_weaken; [apply IH|]. intros m' HP. right. eauto.
  Qed.
  Lemma tr_extend : forall xs m, tracks m (u_extend E F xs) (extend E xs) (P_extend xs m).
  Proof.
    induction xs as [|[|l|r|l r] t IH]; intros m; simpl; [apply tr_ret|apply IH| | |].
    - apply tr_bind; [eapply tr_weaken; [apply tr_insert_left|]; auto|].
      intros m1 d H. eapply tr_weaken; [apply IH|]. intros m' HP. right. eauto.
    - apply tr_bind; [eapply tr_weaken; [apply tr_insert_right|]; auto|].
      intros m1 d H. eapply tr_weaken; [apply IH|]. intros m' HP. right. eauto.
    - apply tr_bind; [eapply tr_weaken; [apply tr_insert|]; auto|].
      intros m1 d H. eapply tr_weaken; [apply IH|]. intros m' HP. right. eauto.
  Qed.
  Lemma tr_try_resize_l : forall m n (K : map -> Prop), (forall m', lost_l (CSize (Grow n)) m m' -> K m') ->
    tracks m (on_left (fun s t => u_try_resize (lo E) F t n (make_hasher_l E s)))
      (m <- getst ;; let (ok, t) := t_try_resize (lo E) (left_set m) n (make_hasher_l E (hash_builder m)) in
        putst (set_left t m) ;;; ret ok) K.
  Proof.
    intros m z K HK w. unfold on_left, u_try_resize, t_try_resize, u_resize, bind, getst. simpl.
    destruct (hb_try _ _); [|left; exists w; auto].
    destruct (ag_rehashing (lo E) F true (left_set m) (hb_next (lo E) (lay (left_set m)) (CSize (Grow z) (N.of_nat (t_len (left_set m)))))
                (t_resize (lo E) (left_set m) (Grow z) (make_hasher_l E (hash_builder m))) w)
      as [(w' & N & ->)|(N & t2 & SP & ->)].
    - left. exists w'. auto.
    - right. split; auto. eexists. split; [reflexivity|]. apply HK. exists t2. auto.
  Qed.
  Lemma tr_try_resize_r : forall m n (K : map -> Prop), (forall m', lost_r (CSize (Grow n)) m m' -> K m') ->
    tracks m (on_right (fun s t => u_try_resize (lo E) F t n (make_hasher_r E s)))
      (m <- getst ;; let (ok, t) := t_try_resize (lo E) (right_set m) n (make_hasher_r E (hash_builder m)) in
        putst (set_right t m) ;;; ret ok) K.
  Proof.
    intros m z K HK w. unfold on_right, u_try_resize, t_try_resize, u_resize, bind, getst. simpl.
    destruct (hb_try _ _); [|left; exists w; auto].
    destruct (ag_rehashing (lo E) F true (right_set m) (hb_next (lo E) (lay (right_set m)) (CSize (Grow z) (N.of_nat (t_len (right_set m)))))
                (t_resize (lo E) (right_set m) (Grow z) (make_hasher_r E (hash_builder m))) w)
      as [(w' & N & ->)|(N & t2 & SP & ->)].
    - left. exists w'. auto.
    - right. split; auto. eexists. split; [reflexivity|]. apply HK. exists t2. auto.
  Qed.
  Lemma tr_shrink_to_fit : forall m, tracks m (u_shrink_to_fit E F) (shrink_to_fit E) (P_shrink_to_fit m).
  Proof.
    intros m. unfold u_shrink_to_fit, shrink_to_fit. intros w. unfold bind at 1, look at 1. simpl fst. simpl snd.
    revert w.
    change (tracks m (u_resize_left E F (Shrink (N.of_nat (len_left m))) ;;;
       n <- look (fun m => ret (len_right m)) ;; u_resize_right E F (Shrink (N.of_nat n)))
      (resize_left E (Shrink (N.of_nat (len_left m))) ;;;
       m <- getst ;; resize_right E (Shrink (N.of_nat (len_right m)))) (P_shrink_to_fit m)).
    apply tr_bind; [apply tr_left_resize; intros; left; auto|].
    intros m' [] H. pose proof H as H'. unfold resize_left, bind, getst, putst in H'. injection H' as <-.
    match goal with |- tracks ?m1 _ _ ?K =>
      change (tracks m1 (u_resize_right E F (Shrink (N.of_nat (len_right m))))
                        (resize_right E (Shrink (N.of_nat (len_right m)))) K) end.
    apply tr_right_resize. intros; right; eauto.
  Qed.

  (* every call *)
  Lemma tr_via : forall {A} m w (k : A -> out L R) (c : FM A) c0 (K : map -> Prop), tracks m c c0 K ->
    u_via k c m w = via k (c0 m) \/ (w <> None /\ exists m', u_via k c m w = (m', OPanic) /\ K m').
  Proof.
    intros A m w k c c0 K H. unfold u_via, via. destruct (H w) as [(w' & N & ->)|(N & m' & -> & HK)].
    - left. destruct (c0 m); reflexivity.
    - right. eauto.
  Qed.
  Definition reads {A} (o : outcome A) : M map A :=
    fun m => match o with Done a => Ret m a | Panicked => Panic m end.
  Lemma tr_reads : forall {A} m w (k : A -> out L R) (f : map -> M fuse A) o, agrees (f m) o ->
    u_via k (look f) m w = seen m k o \/ (w <> None /\ exists m', u_via k (look f) m w = (m', OPanic) /\ m' = m).
  Proof.
    intros A m w k f o H. destruct (tr_via m w k (look f) (reads o) (fun m' => m' = m)) as [Q|Q].
    - eapply tr_read; [exact H|reflexivity|reflexivity].
    - left. rewrite Q. destruct o; reflexivity.
    - right. exact Q.
  Qed.

  Lemma tr_forget : forall {X} m w (u : FM unit) (r : map -> res (map * X) unit),
    tracks m u (forget r) (fun m' => m' = m) ->
    u_via (fun _ => OUnit) u m w = via_closure (r m) \/
    (w <> None /\ exists m', u_via (fun _ => OUnit) u m w = (m', OPanic) /\ m' = m).
  Proof.
    intros X m w u r H. destruct (tr_via m w (fun _ => OUnit) u _ _ H) as [Q|Q]; [left|right; exact Q].
    rewrite Q. unfold forget. destruct (r m) as [[? ?] []|[? ?]]; reflexivity.
  Qed.

  Theorem u_step_cases : forall m o w,
    u_step E F m o w = step E m o \/
    (w <> None /\ exists m', u_step E F m o w = (m', OPanic) /\ P_step o m m').
  Proof.
    intros m o w. destruct o; cbn [u_step step P_step]; auto.
    - apply tr_via, tr_insert.
    - apply tr_via, tr_insert_left.
    - apply tr_via, tr_insert_right.
    - apply tr_via, tr_both_then; auto.
    - apply tr_via, tr_pair_forced; auto.
    - apply tr_via, tr_pair_forced_remove; auto.
    - apply tr_via, tr_both_then; auto.
    - apply tr_via, tr_remove; auto.
    - apply tr_via, tr_remove_left; auto.
    - apply tr_via, tr_remove_right; auto.
    - apply tr_via, tr_remove_via_left; auto.
    - apply tr_via, tr_remove_via_right; auto.
    - apply tr_via, tr_swap_left.
    - apply tr_via, tr_swap_left_checked.
    - apply tr_via, tr_swap_left_or_insert.
    - apply tr_via, tr_swap_right.
    - apply tr_via, tr_swap_right_checked.
    - apply tr_via, tr_swap_right_or_insert.
    - apply (tr_reads m w OBool (fun m => u_are_paired E m l r) (Done _)), ag_are_paired.
    - apply (tr_reads m w OBool (fun m => u_is_left_paired E m l) (Done _)), ag_is_left_paired.
    - apply (tr_reads m w OBool (fun m => u_is_right_paired E m r) (Done _)), ag_is_right_paired.
    - apply (tr_reads m w OBool (fun m => u_contains_left E m l) (Done _)), ag_contains_left.
    - apply (tr_reads m w OBool (fun m => u_contains_right E m r) (Done _)), ag_contains_right.
    - apply (tr_reads m w OL (fun m => u_get_left E m r) (Done _)), ag_get_left.
    - apply (tr_reads m w OR (fun m => u_get_right E m l) (Done _)), ag_get_right.
    - apply tr_reads, ag_iter_all.
    - apply tr_reads, ag_paired_all.
    - apply tr_via, tr_extend_pairs.
    - apply tr_via, tr_extend.
    - apply (tr_forget m w _ (fun m => retain E f (m, x))), tr_retain; auto.
    - apply (tr_forget m w _ (fun m => retain_paired E f (m, x))), tr_retain_paired; auto.
    - apply (tr_forget m w _ (fun m => retain_unpaired E f (m, x))), tr_retain_unpaired; auto.
    - apply (tr_via m w (fun _ => OUnit) _ (resize_left E (Shrink n))), tr_left_resize; auto.
    - apply (tr_via m w (fun _ => OUnit) _ (resize_right E (Shrink n))), tr_right_resize; auto.
    - apply tr_via, tr_shrink_to_fit.
    - apply (tr_via m w (fun _ => OUnit) _ (resize_left E (Grow n))), tr_left_resize; auto.
    - apply (tr_via m w (fun _ => OUnit) _ (resize_right E (Grow n))), tr_right_resize; auto.
    - apply tr_via, tr_try_resize_l; auto.
    - apply tr_via, tr_try_resize_r; auto.
  Qed.
  (* user code that does not panic: the model of PartialCycleMap.v *)
  Corollary u_step_calm : forall m o, u_step E F m o None = step E m o.
  Proof. intros m o. destruct (u_step_cases m o None) as [Q|[Q _]]; [auto|congruence]. Qed.
End Tracks.
