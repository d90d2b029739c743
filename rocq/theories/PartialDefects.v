(* PartialCycleMap: what the defective calls do, in every case (C32, C40): unpair when both
   partners' hashes collide, and drain_filter with any closure.  The outcome is described by
   `torn` (PartialWidows.v): the entries the map has left, and the items that count as paired
   although nothing is paired with them. *)
From Coq Require Import List NArith Lia Bool Permutation PeanoNat.
From Verif Require Import Closures Prelude RawTable Optionals PartialCycleMap ListFacts TableFacts
  PartialSpec PartialHistory IterFacts PartialProofs PartialProofs2 PartialProofs3 PartialProofs4
  PartialProofs5 PartialProofs6 PartialProofs7 PartialProofs8 PartialHistoryProofs Concrete
  PartialWidows PartialProps PartialProps2.
Import ListNotations.
Open Scope N_scope.

Section Defects.
  Context {L R S : Type}.
  Variable E : env L R S.
  Hypothesis OK : lawful E.
  Notation entry := (optional_pair L R).
  Notation zent := (N * entry)%type.
  Notation slotL := (slotL E).
  Notation slotR := (slotR E).
  Implicit Types (m : pmap L R S) (l : L) (r : R) (P : list entry).
  Let EL := eqL_equiv _ OK.
  Let ER := eqR_equiv _ OK.

  Ltac start H :=
    let s := fresh "s" in let c := fresh "c" in let P := fresh "P" in
    apply (reachable_view E OK) in H as (s & c & P & ?V & H & ?B).

  Ltac assigns := cbn [set_left set_right set_counter left_set right_set counter hash_builder
                       fst snd value phash pid set_hash set_id] in *.

  (* the tables after the colliding unpair *)
  Lemma unpair_tears : forall s c m i j a b' a' b W l r,
    Rep E s c m ((i, SomeBoth a b') :: (j, SomeBoth a' b) :: W) -> c + 1 < two64 ->
    eqL E l a = true -> eqR E r b = true ->
    has_r (eqR E) r (SomeBoth a b') = false -> has_l (eqL E) l (SomeBoth a' b) = false ->
    (forall x, In x W -> has_l (eqL E) l (snd x) = false) ->
    (forall x, In x W -> has_r (eqR E) r (snd x) = false) ->
    hashL E s a' = hashL E s l -> hashR E s b' = hashR E s r ->
    exists m', unpair E l r m = Ret m' true /\
      WRep E s m' ((i, SomeLeft a) :: (c, SomeRight b) :: W) [(j, SomeBoth a' b)] [(i, SomeBoth a b')].
  Proof.
    intros s c m i j a b' a' b W l r H Hc Hl Hr Nr Nl NWl NWr H1 H2.
    destruct (left_mut_found E OK s c m _ _ a l H eq_refl Hl) as (p & Q1 & Al).
    { intros x [<-|Hx]; auto. }
    assert (H' := rep_snoc E OK _ _ _ _ _ _ H).
    destruct (right_mut_found E OK s c m _ _ b r H' eq_refl Hr) as (q & Q2 & Ar).
    { intros x [<-|Hx]; auto. }
    cbn [option_map op_get_left op_get_right snd fst] in *.
    unfold unpair, left_assign, right_assign, incr_counter.
    cbv [bind ret getst putst unwrap panic]. rewrite (rep_hb _ _ _ _ _ H), Q1, Q2. cbn [phash].
    rewrite H1, H2, !N.eqb_refl. cbn [andb]. assigns.
    rewrite (rep_c _ _ _ _ _ H), u64_incr_ok by auto.
    eexists. split; [reflexivity|].
    apply (modify_at _ _ _ _ _ (set_hash None)) in Al as [_ Al].
    apply (modify_at _ _ _ _ _ (set_hash None)) in Ar.
    apply (modify_at _ _ _ _ _ (set_id c)) in Ar as [_ Ar].
    assert (ND := rep_ids _ _ _ _ _ H). assert (LT := rep_lt _ _ _ _ _ H).
    destruct (rep_bij _ _ _ _ _ H) as (DL & DR & NN).
    assert (Li : i < c) by (apply (LT (i, SomeBoth a b')); left; auto).
    assert (Lj : j < c) by (apply (LT (j, SomeBoth a' b)); right; left; auto).
    assert (Nij : j <> i).
    { intro. subst j. inversion ND as [|? ? X _]. apply X. left; auto. }
    split.
    - cbn. apply (rep_hb _ _ _ _ _ H).
    - cbn [left_set]. etransitivity; [exact Al|]. cbn [app flat_map]. rewrite flat_map_app.
      simpl. constructor. apply Permutation_cons_append.
    - cbn [right_set]. etransitivity; [exact Ar|]. cbn [app flat_map]. rewrite flat_map_app.
      simpl. constructor. apply Permutation_cons_append.
    - apply (NoDup_perm (map fst ((c, @SomeRight L R b) :: (i, SomeBoth a b') :: (j, SomeBoth a' b) :: W))).
      + cbn [map fst app]. rewrite map_app. cbn [map fst].
        rewrite perm_swap. do 2 constructor. apply Permutation_cons_append.
      + cbn [map]. constructor; auto. intros [I|[I|I]]; cbn [fst] in I; [lia|lia|].
        apply in_map_iff in I as (z & Q & I). assert (fst z < c) by (apply LT; right; right; auto). lia.
    - constructor; [easy|constructor].
    - intros v w [<-|[]] [<-|[]]. auto.
    - intros z w [<-|[<-|Hz]] [<-|[]]; cbn [fst snd]; intros Q; [auto|lia|].
      exfalso. inversion ND as [|? ? X _]. apply X. right. cbn [fst] in *. rewrite <- Q.
      apply (in_map fst). auto.
    - intros v [<-|[]]. exists a', b. auto.
    - intros v [<-|[]]. exists a, b'. auto.
    - eapply (distinct_perm _ EL); [|exact DL]. rewrite map_app, lefts_app.
      simpl. constructor. apply Permutation_cons_append.
    - eapply (distinct_perm _ ER); [|exact DR]. rewrite map_app, rights_app.
      simpl. rewrite perm_swap. constructor. apply Permutation_cons_append.
    - cbn [map snd] in *. intros [I|[I|I]]; try discriminate. apply NN. right; right. auto.
  Qed.

  (* ---- C32 (false, see C32_unpair_refuted) ----
     The case C32_unpair_partial leaves out: l is paired with b', r with a', not with each
     other, and the hashes of the partners equal those of l and r.  unpair answers true, takes
     both pairs apart, and leaves a' and b' paired with nothing. *)
  Theorem C32_colliding_partial : forall m l r a' b', reachable E 1 m ->
    get_right E m l = Some b' -> get_left E m r = Some a' -> are_paired E m l r = false ->
    hashL E (hash_builder m) a' = hashL E (hash_builder m) l ->
    hashR E (hash_builder m) b' = hashR E (hash_builder m) r ->
    exists P m' a b rest, contents E m P /\ unpair E l r m = Ret m' true /\
      eqL E l a = true /\ eqR E r b = true /\
      Permutation P (SomeBoth a b' :: SomeBoth a' b :: rest) /\
      torn E m' (SomeLeft a :: SomeRight b :: rest) [a'] [b'].
  Proof.
    intros m l r a' b' H GR GL NP H1 H2. start H.
    rewrite (get_right_spec E OK _ _ _ _ _ H) in GR. rewrite (get_left_spec E OK _ _ _ _ _ H) in GL.
    rewrite (are_paired_spec E OK _ _ _ _ _ _ H) in NP. unfold s_get_right, s_get_left in *.
    destruct H as (Z & H & ->). rewrite (rep_hb _ _ _ _ _ H) in *.
    destruct (place_ok E OK s c m Z l r H) as [Hn|Hn|i a b W PZ H' Hl Hr Hhl Hhr Nl Nr
                                         |z w W a b PZ H' Ha Hb Hl Hr Hhl Hhr Nzr Nwl Nl Nr].
    - rewrite find_l_no in GR by auto. discriminate.
    - rewrite find_r_no in GL by auto. discriminate.
    - rewrite (paired_same E Z i a b W) in NP by auto. discriminate.
    - rewrite (find_l_diff E Z z w W l a PZ Ha Hl Nwl Nl) in GR.
      rewrite (find_r_diff E Z z w W r b PZ Hb Hr Nzr Nr) in GL.
      destruct z as [i x], w as [j y]; cbn [fst snd] in *.
      destruct x; simpl in Ha, GR; try discriminate. inversion Ha; inversion GR; subst.
      destruct y; simpl in Hb, GL; try discriminate. inversion Hb; inversion GL; subst.
      destruct (unpair_tears s c m i j a b' a' b W l r H') as (m' & U & HW); auto.
      exists (map snd Z), m', a, b, (map snd W). split; auto. split; auto. split; auto. split; auto.
      split; [apply (Permutation_map snd PZ)|]. apply (w_torn E OK _ _ _ _ _ HW).
  Qed.

  (* ---- C40 (false, see C40_drain_filter_refuted) ----
     drain_filter with any closure.  It yields what it answers true to, in the order of the
     scan; entries answered true (whole, or an unpaired right item) are gone; a pair refused
     as a whole whose right item is answered true alone loses the right item, and its left
     item stays, paired with nothing. *)
  Lemma torn_end : forall s c m d tk gone kept rest,
    DFG E s c m d tk gone kept rest ->
    exists P', Permutation (flat_map keep (kept ++ rest)) (P' ++ filter has_left_item gone) /\
      (forall e, In e (filter has_left_item gone) -> exists a b, e = SomeBoth a b) /\
      torn E (df_end m d) P' (lefts (filter has_left_item gone)) [] /\
      (filter has_left_item gone = [] -> Repr E s c (df_end m d) P').
  Proof.
    intros s c m d tk gone kept rest H.
    destruct (dfg_split E OK _ _ _ _ _ _ _ _ H)
      as (Z & T & HB & HC & HL & HR & ND & LT & (D1 & D2 & NN) & PP & GT & TB).
    exists (map snd Z). rewrite <- GT. rewrite map_app in PP. split; auto. split.
    - intros e He. apply in_map_iff in He as (z & <- & Hz). apply TB in Hz as [A B].
      destruct (snd z); simpl in *; try easy. eauto.
    - assert (HW : WRep E s (df_end m d) Z T []).
      2:{ split.
          - change (@nil R) with (rights (map snd (@nil zent))). apply (w_torn E OK s); auto.
          - intros TN. assert (T = []) as -> by (destruct T; auto; discriminate).
            apply (w_repr E s c); auto. intros z Hz. apply LT, in_app_iff; auto. }
      split; rewrite ?app_nil_r; auto; try easy.
      + constructor.
      + intros v Hv. apply TB in Hv as [A B]. destruct (snd v); simpl in *; try easy. eauto.
      + rewrite map_app, rights_app in D2. apply distinct_app in D2. apply D2.
      + intro I. apply NN. rewrite map_app. apply in_app_iff; auto.
  Qed.

  Theorem C40_any_closure_partial : forall {X} (f : X -> entry -> X * verdict) x room m n,
    reachable E room m ->
    exists P Q W, contents E m P /\ Permutation Q (filter has_left_item P) /\
      Permutation W (filter (fun e => is_some (op_get_right e)) P) /\
    forall x' taken others,
      s_filter (on_visit (eqR E) f) (x, []) (map VE Q ++ map VR W) = (x', taken, others, false) ->
      exists d x1 d' P' T,
        df_nexts E f n (drain_filter m, x)
          = Ret (d, x1) (firstn n (map Some (map shown taken)) ++ repeat None (n - length taken)) /\
        df_drop E f (d, x1) = Ret (d', fst x') tt /\
        (* T: the pairs whose right item was taken alone *)
        T = filter has_left_item (flat_map (fun v => match v with VE _ => [] | VR e => [e] end) taken) /\
        (forall e, In e T -> exists a b, e = SomeBoth a b) /\
        Permutation (flat_map keep others) (P' ++ T) /\
        torn E (df_end m d') P' (lefts T) [] /\
        (T = [] -> behaves_as E room (df_end m d') P').
  Proof.
    intros X f x room m n H. start H.
    destruct (dfg_start E OK s c m P H) as (Q & W & _ & PQ & _ & PW & D).
    exists P, Q, W. split; auto. split; auto. split; auto. intros x' taken others F.
    assert (N := dfg_nexts_ok E OK f n s c m _ _ _ _ _ x D). rewrite F in N.
    destruct N as (d & x1 & gone' & kept' & rest' & D' & _ & N).
    assert (DR := dfg_drop_ok E OK f s c m d _ gone' kept' rest' (fst x1) D').
    rewrite <- surjective_pairing in DR.
    destruct (s_filter (on_visit (eqR E) f) x1 rest') as [[[x2 t2] o2] pn2].
    destruct DR as (d' & k2 & r2 & DR & D2 & EK2). destruct N as [N _].
    destruct N as (N & EQ & EG); auto. injection EQ as -> -> EK ->.
    destruct (torn_end _ _ _ _ _ _ _ _ D2) as (P' & PP & TB & TO & TR).
    assert (TE : gone' ++ flat_map gone_of (skipn n taken) = flat_map gone_of taken).
    { rewrite EG. simpl. rewrite <- flat_map_app, firstn_skipn. auto. }
    rewrite TE in *. rewrite EK2, EK in PP.
    exists d, (fst x1), d', P', (filter has_left_item (flat_map gone_of taken)).
    repeat (split; [auto; fail|]). intros TN. eapply (repr_behaves E OK); [apply TR; auto|auto].
  Qed.

  (* the closure panics *)
  Theorem C40_any_panic_partial : forall {X} (f : X -> entry -> X * verdict) x room m n,
    reachable E room m ->
    exists P Q W, contents E m P /\ Permutation Q (filter has_left_item P) /\
      Permutation W (filter (fun e => is_some (op_get_right e)) P) /\
    forall x' taken others,
      s_filter (on_visit (eqR E) f) (x, []) (map VE Q ++ map VR W) = (x', taken, others, true) ->
      (* in an explicit call of next: unwinding runs the destructor, which goes on scanning *)
      ((length taken < n)%nat -> exists d x1 P' T taken',
         df_nexts E f n (drain_filter m, x) = Panic (d, x1) /\
         (* taken': all the visits answered true *)
         Permutation (map VE Q ++ map VR W)
           (s_unwind (on_visit (eqR E) f) (x, []) (map VE Q ++ map VR W) ++ taken') /\
         T = filter has_left_item (flat_map (fun v => match v with VE _ => [] | VR e => [e] end) taken') /\
         (forall e, In e T -> exists a b, e = SomeBoth a b) /\
         Permutation (flat_map keep (s_unwind (on_visit (eqR E) f) (x, []) (map VE Q ++ map VR W))) (P' ++ T) /\
         torn E (df_end m (fst (res_state (df_drop E f (d, x1))))) P' (lefts T) [] /\
         (T = [] -> behaves_as E room (df_end m (fst (res_state (df_drop E f (d, x1))))) P')) /\
      (* while the iterator is being dropped *)
      ((n <= length taken)%nat -> exists d x1 d' P' T,
         df_nexts E f n (drain_filter m, x) = Ret (d, x1) (firstn n (map Some (map shown taken))) /\
         df_drop E f (d, x1) = Panic (d', fst x') /\
         T = filter has_left_item (flat_map (fun v => match v with VE _ => [] | VR e => [e] end) taken) /\
         (forall e, In e T -> exists a b, e = SomeBoth a b) /\
         Permutation (flat_map keep others) (P' ++ T) /\
         torn E (df_end m d') P' (lefts T) [] /\
        (T = [] -> behaves_as E room (df_end m d') P')).
  Proof.
    intros X f x room m n H. start H.
    destruct (dfg_start E OK s c m P H) as (Q & W & _ & PQ & _ & PW & D).
    exists P, Q, W. split; auto. split; auto. split; auto. intros x' taken others F.
    assert (N := dfg_nexts_ok E OK f n s c m _ _ _ _ _ x D). rewrite F in N.
    destruct N as (d & x1 & gone' & kept' & rest' & D' & _ & N).
    assert (DR := dfg_drop_ok E OK f s c m d _ gone' kept' rest' (fst x1) D').
    rewrite <- surjective_pairing in DR.
    destruct (s_filter (on_visit (eqR E) f) x1 rest') as [[[x2 t2] o2] pn2] eqn:F2.
    destruct DR as (d' & k2 & r2 & DR & D2 & EK2). destruct N as [N1 N2].
    destruct (torn_end _ _ _ _ _ _ _ _ D2) as (P' & PP & TB & TO & TR). rewrite EK2 in PP. split.
    - intros LT. destruct N2 as (N2 & -> & EO & EU & EG); auto. cbn [app] in *. subst gone' others.
      rewrite <- flat_map_app in *.
      exists d, (fst x'), P', (filter has_left_item (flat_map gone_of (taken ++ t2))), (taken ++ t2).
      split; auto. rewrite EU in PP. split; [|split; [auto|split; [auto|split; [auto|]]]].
      { apply s_filter_perm in F. apply s_filter_perm in F2. rewrite <- EU.
        etransitivity; [exact F|]. rewrite F2. transitivity (taken ++ (kept' ++ o2) ++ t2).
        - apply Permutation_app_head. rewrite <- app_assoc. apply Permutation_app_head, Permutation_app_comm.
        - rewrite !(app_assoc _ _ t2). apply Permutation_app_tail, Permutation_app_comm. }
      rewrite DR.
      replace (fst (res_state (if pn2 then Panic (d', fst x2) else Ret (d', fst x2) tt))) with d'
        by (destruct pn2; auto).
      split; auto. intros TN. eapply (repr_behaves E OK); [apply TR; auto|auto].
    - intros LE. destruct N1 as (N1 & EQ & EG); auto. injection EQ as -> -> EK ->.
      assert (TE : gone' ++ flat_map gone_of (skipn n taken) = flat_map gone_of taken).
      { rewrite EG. simpl. rewrite <- flat_map_app, firstn_skipn. auto. }
      rewrite TE in *. rewrite EK in PP.
      exists d, (fst x1), d', P', (filter has_left_item (flat_map gone_of taken)).
      split; [|repeat (split; [auto; fail|]); intros TN; eapply (repr_behaves E OK); [apply TR; auto|auto]].
      rewrite N1. replace (n - length taken)%nat with 0%nat by lia. simpl. rewrite app_nil_r. auto.
  Qed.
End Defects.

(* ---- concrete cases ---- *)
Ltac run_all := cbv zeta; repeat match goal with |- _ /\ _ => split; [vm_compute; reflexivity|] end; vm_compute; reflexivity.

(* 5 and 50, 3 and 30 are paired, all hashes collide *)
Example C32_colliding_case : reachable env_collide 1 pm1 /\
  get_right env_collide pm1 (it 5) = Some (it 50) /\ get_left env_collide pm1 (it 30) = Some (it 3) /\
  are_paired env_collide pm1 (it 5) (it 30) = false /\
  hashL env_collide (hash_builder pm1) (it 3) = hashL env_collide (hash_builder pm1) (it 5) /\
  hashR env_collide (hash_builder pm1) (it 50) = hashR env_collide (hash_builder pm1) (it 30).
Proof. split; [apply pm1_reachable; reflexivity|run_all]. Qed.
(* and the outcome: 3 and 50 are widows, the pair (1,20) is untouched *)
Example C32_colliding_outcome : exists m', unpair env_collide (it 5) (it 30) pm1 = Ret m' true /\
  get_right env_collide m' (it 5) = None /\ get_left env_collide m' (it 30) = None /\
  is_left_paired env_collide m' (it 5) = false /\ is_right_paired env_collide m' (it 30) = false /\
  is_left_paired env_collide m' (it 3) = true /\ get_right env_collide m' (it 3) = None /\
  is_right_paired env_collide m' (it 50) = true /\ get_left env_collide m' (it 50) = None /\
  get_right env_collide m' (it 1) = Some (it 20) /\
  paired_rest env_collide m' (iter_paired m') = Panicked.
Proof. eexists. split; [vm_compute; reflexivity|]. run_all. Qed.

(* a closure that accepts exactly the right items offered alone, and one that panics at 30 *)
Definition f_rights : unit -> optional_pair item item -> unit * verdict :=
  fun _ e => (tt, Some (match e with SomeRight _ => true | _ => false end)).
Definition f_rights_boom : unit -> optional_pair item item -> unit * verdict :=
  fun _ e => (tt, match e with
                  | SomeRight r => if item_eq r (it 30) then None else Some true
                  | _ => Some false
                  end).
Example C40_any_closure_case : reachable env_collide 1 pm1 /\ contents env_collide pm1 pm1_entries /\
  exists d d',
  df_nexts env_collide f_rights 2 (drain_filter pm1, tt)
    = Ret (d, tt) [Some (SomeRight (it 50)); Some (SomeRight (it 30))] /\
  df_drop env_collide f_rights (d, tt) = Ret (d', tt) tt /\
  let m' := df_end pm1 d' in
  iter_right m' = [] /\ len_left m' = 5%nat /\ is_left_paired env_collide m' (it 5) = true /\
  is_left_paired env_collide m' (it 2) = false.
Proof.
  split; [apply pm1_reachable; reflexivity|]. split; [exact pm1_contents|].
  do 2 eexists. split; [vm_compute; reflexivity|]. split; [vm_compute; reflexivity|]. run_all.
Qed.
Example C40_any_panic_case : exists d d', df_nexts env_collide f_rights_boom 9 (drain_filter pm1, tt) = Panic (d, tt) /\
  df_drop env_collide f_rights_boom (d, tt) = Ret (d', tt) tt /\
  let m' := df_end pm1 d' in
  get_right env_collide m' (it 3) = Some (it 30) /\ get_right env_collide m' (it 5) = None /\
  is_left_paired env_collide m' (it 5) = true /\ len_right m' = 1%nat.
Proof. do 2 eexists. split; [vm_compute; reflexivity|]. split; [vm_compute; reflexivity|]. run_all. Qed.

Print Assumptions C32_colliding_partial.
Print Assumptions C40_any_closure_partial.
Print Assumptions C40_any_panic_partial.
