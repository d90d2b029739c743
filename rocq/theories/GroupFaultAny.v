(* GroupMap: what holds after any history of calls at all in which any Hash, Eq or closure may
   have panicked and tables may have lost buckets (C101). *)
From Coq Require Import List NArith Lia Bool Permutation PeanoNat.
From Verif Require Import Closures Prelude RawTable GroupMap ListFacts TableFacts SoundTables
  GroupSpec GroupHistory GroupProofs GroupHistoryProofs Concrete GroupProps3 GroupAny
  Faults FaultTables GroupFault GroupFaultProofs GroupFaultProps GroupFaultProps2.
Import ListNotations.
Open Scope N_scope.

Lemma sound_if_torn : forall {A T} (v : A -> T) e, equivalence e -> forall h G W b t t', torn t t' ->
  sound_if v e h G W b t -> sound_if v e h G W b t'.
Proof.
  intros A T v e EQ h G W b t t' H (H1 & H2 & H3). destruct (torn_values v _ _ H) as [lv PV]. destruct H as [lost P].
  assert (J : forall x, In x (slots t') -> In x (slots t)).
  { intros x Hx. eapply Permutation_in; [exact P|]. apply in_or_app; auto. }
  split; [|split].
  - intros x Hx. auto.
  - intros B. eapply distinct_prefix, (distinct_perm e EQ); [symmetry; exact PV|auto].
  - auto.
Qed.

Section FaultAny.
  Context {L R S : Type}.
  Variable E : env L R S.
  Hypothesis OK : lawful E.
  Variable F : fault.
  Hypothesis FO : fault_ok F.
  Notation map := (gmap L R S).
  Let EL := eqL_equiv _ OK.
  Let ER := eqR_equiv _ OK.

  Section Inv.
  Variable GL : L -> Prop.
  Variable GR : R -> Prop.
  Variable s : S.
  Variable b : bool.
  Notation Inv := (Inv E GL GR s b).
  Notation ab := (ab E b).

  Lemma lost_l_inv : forall h m m', Inv m -> lost_l E F h m m' -> Inv m'.
  Proof.
    intros h m m' (H1 & H2 & H3) (t & SP & ->). apply (spoilt_torn _ _ FO) in SP.
    split; [assumption|]. split; [|assumption]. eapply sound_torn; eauto.
  Qed.
  Lemma lost_r_inv : forall h m m', Inv m -> lost_r E F h m m' -> Inv m'.
  Proof.
    intros h m m' (H1 & H2 & H3) (t & SP & ->). apply (spoilt_torn _ _ FO) in SP.
    split; [assumption|]. split; [assumption|]. eapply sound_if_torn; eauto.
  Qed.
  Lemma by_hoare : forall {A} (c : M map A) P Q m m' a, SoundTables.hoare Inv P c Q -> Inv m -> P m ->
    c m = Ret m' a -> Inv m' /\ Q a m'.
  Proof. intros A c P Q m m' a H I1 P1 E1. specialize (H m I1 P1). rewrite E1 in H. auto. Qed.

  Lemma remove_right_inv : forall r m m', Inv m -> P_remove_right E r m m' -> Inv m'.
  Proof.
    intros r m m' I0 [->|(m1 & e & ps1 & ps2 & ls & Q1 & _ & _ & Q2)]; auto.
    eapply (by_hoare _ _ _ _ _ _ (r_remove_any E GL GR s b _ _ [] [])) in Q1 as [I1 A1]; eauto; [|apply ab_nil].
    eapply (by_hoare _ _ _ _ _ _ (remove_pairs_any E GL GR s b ps1 [] [])) in Q2 as [I2 _]; eauto.
  Qed.
  Lemma r_assign_inv : forall j f m m' a, (forall x, r_value (f x) = r_value x) ->
    (forall x, group_hashed E x -> group_hashed E (f x)) -> Inv m -> right_assign j f m = Ret m' a -> Inv m'.
  Proof.
    intros j f m m' a F1 F2 I0 Q.
    eapply (by_hoare _ _ _ _ _ _ (r_assign E GL GR s b j f [] [] F1 F2)) in Q as [I1 _]; eauto. apply ab_nil.
  Qed.
  Lemma move_off_any : forall lh rh rc i e, SoundTables.hoare Inv (ab [] []) (move_off E lh rh rc i e) (fun _ => ab [] []).
  Proof.
    intros. unfold move_off. apply h_getst. intros m Hm _. apply h_any. apply h_unwrap_then. intros p _.
    eapply h_then; [apply l_assign; reflexivity|]. intros _.
    eapply h_then; [apply l_assign; reflexivity|]. intros _.
    apply r_assign; [reflexivity|apply gh_remove].
  Qed.
  Lemma half_pair_any : forall lh rh i e f, SoundTables.hoare Inv (ab [] []) (half_pair E lh rh i e f) (fun _ => ab [] []).
  Proof.
    intros. unfold half_pair.
    eapply h_then; [apply l_assign; reflexivity|]. intros _.
    eapply h_then; [apply l_assign; reflexivity|]. intros _.
    apply h_getst. intros m Hm _. apply h_any. apply h_unwrap_then. intros p _.
    apply r_assign; [reflexivity|apply gh_remove].
  Qed.
  Lemma insert_inv : forall l r m m', GL l -> Inv m -> P_insert E F l r m m' -> Inv m'.
  Proof.
    intros l r m m' Gl I0 [->|K]; auto. rewrite (hb E GL GR s b _ I0) in K.
    destruct (t_get_mut E (left_set m) _ _) as [[i e]|] eqn:QL; destruct (t_get_mut E (right_set m) _ _) as [[j f]|] eqn:QR.
    - destruct K.
    - destruct K as (m1 & Q & K). eapply lost_r_inv; [|exact K].
      eapply (by_hoare _ _ _ _ _ _ (move_off_any _ _ _ _ _)) in Q as [I1 _]; eauto. apply ab_nil.
    - destruct K as (m1 & Q & K). eapply lost_l_inv; [|exact K].
      eapply r_assign_inv; [| |exact I0|exact Q]; [reflexivity|apply gh_insert, OK].
    - destruct K as [K|(m1 & Q & K)]; [eapply lost_l_inv; eauto|]. eapply lost_r_inv; [|exact K].
      eapply (by_hoare _ _ _ _ _ _ (l_insert E OK GL GR s b l _ _ _ [] [] Gl)) in Q as [I1 _]; eauto.
      split; [constructor; [|constructor]|constructor]. eapply l_mut_none; eauto.
  Qed.
  Lemma insert_right_inv : forall r m m', Inv m -> P_insert_right E F r m m' -> Inv m'.
  Proof.
    intros r m m' I0 [K|(m1 & a & Q1 & K)]; [eapply remove_right_inv; eauto|].
    eapply (by_hoare _ _ _ _ _ _ (remove_right_any E OK GL GR s b r [] [])) in Q1 as [I1 A1]; eauto; [|apply ab_nil].
    destruct K as [->|(m2 & Q2 & K)]; auto.
    eapply (by_hoare _ _ _ _ _ _ (incr_r_any E GL GR s b [] [r])) in Q2 as [I2 A2]; eauto.
    eapply lost_r_inv; eauto.
  Qed.
  Lemma insert_remove_inv : forall l r m m', GL l -> Inv m -> P_insert_remove E F l r m m' -> Inv m'.
  Proof.
    intros l r m m' Gl I0 [->|(m1 & a & Q1 & K)]; auto.
    eapply (by_hoare _ _ _ _ _ _ (remove_left_any E OK GL GR s b l [] [])) in Q1 as [I1 A1]; eauto; [|apply ab_nil].
    destruct K as [K|(m2 & b2 & Q2 & K)]; [eapply remove_right_inv; eauto|].
    eapply (by_hoare _ _ _ _ _ _ (remove_right_any E OK GL GR s b r [l] [])) in Q2 as [I2 A2]; eauto.
    destruct K as [->|(m3 & Q3 & K)]; auto.
    assert (H : SoundTables.hoare Inv (ab [l] [r]) (incr_left E ;;; incr_right E) (fun _ => ab [l] [r])).
    { eapply h_then; [apply incr_l_any|]. intros _. apply incr_r_any. }
    eapply (by_hoare _ _ _ _ _ _ H) in Q3 as [I3 A3]; eauto.
    destruct K as [K|(m4 & Q4 & K)]; [eapply lost_l_inv; eauto|].
    rewrite (hb E GL GR s b _ I2) in Q4.
    eapply (by_hoare _ _ _ _ _ _ (l_insert E OK GL GR s b l _ _ _ [] [r] Gl)) in Q4 as [I4 A4]; eauto.
    eapply lost_r_inv; eauto.
  Qed.
  Lemma insert_left_inv : forall l r m m', Inv m -> P_insert_left E F l r m m' -> Inv m'.
  Proof.
    intros l r m m' I0 [->|(j & e & m1 & _ & Q1 & K)]; auto.
    eapply r_assign_inv in Q1 as I1; [|reflexivity|apply gh_insert, OK|exact I0].
    destruct K as [->|(m2 & a & m3 & Q2 & Q3 & K)]; auto.
    eapply (by_hoare _ _ _ _ _ _ (remove_left_any E OK GL GR s b l [] [])) in Q2 as [I2 A2]; eauto; [|apply ab_nil].
    eapply (by_hoare _ _ _ _ _ _ (incr_l_any E GL GR s b [l] [])) in Q3 as [I3 A3]; eauto.
    eapply lost_l_inv; eauto.
  Qed.
  Lemma swap_right_inv : forall old new m m', Inv m -> P_swap_right E F old new m m' -> Inv m'.
  Proof.
    intros old new m m' I0 [->|K]; auto.
    destruct (t_get_mut E (right_set m) _ _) as [[j e]|]; [|eapply insert_right_inv; eauto].
    destruct K as (m1 & Q1 & K). eapply r_assign_inv in Q1 as I1; [|reflexivity|apply gh_clear|exact I0].
    destruct K as [->|K]; auto. eapply lost_r_inv; eauto.
  Qed.
  Lemma swap_right_remove_inv : forall old new m m', Inv m -> P_swap_right_remove E F old new m m' -> Inv m'.
  Proof.
    intros old new m m' I0 [->|(m1 & o & Q1 & K)]; auto.
    eapply (by_hoare _ _ _ _ _ _ (r_remove_any E GL GR s b _ _ [] [])) in Q1 as [I1 _]; eauto; [|apply ab_nil].
    destruct o as [e|]; [|eapply insert_right_inv; eauto]. destruct K as [->|K]; auto. eapply lost_r_inv; eauto.
  Qed.
  Lemma pair_inv : forall l r m m', Inv m -> P_pair E l r m m' -> Inv m'.
  Proof.
    intros l r m m' I0 [->|(i & e & f & _ & _ & Q)]; auto.
    eapply (by_hoare _ _ _ _ _ _ (half_pair_any _ _ _ _ _)) in Q as [I1 _]; eauto. apply ab_nil.
  Qed.
  Lemma extend_pairs_inv : forall xs m m', Forall GL (List.map fst xs) -> Forall GR (List.map snd xs) ->
    Inv m -> P_extend_pairs E F xs m m' -> Inv m'.
  Proof.
    induction xs as [|[l r] xs IH]; simpl; intros m m' FL FR I0 K; [destruct K|].
    inversion FL; inversion FR; subst. destruct K as [K|(m1 & Q & K)]; [eapply (insert_inv l r); eauto|].
    eapply (by_hoare _ _ _ _ _ _ (insert_any E OK GL GR s b l r ltac:(auto) ltac:(auto))) in Q as [I1 _]; eauto; apply ab_nil.
  Qed.
  Lemma extend_inv : forall xs m m', Forall GL (flat_map some_l xs) -> Forall GR (List.map snd xs) ->
    Inv m -> P_extend E F xs m m' -> Inv m'.
  Proof.
    induction xs as [|[[l|] r] xs IH]; simpl; intros m m' FL FR I0 K; [destruct K| |].
    - inversion FL; inversion FR; subst. destruct K as [K|(m1 & Q & K)]; [eapply (insert_inv l r); eauto|].
      eapply (by_hoare _ _ _ _ _ _ (insert_any E OK GL GR s b l r ltac:(auto) ltac:(auto))) in Q as [I1 _]; eauto; apply ab_nil.
    - inversion FR; subst. destruct K as [K|(m1 & d & Q & K)]; [eapply (insert_right_inv r); eauto|].
      eapply (by_hoare _ _ _ _ _ _ (insert_right_any E OK GL GR s b r ltac:(auto))) in Q as [I1 _]; eauto; apply ab_nil.
  Qed.
  Lemma u_step_inv : forall o w m, Forall GL (given_l o) -> Forall GR (given_r o) ->
    (b = true -> fresh_swap E m o) -> Inv m -> Inv (fst (u_step E F m o w)).
  Proof.
    intros o w m FL FR FS I0. destruct (u_step_cases E F m o w) as [->|(N & m' & -> & K)].
    - apply step_any; auto.
    - cbn [fst]. destruct o; cbn [P_step given_l given_r] in *; subst; auto;
        repeat match goal with H : Forall _ [_] |- _ => inversion H; clear H; subst end;
        try (eapply insert_inv; eassumption); try (eapply insert_left_inv; eassumption);
        try (eapply insert_right_inv; eassumption); try (eapply insert_remove_inv; eassumption);
        try (eapply swap_right_inv; eassumption); try (eapply swap_right_remove_inv; eassumption);
        try (eapply pair_inv; eassumption); try (eapply remove_right_inv; eassumption);
        try (eapply extend_inv; eassumption); try (eapply extend_pairs_inv; eassumption).
      destruct K as [->|[_ K]]; auto. eapply remove_right_inv; eauto.
  Qed.
  (* the swaps of a history bring in absent items, wherever it panics *)
  Fixpoint fresh_swaps (m : map) (ops : list (op L R * fuse)) : Prop :=
    match ops with
    | [] => True
    | (o, w) :: t => fresh_swap E m o /\ fresh_swaps (fst (u_step E F m o w)) t
    end.
  Lemma u_run_inv : forall ops m, Forall GL (flat_map (fun x => given_l (fst x)) ops) ->
    Forall GR (flat_map (fun x => given_r (fst x)) ops) -> (b = true -> fresh_swaps m ops) ->
    Inv m -> Inv (fst (u_run E F m ops)).
  Proof.
    induction ops as [|[o w] ops IH]; simpl; intros m FL FR FS I0; auto.
    apply Forall_app in FL as [FL1 FL2]. apply Forall_app in FR as [FR1 FR2].
    assert (X := u_step_inv o w m FL1 FR1 (fun B => proj1 (FS B)) I0).
    assert (G2 := fun B => proj2 (FS B)). destruct (u_step E F m o w) as [m1 a].
    specialize (IH m1 FL2 FR2 G2 X). destruct (u_run E F m1 ops). auto.
  Qed.
  End Inv.

  (* ids taken *)
  Definition within (n : N) (m m' : map) : Prop :=
    left_counter m' <= left_counter m + n /\ right_counter m' <= right_counter m + n.
  Definition tk {A} (n : N) (c : M map A) : Prop := forall m, within n m (res_state (c m)).
  Lemma within_trans : forall n1 n2 a b c, within n1 a b -> within n2 b c -> within (n1 + n2) a c.
  Proof. unfold within. intros. lia. Qed.
  Lemma within_refl : forall n m, within n m m.
  Proof. unfold within. intros. lia. Qed.
  Lemma within_more : forall n1 n2 a b, n1 <= n2 -> within n1 a b -> within n2 a b.
  Proof. unfold within. intros. lia. Qed.
  Lemma tk_bind : forall {A B} n1 n2 (c : M map A) (k : A -> M map B), tk n1 c ->
    (forall a, tk n2 (k a)) -> tk (n1 + n2) (bind c k).
  Proof.
    intros A B n1 n2 c k H1 H2 m. specialize (H1 m). unfold bind in *. destruct (c m) as [m' a|m']; simpl in *.
    - eapply within_trans; [exact H1|apply H2].
    - eapply within_more; [|exact H1]. lia.
  Qed.
  Lemma tk_more : forall {A} n1 n2 (c : M map A), n1 <= n2 -> tk n1 c -> tk n2 c.
  Proof. intros A n1 n2 c H H1 m. eapply within_more; eauto. Qed.
  Lemma tk_then : forall {A B} n (c : M map A) (k : A -> M map B), tk 0 c ->
    (forall a, tk n (k a)) -> tk n (bind c k).
  Proof. intros. apply (tk_bind 0 n); auto. Qed.
  Lemma tk_getst : tk 0 (@getst map).
  Proof. intros m. apply within_refl. Qed.
  Lemma tk_ret : forall {A} (a : A) n, tk n (ret a).
  Proof. intros A a n m. apply within_refl. Qed.
  Lemma tk_unwrap : forall {A} (o : option A) n, tk n (unwrap o).
  Proof. intros A [a|] n m; apply within_refl. Qed.
  Lemma tk_lre : forall h p, tk 0 (left_remove_entry E h p).
  Proof.
    intros h p m. unfold left_remove_entry, bind, getst, putst, ret, within.
    destruct (t_remove_entry _ _ _ _) as [[? ?]|]; simpl; lia.
  Qed.
  Lemma tk_rre : forall h p, tk 0 (right_remove_entry E h p).
  Proof.
    intros h p m. unfold right_remove_entry, bind, getst, putst, ret, within.
    destruct (t_remove_entry _ _ _ _) as [[? ?]|]; simpl; lia.
  Qed.
  Lemma tk_la : forall i f, tk 0 (@left_assign L R S i f).
  Proof. intros i f m. unfold left_assign, bind, getst, putst, within; simpl. lia. Qed.
  Lemma tk_ra : forall i f, tk 0 (@right_assign L R S i f).
  Proof. intros i f m. unfold right_assign, bind, getst, putst, within; simpl. lia. Qed.
  Lemma tk_li : forall h e, tk 0 (left_insert E h e).
  Proof. intros h e m. unfold left_insert, bind, getst, putst, within; simpl. lia. Qed.
  Lemma tk_ri : forall h e, tk 0 (right_insert E h e).
  Proof. intros h e m. unfold right_insert, bind, getst, putst, within; simpl. lia. Qed.
  Lemma incr_l_ids : forall m, left_counter (res_state (incr_left E m)) <= left_counter m + 1 /\
    right_counter (res_state (incr_left E m)) = right_counter m.
  Proof.
    intros m. unfold incr_left, bind, getst, putst, u64_incr.
    destruct (left_counter m + 1 <? two64); simpl; [lia|]. destruct (ovf E); simpl; lia.
  Qed.
  Lemma incr_r_ids : forall m, right_counter (res_state (incr_right E m)) <= right_counter m + 1 /\
    left_counter (res_state (incr_right E m)) = left_counter m.
  Proof.
    intros m. unfold incr_right, bind, getst, putst, u64_incr.
    destruct (right_counter m + 1 <? two64); simpl; [lia|]. destruct (ovf E); simpl; lia.
  Qed.
  Lemma tk_incl : tk 1 (incr_left E).
  Proof. intros m. destruct (incr_l_ids m). unfold within. lia. Qed.
  Lemma tk_incr : tk 1 (incr_right E).
  Proof. intros m. destruct (incr_r_ids m). unfold within. lia. Qed.
  Lemma tk_both_then : forall {B} (k : unit -> M map B), (forall a, tk 0 (k a)) ->
    tk 1 (incr_left E ;;; bind (incr_right E) k).
  Proof.
    intros B k H m. destruct (incr_l_ids m) as [A1 A2]. unfold bind at 1. destruct (incr_left E m) as [m1 u|m1]; simpl in *;
      [|unfold within; lia].
    destruct (incr_r_ids m1) as [B1 B2]. unfold bind. destruct (incr_right E m1) as [m2 u2|m2]; simpl in *;
      [|unfold within; lia].
    specialize (H u2 m2). unfold within in *. lia.
  Qed.
  Lemma tk_both : tk 1 (incr_left E ;;; incr_right E).
  Proof.
    intros m. destruct (incr_l_ids m) as [A1 A2]. unfold bind. destruct (incr_left E m) as [m1 u|m1]; simpl in *;
      [|unfold within; lia].
    destruct (incr_r_ids m1) as [B1 B2]. unfold within. lia.
  Qed.
  Create HintDb gtk.
  Hint Resolve tk_getst tk_unwrap tk_lre tk_rre tk_la tk_ra tk_li tk_ri : gtk.
  Ltac tkgo :=
    repeat (cbv beta zeta; first
      [ apply tk_ret | apply tk_unwrap | solve [eauto with gtk]
      | match goal with
        | |- tk 1 (_ ;;; incr_right _) => apply tk_both
        | |- tk 1 (bind (incr_left _) (fun _ => bind (incr_right _) _)) => apply tk_both_then; intros
        | |- tk 1 (bind (incr_left _) _) => apply (tk_bind 1 0); [apply tk_incl|intros]
        | |- tk 1 (bind (incr_right _) _) => apply (tk_bind 1 0); [apply tk_incr|intros]
        | |- tk 1 (incr_left _) => apply tk_incl
        | |- tk 1 (incr_right _) => apply tk_incr
        | |- tk ?n (bind _ _) => apply tk_then; [solve [eauto with gtk]|intros]
        | |- tk _ (match ?x with _ => _ end) => destruct x
        end]).
  Lemma tk_remove_pairs : forall ps, tk 0 (remove_pairs E ps).
  Proof.
    induction ps as [|[h i] ps IH]; simpl; [apply tk_ret|].
    apply tk_then; [apply tk_lre|]. intros o. apply tk_then; [apply tk_unwrap|]. intros x.
    apply tk_then; [exact IH|]. intros. apply tk_ret.
  Qed.
  Lemma tk_rehash : forall nh ps, tk 0 (rehash_pairs E nh ps).
  Proof.
    induction ps as [|[h i] ps IH]; simpl; [apply tk_ret|].
    apply tk_then; [apply tk_getst|]. intros m. apply tk_then; [apply tk_unwrap|]. intros x.
    apply tk_then; [apply tk_la|]. auto.
  Qed.
  Hint Resolve tk_remove_pairs tk_rehash : gtk.
  Lemma tk_remove_left : forall l, tk 0 (remove_left E l).
  Proof. intros. unfold remove_left. tkgo. Qed.
  Lemma tk_remove_right : forall l, tk 0 (remove_right E l).
  Proof. intros. unfold remove_right. tkgo. Qed.
  Hint Resolve tk_remove_left tk_remove_right : gtk.
  Lemma tk_remove : forall l r, tk 0 (remove E l r).
  Proof. intros. unfold remove. tkgo. Qed.
  Lemma tk_insert : forall l r, tk 1 (insert E l r).
  Proof. intros. unfold insert. tkgo. all: eapply tk_more; [|tkgo]; lia. Qed.
  Lemma tk_insert_remove : forall l r, tk 1 (insert_remove E l r).
  Proof. intros. unfold insert_remove. tkgo. Qed.
  Lemma tk_insert_left : forall l r, tk 1 (insert_left E l r).
  Proof. intros. unfold insert_left. tkgo. Qed.
  Lemma tk_insert_right : forall r, tk 1 (insert_right E r).
  Proof. intros. unfold insert_right. tkgo. Qed.
  Lemma tk_pair : forall l r, tk 0 (pair E l r).
  Proof. intros. unfold pair. tkgo. Qed.
  Hint Resolve tk_insert_right : gtk.
  Lemma tk_swap_right : forall old new, tk 1 (swap_right E old new).
  Proof. intros. unfold swap_right. tkgo. all: apply (tk_bind 1 0); [apply tk_insert_right|intros; tkgo]. Qed.
  Lemma tk_swap_right_remove : forall old new, tk 1 (swap_right_remove E old new).
  Proof. intros. unfold swap_right_remove. tkgo. all: apply (tk_bind 1 0); [apply tk_insert_right|intros; tkgo]. Qed.
  Lemma tk_extend_pairs : forall xs, tk (N.of_nat (length xs)) (extend_pairs E xs).
  Proof.
    induction xs as [|[l r] xs IH]; [apply tk_ret|].
    replace (N.of_nat (length ((l, r) :: xs))) with (1 + N.of_nat (length xs)) by (simpl length; lia).
    cbn [extend_pairs]. apply tk_bind; [apply tk_insert|]. auto.
  Qed.
  Lemma tk_extend : forall xs, tk (N.of_nat (length xs)) (extend E xs).
  Proof.
    induction xs as [|[[l|] r] xs IH]; [apply tk_ret| |];
      (match goal with |- tk (N.of_nat (length (?e :: _))) _ =>
         replace (N.of_nat (length (e :: xs))) with (1 + N.of_nat (length xs)) by (simpl length; lia) end);
      cbn [extend]; (apply tk_bind; [|auto]); auto using tk_insert, tk_insert_right.
  Qed.
  Lemma tk_drop_lefts : forall xs, tk 0 (drop_lefts E xs).
  Proof. induction xs as [|[h i] xs IH]; [apply tk_ret|]. cbn [drop_lefts]. apply tk_then; [apply tk_lre|auto]. Qed.
  Lemma tk_drop_rights : forall xs, tk 0 (drop_rights E xs).
  Proof.
    induction xs as [|[h i] xs IH]; [apply tk_ret|]. cbn [drop_rights]. apply tk_then; [|auto].
    unfold remove_via_hash_and_id. tkgo.
  Qed.
  Lemma tk_via : forall {A} n (k : A -> out L R) (c : M map A) m, tk n c -> within n m (fst (via k (c m))).
  Proof. intros A n k c m H. specialize (H m). destruct (c m); auto. Qed.
  Lemma retain_ids : forall {X A I} (f : X -> A -> X * verdict) (next : I -> outcome (option A * I)) key dall fuel it m x,
    (forall xs, tk 0 (dall xs)) ->
    within 0 m (fst (via_closure (R:=R) (L:=L) (retain_with f next key dall fuel it (m, x)))).
  Proof.
    intros X A I f next key dall fuel it m x H. unfold retain_with.
    destruct (retain_scan _ _ _ _ _ _) as [x' l|x']; [|apply within_refl].
    assert (X1 := H l m). destruct (dall l m); auto.
  Qed.
  Lemma step_ids : forall m o, within (ids o) m (fst (step E m o)).
  Proof.
    intros m o. destruct o; cbn [step ids]; try (apply tk_via); try apply within_refl;
      auto using tk_insert, tk_insert_left, tk_insert_right, tk_insert_remove, tk_pair,
        tk_remove, tk_remove_left, tk_remove_right, tk_swap_right, tk_swap_right_remove, tk_extend_pairs, tk_extend.
    - destruct (get_left_iter E m r); [|apply within_refl]. unfold seen. destruct (pair_rest _ _ _); apply within_refl.
    - unfold seen. destruct (iter_rest _ _ _); apply within_refl.
    - unfold seen. destruct (paired_rest _ _ _); apply within_refl.
    - unfold seen. destruct (unpaired_rest _); apply within_refl.
    - unfold seen. destruct (left_rest _); apply within_refl.
    - unfold seen. destruct (right_rest _); apply within_refl.
    - apply retain_ids, tk_drop_lefts.
    - apply retain_ids, tk_drop_rights.
    - intros m'. unfold within. simpl. lia.
    - unfold within. simpl. lia.
  Qed.
  Lemma tk_at : forall {A} n (c : M map A) m m' a, tk n c -> c m = Ret m' a -> within n m m'.
  Proof. intros A n c m m' a H Q. specialize (H m). rewrite Q in H. exact H. Qed.
  Lemma lost_l_ids : forall h m m', lost_l E F h m m' -> within 0 m m'.
  Proof. intros h m m' (t & _ & ->). unfold within. simpl. lia. Qed.
  Lemma lost_r_ids : forall h m m', lost_r E F h m m' -> within 0 m m'.
  Proof. intros h m m' (t & _ & ->). unfold within. simpl. lia. Qed.
  Ltac at_ := repeat match goal with
    | H : lost_l _ _ _ _ _ |- _ => apply lost_l_ids in H
    | H : lost_r _ _ _ _ _ |- _ => apply lost_r_ids in H
    end; unfold within in *; lia.
  Lemma remove_right_ids : forall r m m', P_remove_right E r m m' -> within 0 m m'.
  Proof.
    intros r m m' [->|(m1 & e & ps1 & ps2 & ls & Q1 & _ & _ & Q2)]; [apply within_refl|].
    apply (tk_at 0) in Q1; [|apply tk_rre]. apply (tk_at 0) in Q2; [|apply tk_remove_pairs]. at_.
  Qed.
  Lemma insert_ids : forall l r m m', P_insert E F l r m m' -> within 1 m m'.
  Proof.
    intros l r m m' [->|K]; [apply within_refl|].
    destruct (t_get_mut E (left_set m) _ _) as [[i e]|]; destruct (t_get_mut E (right_set m) _ _) as [[j f]|].
    - destruct K.
    - destruct K as (m1 & Q & K). apply (tk_at 0) in Q; [|unfold move_off; tkgo]. at_.
    - destruct K as (m1 & Q & K). apply (tk_at 0) in Q; [|apply tk_ra]. at_.
    - destruct K as [K|(m1 & Q & K)]; [at_|]. apply (tk_at 0) in Q; [|apply tk_li]. at_.
  Qed.
  Lemma insert_right_ids : forall r m m', P_insert_right E F r m m' -> within 1 m m'.
  Proof.
    intros r m m' [K|(m1 & a & Q1 & K)]; [apply remove_right_ids in K; at_|].
    apply (tk_at 0) in Q1; [|apply tk_remove_right]. destruct K as [->|(m2 & Q2 & K)]; [at_|].
    apply (tk_at 1) in Q2; [|apply tk_incr]. at_.
  Qed.
  Lemma insert_remove_ids : forall l r m m', P_insert_remove E F l r m m' -> within 1 m m'.
  Proof.
    intros l r m m' [->|(m1 & a & Q1 & K)]; [apply within_refl|].
    apply (tk_at 0) in Q1; [|apply tk_remove_left].
    destruct K as [K|(m2 & b & Q2 & K)]; [apply remove_right_ids in K; at_|].
    apply (tk_at 0) in Q2; [|apply tk_remove_right]. destruct K as [->|(m3 & Q3 & K)]; [at_|].
    apply (tk_at 1) in Q3; [|apply tk_both].
    destruct K as [K|(m4 & Q4 & K)]; [at_|]. apply (tk_at 0) in Q4; [|apply tk_li]. at_.
  Qed.
  Lemma insert_left_ids : forall l r m m', P_insert_left E F l r m m' -> within 1 m m'.
  Proof.
    intros l r m m' [->|(j & e & m1 & _ & Q1 & K)]; [apply within_refl|].
    apply (tk_at 0) in Q1; [|apply tk_ra]. destruct K as [->|(m2 & a & m3 & Q2 & Q3 & K)]; [at_|].
    apply (tk_at 0) in Q2; [|apply tk_remove_left]. apply (tk_at 1) in Q3; [|apply tk_incl]. at_.
  Qed.
  Lemma swap_right_ids : forall old new m m', P_swap_right E F old new m m' -> within 1 m m'.
  Proof.
    intros old new m m' [->|K]; [apply within_refl|].
    destruct (t_get_mut E (right_set m) _ _) as [[j e]|]; [|eapply insert_right_ids; eauto].
    destruct K as (m1 & Q1 & K). apply (tk_at 0) in Q1; [|apply tk_ra]. destruct K as [->|K]; at_.
  Qed.
  Lemma swap_right_remove_ids : forall old new m m', P_swap_right_remove E F old new m m' -> within 1 m m'.
  Proof.
    intros old new m m' [->|(m1 & o & Q1 & K)]; [apply within_refl|].
    apply (tk_at 0) in Q1; [|apply tk_rre].
    destruct o as [e|]; [destruct K as [->|K]; at_|]. apply insert_right_ids in K. at_.
  Qed.
  Lemma pair_ids : forall l r m m', P_pair E l r m m' -> within 0 m m'.
  Proof.
    intros l r m m' [->|(i & e & f & _ & _ & Q)]; [apply within_refl|].
    apply (tk_at 0) in Q; [exact Q|]. unfold half_pair. tkgo.
  Qed.
  Lemma extend_pairs_ids : forall xs m m', P_extend_pairs E F xs m m' -> within (N.of_nat (length xs)) m m'.
  Proof.
    induction xs as [|[l r] xs IH]; cbn [P_extend_pairs]; intros m m' K; [destruct K|]. simpl length.
    destruct K as [K|(m1 & Q & K)]; [apply insert_ids in K; at_|].
    apply (tk_at 1) in Q; [|apply tk_insert]. apply IH in K. at_.
  Qed.
  Lemma extend_ids : forall xs m m', P_extend E F xs m m' -> within (N.of_nat (length xs)) m m'.
  Proof.
    induction xs as [|[[l|] r] xs IH]; cbn [P_extend]; intros m m' K; simpl length; [destruct K| |].
    - destruct K as [K|(m1 & Q & K)]; [apply insert_ids in K; at_|].
      apply (tk_at 1) in Q; [|apply tk_insert]. apply IH in K. at_.
    - destruct K as [K|(m1 & d & Q & K)]; [apply insert_right_ids in K; at_|].
      apply (tk_at 1) in Q; [|apply tk_insert_right]. apply IH in K. at_.
  Qed.
  Lemma u_step_ids : forall m o w, within (ids o) m (fst (u_step E F m o w)).
  Proof.
    intros m o w. destruct (u_step_cases E F m o w) as [->|(N & m' & -> & K)]; [apply step_ids|].
    cbn [fst]. destruct o; cbn [P_step ids] in *; subst; try apply within_refl;
      eauto using insert_ids, insert_right_ids, insert_left_ids, insert_remove_ids, swap_right_ids,
        swap_right_remove_ids, pair_ids, remove_right_ids, extend_ids, extend_pairs_ids.
    destruct K as [->|[_ K]]; [apply within_refl|eapply remove_right_ids; eauto].
  Qed.
  Lemma u_run_ids : forall ops m, within (budget (List.map fst ops)) m (fst (u_run E F m ops)).
  Proof.
    induction ops as [|[o w] ops IH]; intros m; [apply within_refl|]. cbn [u_run List.map budget fst].
    assert (X := u_step_ids m o w). destruct (u_step E F m o w) as [m1 a]. specialize (IH m1).
    destruct (u_run E F m1 ops). simpl in *. eapply within_trans; eauto.
  Qed.

  (* any map a program can get hold of, panics of user code included *)
  Definition survives (m : map) (ops : list (op L R * fuse)) : Prop :=
    exists s ll lr, m = fst (u_run E F (with_hasher s ll lr) ops).
  (* the same, when no swap brings in an item already there *)
  Definition fairly_survives (m : map) (ops : list (op L R * fuse)) : Prop :=
    exists s ll lr, m = fst (u_run E F (with_hasher s ll lr) ops) /\ fresh_swaps (with_hasher s ll lr) ops.
  Notation "a =L b" := (eqL E a b = true) (at level 70).
  Notation "a =R b" := (eqR E a b = true) (at level 70).

  (* ---- C101 ---- the left side is a set, and lookups and iterators agree with the two sides *)
  Theorem C101_sides : forall m ops, survives m ops -> exists ls rs,
    lefts m ls /\ rights m rs /\ distinct (eqL E) ls /\
    len_left m = length ls /\ len_right m = length rs /\ (is_empty m = true <-> ls = [] /\ rs = []) /\
    (forall l, contains_left E m l = true <-> exists l', In l' ls /\ l =L l') /\
    (forall r, contains_right E m r = true <-> exists r', In r' rs /\ r =R r') /\
    (forall l r, get_right E m l = Some r -> contains_left E m l = true /\ In r rs) /\
    (forall r, get_left_iter E m r = None <-> contains_right E m r = false) /\
    (forall r it xs, get_left_iter E m r = Some it -> pair_rest E m it = Done xs -> incl xs ls) /\
    (forall l r, are_paired E m l r = true -> contains_left E m l = true /\ contains_right E m r = true) /\
    (forall r, is_right_paired E m r = true -> contains_right E m r = true) /\
    (forall ps, paired_rest E m (iter_paired m) = Done ps -> List.map fst ps = ls /\ incl (List.map snd ps) rs) /\
    (exists us, unpaired_rest (iter_unpaired m) = Done us /\ incl us rs).
  Proof.
    intros m ops (s & ll & lr & ->). eapply (inv_sides E OK s).
    apply (u_run_inv (fun _ => True) (fun _ => True)); try apply Forall_top; [discriminate|apply inv_new].
  Qed.
  (* the right side is one too while no swap brings in an item already there *)
  Theorem C101_rights : forall m ops, fairly_survives m ops -> exists rs, rights m rs /\ distinct (eqR E) rs.
  Proof.
    intros m ops (s & ll & lr & -> & FS).
    assert (I1 : Inv E (fun _ => True) (fun _ => True) s true (fst (u_run E F (with_hasher s ll lr) ops)))
      by (apply u_run_inv; try apply Forall_top; auto; apply inv_new).
    destruct I1 as (_ & _ & (_ & D & _)). eexists. split; [apply rights_are; reflexivity|auto].
  Qed.
  (* of the items handed over, and of no others *)
  Theorem C101_given : forall m ops ls rs, survives m ops -> lefts m ls -> rights m rs ->
    incl ls (flat_map (fun x => given_l (fst x)) ops) /\ incl rs (flat_map (fun x => given_r (fst x)) ops).
  Proof.
    intros m ops ls rs (s & ll & lr & ->) HL HR. apply lefts_are in HL. apply rights_are in HR. subst.
    destruct (u_run_inv (fun l => In l (flat_map (fun x => given_l (fst x)) ops))
                (fun r => In r (flat_map (fun x => given_r (fst x)) ops)) s false ops
                (with_hasher s ll lr)) as (_ & (_ & _ & F1) & (_ & _ & F2)).
    - apply Forall_forall; auto.
    - apply Forall_forall; auto.
    - discriminate.
    - apply inv_new.
    - rewrite Forall_forall in F1. split; auto.
      intros y Hy. apply in_map_iff in Hy as (z & <- & Hz). apply F2; auto.
  Qed.
  (* clear() mends it all *)
  Theorem C101_clear : forall m ops k, survives m ops -> budget (List.map fst ops) + k < two64 ->
    exists m', clear E m = Ret m' tt /\ behaves_as E k m' (GC [] []).
  Proof.
    intros m ops k (s & ll & lr & ->) B. set (m := fst _). eexists. split; [reflexivity|].
    assert (I1 : Inv E (fun _ => True) (fun _ => True) s false m)
      by (apply u_run_inv; try apply Forall_top; [discriminate|apply inv_new]).
    destruct (u_run_ids ops (with_hasher s ll lr)) as [C1 C2]. fold m in C1, C2. simpl in C1, C2.
    eapply (repr_behaves E OK s (left_counter m) (right_counter m)); [|lia|lia].
    exists [], [], []. split; [|split; auto].
    - constructor; simpl; auto; try constructor; try easy. apply I1.
    - split; auto. split; auto. intros _ z [].
  Qed.
End FaultAny.

(* ---- a case: panics that lose buckets on the left and leave left items without right item;
   then clear() ---- *)
Definition gwild_ops : list (op item item * fuse) :=
  [(Insert (it 1) (it 10), None); (Insert (it 2) (it 10), None); (Insert (it 3) (it 20), None);
   (Insert (it 7) (it 70), Some 9%nat); (RemoveRight (it 20), Some 2%nat); (InsertLeft (it 4) (it 10), Some 2%nat);
   (SwapRight (it 20) (it 50), Some 3%nat); (Insert (it 5) (it 20), None)].
Definition gwild : gmap item item N := fst (u_run env_room f_in_place (with_hasher 0 (hb_new lo_room 3) f_cap) gwild_ops).
Definition gseen (m : gmap item item N) :=
  (left_rest (iter_left m), right_rest (iter_right m), paired_rest env_room m (iter_paired m)).
Example C101_case :
  survives env_room f_in_place gwild gwild_ops /\ fairly_survives env_room f_in_place gwild gwild_ops /\
  budget (map fst gwild_ops) = 7 /\
  snd (u_run env_room f_in_place (with_hasher 0 (hb_new lo_room 3) f_cap) gwild_ops) =
    [OUnit; OUnit; OUnit; OPanic; OPanic; OPanic; OPanic; OUnit] /\
  gseen gwild = (Done [it 5; it 2], Done [it 20; it 10], Done [(it 5, it 20); (it 2, it 10)]) /\
  snd (step env_room gwild (GetLeftIter (it 10))) = OPanic /\
  snd (run env_room gwild [Clear; IterAll; Insert (it 1) (it 2); IterPairedAll; GetLeftIter (it 2)]) =
    [OUnit; OItems []; OUnit; OPairs [(it 1, it 2)]; OLsO (Some [it 1])].
Proof.
  split; [exists 0, (hb_new lo_room 3), f_cap; reflexivity|].
  split; [exists 0, (hb_new lo_room 3), f_cap; split; [reflexivity|]|run_all].
  repeat (split; [first [exact I|vm_compute; intros; first [discriminate|reflexivity]]|]). exact I.
Qed.

Print Assumptions C101_sides.
Print Assumptions C101_rights.
Print Assumptions C101_given.
Print Assumptions C101_clear.
