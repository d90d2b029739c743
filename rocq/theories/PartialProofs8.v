(* Refinement of PartialCycleMap, part 8: drain_filter.

   The iterator goes through the left table (pairs and unpaired lefts), then through what is
   left of the right table; there it shows the closure every right item, paired ones too, as
   SomeRight.  The scan is described by a list of visits.  DFG: for every closure, which right
   items are gone is recorded.  DFA: for closures that never answer true to the SomeRight of a
   paired item, where the rest is a map again. *)
From Coq Require Import List NArith Lia Bool Permutation PeanoNat.
From Verif Require Import Prelude RawTable Optionals PartialCycleMap PartialSpec ListFacts TableFacts
  Closures IterFacts PartialProofs PartialProofs2 PartialProofs3 PartialProofs6.
Import ListNotations.
Open Scope N_scope.

Section OneEach.
  Context {A B : Type} (g : A -> list B).
  Lemma one_each_length : forall l, (forall z, In z l -> length (g z) = 1%nat) ->
    length (flat_map g l) = length l.
  Proof.
    induction l; simpl; intros H; auto. rewrite app_length, IHl by (intros; apply H; auto).
    rewrite (H a); auto.
  Qed.
  Lemma one_each_nth : forall K z T b, (forall y, In y K -> length (g y) = 1%nat) -> g z = [b] ->
    nth_error (flat_map g (K ++ z :: T)) (length K) = Some b.
  Proof.
    intros K z T b HK Hz. rewrite flat_map_app, nth_error_app2; rewrite (one_each_length K HK); auto.
    rewrite Nat.sub_diag. simpl. rewrite Hz. auto.
  Qed.
  Lemma one_each_remove : forall K z T b, (forall y, In y K -> length (g y) = 1%nat) -> g z = [b] ->
    remove_nth (length K) (flat_map g (K ++ z :: T)) = flat_map g (K ++ T).
  Proof.
    intros K z T b HK Hz. rewrite !flat_map_app, <- (one_each_length K HK). simpl. rewrite Hz. simpl.
    apply remove_nth_app.
  Qed.
  Lemma one_each_inv : forall l i b, (forall y, In y l -> length (g y) = 1%nat) ->
    nth_error (flat_map g l) i = Some b -> exists z, nth_error l i = Some z /\ g z = [b].
  Proof.
    induction l as [|a l IH]; intros i b HL H.
    - destruct i; discriminate.
    - simpl in H. assert (HA := HL a (or_introl eq_refl)).
      destruct (g a) as [|y [|? ?]] eqn:G; simpl in HA; try discriminate.
      destruct i; simpl in H.
      + inversion H; subst. exists a; auto.
      + apply IH in H; auto. intros; apply HL; right; auto.
  Qed.
End OneEach.

Section Proofs8.
  Context {L R S : Type} (E : env L R S) (OK : lawful E).
  Notation pm := (pmap L R S).
  Notation entry := (optional_pair L R).
  Notation zent := (N * entry)%type.
  Notation Rep := (Rep E).
  Notation Repr := (Repr E).
  Notation slotL := (slotL E).
  Notation slotR := (slotR E).
  Let EL := eqL_equiv _ OK.
  Let ER := eqR_equiv _ OK.
  Let LO := lo_ok _ OK.

  Section DF.
    Context {X : Type} (f : X -> entry -> X * verdict).
    Notation vf := (on_visit (eqR E) f).

    Definition holds (z : zent) (e : entry) : bool :=
      match op_get_right (snd z) with Some r => has_r (eqR E) r e | None => false end.
    Definition nottk (tk : list entry) (z : zent) : bool := negb (existsb (holds z) tk).
    Definition isU (z : zent) : bool := negb (has_left_item (snd z)).
    Definition hasR (z : zent) : bool := is_some (op_get_right (snd z)).
    Definition VE' (z : zent) : visit entry := VE (snd z).
    Definition VR' (z : zent) : visit entry := VR (snd z).

    (* the closure does not take the right item of a pair *)
    Definition spares (e : entry) : Prop :=
      forall y r, has_left_item e = true -> op_get_right e = Some r ->
        snd (f y (SomeRight r)) <> Some true.

    Record DF1 (s : S) (c : N) (m : pm) (d : df_inner) (tk : list entry) (K T W : list zent) : Prop := {
      d1_rep : Rep s c (df_end m d) (K ++ T ++ filter isU W);
      d1_l : slots (df_left d) = flat_map (slotL s) (K ++ T);
      d1_hl : forall z, In z (K ++ T) -> op_get_left (snd z) <> None;
      d1_lpos : df_lpos d = length K;
      d1_r : slots (df_right d) = flat_map (slotR s) (filter (nottk tk) W);
      d1_hr : forall z, In z W -> op_get_right (snd z) <> None;
      d1_reset : df_reset d = true;
      d1_W : Permutation (filter (nottk tk) W) (filter hasR (K ++ T ++ filter isU W));
      d1_U : forall z, In z W -> isU z = true -> nottk tk z = true
    }.
    (* the entries at the end of the scan of the left table; A: the right items from then on,
       taken or not, and those taken earlier with their left items *)
    Record DF0 (s : S) (c : N) (m : pm) (tk : list entry) (K A : list zent) : Prop := {
      d0_hb : hash_builder m = s;
      d0_c : counter m = c;
      d0_ids : NoDup (map fst (K ++ filter isU A));
      d0_lt : forall z, In z (K ++ filter isU A) -> fst z < c;
      d0_bij : partial_bijection (eqL E) (eqR E) (map snd (K ++ filter isU A));
      d0_W : Permutation (filter (nottk tk) A) (filter hasR (K ++ filter isU A));
      d0_U : forall z, In z A -> isU z = true -> nottk tk z = true;
      d0_hr : forall z, In z A -> op_get_right (snd z) <> None
    }.
    (* G: the right items taken from the right table *)
    Record DF2 (s : S) (c : N) (m : pm) (d : df_inner) (tk : list entry) (K G KW TW : list zent) : Prop := {
      d2_0 : DF0 s c m tk K (G ++ KW ++ TW);
      d2_G : forall z, In z G -> nottk tk z = true;
      d2_l : slots (df_left d) = flat_map (slotL s) K;
      d2_hl : forall z, In z K -> op_get_left (snd z) <> None;
      d2_lpos : df_lpos d = length K;
      d2_r : slots (df_right d) = flat_map (slotR s) (filter (nottk tk) (KW ++ TW));
      d2_rpos : df_rpos d = length (filter (nottk tk) KW);
      d2_reset : df_reset d = false
    }.

    Lemma df0_perm : forall s c m tk K A A', Permutation A A' -> DF0 s c m tk K A -> DF0 s c m tk K A'.
    Proof.
      intros s c m tk K A A' P H.
      assert (Q : Permutation (K ++ filter isU A) (K ++ filter isU A'))
        by (apply Permutation_app_head, filter_perm; auto).
      destruct H. split; auto.
      - eapply NoDup_perm; [apply Permutation_map; exact Q|auto].
      - intros z Hz. apply d0_lt0. eapply Permutation_in; [symmetry|]; eauto.
      - eapply (pb_perm E OK); [apply Permutation_map; exact Q|auto].
      - rewrite <- (filter_perm _ _ _ P), <- (filter_perm _ _ _ Q). auto.
      - intros z Hz. apply d0_U0. eapply Permutation_in; [symmetry|]; eauto.
      - intros z Hz. apply d0_hr0. eapply Permutation_in; [symmetry|]; eauto.
    Qed.
    Lemma d2_hr : forall s c m d tk K G KW TW, DF2 s c m d tk K G KW TW ->
      forall z, In z (KW ++ TW) -> op_get_right (snd z) <> None.
    Proof.
      intros s c m d tk K G KW TW H z Hz. apply (d0_hr _ _ _ _ _ _ (d2_0 _ _ _ _ _ _ _ _ _ H)).
      apply in_app_iff; auto.
    Qed.

    Definition mu (d : @df_inner L R) : nat := (t_len (df_left d) + t_len (df_right d))%nat.

    Lemma one_r : forall s z, op_get_right (snd z) <> None -> length (slotR s z) = 1%nat.
    Proof.
      intros s z H. destruct (op_get_right (snd z)) as [b|] eqn:Q; [|easy].
      rewrite (slotR_some E s z b Q). auto.
    Qed.
    Lemma one_l : forall s z, op_get_left (snd z) <> None -> length (slotL s z) = 1%nat.
    Proof.
      intros s z H. destruct (op_get_left (snd z)) as [b|] eqn:Q; [|easy].
      rewrite (slotL_some E s z b Q). auto.
    Qed.

    (* ---- the right table ---- *)
    (* the entry whose right item a visit of the right table takes *)
    Definition gone_of (v : visit entry) : list entry :=
      match v with VE _ => [] | VR e => [e] end.
    Definition yielded (r : s_next_res (T := visit entry)) : list entry :=
      match r with SYield v => gone_of v | SEnd | SPanic => [] end.

    Lemma df2_right : forall s c m K tk TW G KW d x fuel, DF2 s c m d tk K G KW TW ->
      (length (filter (nottk tk) TW) <= fuel)%nat ->
      let '(xt, k, rest, r) := s_next vf (x, tk) (map VR' TW) in
      snd xt = tk /\
      exists d' G' KW' TW', DF2 s c m d' tk K G' KW' TW' /\ map snd G' = map snd G ++ yielded r /\
        map VR' KW' = map VR' KW ++ k /\ rest = map VR' TW' /\
        match r with
        | SYield v => df_next_right E f fuel d x = Ret (d', fst xt) (Some (shown v)) /\ (mu d' < mu d)%nat
        | SEnd => df_next_right E f fuel d x = Ret (d', fst xt) None
        | SPanic => df_next_right E f fuel d x = Panic (d', fst xt)
        end.
    Proof.
      intros s c m K tk. induction TW as [|z TW IH]; intros G KW d x fuel H HF.
      - cbn [map s_next]. split; auto. exists d, G, KW, []. cbn [yielded]. rewrite !app_nil_r.
        split; [auto|]. split; [auto|]. split; [auto|]. split; [auto|].
        assert (Q : t_entry (df_right d) (df_rpos d) = None).
        { unfold t_entry. rewrite (d2_r _ _ _ _ _ _ _ _ _ H), (d2_rpos _ _ _ _ _ _ _ _ _ H), app_nil_r.
          rewrite (proj2 (nth_error_None _ _)); auto. rewrite (one_each_length (slotR s)); auto.
          intros y Hy. apply one_r. apply (d2_hr _ _ _ _ _ _ _ _ _ H).
          apply filter_In in Hy as [Hy _]. apply in_app_iff; auto. }
        destruct fuel; simpl; rewrite Q; auto.
      - cbn [map s_next].
        assert (MV : forall tk', tk' = tk -> KW ++ z :: TW = (KW ++ [z]) ++ TW) by (intros; rewrite <- app_assoc; auto).
        assert (Hz : In z (KW ++ z :: TW)) by (apply in_app_iff; right; left; auto).
        assert (HR := d2_hr _ _ _ _ _ _ _ _ _ H z Hz).
        destruct (op_get_right (snd z)) as [b|] eqn:Hb; [|easy]. clear HR.
        unfold on_visit at 1. unfold VR' at 1. rewrite Hb. cbn [fst snd].
        assert (NT : existsb (has_r (eqR E) b) tk = negb (nottk tk z)).
        { unfold nottk, holds. rewrite Hb, negb_involutive. auto. }
        rewrite NT. cbn [filter] in HF. destruct (nottk tk z) eqn:NZ; cbn [negb].
        + (* met *)
          assert (NE : nth_error (slots (df_right d)) (df_rpos d)
                       = Some (hashR E s b, MP b (option_map (hashL E s) (op_get_left (snd z))) (fst z))).
          { rewrite (d2_r _ _ _ _ _ _ _ _ _ H), (d2_rpos _ _ _ _ _ _ _ _ _ H), filter_app.
            cbn [filter]. rewrite NZ. apply one_each_nth; [|apply slotR_some; auto].
            intros y Hy. apply one_r, (d2_hr _ _ _ _ _ _ _ _ _ H).
            apply filter_In in Hy as [Hy _]. apply in_app_iff; auto. }
          assert (TE : t_entry (df_right d) (df_rpos d)
                       = Some (MP b (option_map (hashL E s) (op_get_left (snd z))) (fst z))).
          { unfold t_entry. rewrite NE. auto. }
          assert (ADV : DF2 s c m (DF (df_left d) (df_lpos d) (df_right d) (Datatypes.S (df_rpos d)) (df_reset d))
                            tk K G (KW ++ [z]) TW).
          { destruct H. split; auto; try (rewrite <- app_assoc; auto).
            cbn [df_rpos]. rewrite filter_app, app_length. cbn [filter]. rewrite NZ. simpl. lia. }
          assert (UN : forall T (A B : T), df_next_right E f fuel d x =
            match f x (SomeRight b) with
            | (x', None) => Panic (DF (df_left d) (df_lpos d) (df_right d) (Datatypes.S (df_rpos d)) (df_reset d), x')
            | (x', Some true) =>
                Ret (DF (df_left d) (df_lpos d) (t_remove_at (lo E) (df_right d) (df_rpos d))
                      (df_rpos d) (df_reset d), x') (Some (SomeRight b))
            | (x', Some false) =>
              match fuel with
              | O => Panic (DF (df_left d) (df_lpos d) (df_right d) (Datatypes.S (df_rpos d)) (df_reset d), x')
              | Datatypes.S fuel' => df_next_right E f fuel'
                  (DF (df_left d) (df_lpos d) (df_right d) (Datatypes.S (df_rpos d)) (df_reset d)) x'
              end
            end).
          { intros. destruct fuel; cbn [df_next_right]; rewrite TE; auto. }
          specialize (UN unit tt tt). rewrite UN. clear UN.
          destruct (f x (SomeRight b)) as [x' [[|]|]]; cbn [fst snd] in *.
          * (* taken *)
            split; auto.
            exists (DF (df_left d) (df_lpos d) (t_remove_at (lo E) (df_right d) (df_rpos d))
                      (df_rpos d) (df_reset d)), (G ++ [z]), KW, TW.
            split; [|split; [rewrite map_app; auto|split; [rewrite app_nil_r; auto|split; [auto|split]]]].
            3:{ unfold mu. cbn [df_left df_right]. unfold t_len. cbn [t_remove_at slots].
                assert (LL := Permutation_length (remove_nth_perm _ _ _ NE)). cbn [length] in LL. lia. }
            2:{ unfold shown, VR'. rewrite Hb. reflexivity. }
            split; cbn [df_left df_right df_lpos df_rpos df_reset]; try apply H; auto.
            -- eapply df0_perm; [|apply (d2_0 _ _ _ _ _ _ _ _ _ H)].
               rewrite <- app_assoc. apply Permutation_app_head. symmetry. simpl. apply Permutation_middle.
            -- intros y Hy. apply in_app_iff in Hy as [Hy|[<-|[]]]; auto. apply (d2_G _ _ _ _ _ _ _ _ _ H); auto.
            -- cbn [t_remove_at slots]. rewrite (d2_r _ _ _ _ _ _ _ _ _ H), (d2_rpos _ _ _ _ _ _ _ _ _ H).
               rewrite !filter_app. cbn [filter]. rewrite NZ. eapply one_each_remove; [|apply slotR_some; eauto].
               intros y Hy. apply one_r, (d2_hr _ _ _ _ _ _ _ _ _ H).
               apply filter_In in Hy as [Hy _]. apply in_app_iff; auto.
          * (* kept *)
            destruct fuel as [|fuel]; [simpl in HF; lia|].
            specialize (IH G (KW ++ [z]) _ x' fuel ADV).
            destruct (s_next vf (x', tk) (map VR' TW)) as [[[xt k] rest] r].
            destruct IH as (T1 & d' & G' & KW' & TW' & D' & G1 & K1 & R1 & RES); [simpl in HF; lia|].
            split; auto. exists d', G', KW', TW'. split; auto. split; auto. split; [|split; auto].
            rewrite K1, map_app, <- app_assoc. auto.
          * split; auto. eexists _, G, (KW ++ [z]), TW. split; [exact ADV|].
            split; [symmetry; apply app_nil_r|]. split; [rewrite map_app; auto|]. split; auto.
        + (* its entry has been taken: not in the table any more *)
          assert (ADV : DF2 s c m d tk K G (KW ++ [z]) TW).
          { destruct H. split; auto; try (rewrite <- app_assoc; auto).
            rewrite filter_app. cbn [filter]. rewrite NZ, app_nil_r. auto. }
          specialize (IH G (KW ++ [z]) d x fuel ADV HF).
          destruct (s_next vf (x, tk) (map VR' TW)) as [[[xt k] rest] r].
          destruct IH as (T1 & d' & G' & KW' & TW' & D' & G1 & K1 & R1 & RES).
          split; auto. exists d', G', KW', TW'. split; auto. split; auto. split; [|split; auto].
          rewrite K1, map_app, <- app_assoc. auto.
    Qed.

    (* ---- the left table ---- *)
    Definition DFG s c m d tk gone kept rest : Prop :=
      (exists K T W, DF1 s c m d tk K T W /\ gone = [] /\
         kept = map VE' K /\ rest = map VE' T ++ map VR' W) \/
      (exists K G KW TW, DF2 s c m d tk K G KW TW /\ gone = map snd G /\
         kept = map VE' K ++ map VR' KW /\ rest = map VR' TW).

    Lemma df1_end : forall s c m d tk K W, DF1 s c m d tk K [] W ->
      DF2 s c m (df_enter_right d) tk K [] [] W.
    Proof.
      intros s c m d tk K W H. unfold df_enter_right. rewrite (d1_reset _ _ _ _ _ _ _ _ H).
      destruct H. simpl app in *. rewrite ?app_nil_r in *. split; auto.
      split; auto; apply d1_rep0.
    Qed.

    Lemma nottk_cons : forall e tk W,
      filter (nottk (e :: tk)) W = filter (fun z => negb (holds z e)) (filter (nottk tk) W).
    Proof.
      induction W as [|z W IH]; auto. cbn [filter]. rewrite IH.
      replace (nottk (e :: tk) z) with (negb (holds z e) && nottk tk z)
        by (unfold nottk; cbn [existsb]; rewrite negb_orb; auto).
      destruct (nottk tk z); cbn [filter]; rewrite ?andb_false_r, ?andb_true_r; auto.
    Qed.

    Lemma take_right : forall s c m d tk K z T W i h e b, DF1 s c m d tk K (z :: T) W ->
      op_get_right (snd z) = Some b ->
      nth_error (slots (df_right d)) i = Some (h, e) -> pid e = fst z ->
      slots (t_remove_at (lo E) (df_right d) i) = flat_map (slotR s) (filter (nottk (snd z :: tk)) W).
    Proof.
      intros s c m d tk K z T W i h e b H Hb NE HE.
      assert (RZ : Rep s c (df_end m d) ([z] ++ K ++ T ++ filter isU W)).
      { eapply (rep_perm E OK); [|apply (d1_rep _ _ _ _ _ _ _ _ H)]. simpl. symmetry. apply Permutation_middle. }
      assert (IO := ids_other z _ (rep_ids _ _ _ _ _ RZ)).
      set (F := filter (nottk tk) W) in *.
      assert (PW : Permutation F (filter hasR ([z] ++ K ++ T ++ filter isU W))).
      { unfold F. rewrite (d1_W _ _ _ _ _ _ _ _ H). apply filter_perm. symmetry. simpl. apply Permutation_middle. }
      assert (HZ : hasR z = true) by (unfold hasR; rewrite Hb; auto).
      cbn [app filter] in PW. rewrite HZ in PW.
      assert (OTH : forall y, In y (filter hasR (K ++ T ++ filter isU W)) ->
                 fst y <> fst z /\ holds y (snd z) = false).
      { intros y Hy. apply filter_In in Hy as [Hy _]. split; [apply IO; auto|].
        unfold holds. destruct (op_get_right (snd y)) as [b'|] eqn:Hy'; auto.
        unfold has_r. rewrite Hb.
        assert (A := rep_apart_r E OK s c _ [z] _ RZ b).
        assert (IB : In b (rights (map snd [z]))).
        { unfold rights. simpl. rewrite Hb. left; auto. }
        specialize (A IB y Hy). unfold has_r in A. rewrite Hy' in A.
        rewrite (eqb_sym _ ER). exact A. }
      assert (IF : In z F) by (eapply Permutation_in; [symmetry; exact PW|left; auto]).
      apply in_split in IF as (A & B & FE). rewrite FE in PW.
      assert (PAB : Permutation (A ++ B) (filter hasR (K ++ T ++ filter isU W))).
      { apply (Permutation_cons_inv (a := z)). rewrite <- PW. apply Permutation_middle. }
      assert (OA : forall y, In y (A ++ B) -> fst y <> fst z /\ holds y (snd z) = false).
      { intros y Hy. apply OTH. eapply Permutation_in; eauto. }
      assert (HRF : forall y, In y F -> length (slotR s y) = 1%nat).
      { intros y Hy. apply one_r, (d1_hr _ _ _ _ _ _ _ _ H). apply filter_In in Hy; tauto. }
      rewrite nottk_cons. fold F. cbn [t_remove_at slots]. rewrite (d1_r _ _ _ _ _ _ _ _ H) in *. fold F in NE |- *.
      destruct (one_each_inv (slotR s) F i (h, e) HRF NE) as (y & NY & SY).
      assert (y = z).
      { assert (IY : In y F) by (eapply nth_error_In; eauto).
        unfold PartialProofs.slotR in SY. destruct (op_get_right (snd y)) eqn:Q; [|discriminate].
        inversion SY. subst e. cbn [pid] in HE. rewrite FE in IY.
        apply in_app_iff in IY as [IY|[IY|IY]]; auto; exfalso.
        - apply (proj1 (OA y ltac:(apply in_app_iff; auto))); auto.
        - apply (proj1 (OA y ltac:(apply in_app_iff; auto))); auto. }
      subst y.
      assert (i = length A).
      { rewrite FE in NY. destruct (Nat.lt_trichotomy i (length A)) as [C|[C|C]]; auto; exfalso.
        - rewrite nth_error_app1 in NY by auto. apply nth_error_In in NY.
          apply (proj1 (OA z ltac:(apply in_app_iff; auto))); auto.
        - rewrite nth_error_app2 in NY by lia.
          destruct (i - length A)%nat as [|j] eqn:J; [lia|]. simpl in NY. apply nth_error_In in NY.
          apply (proj1 (OA z ltac:(apply in_app_iff; auto))); auto. }
      subst i. rewrite FE. rewrite (one_each_remove (slotR s) A z B (h, e)); auto.
      2:{ intros y Hy; apply HRF; rewrite FE; apply in_app_iff; auto. }
      f_equal. rewrite filter_app. cbn [filter].
      replace (holds z (snd z)) with true.
      2:{ unfold holds, has_r. rewrite Hb. symmetry. apply (equiv_refl _ ER). }
      cbn [negb]. rewrite <- filter_app. symmetry. apply filter_all_true.
      intros y Hy. rewrite (proj2 (OA y Hy)). auto.
    Qed.

    Lemma df1_take : forall s c m d d' tk K z T W,
      DF1 s c m d tk K (z :: T) W ->
      slots (df_left d') = remove_nth (df_lpos d) (slots (df_left d)) ->
      df_lpos d' = df_lpos d -> df_reset d' = df_reset d ->
      slots (df_right d') = flat_map (slotR s) (filter (nottk (snd z :: tk)) W) ->
      DF1 s c m d' (snd z :: tk) K T W.
    Proof.
      intros s c m d d' tk K z T W H HL HP HR HRS.
      assert (RZ : Rep s c (df_end m d) ([z] ++ K ++ T ++ filter isU W)).
      { eapply (rep_perm E OK); [|apply (d1_rep _ _ _ _ _ _ _ _ H)]. simpl. symmetry. apply Permutation_middle. }
      assert (OTH : forall y, In y (K ++ T ++ filter isU W) -> holds y (snd z) = false).
      { intros y Hy. unfold holds. destruct (op_get_right (snd y)) as [b'|] eqn:Hy'; auto.
        unfold has_r. destruct (op_get_right (snd z)) as [b|] eqn:Hb; auto.
        assert (A := rep_apart_r E OK s c _ [z] _ RZ b).
        assert (IB : In b (rights (map snd [z]))).
        { unfold rights. simpl. rewrite Hb. left; auto. }
        specialize (A IB y Hy). unfold has_r in A. rewrite Hy' in A.
        rewrite (eqb_sym _ ER). exact A. }
      assert (ZL : op_get_left (snd z) <> None).
      { apply (d1_hl _ _ _ _ _ _ _ _ H). apply in_app_iff; right; left; auto. }
      assert (PW : Permutation (filter (nottk (snd z :: tk)) W) (filter hasR (K ++ T ++ filter isU W))).
      { rewrite nottk_cons, (filter_perm _ _ _ (d1_W _ _ _ _ _ _ _ _ H)).
        transitivity (filter (fun y => negb (holds y (snd z))) (filter hasR ([z] ++ K ++ T ++ filter isU W))).
        { apply filter_perm, filter_perm. symmetry. simpl. apply Permutation_middle. }
        cbn [app filter].
        assert (HH : filter (fun y => negb (holds y (snd z))) (filter hasR (K ++ T ++ filter isU W))
                     = filter hasR (K ++ T ++ filter isU W)).
        { apply filter_all_true. intros y Hy. apply filter_In in Hy as [Hy _]. rewrite OTH; auto. }
        destruct (hasR z) eqn:HZ; [|rewrite HH; auto].
        cbn [filter]. replace (holds z (snd z)) with true; [cbn [negb]; rewrite HH; auto|].
        unfold holds, hasR, has_r in *. destruct (op_get_right (snd z)); [|discriminate].
        symmetry. apply (equiv_refl _ ER). }
      assert (LL : slots (df_left d') = flat_map (slotL s) (K ++ T)).
      { rewrite HL, (d1_l _ _ _ _ _ _ _ _ H), (d1_lpos _ _ _ _ _ _ _ _ H).
        destruct (op_get_left (snd z)) as [a|] eqn:Ha; [|easy].
        eapply one_each_remove; [|apply slotL_some; eauto].
        intros y Hy. apply one_l, (d1_hl _ _ _ _ _ _ _ _ H). apply in_app_iff; auto. }
      assert (NU : forall zs, (forall y, In y zs -> op_get_left (snd y) <> None) ->
              flat_map (slotL s) (zs ++ filter isU W) = flat_map (slotL s) zs).
      { intros zs _. rewrite flat_map_app.
        assert (Q : flat_map (slotL s) (filter isU W) = []).
        { clear. induction W as [|y W IH]; auto. cbn [filter]. unfold isU at 1, has_left_item.
          destruct (op_get_left (snd y)) eqn:Q; cbn [negb]; auto.
          cbn [flat_map]. rewrite IH, (slotL_none E s y Q). auto. }
        rewrite Q, app_nil_r. auto. }
      split; auto; try (destruct H; congruence).
      - eapply (rep_tail E s c _ _ _ _ RZ); auto.
        + cbn [df_end left_set]. rewrite LL, app_assoc, NU; auto.
          intros y Hy. apply (d1_hl _ _ _ _ _ _ _ _ H).
          apply in_app_iff in Hy as [Hy|Hy]; apply in_app_iff; simpl; auto.
        + cbn [df_end right_set]. rewrite HRS. rewrite (Permutation_flat_map _ PW).
          rewrite flat_map_filter; auto. intros y Hy. unfold hasR in Hy.
          destruct (op_get_right (snd y)) eqn:Q; [discriminate|]. apply slotR_none; auto.
      - intros y Hy. apply (d1_hl _ _ _ _ _ _ _ _ H).
        apply in_app_iff in Hy as [Hy|Hy]; apply in_app_iff; simpl; auto.
      - apply (d1_hr _ _ _ _ _ _ _ _ H).
      - intros y Hy UY. unfold nottk. cbn [existsb].
        assert (Q := d1_U _ _ _ _ _ _ _ _ H y Hy UY). unfold nottk in Q.
        rewrite negb_true_iff in *. rewrite Q, orb_false_r.
        apply OTH. apply in_app_iff; right. apply in_app_iff; right. apply filter_In; auto.
    Qed.

    Lemma df1_left : forall s c m W T K tk d x fuel, DF1 s c m d tk K T W ->
      (length T <= fuel)%nat ->
      let '(xt, k, rest, r) := s_next vf (x, tk) (map VE' T ++ map VR' W) in
      exists d', DFG s c m d' (snd xt) (yielded r) (map VE' K ++ k) rest /\
        match r with
        | SYield v => df_next_left E f fuel d x = Ret (d', fst xt) (Some (shown v)) /\ (mu d' < mu d)%nat
        | SEnd => df_next_left E f fuel d x = Ret (d', fst xt) None
        | SPanic => df_next_left E f fuel d x = Panic (d', fst xt)
        end.
    Proof.
      intros s c m W. induction T as [|z T IH]; intros K tk d x fuel H HF.
      - cbn [map app]. assert (H2 := df1_end _ _ _ _ _ _ _ H).
        assert (MU : mu (df_enter_right d) = mu d) by (unfold df_enter_right; destruct (df_reset d); auto).
        assert (UN : df_next_left E f fuel d x =
           df_next_right E f (t_len (df_right (df_enter_right d))) (df_enter_right d) x).
        { assert (TE : t_entry (df_left d) (df_lpos d) = None).
          { unfold t_entry. rewrite (d1_l _ _ _ _ _ _ _ _ H), (d1_lpos _ _ _ _ _ _ _ _ H), app_nil_r.
            rewrite (proj2 (nth_error_None _ _)); auto. rewrite (one_each_length (slotL s)); auto.
            intros y Hy. apply one_l, (d1_hl _ _ _ _ _ _ _ _ H). apply in_app_iff; auto. }
          destruct fuel; cbn [df_next_left]; rewrite TE; auto. }
        rewrite UN.
        assert (Q := df2_right s c m K tk W [] [] (df_enter_right d) x
                      (t_len (df_right (df_enter_right d))) H2).
        destruct (s_next vf (x, tk) (map VR' W)) as [[[xt k] rest] r].
        destruct Q as (T1 & d' & G' & KW' & TW' & D' & G1 & K1 & R1 & RES).
        { unfold t_len. rewrite (d2_r _ _ _ _ _ _ _ _ _ H2). simpl app.
          rewrite (one_each_length (slotR s)); auto.
          intros y Hy. apply one_r, (d2_hr _ _ _ _ _ _ _ _ _ H2). apply filter_In in Hy; tauto. }
        exists d'. split.
        + right. exists K, G', KW', TW'. rewrite T1, K1, G1. auto.
        + rewrite <- MU. exact RES.
      - cbn [map app s_next].
        assert (ZL : op_get_left (snd z) <> None).
        { apply (d1_hl _ _ _ _ _ _ _ _ H). apply in_app_iff; right; left; auto. }
        destruct (op_get_left (snd z)) as [a|] eqn:Ha; [|easy]. clear ZL.
        assert (NE : nth_error (slots (df_left d)) (df_lpos d)
                  = Some (hashL E s a, MP a (option_map (hashR E s) (op_get_right (snd z))) (fst z))).
        { rewrite (d1_l _ _ _ _ _ _ _ _ H), (d1_lpos _ _ _ _ _ _ _ _ H).
          apply one_each_nth; [|apply slotL_some; auto].
          intros y Hy. apply one_l, (d1_hl _ _ _ _ _ _ _ _ H). apply in_app_iff; auto. }
        assert (TE : t_entry (df_left d) (df_lpos d)
                  = Some (MP a (option_map (hashR E s) (op_get_right (snd z))) (fst z))).
        { unfold t_entry. rewrite NE. auto. }
        set (adv := DF (df_left d) (Datatypes.S (df_lpos d)) (df_right d) (df_rpos d) (df_reset d)).
        assert (ADV : DF1 s c m adv tk (K ++ [z]) T W).
        { destruct H. split; auto; try (rewrite <- !app_assoc; auto).
          unfold adv. cbn [df_lpos]. rewrite app_length. simpl. lia. }
        assert (LEN : (t_len (t_remove_at (lo E) (df_left d) (df_lpos d)) < t_len (df_left d))%nat).
        { unfold t_len. cbn [t_remove_at slots].
          assert (LL := Permutation_length (remove_nth_perm _ _ _ NE)). cbn [length] in LL. lia. }
        unfold on_visit at 1. unfold VE' at 1. cbn [fst snd].
        (* what happens when the closure answers *)
        assert (GO : forall e, snd z = e ->
          df_next_left E f fuel d x =
            match f x e with
            | (x', None) => Panic (adv, x')
            | (x', Some false) => match fuel with
                                  | O => Panic (adv, x')
                                  | Datatypes.S fuel' => df_next_left E f fuel' adv x'
                                  end
            | (x', Some true) => df_next_left E f fuel d x
            end /\
          (forall x', f x e = (x', Some true) ->
            exists d', df_next_left E f fuel d x = Ret (d', x') (Some e) /\ (mu d' < mu d)%nat /\
                       DF1 s c m d' (snd z :: tk) K T W)).
        { intros e HE. rewrite HE in *. destruct e as [|a'|b|a' b]; simpl in Ha; try discriminate;
            inversion Ha; subst a'.
          - cbn [op_get_right option_map] in TE. split.
            + destruct fuel; cbn [df_next_left]; rewrite TE; cbn [phash value];
                destruct (f x (SomeLeft a)) as [x' [[|]|]]; auto.
            + intros x' Q.
              exists (DF (t_remove_at (lo E) (df_left d) (df_lpos d)) (df_lpos d)
                          (df_right d) (df_rpos d) (df_reset d)).
              split; [|split].
              * destruct fuel; cbn [df_next_left]; rewrite TE; cbn [phash value]; rewrite Q; auto.
              * unfold mu. cbn [df_left df_right]. lia.
              * rewrite <- HE. eapply df1_take; eauto. cbn [df_right]. rewrite (d1_r _ _ _ _ _ _ _ _ H).
                f_equal. rewrite nottk_cons. symmetry. apply filter_all_true. intros y _.
                unfold holds, has_r. rewrite HE. simpl. destruct (op_get_right (snd y)); auto.
          - cbn [op_get_right option_map] in TE.
            assert (RZ : Rep s c (df_end m d) (z :: K ++ T ++ filter isU W)).
            { eapply (rep_perm E OK); [|apply (d1_rep _ _ _ _ _ _ _ _ H)]. simpl. symmetry. apply Permutation_middle. }
            assert (IO := ids_other z _ (rep_ids _ _ _ _ _ RZ)).
            assert (Hb : op_get_right (snd z) = Some b) by (rewrite HE; auto).
            assert (RR := rep_r _ _ _ _ _ RZ). cbn [df_end right_set flat_map] in RR.
            rewrite (slotR_some E s z b Hb) in RR. cbn [app] in RR.
            destruct (get_mut_unique E OK (df_right d) (hashR E s b) (just_id (fst z)) _ _ RR)
              as (j & GM & NJ & _).
            { unfold just_id; simpl. apply N.eqb_refl. }
            { intros y Hy. eapply id_r_other; eauto. }
            split.
            + destruct fuel; cbn [df_next_left]; rewrite TE; cbn [phash value pid]; rewrite GM; cbn [value];
                destruct (f x (SomeBoth a b)) as [x' [[|]|]]; auto.
            + intros x' Q.
              exists (DF (t_remove_at (lo E) (df_left d) (df_lpos d)) (df_lpos d)
                          (t_remove_at (lo E) (df_right d) j) (df_rpos d) (df_reset d)).
              split; [|split].
              * destruct fuel; cbn [df_next_left]; rewrite TE; cbn [phash value pid]; rewrite GM; cbn [value];
                rewrite Q; auto.
              * unfold mu. cbn [df_left df_right]. unfold t_len in *. cbn [t_remove_at slots] in *.
                assert (LL := Permutation_length (remove_nth_perm _ _ _ NJ)). cbn [length] in LL. lia.
              * rewrite <- HE. eapply df1_take; eauto. cbn [df_right]. eapply take_right; eauto. }
        destruct (GO _ eq_refl) as [G1 G2]. clear GO.
        destruct (f x (snd z)) as [x' [[|]|]] eqn:FX.
        + destruct (G2 x' eq_refl) as (d' & E1 & M1 & D1). exists d'. split; [|auto].
          left. exists K, T, W. rewrite app_nil_r. auto.
        + rewrite G1. destruct fuel as [|fuel]; [simpl in HF; lia|].
          specialize (IH (K ++ [z]) tk adv x' fuel ADV).
          destruct (s_next vf (x', tk) (map VE' T ++ map VR' W)) as [[[xt k] rest] r].
          destruct IH as (d' & D' & RES); [simpl in HF; lia|].
          exists d'. rewrite map_app, <- app_assoc in D'. auto.
        + exists adv. split; [|exact G1]. left. exists (K ++ [z]), T, W. rewrite map_app. auto.
    Qed.

    (* ---- from here on as for CycleMap ---- *)
    Lemma dfg_next : forall s c m d tk gone kept rest x, DFG s c m d tk gone kept rest ->
      let '(xt, k, rest', r) := s_next vf (x, tk) rest in
      exists d', DFG s c m d' (snd xt) (gone ++ yielded r) (kept ++ k) rest' /\
        match r with
        | SYield v => df_next E f (d, x) = Ret (d', fst xt) (Some (shown v)) /\ (mu d' < mu d)%nat
        | SEnd => df_next E f (d, x) = Ret (d', fst xt) None
        | SPanic => df_next E f (d, x) = Panic (d', fst xt)
        end.
    Proof.
      intros s c m d tk gone kept rest x [(K & T & W & H & -> & -> & ->)|(K & G & KW & TW & H & -> & -> & ->)].
      - apply df1_left; auto. unfold t_len. cbn [fst].
        rewrite (d1_l _ _ _ _ _ _ _ _ H), (one_each_length (slotL s)).
        + rewrite app_length. lia.
        + intros y Hy. apply one_l, (d1_hl _ _ _ _ _ _ _ _ H y Hy).
      - assert (UN : df_next E f (d, x) = df_next_right E f (t_len (df_right d)) d x).
        { assert (TE : t_entry (df_left d) (df_lpos d) = None).
          { unfold t_entry. rewrite (d2_l _ _ _ _ _ _ _ _ _ H), (d2_lpos _ _ _ _ _ _ _ _ _ H).
            rewrite (proj2 (nth_error_None _ _)); auto. rewrite (one_each_length (slotL s)); auto.
            intros y Hy. apply one_l, (d2_hl _ _ _ _ _ _ _ _ _ H y Hy). }
          assert (ER' : df_enter_right d = d)
            by (unfold df_enter_right; rewrite (d2_reset _ _ _ _ _ _ _ _ _ H); auto).
          unfold df_next. cbn [fst snd].
          destruct (t_len (df_left d)); cbn [df_next_left]; rewrite TE, ER'; auto. }
        rewrite UN.
        assert (Q := df2_right s c m K tk TW G KW d x (t_len (df_right d)) H).
        destruct (s_next vf (x, tk) (map VR' TW)) as [[[xt k] rest] r].
        destruct Q as (T1 & d' & G' & KW' & TW' & D' & G1 & K1 & R1 & RES).
        { unfold t_len. rewrite (d2_r _ _ _ _ _ _ _ _ _ H), (one_each_length (slotR s)).
          - rewrite filter_app, app_length. lia.
          - intros y Hy. apply one_r, (d2_hr _ _ _ _ _ _ _ _ _ H). apply filter_In in Hy; tauto. }
        exists d'. split; [|exact RES].
        right. exists K, G', KW', TW'. rewrite T1, K1, G1, app_assoc. auto.
    Qed.

    (* what is left: the entries Z, and the left items of the entries T, whose right items are
       gone *)
    Lemma dfg_split : forall s c m d tk gone kept rest, DFG s c m d tk gone kept rest ->
      exists Z T, hash_builder m = s /\ counter m = c /\
        Permutation (slots (df_left d)) (flat_map (slotL s) (Z ++ T)) /\
        Permutation (slots (df_right d)) (flat_map (slotR s) Z) /\
        NoDup (map fst (Z ++ T)) /\ (forall z, In z (Z ++ T) -> fst z < c) /\
        partial_bijection (eqL E) (eqR E) (map snd (Z ++ T)) /\
        Permutation (flat_map keep (kept ++ rest)) (map snd (Z ++ T)) /\
        map snd T = filter has_left_item gone /\
        (forall z, In z T -> op_get_left (snd z) <> None /\ op_get_right (snd z) <> None).
    Proof.
      assert (KE : forall K, flat_map keep (map VE' K) = map snd K).
      { induction K; simpl; auto. f_equal; auto. }
      assert (KR : forall W, flat_map keep (map VR' W) = map snd (filter isU W)).
      { induction W as [|z W IH]; auto. cbn [map flat_map filter]. rewrite IH. unfold isU at 2, VR'.
        cbn [keep]. destruct (has_left_item (snd z)); auto. }
      intros s c m d tk gone kept rest
        [(K & T & W & H & -> & -> & ->)|(K & G & KW & TW & H & -> & -> & ->)].
      - exists (K ++ T ++ filter isU W), []. assert (RP := d1_rep _ _ _ _ _ _ _ _ H).
        rewrite app_nil_r. do 2 (split; [apply RP|]). split; [apply (rep_l _ _ _ _ _ RP)|].
        split; [apply (rep_r _ _ _ _ _ RP)|]. do 3 (split; [apply RP|]).
        split; [|split; [auto|easy]]. rewrite !flat_map_app, !KE, KR, !map_app. auto.
      - assert (D0 := d2_0 _ _ _ _ _ _ _ _ _ H).
        set (hz := fun z : zent => has_left_item (snd z)).
        set (F := filter (nottk tk) (KW ++ TW)).
        set (Z0 := K ++ filter isU (G ++ KW ++ TW)).
        set (NR := filter (fun z => negb (hasR z)) Z0).
        assert (P0 : Permutation Z0 (G ++ F ++ NR)).
        { rewrite (filter_split_perm hasR Z0). fold NR. rewrite app_assoc. apply Permutation_app_tail.
          unfold Z0. rewrite <- (d0_W _ _ _ _ _ _ D0), filter_app. apply Permutation_app_tail.
          rewrite filter_all_true; auto. apply (d2_G _ _ _ _ _ _ _ _ _ H). }
        assert (P1 : Permutation (K ++ filter isU (KW ++ TW)) ((F ++ NR) ++ filter hz G)).
        { apply (Permutation_app_inv_l (filter isU G)).
          transitivity Z0.
          { unfold Z0. rewrite (filter_app isU G (KW ++ TW)), !app_assoc.
            apply Permutation_app_tail, Permutation_app_comm. }
          etransitivity; [exact P0|].
          transitivity ((filter hz G ++ filter isU G) ++ F ++ NR).
          { apply Permutation_app_tail. exact (filter_split_perm hz G). }
          rewrite <- app_assoc. etransitivity; [apply Permutation_app_comm|].
          rewrite <- app_assoc. auto. }
        assert (PZ : Permutation Z0 (filter isU G ++ (F ++ NR) ++ filter hz G)).
        { rewrite <- P1. unfold Z0. rewrite (filter_app isU G (KW ++ TW)), !app_assoc.
          apply Permutation_app_tail, Permutation_app_comm. }
        assert (UL : forall A, flat_map (slotL s) (filter isU A) = []).
        { clear. induction A as [|y A IH]; auto. cbn [filter]. unfold isU at 1, has_left_item.
          destruct (op_get_left (snd y)) eqn:Q; cbn [negb]; auto.
          cbn [flat_map]. rewrite IH, (slotL_none E s y Q). auto. }
        exists (F ++ NR), (filter hz G).
        do 2 (split; [apply D0|]). split; [|split; [|split; [|split; [|split; [|split; [|split]]]]]].
        + rewrite (d2_l _ _ _ _ _ _ _ _ _ H), <- P1, flat_map_app, UL, app_nil_r. auto.
        + rewrite (d2_r _ _ _ _ _ _ _ _ _ H), flat_map_app. fold F.
          assert (Q : flat_map (slotR s) NR = []).
          { unfold NR. clear. induction Z0 as [|y A IH]; auto. cbn [filter]. unfold hasR at 1.
            destruct (op_get_right (snd y)) eqn:Q; cbn [negb is_some]; auto.
            cbn [flat_map]. rewrite IH, (slotR_none E s y Q). auto. }
          rewrite Q, app_nil_r. auto.
        + assert (ND := d0_ids _ _ _ _ _ _ D0). fold Z0 in ND.
          apply (NoDup_perm _ _ (Permutation_map fst PZ)) in ND. rewrite map_app in ND.
          apply NoDup_app_r in ND. auto.
        + intros z Hz. apply (d0_lt _ _ _ _ _ _ D0). fold Z0.
          eapply Permutation_in; [symmetry; exact PZ|]. apply in_app_iff; auto.
        + assert (PB := d0_bij _ _ _ _ _ _ D0). fold Z0 in PB.
          apply (pb_perm E OK _ _ (Permutation_map snd PZ)) in PB. rewrite map_app in PB.
          destruct PB as (A & B & C). rewrite lefts_app in A. rewrite rights_app in B.
          apply distinct_app in A as (_ & A & _). apply distinct_app in B as (_ & B & _).
          split; [auto|split; [auto|]]. intro I. apply C, in_app_iff. auto.
        + rewrite !flat_map_app, KE, !KR, <- P1, filter_app, !map_app, app_assoc. auto.
        + unfold hz. rewrite filter_map_comm. auto.
        + intros z Hz. apply filter_In in Hz as [HG Hz]. split.
          * unfold hz, has_left_item in Hz. destruct (op_get_left (snd z)); easy.
          * apply (d0_hr _ _ _ _ _ _ D0). apply in_app_iff; auto.
    Qed.

    Lemma dfg_start : forall s c m P, Repr s c m P ->
      exists Q W, iter_all E m = Done Q /\ Permutation Q (filter has_left_item P) /\
        map (fun x => value (snd x)) (iter_right m) = rights W /\ Permutation W (filter (fun e => is_some (op_get_right e)) P) /\
        DFG s c m (drain_filter m) [] [] [] (map VE Q ++ map VR W).
    Proof.
      intros s c m P (Z & H & ->).
      destruct (rep_order_l E _ _ _ _ H) as (Y & PY & SL).
      destruct (rep_order_r E _ _ _ _ H) as (Y' & PY' & SR).
      set (hz := fun z : zent => has_left_item (snd z)).
      exists (map snd (filter hz Y)), (map snd (filter hasR Y')).
      assert (SF : flat_map (slotL s) Y = flat_map (slotL s) (filter hz Y)).
      { symmetry. apply flat_map_filter. unfold hz, has_left_item. intros z Hz. apply slotL_none.
        destruct (op_get_left (snd z)); auto; discriminate. }
      assert (SFR : flat_map (slotR s) Y' = flat_map (slotR s) (filter hasR Y')).
      { symmetry. apply flat_map_filter. unfold hasR. intros z Hz. apply slotR_none.
        destruct (op_get_right (snd z)); auto; discriminate. }
      assert (NN : ~ In Neither (map snd Z)) by apply (rep_bij _ _ _ _ _ H).
      assert (FU : filter isU (filter hasR Y') = filter isU Y').
      { assert (NN' : ~ In Neither (map snd Y')).
        { intros I. apply NN. eapply Permutation_in; [symmetry; apply Permutation_map; exact PY'|auto]. }
        clear - NN'. induction Y' as [|z Y IH]; auto.
        assert (NN : ~ In Neither (map snd Y)) by (intro; apply NN'; right; auto).
        destruct z as [i [|a|b|a b]]; cbn [filter]; unfold hasR, isU, has_left_item; simpl.
        - exfalso; apply NN'; left; auto.
        - apply IH; auto.
        - f_equal; apply IH; auto.
        - apply IH; auto. }
      assert (PZ : Permutation Z (filter hz Y ++ filter isU Y')).
      { rewrite <- (filter_perm hz _ _ PY), <- (filter_perm isU _ _ PY'). apply filter_split_perm. }
      split; [|split; [|split; [|split]]].
      - unfold iter_all. eapply collect_as; [apply (iter_steps E OK s c m Z H)| |].
        + exists Y. split; [intros y Hy; apply (Permutation_in y (Permutation_sym PY)); auto|].
          split; [exact SL|]. unfold hz. rewrite filter_map_comm. auto.
        + unfold iter. rewrite SL, (lefts_length E s), <- filter_left_length, filter_map_comm, !map_length. auto.
      - unfold hz. rewrite <- filter_map_comm. apply filter_perm, Permutation_map. symmetry; auto.
      - unfold iter_right. rewrite SR, SFR. apply slots_rights.
      - unfold hasR. rewrite <- (filter_map_comm snd (fun e => is_some (op_get_right e))).
        apply filter_perm, Permutation_map. symmetry; auto.
      - left. exists [], (filter hz Y), (filter hasR Y'). split; [|split; [auto|split; [auto|unfold VE', VR'; rewrite !map_map; auto]]].
        assert (NT : filter (nottk []) (filter hasR Y') = filter hasR Y') by (apply filter_all_true; auto).
        split; auto.
        + rewrite FU. simpl app. assert (HE : df_end m (drain_filter m) = m) by (destruct m; auto).
          rewrite HE. eapply (rep_perm E OK); [exact PZ|exact H].
        + simpl app. unfold drain_filter; cbn [df_left]. rewrite SL. auto.
        + intros z Hz. apply filter_In in Hz as [_ Hz]. unfold hz, has_left_item in Hz.
          destruct (op_get_left (snd z)); easy.
        + rewrite NT. unfold drain_filter; cbn [df_right]. rewrite SR. auto.
        + intros z Hz. apply filter_In in Hz as [_ Hz]. unfold hasR in Hz.
          destruct (op_get_right (snd z)); easy.
        + rewrite NT, FU. simpl app. apply filter_perm. rewrite <- PZ. symmetry; auto.
    Qed.

    Lemma dfg_drop_fuel_ok : forall n s c m d tk gone kept rest x, DFG s c m d tk gone kept rest ->
      (mu d <= n)%nat ->
      let '(xt, yes, others, pn) := s_filter vf (x, tk) rest in
      exists d' kept' rest',
        df_drop_fuel E f n (d, x) = (if pn then Panic (d', fst xt) else Ret (d', fst xt) tt) /\
        DFG s c m d' (snd xt) (gone ++ flat_map gone_of yes) kept' rest' /\
        kept' ++ rest' = kept ++ others.
    Proof.
      induction n; intros s c m d tk gone kept rest x H Hn.
      - assert (Q := dfg_next s c m d tk gone kept rest x H).
        assert (W := s_next_filter vf rest (x, tk)).
        destruct (s_next vf (x, tk) rest) as [[[xt k] rest'] [p| |]].
        + destruct Q as (d' & _ & _ & M). lia.
        + destruct Q as (d' & Hd & E1). destruct W as [-> ->].
          cbn [df_drop_fuel]. rewrite E1. exists d', (kept ++ k), []. cbn [flat_map yielded] in *.
          rewrite (app_nil_r (kept ++ k)). auto.
        + destruct Q as (d' & Hd & E1). rewrite W.
          cbn [df_drop_fuel]. rewrite E1. exists d', (kept ++ k), rest'. cbn [flat_map yielded] in *.
          rewrite app_assoc. auto.
      - assert (Q := dfg_next s c m d tk gone kept rest x H).
        assert (W := s_next_filter vf rest (x, tk)).
        destruct (s_next vf (x, tk) rest) as [[[xt k] rest'] [p| |]].
        + destruct Q as (d' & Hd & E1 & M). destruct W as [-> WL].
          specialize (IHn s c m d' _ _ _ _ (fst xt) Hd).
          cbn [df_drop_fuel]. rewrite E1. rewrite <- surjective_pairing in IHn.
          destruct (s_filter vf xt rest') as [[[x2 y] no] pn].
          destruct IHn as (d2 & k2 & r2 & E2 & H2 & A2); [lia|]. exists d2, k2, r2.
          cbn [flat_map]. rewrite A2, !app_assoc. auto.
        + destruct Q as (d' & Hd & E1). destruct W as [-> ->].
          cbn [df_drop_fuel]. rewrite E1. exists d', (kept ++ k), []. cbn [flat_map yielded] in *.
          rewrite (app_nil_r (kept ++ k)). auto.
        + destruct Q as (d' & Hd & E1). rewrite W.
          cbn [df_drop_fuel]. rewrite E1. exists d', (kept ++ k), rest'. cbn [flat_map yielded] in *.
          rewrite app_assoc. auto.
    Qed.

    Lemma dfg_drop_ok : forall s c m d tk gone kept rest x, DFG s c m d tk gone kept rest ->
      let '(xt, yes, others, pn) := s_filter vf (x, tk) rest in
      exists d' kept' rest',
        df_drop E f (d, x) = (if pn then Panic (d', fst xt) else Ret (d', fst xt) tt) /\
        DFG s c m d' (snd xt) (gone ++ flat_map gone_of yes) kept' rest' /\
        kept' ++ rest' = kept ++ others.
    Proof.
      intros. unfold df_drop. apply dfg_drop_fuel_ok; auto.
    Qed.

    Lemma s_next_incl : forall {T Y} (g : Y -> T -> Y * option bool) l x,
      let '(_, _, rest, _) := s_next g x l in incl rest l.
    Proof.
      induction l as [|a l IH]; intros x; cbn [s_next]; [apply incl_refl|].
      destruct (g x a) as [x1 [[|]|]]; try (apply incl_tl, incl_refl).
      specialize (IH x1). destruct (s_next g x1 l) as [[[x2 k] rest] r]. apply incl_tl; auto.
    Qed.

    (* n explicit calls of next *)
    Lemma dfg_nexts_ok : forall n s c m d tk gone kept rest x, DFG s c m d tk gone kept rest ->
      let '(x0, taken, others, pn) := s_filter vf (x, tk) rest in
      exists d' x' gone' kept' rest',
        DFG s c m d' (snd x') gone' kept' rest' /\ incl rest' rest /\
        let '(x1, taken1, others1, pn1) := s_filter vf x' rest' in
        ((n <= length taken)%nat \/ pn = false ->
           df_nexts E f n (d, x) =
             Ret (d', fst x') (firstn n (map Some (map shown taken)) ++ repeat None (n - length taken)) /\
           (x1, taken1, kept' ++ others1, pn1) = (x0, skipn n taken, kept ++ others, pn) /\
           gone' = gone ++ flat_map gone_of (firstn n taken)) /\
        ((length taken < n)%nat -> pn = true ->
           df_nexts E f n (d, x) = Panic (d', fst x0) /\ x' = x0 /\
           kept' ++ rest' = kept ++ others /\
           kept' ++ others1 = kept ++ s_unwind vf (x, tk) rest /\
           gone' = gone ++ flat_map gone_of taken).
    Proof.
      induction n; intros s c m d tk gone kept rest x H.
      - destruct (s_filter vf (x, tk) rest) as [[[x0 taken] others] pn] eqn:Q.
        exists d, (x, tk), gone, kept, rest. rewrite Q. split; [auto|]. split; [apply incl_refl|]. split.
        + intros _. simpl. rewrite app_nil_r. auto.
        + intros; lia.
      - assert (Q := dfg_next s c m d tk gone kept rest x H).
        assert (W := s_next_filter vf rest (x, tk)).
        assert (U := s_next_unwind vf rest (x, tk)).
        assert (IN := s_next_incl vf rest (x, tk)).
        destruct (s_next vf (x, tk) rest) as [[[x' k] rest'] [p| |]].
        + destruct Q as (d' & Hd & E1 & _). destruct W as [-> WL].
          specialize (IHn s c m d' _ _ _ _ (fst x') Hd). rewrite <- surjective_pairing in IHn.
          destruct (s_filter vf x' rest') as [[[x0 taken] others] pn].
          destruct IHn as (d2 & x2 & g2 & k2 & r2 & H2 & IR & IH). exists d2, x2, g2, k2, r2. split; [auto|].
          split; [eapply incl_tran; eauto|].
          destruct (s_filter vf x2 r2) as [[[x1 taken1] others1] pn1].
          destruct IH as [IH1 IH2]. cbn [df_nexts]. rewrite E1. split.
          * intros HH. destruct IH1 as (-> & EQ & EG).
            { destruct HH as [HH|HH]; auto. left. simpl in HH. lia. }
            split; auto. split.
            -- rewrite EQ. simpl. rewrite app_assoc. auto.
            -- rewrite EG. cbn [firstn flat_map yielded]. rewrite app_assoc. auto.
          * intros HH HP. destruct IH2 as (-> & EX & EQ & EU & EG); auto.
            { simpl in HH; lia. }
            repeat split; auto; [rewrite EQ|rewrite EU, U|rewrite EG; cbn [flat_map yielded]];
              rewrite app_assoc; auto.
        + destruct Q as (d' & Hd & E1). destruct W as [-> ->].
          specialize (IHn s c m d' _ _ _ _ (fst x') Hd). simpl in IHn.
          destruct IHn as (d2 & x2 & g2 & k2 & r2 & H2 & IR & IH). exists d2, x2, g2, k2, r2. split; [auto|].
          split; [eapply incl_tran; eauto|].
          destruct (s_filter vf x2 r2) as [[[x1 taken1] others1] pn1].
          destruct IH as [IH1 IH2]. cbn [df_nexts]. rewrite E1. split.
          * intros _. destruct IH1 as (-> & EQ & EG); auto. split; [|split].
            -- destruct n; auto.
            -- rewrite EQ. rewrite skipn_nil, app_nil_r, <- surjective_pairing. auto.
            -- rewrite EG. rewrite !firstn_nil. simpl. rewrite !app_nil_r. auto.
          * discriminate.
        + destruct Q as (d' & Hd & E1). rewrite W.
          exists d', x', (gone ++ []), (kept ++ k), rest'. split; [auto|]. split; [auto|].
          destruct (s_filter vf x' rest') as [[[x1 taken1] others1] pn1].
          cbn [df_nexts]. rewrite E1. split.
          * intros [HH|HH]; [simpl in HH; lia|discriminate].
          * intros _ _. rewrite U, !app_assoc. auto.
    Qed.

    (* ---- closures that spare the right items of pairs ---- *)
    Definition spared (rest : list (visit entry)) : Prop := forall e, In (VR e) rest -> spares e.
    Definition DFA s c m d tk kept rest : Prop :=
      exists gone, DFG s c m d tk gone kept rest /\ filter has_left_item gone = [] /\ spared rest.

    (* the right items taken *)
    Lemma spared_taken : forall l x x' yes no pn, s_filter vf x l = (x', yes, no, pn) -> spared l ->
      filter has_left_item (flat_map gone_of yes) = [].
    Proof.
      induction l as [|v l IH]; intros x x' yes no pn F SP; cbn [s_filter] in F.
      - inversion F; auto.
      - assert (SP' : spared l) by (intros e He; apply SP; right; auto).
        destruct (vf x v) as [x1 [b|]] eqn:V.
        + destruct (s_filter vf x1 l) as [[[x2 y] n] pn'] eqn:Q. assert (I := IH _ _ _ _ _ Q SP').
          destruct b; inversion F; subst; auto. cbn [flat_map]. destruct v as [e|e]; cbn [gone_of app]; auto.
          cbn [filter]. destruct (has_left_item e) eqn:HL; auto. exfalso.
          unfold on_visit in V. destruct (op_get_right e) as [r|] eqn:HR; [|inversion V].
          destruct (existsb _ _); [inversion V|].
          destruct (f (fst x) (SomeRight r)) as [x3 b3] eqn:FX. inversion V; subst.
          apply (SP e (or_introl eq_refl) (fst x) r HL HR). rewrite FX. auto.
        + inversion F; auto.
    Qed.
    Lemma spared_kept : forall l x x' yes no pn, s_filter vf x l = (x', yes, no, pn) -> spared l ->
      spared no.
    Proof.
      intros l x x' yes no pn F SP e He. apply SP. apply s_filter_perm in F.
      eapply Permutation_in; [symmetry; exact F|]. apply in_app_iff; auto.
    Qed.

    Lemma dfa_repr : forall s c m d tk kept rest, DFA s c m d tk kept rest ->
      Repr s c (df_end m d) (flat_map keep (kept ++ rest)).
    Proof.
      intros s c m d tk kept rest (gone & H & G & _).
      destruct (dfg_split _ _ _ _ _ _ _ _ H) as (Z & T & HB & HC & SL & SR & ND & LT & PB & PK & PT & _).
      rewrite G in PT. apply map_eq_nil in PT. subst T. rewrite app_nil_r in *.
      eapply (repr_perm E OK); [symmetry; exact PK|]. exists Z. split; auto. split; auto.
    Qed.

    Lemma dfa_start : forall s c m P, Repr s c m P -> (forall e, In e P -> spares e) ->
      exists Q W, iter_all E m = Done Q /\ Permutation Q (filter has_left_item P) /\
        map (fun x => value (snd x)) (iter_right m) = rights W /\ Permutation W (filter (fun e => is_some (op_get_right e)) P) /\
        DFA s c m (drain_filter m) [] [] (map VE Q ++ map VR W).
    Proof.
      intros s c m P H HG. destruct (dfg_start s c m P H) as (Q & W & A & B & C & D & I).
      exists Q, W. do 4 (split; auto). exists []. split; auto. split; auto.
      intros e He. apply HG. apply in_app_iff in He as [He|He]; apply in_map_iff in He as (y & Y & He);
        inversion Y; subst.
      eapply Permutation_in in He; [|exact D]. apply filter_In in He. tauto.
    Qed.

    Lemma df_drop_ok : forall s c m d tk kept rest x, DFA s c m d tk kept rest ->
      let '(xt, _, others, pn) := s_filter vf (x, tk) rest in
      exists d', df_drop E f (d, x) = (if pn then Panic (d', fst xt) else Ret (d', fst xt) tt) /\
                 Repr s c (df_end m d') (flat_map keep (kept ++ others)).
    Proof.
      intros s c m d tk kept rest x (gone & H & G & SP).
      assert (Q := dfg_drop_ok _ _ _ _ _ _ _ _ x H).
      destruct (s_filter vf (x, tk) rest) as [[[xt yes] others] pn] eqn:F.
      destruct Q as (d' & k' & r' & E1 & H1 & A1). exists d'. split; auto.
      rewrite <- A1. destruct (dfg_split _ _ _ _ _ _ _ _ H1) as (Z & T & HB & HC & SL & SR & ND & LT & PB & PK & PT & _).
      rewrite filter_app, G, (spared_taken _ _ _ _ _ _ F SP) in PT. apply map_eq_nil in PT. subst T.
      rewrite app_nil_r in *. eapply (repr_perm E OK); [symmetry; exact PK|]. exists Z. split; auto. split; auto.
    Qed.

    (* n explicit calls of next *)
    Lemma df_nexts_ok : forall n s c m d tk kept rest x, DFA s c m d tk kept rest ->
      let '(x0, taken, others, pn) := s_filter vf (x, tk) rest in
      exists d' x' kept' rest',
        DFA s c m d' (snd x') kept' rest' /\
        let '(x1, taken1, others1, pn1) := s_filter vf x' rest' in
        ((n <= length taken)%nat \/ pn = false ->
           df_nexts E f n (d, x) =
             Ret (d', fst x') (firstn n (map Some (map shown taken)) ++ repeat None (n - length taken)) /\
           (x1, taken1, kept' ++ others1, pn1) = (x0, skipn n taken, kept ++ others, pn)) /\
        ((length taken < n)%nat -> pn = true ->
           df_nexts E f n (d, x) = Panic (d', fst x0) /\ x' = x0 /\
           kept' ++ rest' = kept ++ others /\
           kept' ++ others1 = kept ++ s_unwind vf (x, tk) rest).
    Proof.
      intros n s c m d tk kept rest x (gone & H & G & SP).
      assert (Q := dfg_nexts_ok n _ _ _ _ _ _ _ _ x H).
      destruct (s_filter vf (x, tk) rest) as [[[x0 taken] others] pn] eqn:F.
      destruct Q as (d' & x' & gone' & kept' & rest' & D' & IR & Q). exists d', x', kept', rest'.
      assert (GT := spared_taken _ _ _ _ _ _ F SP).
      destruct (s_filter vf x' rest') as [[[x1 taken1] others1] pn1]. destruct Q as [Q1 Q2]. split.
      - exists gone'. split; auto. split; [|intros e He; apply SP; auto].
        assert (CS : ((n <= length taken)%nat \/ pn = false) \/ ((length taken < n)%nat /\ pn = true))
          by (destruct pn; destruct (Nat.le_gt_cases n (length taken)); auto).
        destruct CS as [CS|[CS1 CS2]].
        + destruct (Q1 CS) as (_ & _ & ->). rewrite filter_app, G. simpl.
          rewrite <- (firstn_skipn n taken), flat_map_app, filter_app in GT.
          apply app_eq_nil in GT. tauto.
        + destruct (Q2 CS1 CS2) as (_ & _ & _ & _ & ->). rewrite filter_app, G. auto.
      - split.
        + intros CS. destruct (Q1 CS) as (A & B & _). auto.
        + intros C1 C2. destruct (Q2 C1 C2) as (A & B & C & D & _). auto.
    Qed.
  End DF.
End Proofs8.
