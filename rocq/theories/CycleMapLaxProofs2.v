(* CycleMapLax along every history, part 2: queries, iterators, retain, drains, step. *)
From Coq Require Import List NArith Lia Bool Permutation PeanoNat.
From Verif Require Import Closures Prelude RawTable Optionals CycleMap ListFacts TableFacts CycleMapSpec
  CycleMapHistory CycleMapProofs CycleMapProofs2 CycleMapProofs3 CycleMapHistoryProofs CycleMapLax
  CycleMapLaxProofs.
Import ListNotations.
Open Scope N_scope.

Lemma perm_two : forall {T} (l a b : list T) x y, Permutation l (x :: a) -> Permutation l (y :: b) ->
  x <> y -> exists q, Permutation l (x :: y :: q).
Proof.
  intros T l a b x y Pa Pb N0.
  assert (I : In y (x :: a)).
  { eapply Permutation_in; [exact Pa|]. eapply Permutation_in; [symmetry; exact Pb|]. left; auto. }
  destruct I as [->|I]; [easy|].
  destruct (perm_in_cons _ _ I) as (q & Pq). exists q. etransitivity; [exact Pa|]. constructor; auto.
Qed.

Section LaxProofs2.
  Context {L R S : Type} (E : env L R S) (OK : lax E).
  Notation cm := (cmap L R S).
  Notation trip := (N * L * R)%type.
  Let LO := lax_lo _ OK.
  Notation eL := (eqL E).
  Notation eR := (eqR E).
  Notation WRep := (WRep E).
  Notation at_l := (at_l E).
  Notation at_r := (at_r E).

  Definition WRepr (s : S) (c : N) (m : cm) (P : list (L * R)) : Prop :=
    exists Z, WRep s c m Z /\ P = map zpair Z.

  (* triples with the same id are the same *)
  Lemma same_id : forall (Z : list trip) y z, NoDup (map zid Z) -> In y Z -> In z Z ->
    zid y = zid z -> y = z.
  Proof.
    induction Z as [|a Z IH]; intros y z ND Hy Hz Q; [easy|]. inversion ND; subst.
    destruct Hy as [<-|Hy], Hz as [<-|Hz]; auto.
    - exfalso. apply H1. rewrite Q. apply in_map; auto.
    - exfalso. apply H1. rewrite <- Q. apply in_map; auto.
  Qed.

  (* ---- queries ---- *)
  Lemma queries_l : forall s c m Z q, WRep s c m Z ->
    (exists z Z', Permutation Z (z :: Z') /\ at_l q z = true /\ hashL E s q = hashL E s (zl z) /\
       get_left_inner E m q = Some (snd (slotL E s z)) /\
       get_right E m q = Some (zr z) /\ contains_left E m q = true) \/
    ((forall z, In z Z -> at_l q z = false) /\
       get_left_inner E m q = None /\ get_right E m q = None /\ contains_left E m q = false).
  Proof.
    intros s c m Z q H. assert (K := look_l E OK s c m Z q H).
    unfold get_left_inner, get_right, get_right_q, contains_left, t_get.
    rewrite (w_hb _ _ _ _ _ H). destruct (t_find _ _ _ _) as [i|] eqn:F.
    - left. destruct K as (z & Z' & P & A & Hh & Hn). exists z, Z'.
      rewrite (entry_slot _ _ _ Hn). cbn [snd slotL phash pid value].
      assert (H' := w_perm E _ _ _ _ _ P H). rewrite Hh.
      destruct (partner_r E OK _ _ _ _ _ H') as (j & Fj & Nj).
      rewrite Fj, (entry_slot _ _ _ Nj). repeat split; auto.
    - right. auto.
  Qed.
  Lemma queries_r : forall s c m Z q, WRep s c m Z ->
    (exists z Z', Permutation Z (z :: Z') /\ at_r q z = true /\ hashR E s q = hashR E s (zr z) /\
       t_get (lo E) (right_set m) (hashR E s q) (equivalent_key eR q) = Some (snd (slotR E s z)) /\
       get_left E m q = Some (zl z) /\ contains_right E m q = true) \/
    ((forall z, In z Z -> at_r q z = false) /\
       t_get (lo E) (right_set m) (hashR E s q) (equivalent_key eR q) = None /\
       get_left E m q = None /\ contains_right E m q = false).
  Proof.
    intros s c m Z q H. assert (K := look_r E OK s c m Z q H).
    unfold get_left, get_left_q, contains_right, t_get.
    rewrite (w_hb _ _ _ _ _ H). destruct (t_find _ _ _ _) as [i|] eqn:F.
    - left. destruct K as (z & Z' & P & A & Hh & Hn). exists z, Z'.
      rewrite (entry_slot _ _ _ Hn). cbn [snd slotR phash pid value].
      assert (H' := w_perm E _ _ _ _ _ P H). rewrite Hh.
      destruct (partner_l E OK _ _ _ _ _ H') as (j & Fj & Nj).
      rewrite Fj, (entry_slot _ _ _ Nj). repeat split; auto.
    - right. auto.
  Qed.

  Lemma none_pairs : forall (p : L * R -> bool) (q : trip -> bool) Z, (forall z, p (zpair z) = q z) ->
    (forall z, In z Z -> q z = false) -> forall y, In y (map zpair Z) -> p y = false.
  Proof. intros p q Z G H y Hy. apply in_map_iff in Hy as (z & <- & Hz). rewrite G; auto. Qed.

  Lemma are_paired_w : forall s c m Z l r, WRep s c m Z ->
    exists a, meets eL eR (map zpair Z) l r a /\
      are_paired E m l r = match a with Some _ => true | None => false end.
  Proof.
    intros s c m Z l r H. unfold are_paired. rewrite (w_hb _ _ _ _ _ H).
    assert (KL := queries_l s c m Z l H). assert (KR := queries_r s c m Z r H).
    unfold get_left_inner in KL. rewrite (w_hb _ _ _ _ _ H) in KL.
    destruct KL as [(z & Z1 & P1 & A1 & Hh1 & -> & _)|(A1 & -> & _)].
    2: { exists None. split; [|auto]. left. apply none_pairs with (q := at_l l); auto. }
    destruct KR as [(y & Z2 & P2 & A2 & Hh2 & -> & _)|(A2 & -> & _)].
    2: { exists None. split; [|auto]. right; left. apply none_pairs with (q := at_r r); auto. }
    cbn [snd slotL slotR pid phash].
    assert (I1 : In z Z) by (eapply Permutation_in; [symmetry; exact P1|left; auto]).
    assert (I2 : In y Z) by (eapply Permutation_in; [symmetry; exact P2|left; auto]).
    destruct (N.eqb_spec (zid z) (zid y)) as [Q|Q].
    - apply (same_id Z) in Q; auto; [|apply (w_ids _ _ _ _ _ H)]. subst y.
      rewrite Hh1, Hh2, !N.eqb_refl. exists (Some (zpair z)). split; auto. split; [|split; auto].
      apply in_map; auto.
    - exists None. split; auto. right; right.
      destruct (perm_two Z Z1 Z2 z y P1 P2) as (q & Pq); [congruence|].
      exists (zpair z), (zpair y), (map zpair q). split; [|auto].
      apply (Permutation_map zpair) in Pq. exact Pq.
  Qed.

  (* ---- iteration ---- *)
  Lemma lost_in : forall Z z, In z Z -> (forall y, In y Z -> at_l (zl z) y = false) ->
    lost eL (map zpair Z) (zl z).
  Proof.
    intros Z z Hz N0. split.
    - rewrite map_map. apply in_map_iff. exists z; auto.
    - apply none_pairs with (q := at_l (zl z)); auto.
  Qed.

  Lemma collect_w : forall s c m Z W n, WRep s c m Z -> incl W Z -> (length W <= n)%nat ->
    (collect (iter_next E m) n (map (slotL E s) W) = Panicked /\ exists l, lost eL (map zpair Z) l) \/
    (exists ps, collect (iter_next E m) n (map (slotL E s) W) = Done ps /\
       Forall2 (shown eL (map zpair Z)) (map zpair W) ps).
  Proof.
    intros s c m Z. induction W as [|z W IH]; intros n H I Hn.
    - right. exists []. destruct n; simpl; auto.
    - destruct n; [simpl in Hn; lia|]. cbn [collect map iter_next slotL value].
      fold (slotL E s z).
      destruct (queries_l s c m Z (zl z) H) as [(y & Z' & P & A & Hh & _ & G & _)|(A & _ & G & _)]; rewrite G.
      + destruct (IH n H) as [[-> X]|(ps & -> & F)]; [intros w Hw; apply I; right; auto|simpl in Hn; lia|auto|].
        right. eexists; split; [reflexivity|]. constructor; auto. split; [reflexivity|].
        exists (zpair y). split; [apply in_map; eapply Permutation_in; [symmetry; exact P|left; auto]|]. auto.
      + left. split; auto. exists (zl z). apply lost_in; auto. apply I; left; auto.
  Qed.

  Lemma ordered_w : forall s c m Z, WRep s c m Z ->
    exists Y, WRep s c m Y /\ slots (left_set m) = map (slotL E s) Y /\ Permutation Z Y.
  Proof.
    intros s c m Z H. assert (Q := w_l _ _ _ _ _ H).
    apply Permutation_map_inv in Q as (Y & EY & PY). exists Y. split; [|split]; auto.
    eapply w_perm; eauto.
  Qed.

  (* ---- retain ---- *)
  Section Retain.
    Context {X : Type} (f : X -> L -> R -> X * verdict).
    Definition rejected (Z : list trip) (z : trip) : Prop :=
      In z Z /\ exists x l x', In l (map zl Z) /\ at_l l z = true /\ f x l (zr z) = (x', Some false).

    Lemma retain_scan_w : forall s c m Z W n x, WRep s c m Z -> incl W Z -> (length W <= n)%nat ->
      (exists x', retain_scan E f m n (map (slotL E s) W) x = Panic x' /\
         ((exists l, lost eL (map zpair Z) l) \/
          exists x l r x', In l (map fst (map zpair Z)) /\ In r (map snd (map zpair Z)) /\
                           f x l r = (x', None))) \/
      (exists x' D, retain_scan E f m n (map (slotL E s) W) x = Ret x' (map (drop_key E s) D) /\
         forall z, In z D -> rejected Z z).
    Proof.
      intros s c m Z. induction W as [|z W IH]; intros n x H I Hn.
      - right. exists x, []. split; [destruct n; reflexivity|intros ? []].
      - destruct n; [simpl in Hn; lia|]. cbn [retain_scan map iter_next slotL value].
        fold (slotL E s z).
        assert (IZ : In z Z) by (apply I; left; auto).
        assert (IH' := fun x => IH n x H (fun w Hw => I w (or_intror Hw)) ltac:(simpl in Hn; lia)).
        destruct (queries_l s c m Z (zl z) H) as [(y & Z' & P & A & Hh & GI & G & _)|(A & _ & G & _)]; rewrite G.
        + assert (Iy : In y Z) by (eapply Permutation_in; [symmetry; exact P|left; auto]).
          destruct (f x (zl z) (zr y)) as [x1 [b|]] eqn:FX.
          * destruct b; cbn [negb].
            -- destruct (IH' x1) as [(x2 & -> & W2)|(x2 & D & -> & W2)].
               ++ left. eauto.
               ++ right. exists x2, D. auto.
            -- rewrite GI, (w_hb _ _ _ _ _ H). cbn [snd slotL pid].
               destruct (IH' x1) as [(x2 & -> & W2)|(x2 & D & -> & W2)].
               ++ left. eauto.
               ++ right. exists x2, (y :: D). split.
                  ** cbn [map app]. unfold drop_key at 2. rewrite <- Hh. reflexivity.
                  ** intros w [<-|Hw]; auto. split; auto. exists x, (zl z), x1.
                     split; [apply in_map; auto|auto].
          * left. exists x1. split; auto. right. exists x, (zl z), (zr y), x1.
            rewrite !map_map. repeat split; auto.
            -- apply in_map_iff. exists z; auto.
            -- apply in_map_iff. exists y; auto.
        + left. exists x. split; auto. left. exists (zl z). apply lost_in; auto.
    Qed.

    Lemma remove_via_hashes_w : forall s c m z Z, WRep s c m (z :: Z) ->
      exists m', remove_via_hashes_and_id E (hashL E s (zl z)) (hashR E s (zr z)) (zid z) m
                 = Ret m' (Some (zpair z)) /\ WRep s c m' Z.
    Proof.
      intros s c m z Z H. unfold remove_via_hashes_and_id, left_remove_entry, right_remove_entry. mrun.
      unfold t_remove_entry.
      destruct (partner_l E OK _ _ _ _ _ H) as (i & Fi & Ni). rewrite Fi, (entry_slot _ _ _ Ni). simpl.
      destruct (partner_r E OK _ _ _ _ _ H) as (j & Fj & Nj). rewrite Fj, (entry_slot _ _ _ Nj). simpl.
      eexists; split; [reflexivity|]. apply (w_tail E s c m z); auto.
      - eapply (t_remove_at_perm (lo E)); [exact Ni|]. apply (w_l _ _ _ _ _ H).
      - eapply (t_remove_at_perm (lo E)); [exact Nj|]. apply (w_r _ _ _ _ _ H).
    Qed.
    Lemma remove_via_hashes_gone : forall s c m z Z, WRep s c m Z -> (forall y, In y Z -> zid y <> zid z) ->
      remove_via_hashes_and_id E (hashL E s (zl z)) (hashR E s (zr z)) (zid z) m = Ret m None.
    Proof.
      intros s c m z Z H N0. unfold remove_via_hashes_and_id, left_remove_entry. mrun.
      rewrite t_remove_entry_absent; auto. intros x Hx.
      apply (Permutation_in _ (w_l _ _ _ _ _ H)) in Hx. apply in_map_iff in Hx as (y & <- & Hy).
      unfold hash_and_id. simpl. apply andb_false_iff. left. apply N.eqb_neq.
      intro Q. exact (N0 y Hy (eq_sym Q)).
    Qed.

    Lemma drop_all_w : forall s c D K Z m, NoDup (map zid Z) -> incl K Z -> incl D Z -> WRep s c m K ->
      exists m' K' G, drop_all E (map (drop_key E s) D) m = Ret m' tt /\ WRep s c m' K' /\
        Permutation K (K' ++ G) /\ incl G D.
    Proof.
      intros s c D. induction D as [|d D IH]; intros K Z m ND IK ID H.
      - exists m, K, []. rewrite app_nil_r. split; [reflexivity|]. split; [exact H|]. split; [auto|apply incl_refl].
      - assert (ID' : incl D Z) by (intros x Hx; apply ID; right; auto).
        cbn [drop_all map]. unfold drop_key at 1. mrun.
        destruct (in_dec N.eq_dec (zid d) (map zid K)) as [I|I].
        + apply in_map_iff in I as (d' & Q & I).
          assert (d' = d) by (apply (same_id Z); auto; apply ID; left; auto). subst d'.
          destruct (perm_in_cons _ _ I) as (K1 & P1).
          destruct (remove_via_hashes_w s c m d K1 (w_perm E _ _ _ _ _ P1 H)) as (m1 & -> & H1).
          destruct (IH K1 Z m1 ND) as (m2 & K2 & G & E2 & H2 & P2 & I2); auto.
          { intros x Hx. apply IK. eapply Permutation_in; [symmetry; exact P1|right; auto]. }
          exists m2, K2, (d :: G). rewrite E2. split; [auto|]. split; [exact H2|]. split.
          * etransitivity; [exact P1|]. etransitivity; [apply perm_skip, P2|]. apply Permutation_middle.
          * intros x [<-|Hx]; [left; auto|right; auto].
        + rewrite (remove_via_hashes_gone s c m d K H).
          2: { intros y Hy Q. apply I. rewrite <- Q. apply in_map; auto. }
          destruct (IH K Z m ND) as (m2 & K2 & G & E2 & H2 & P2 & I2); auto.
          exists m2, K2, G. rewrite E2. split; [auto|]. split; [exact H2|]. split; auto. intros x Hx; right; auto.
    Qed.

    Lemma retain_w : forall s c m Z x, WRep s c m Z ->
      (exists x', retain E f (m, x) = Panic (m, x') /\
         ((exists l, lost eL (map zpair Z) l) \/
          exists x l r x', In l (map fst (map zpair Z)) /\ In r (map snd (map zpair Z)) /\
                           f x l r = (x', None))) \/
      (exists m' x' K D, retain E f (m, x) = Ret (m', x') tt /\ WRep s c m' K /\
         Permutation Z (K ++ D) /\ forall z, In z D -> rejected Z z).
    Proof.
      intros s c m Z x H. destruct (ordered_w s c m Z H) as (Y & HY & SL & PY).
      unfold retain, iter. rewrite SL, map_length.
      destruct (retain_scan_w s c m Z Y (length Y) x H) as [(x' & -> & W)|(x' & D & -> & W)]; auto.
      - intros w Hw. eapply Permutation_in; [symmetry; exact PY|auto].
      - left. eauto.
      - right. destruct (drop_all_w s c D Z Z m (w_ids _ _ _ _ _ H)) as (m' & K & G & -> & HK & P & I);
          auto using incl_refl.
        { intros w Hw. apply (W w Hw). }
        exists m', x', K, G. split; [reflexivity|]. split; [exact HK|]. split; [exact P|]. intros w Hw. apply W; auto.
    Qed.
  End Retain.

  (* ---- drain ---- *)
  Lemma drain_w : forall s c m Z, WRep s c m Z ->
    exists Y d, Permutation Z Y /\
      drain_nexts E (Datatypes.S (len m)) (drain m) = Ret d (map Some (map zpair Y) ++ [None]) /\
      WRep s 0 (drain_end E m d) [].
  Proof.
    intros s c m Z H. destruct (ordered_w s c m Z H) as (Y & HY & SL & PY).
    assert (G : forall n Y d, NoDup (map zid Y) -> (length Y < n)%nat ->
      di_left d = map (slotL E s) Y -> Permutation (slots (di_right d)) (map (slotR E s) Y) ->
      exists d', drain_nexts E n d = Ret d' (map Some (map zpair Y) ++ repeat None (n - length Y)) /\
        slots (di_right d') = []).
    { clear - LO. induction n; intros Y d ND HN HL HR; [lia|]. cbn [drain_nexts]. destruct Y as [|y Y].
      - unfold drain_next. rewrite HL. simpl map. cbn iota. simpl in HR.
        destruct n as [|n].
        + simpl. exists d. split; auto. apply Permutation_nil. symmetry; auto.
        + destruct (IHn [] d) as (d' & E1 & H1); auto; [simpl; lia|].
          rewrite E1. exists d'. split; auto.
      - unfold drain_next. rewrite HL. simpl map. cbn iota.
        unfold slotL at 1. cbn [phash pid value].
        destruct (t_remove_entry_unique (lo E) LO (di_right d) (hashR E s (zr y))
          (just_id (zid y)) _ _ HR) as (t & -> & Pt).
        { unfold just_id; simpl. apply N.eqb_refl. }
        { intros x Hx. eapply id_r_other; eauto. }
        destruct (IHn Y (Drain (map (slotL E s) Y) t)) as (d' & E1 & H1); auto.
        { inversion ND; auto. } { simpl in HN; lia. }
        rewrite E1. exists d'. split; auto. }
    assert (LN : len m = length Y) by (unfold len, t_len; rewrite SL, map_length; auto).
    destruct (G (Datatypes.S (len m)) Y (drain m)) as (d & E1 & N1); auto.
    - apply (w_ids _ _ _ _ _ HY).
    - lia.
    - apply (w_r _ _ _ _ _ HY).
    - exists Y, d. split; auto. split.
      + rewrite E1. f_equal. f_equal. rewrite LN. replace (Datatypes.S (length Y) - length Y)%nat with 1%nat by lia. auto.
      + constructor; simpl; auto.
        * apply (w_hb _ _ _ _ _ H).
        * rewrite N1. auto.
        * constructor.
        * intros ? [].
  Qed.

  (* ---- drain_filter ---- *)
  Section DrainFilter.
    Context {X : Type} (f : X -> L -> R -> X * verdict).
    Notation fz := (fun (x : X) (z : trip) => f x (zl z) (zr z)).

    (* [K]: visited and kept, [T]: not yet visited *)
    Record WDF (s : S) (c : N) (m : cm) (d : df_inner) (K T : list trip) : Prop := {
      wdf_rep : WRep s c (df_end m d) (K ++ T);
      wdf_left : slots (df_left d) = map (slotL E s) (K ++ T);
      wdf_pos : df_pos d = length K
    }.

    Lemma df_next_fuel_w : forall s c m T n K d x, WDF s c m d K T -> (length T <= n)%nat ->
      let '(x', k, T', r) := s_next fz x T in
      exists d', WDF s c m d' (K ++ k) T' /\
        df_next_fuel E f n (d, x) =
          match r with
          | SYield z => Ret (d', x') (Some (zpair z))
          | SEnd => Ret (d', x') None
          | SPanic => Panic (d', x')
          end.
    Proof.
      intros s c m. induction T as [|z T IH]; intros n K d x H Hn.
      - simpl. exists d. rewrite app_nil_r. split; auto.
        assert (NE : t_entry (df_left d) (df_pos d) = None).
        { unfold t_entry. rewrite (wdf_left _ _ _ _ _ _ H), app_nil_r, (wdf_pos _ _ _ _ _ _ H).
          rewrite (proj2 (nth_error_None _ _)); auto. rewrite map_length; auto. }
        destruct n; cbn [df_next_fuel]; rewrite NE; auto.
      - assert (NE : t_entry (df_left d) (df_pos d) = Some (snd (slotL E s z))).
        { unfold t_entry. rewrite (wdf_left _ _ _ _ _ _ H), (wdf_pos _ _ _ _ _ _ H).
          rewrite nth_map_app. reflexivity. }
        assert (PM : Permutation (K ++ z :: T) (z :: K ++ T))
          by (symmetry; apply Permutation_middle).
        assert (HR := wdf_rep _ _ _ _ _ _ H).
        assert (HM : WRep s c (df_end m d) (z :: K ++ T)) by (eapply (w_perm E); eauto).
        destruct (t_find_unique (lo E) LO (df_right d) (hashR E s (zr z)) (just_id (zid z)) _ _
                    (w_r _ _ _ _ _ HM)) as (i & Fi & Ni).
        { unfold just_id; simpl. apply N.eqb_refl. }
        { intros y Hy. eapply id_r_other; eauto. apply (w_ids _ _ _ _ _ HM). }
        assert (NR : t_entry (df_right d) i = Some (snd (slotR E s z)))
          by (unfold t_entry; simpl in Ni; rewrite Ni; auto).
        destruct n; [simpl in Hn; lia|]. cbn [df_next_fuel]. rewrite NE.
        cbn [snd slotL phash pid value]. rewrite Fi, NR. cbn [snd slotR phash pid value].
        simpl s_next.
        destruct (f x (zl z) (zr z)) as [x1 [[|]|]].
        + exists (DF (t_remove_at (lo E) (df_left d) (df_pos d)) (df_pos d)
                   (t_remove_at (lo E) (df_right d) i)). rewrite app_nil_r.
          split; [|auto].
          assert (SLT : slots (t_remove_at (lo E) (df_left d) (df_pos d)) = map (slotL E s) (K ++ T)).
          { simpl. rewrite (wdf_left _ _ _ _ _ _ H), (wdf_pos _ _ _ _ _ _ H), !map_app. simpl.
            rewrite <- (map_length (slotL E s) K). apply remove_nth_app. }
          constructor; auto.
          * unfold df_end; cbn [df_left df_right].
            apply (w_tail E s c (df_end m d) z); auto.
            -- rewrite SLT. reflexivity.
            -- eapply t_remove_at_perm; [exact Ni|]. apply (w_r _ _ _ _ _ HM).
          * simpl. apply (wdf_pos _ _ _ _ _ _ H).
        + assert (HA : WDF s c m (DF (df_left d) (Datatypes.S (df_pos d)) (df_right d)) (K ++ [z]) T).
          { constructor; rewrite <- ?app_assoc; simpl; auto.
            - apply (wdf_left _ _ _ _ _ _ H).
            - rewrite app_length, (wdf_pos _ _ _ _ _ _ H). simpl. lia. }
          specialize (IH n (K ++ [z]) _ x1 HA).
          destruct (s_next fz x1 T) as [[[x2 k] T'] r].
          destruct IH as (d' & Hd & E1); [simpl in Hn; lia|].
          exists d'. rewrite <- app_assoc in Hd. split; auto.
        + exists (DF (df_left d) (Datatypes.S (df_pos d)) (df_right d)). split; auto.
          constructor; rewrite <- ?app_assoc; simpl; auto.
          * apply (wdf_left _ _ _ _ _ _ H).
          * rewrite app_length, (wdf_pos _ _ _ _ _ _ H). simpl. lia.
    Qed.

    Lemma wdf_remaining : forall s c m d K T, WDF s c m d K T -> df_remaining d = length T.
    Proof.
      intros s c m d K T H. unfold df_remaining, t_len.
      rewrite (wdf_left _ _ _ _ _ _ H), (wdf_pos _ _ _ _ _ _ H), map_length, app_length. lia.
    Qed.

    Lemma df_next_w : forall s c m T K d x, WDF s c m d K T ->
      let '(x', k, T', r) := s_next fz x T in
      exists d', WDF s c m d' (K ++ k) T' /\
        df_next E f (d, x) =
          match r with
          | SYield z => Ret (d', x') (Some (zpair z))
          | SEnd => Ret (d', x') None
          | SPanic => Panic (d', x')
          end.
    Proof.
      intros. unfold df_next. eapply df_next_fuel_w; eauto. simpl fst.
      erewrite wdf_remaining; eauto.
    Qed.

    (* abstract state of a drain_filter session: P = kept ++ rest *)
    Definition WDFA (s : S) (c : N) (m : cm) (d : df_inner) (kept rest : list (L * R)) : Prop :=
      exists K T, WDF s c m d K T /\ kept = map zpair K /\ rest = map zpair T.

    Lemma wdfa_repr : forall s c m d kept rest, WDFA s c m d kept rest ->
      WRepr s c (df_end m d) (kept ++ rest).
    Proof.
      intros s c m d kept rest (K & T & H & -> & ->). exists (K ++ T).
      rewrite map_app. split; auto. apply H.
    Qed.

    Lemma wdfa_start : forall s c m Z, WRep s c m Z ->
      exists Y, Permutation Z Y /\ WDFA s c m (drain_filter m) [] (map zpair Y).
    Proof.
      intros s c m Z H. destruct (ordered_w s c m Z H) as (Y & HY & SL & PY).
      exists Y. split; auto. exists [], Y. split; [|auto]. constructor; auto.
      destruct HY. constructor; auto.
    Qed.

    Lemma wdfa_next : forall s c m d kept rest x, WDFA s c m d kept rest ->
      let '(x', k, rest', r) := s_next (on_pair f) x rest in
      exists d', WDFA s c m d' (kept ++ k) rest' /\
        df_next E f (d, x) =
          match r with
          | SYield p => Ret (d', x') (Some p)
          | SEnd => Ret (d', x') None
          | SPanic => Panic (d', x')
          end.
    Proof.
      intros s c m d kept rest x (K & T & H & -> & ->).
      rewrite s_next_map.
      change (fun (x : X) (u : trip) => on_pair f x (zpair u)) with fz.
      assert (Q := df_next_w s c m T K d x H).
      destruct (s_next fz x T) as [[[x' k] T'] r]. destruct Q as (d' & Hd & E1).
      exists d'. split.
      - exists (K ++ k), T'. rewrite map_app. auto.
      - rewrite E1. destruct r; auto.
    Qed.

    (* dropping the iterator: everything not yet visited is filtered *)
    Lemma df_drop_fuel_w : forall n s c m d kept rest x, WDFA s c m d kept rest ->
      (length rest <= n)%nat ->
      let '(x', _, others, pn) := s_filter (on_pair f) x rest in
      exists d' kept' rest',
        df_drop_fuel E f n (d, x) = (if pn then Panic (d', x') else Ret (d', x') tt) /\
        WDFA s c m d' kept' rest' /\ kept' ++ rest' = kept ++ others.
    Proof.
      induction n; intros s c m d kept rest x H Hn.
      - destruct rest; [|simpl in Hn; lia]. simpl.
        assert (Q := wdfa_next s c m d kept [] x H). simpl in Q. destruct Q as (d' & Hd & E1).
        exists d', (kept ++ []), []. rewrite E1, !app_nil_r in *. repeat split; auto.
      - assert (Q := wdfa_next s c m d kept rest x H).
        assert (W := s_next_filter (on_pair f) rest x).
        destruct (s_next (on_pair f) x rest) as [[[x' k] rest'] [p| |]].
        + destruct Q as (d' & Hd & E1). destruct W as [-> WL].
          specialize (IHn s c m d' _ _ x' Hd).
          cbn [df_drop_fuel]. rewrite E1.
          destruct (s_filter (on_pair f) x' rest') as [[[x2 y] no] pn].
          destruct IHn as (d2 & k2 & r2 & E2 & H2 & A2); [lia|]. exists d2, k2, r2.
          rewrite A2, app_assoc. auto.
        + destruct Q as (d' & Hd & E1). destruct W as [-> ->].
          cbn [df_drop_fuel]. rewrite E1. exists d', (kept ++ k), []. rewrite app_nil_r. auto.
        + destruct Q as (d' & Hd & E1). rewrite W.
          cbn [df_drop_fuel]. rewrite E1. exists d', (kept ++ k), rest'. rewrite app_assoc. auto.
    Qed.

    Lemma df_drop_w : forall s c m d kept rest x, WDFA s c m d kept rest ->
      let '(x', _, others, pn) := s_filter (on_pair f) x rest in
      exists d', df_drop E f (d, x) = (if pn then Panic (d', x') else Ret (d', x') tt) /\
                 WRepr s c (df_end m d') (kept ++ others).
    Proof.
      intros. unfold df_drop.
      assert (Q := df_drop_fuel_w (df_remaining (fst (d, x))) s c m d kept rest x H).
      destruct (s_filter (on_pair f) x rest) as [[[x' y] others] pn].
      destruct Q as (d' & k' & r' & E1 & H1 & A1).
      - destruct H as (K & T & H & -> & ->). simpl fst. erewrite wdf_remaining by eauto.
        rewrite map_length; auto.
      - exists d'. split; auto. rewrite <- A1. apply wdfa_repr; auto.
    Qed.

    (* n explicit calls of next *)
    Lemma df_nexts_w : forall n s c m d kept rest x, WDFA s c m d kept rest ->
      let '(x0, taken, others, pn) := s_filter (on_pair f) x rest in
      exists d' x' kept' rest',
        WDFA s c m d' kept' rest' /\
        let '(x1, taken1, others1, pn1) := s_filter (on_pair f) x' rest' in
        ((n <= length taken)%nat \/ pn = false ->
           df_nexts E f n (d, x) =
             Ret (d', x') (firstn n (map Some taken) ++ repeat None (n - length taken)) /\
           (x1, taken1, kept' ++ others1, pn1) = (x0, skipn n taken, kept ++ others, pn)) /\
        ((length taken < n)%nat -> pn = true ->
           df_nexts E f n (d, x) = Panic (d', x0) /\ x' = x0 /\
           kept' ++ rest' = kept ++ others /\
           kept' ++ others1 = kept ++ s_unwind (on_pair f) x rest).
    Proof.
      induction n; intros s c m d kept rest x H.
      - destruct (s_filter (on_pair f) x rest) as [[[x0 taken] others] pn] eqn:Q.
        exists d, x, kept, rest. rewrite Q. split; [auto|]. split.
        + intros _. simpl. auto.
        + intros; lia.
      - assert (Q := wdfa_next s c m d kept rest x H).
        assert (W := s_next_filter (on_pair f) rest x).
        assert (U := s_next_unwind (on_pair f) rest x).
        destruct (s_next (on_pair f) x rest) as [[[x' k] rest'] [p| |]].
        + destruct Q as (d' & Hd & E1). destruct W as [-> WL].
          specialize (IHn s c m d' _ _ x' Hd).
          destruct (s_filter (on_pair f) x' rest') as [[[x0 taken] others] pn].
          destruct IHn as (d2 & x2 & k2 & r2 & H2 & IH). exists d2, x2, k2, r2. split; [auto|].
          destruct (s_filter (on_pair f) x2 r2) as [[[x1 taken1] others1] pn1].
          destruct IH as [IH1 IH2]. cbn [df_nexts]. rewrite E1. split.
          * intros HH. destruct IH1 as [-> EQ].
            { destruct HH as [HH|HH]; auto. left. simpl in HH. lia. }
            split; auto. rewrite EQ. simpl. rewrite app_assoc. auto.
          * intros HH HP. destruct IH2 as (-> & EX & EQ & EU); auto.
            { simpl in HH; lia. }
            repeat split; auto; [rewrite EQ|rewrite EU, U]; rewrite app_assoc; auto.
        + destruct Q as (d' & Hd & E1). destruct W as [-> ->].
          specialize (IHn s c m d' _ _ x' Hd). simpl in IHn.
          destruct IHn as (d2 & x2 & k2 & r2 & H2 & IH). exists d2, x2, k2, r2. split; [auto|].
          destruct (s_filter (on_pair f) x2 r2) as [[[x1 taken1] others1] pn1].
          destruct IH as [IH1 IH2]. cbn [df_nexts]. rewrite E1. split.
          * intros _. destruct IH1 as [-> EQ]; auto. split.
            -- destruct n; auto.
            -- rewrite EQ. rewrite skipn_nil, app_nil_r. auto.
          * discriminate.
        + destruct Q as (d' & Hd & E1). rewrite W.
          exists d', x', (kept ++ k), rest'. split; [auto|].
          destruct (s_filter (on_pair f) x' rest') as [[[x1 taken1] others1] pn1].
          cbn [df_nexts]. rewrite E1. split.
          * intros [HH|HH]; [simpl in HH; lia|discriminate].
          * intros _ _. rewrite U, !app_assoc. auto.
    Qed.
  End DrainFilter.
End LaxProofs2.
