(* drain_filter of PartialCycleMap at the level of Buckets.v.  The right RawIter is created
   together with the left one, and the left pass removes right buckets behind its back; it must
   not be used before it is created afresh. *)
From Coq Require Import List NArith Lia Bool PeanoNat.
From Verif Require Import Prelude Optionals RawTable Buckets PartialCycleMap Concrete PartialProps.
Import ListNotations.
Local Open Scope nat_scope.

Section PartialBuckets.
  Context {L R S : Type}.
  Variable E : env L R S.
  Variable W : nat.

  (* src/partial_cycle_map.rs:2402-2408 *)
  Record p_inner := PDF {
    pd_left : ptable (mapping_pair L);
    pd_liter : raw_iter;
    pd_right : ptable (mapping_pair R);
    pd_riter : raw_iter;
    pd_reset : bool
  }.
  Section Filter.
    Context {X : Type}.
    Variable f : X -> optional_pair L R -> X * verdict.

    (* src/partial_cycle_map.rs:1401-1417 *)
    Definition p_drain_filter (pl : ptable (mapping_pair L)) (pr : ptable (mapping_pair R)) : p_inner :=
      PDF pl (p_iter W pl) pr (p_iter W pr) true.

    (* src/partial_cycle_map.rs:2438-2445; None: undefined behaviour *)
    Fixpoint p_next_right (fuel : nat) (d : p_inner) (x : X) : option (res (p_inner * X) (option (optional_pair L R))) :=
      match ri_next W (pd_right d) (pd_riter d) with
      | None => None
      | Some (None, it) => Some (Ret (PDF (pd_left d) (pd_liter d) (pd_right d) it (pd_reset d), x) None)
      | Some (Some rb, it) =>
          let adv := PDF (pd_left d) (pd_liter d) (pd_right d) it (pd_reset d) in
          match p_entry (pd_right d) rb with
          | None => None
          | Some r_pairing =>
              match f x (SomeRight (value r_pairing)) with
              | (x', None) => Some (Panic (adv, x'))
              | (x', Some true) =>
                  match p_remove (lo E) (pd_right d) rb with
                  | None => None
                  | Some (r, pr) =>
                      Some (Ret (PDF (pd_left d) (pd_liter d) pr it (pd_reset d), x') (Some (SomeRight (value r))))
                  end
              | (x', Some false) =>
                  match fuel with
                  | O => Some (Panic (adv, x'))      (* out of fuel *)
                  | Datatypes.S fuel' => p_next_right fuel' adv x'
                  end
              end
          end
      end.
    (* src/partial_cycle_map.rs:2434-2437 *)
    Definition p_enter_right (d : p_inner) : p_inner :=
      if pd_reset d then PDF (pd_left d) (pd_liter d) (pd_right d) (p_iter W (pd_right d)) false else d.
    (* src/partial_cycle_map.rs:2415-2433 *)
    Fixpoint p_next_left (fuel : nat) (d : p_inner) (x : X) : option (res (p_inner * X) (option (optional_pair L R))) :=
      match ri_next W (pd_left d) (pd_liter d) with
      | None => None
      | Some (None, it) =>
          let d' := p_enter_right (PDF (pd_left d) it (pd_right d) (pd_riter d) (pd_reset d)) in
          p_next_right (length (fulls (pd_right d'))) d' x
      | Some (Some lb, it) =>
          let adv := PDF (pd_left d) it (pd_right d) (pd_riter d) (pd_reset d) in
          let go_on x' :=
            match fuel with
            | O => Some (Panic (adv, x'))            (* out of fuel *)
            | Datatypes.S fuel' => p_next_left fuel' adv x'
            end in
          match p_entry (pd_left d) lb with
          | None => None
          | Some l_pairing =>
              match phash l_pairing with
              | Some hash =>
                  match p_find (lo E) (pd_right d) hash (just_id (pid l_pairing)) with
                  | None => Some (Panic (adv, x))
                  | Some rb =>
                      match p_entry (pd_right d) rb with
                      | None => None
                      | Some r_pairing =>
                          match f x (SomeBoth (value l_pairing) (value r_pairing)) with
                          | (x', None) => Some (Panic (adv, x'))
                          | (x', Some true) =>
                              match p_remove (lo E) (pd_left d) lb with
                              | None => None
                              | Some (l, pl) =>
                                  match p_remove (lo E) (pd_right d) rb with
                                  | None => None
                                  | Some (r, pr) =>
                                      Some (Ret (PDF pl it pr (pd_riter d) (pd_reset d), x') (Some (SomeBoth (value l) (value r))))
                                  end
                              end
                          | (x', Some false) => go_on x'
                          end
                      end
                  end
              | None =>
                  match f x (SomeLeft (value l_pairing)) with
                  | (x', None) => Some (Panic (adv, x'))
                  | (x', Some true) =>
                      match p_remove (lo E) (pd_left d) lb with
                      | None => None
                      | Some (l, pl) =>
                          Some (Ret (PDF pl it (pd_right d) (pd_riter d) (pd_reset d), x') (Some (SomeLeft (value l))))
                      end
                  | (x', Some false) => go_on x'
                  end
              end
          end
      end.
    Definition p_next (st : p_inner * X) : option (res (p_inner * X) (option (optional_pair L R))) :=
      p_next_left (length (fulls (pd_left (fst st)))) (fst st) (snd st).
    (* src/partial_cycle_map.rs:2371-2377 *)
    Fixpoint p_drop_fuel (fuel : nat) (st : p_inner * X) : option (res (p_inner * X) unit) :=
      match p_next st with
      | None => None
      | Some (Panic st') => Some (Panic st')
      | Some (Ret st' None) => Some (Ret st' tt)
      | Some (Ret st' (Some _)) =>
          match fuel with
          | O => Some (Panic st')                            (* out of fuel *)
          | Datatypes.S fuel' => p_drop_fuel fuel' st'
          end
      end.
    Definition p_drop (st : p_inner * X) : option (res (p_inner * X) unit) :=
      p_drop_fuel (length (fulls (pd_left (fst st))) + length (fulls (pd_right (fst st)))) st.

    (* the cells seen as the tables of PartialCycleMap.v; nothing is known about the right
       iterator before it has been created afresh *)
    Definition same (pd : p_inner) (d : df_inner (L := L) (R := R)) : Prop :=
      abs (pd_left pd) = df_left d /\ abs (pd_right pd) = df_right d /\ pd_reset pd = df_reset d /\
      at_pos (pd_left pd) (pd_liter pd) (df_lpos d) /\
      (df_reset d = false -> at_pos (pd_right pd) (pd_riter pd) (df_rpos d) /\ t_entry (df_left d) (df_lpos d) = None).
    Definition same_res {A} (p : res (p_inner * X) A) (q : res (df_inner (L := L) (R := R) * X) A) : Prop :=
      match p, q with
      | Ret (pd, x) a, Ret (d, y) b => same pd d /\ x = y /\ a = b
      | Panic (pd, x), Panic (d, y) => same pd d /\ x = y
      | _, _ => False
      end.
    Lemma len_abs : forall A (pt : ptable A) t, abs pt = t -> length (fulls pt) = t_len t.
    Proof. intros A pt t <-. unfold fulls, t_len, abs. cbn [slots]. apply fulls_length. Qed.

    Hypothesis W0 : 0 < W.
    Lemma right_same : forall fuel pd d x, same pd d -> df_reset d = false ->
      exists r, p_next_right fuel pd x = Some r /\ same_res r (df_next_right E f fuel d x).
    Proof.
      induction fuel as [|fuel IH]; intros pd d x (H1 & H2 & H3 & H4 & H5) HF; destruct (H5 HF) as [H6 H7]; clear H5.
      all: assert (Q := next_at W W0 _ _ _ H6); assert (G := entry_abs (pd_right pd) (df_rpos d)).
      all: cbn [p_next_right df_next_right].
      all: destruct (nth_error (fulls (pd_right pd)) (df_rpos d)) as [b|] eqn:NE;
        [|destruct Q as (it & -> & Q); rewrite H2 in G; rewrite G; eexists; split; [reflexivity|];
          split; [split; [|split; [|split; [|split]]]; auto|auto]].
      all: destruct Q as (it & -> & Q & QB); destruct G as (rp & PR & G); rewrite PR; rewrite H2 in G; rewrite G.
      all: assert (A : same (PDF (pd_left pd) (pd_liter pd) (pd_right pd) it (pd_reset pd))
                            (DF (df_left d) (df_lpos d) (df_right d) (Datatypes.S (df_rpos d)) (df_reset d)))
        by (split; [|split; [|split; [|split]]]; auto).
      all: destruct (f x (SomeRight (value rp))) as [x' [[|]|]];
        [| |eexists; split; [reflexivity|]; split; auto].
      1, 3: destruct (remove_read (lo E) _ _ _ _ NE PR) as (pr & R1 & R2);
        rewrite R1; eexists; split; [reflexivity|];
        split; [split; [|split; [|split; [|split]]]; cbn [pd_left pd_right pd_liter pd_riter pd_reset df_left df_right df_lpos df_rpos df_reset];
                auto; [rewrite R2, H2; auto|intros _; split; [eapply removed_at; eauto|auto]]|split; auto].
      - eexists. split; [reflexivity|]. split; auto.
      - apply IH; auto.
    Qed.
    Lemma left_same : forall fuel pd d x, same pd d ->
      exists r, p_next_left fuel pd x = Some r /\ same_res r (df_next_left E f fuel d x).
    Proof.
      induction fuel as [|fuel IH]; intros pd d x H; assert (H0 := H); destruct H as (H1 & H2 & H3 & H4 & H5).
      all: assert (Q := next_at W W0 _ _ _ H4); assert (G := entry_abs (pd_left pd) (df_lpos d)).
      all: cbn [p_next_left df_next_left].
      all: destruct (nth_error (fulls (pd_left pd)) (df_lpos d)) as [b|] eqn:NE.
      2, 4: destruct Q as (it & -> & Q); rewrite H1 in G; rewrite G; unfold p_enter_right, df_enter_right;
        cbn [pd_left pd_right pd_liter pd_riter pd_reset]; rewrite H3;
        destruct (df_reset d) eqn:DR; cbn [pd_right df_right]; rewrite (len_abs _ _ _ H2);
        (apply right_same; [split; [|split; [|split; [|split]]]|]);
        cbn [pd_left pd_right pd_liter pd_riter pd_reset df_left df_right df_lpos df_rpos df_reset]; auto;
        intros _; split; auto; apply at_start; exact W0.
      all: destruct Q as (it & -> & Q & QB); destruct G as (lp & PL & G); rewrite PL; rewrite H1 in G; rewrite G.
      all: assert (RT : df_reset d = true) by (destruct (df_reset d); auto; destruct (H5 eq_refl); congruence).
      all: assert (NF : forall P : Prop, df_reset d = false -> P) by (rewrite RT; discriminate).
      all: assert (A : same (PDF (pd_left pd) it (pd_right pd) (pd_riter pd) (pd_reset pd))
                            (DF (df_left d) (Datatypes.S (df_lpos d)) (df_right d) (df_rpos d) (df_reset d)))
        by (split; [auto|split; [auto|split; [auto|split; [auto|apply NF]]]]).
      all: destruct (phash lp) as [h|].
      1, 3: assert (F := find_abs (lo E) (pd_right pd) h (just_id (pid lp))); rewrite H2 in F;
        unfold t_get_mut;
        (destruct (t_find (lo E) (df_right d) h (just_id (pid lp))) as [i|];
          [|rewrite F; eexists; split; [reflexivity|]; split; auto]);
        assert (G2 := entry_abs (pd_right pd) i); rewrite H2 in G2;
        (destruct (nth_error (fulls (pd_right pd)) i) as [rb|] eqn:NR;
          [|destruct F as [-> F]; rewrite F; eexists; split; [reflexivity|]; split; auto]);
        rewrite F; destruct G2 as (rp & PR & ->); rewrite PR;
        (destruct (f x (SomeBoth (value lp) (value rp))) as [x' [[|]|]];
          [| |eexists; split; [reflexivity|]; split; auto]).
      1, 3: destruct (remove_read (lo E) _ _ _ _ NE PL) as (pl & R1 & R2);
        destruct (remove_read (lo E) _ _ _ _ NR PR) as (pr & S1 & S2);
        rewrite R1, S1; eexists; split; [reflexivity|];
        split; [split; [|split; [|split; [|split]]]; cbn [pd_left pd_right pd_liter pd_riter pd_reset df_left df_right df_lpos df_rpos df_reset];
                [rewrite R2, H1; auto|rewrite S2, H2; auto|auto|eapply removed_at; eauto|apply NF]|split; auto].
      1: eexists; split; [reflexivity|]; split; auto.
      1: apply IH; exact A.
      all: destruct (f x (SomeLeft (value lp))) as [x' [[|]|]];
        [| |eexists; split; [reflexivity|]; split; auto].
      1, 3: destruct (remove_read (lo E) _ _ _ _ NE PL) as (pl & R1 & R2);
        rewrite R1; eexists; split; [reflexivity|];
        split; [split; [|split; [|split; [|split]]]; cbn [pd_left pd_right pd_liter pd_riter pd_reset df_left df_right df_lpos df_rpos df_reset];
                [rewrite R2, H1; auto|auto|auto|eapply removed_at; eauto|apply NF]|split; auto].
      - eexists. split; [reflexivity|]. split; auto.
      - apply IH. exact A.
    Qed.
    Lemma p_next_same : forall pd d x, same pd d ->
      exists r, p_next (pd, x) = Some r /\ same_res r (df_next E f (d, x)).
    Proof.
      intros pd d x H. unfold p_next, df_next. cbn [fst snd]. rewrite (len_abs _ _ _ (proj1 H)). apply left_same. auto.
    Qed.
    Lemma drop_same : forall fuel pd d x, same pd d ->
      exists r, p_drop_fuel fuel (pd, x) = Some r /\ same_res r (df_drop_fuel E f fuel (d, x)).
    Proof.
      induction fuel as [|fuel IH]; intros pd d x H; cbn [p_drop_fuel df_drop_fuel];
        destruct (p_next_same pd d x H) as (r & -> & Q); unfold same_res in Q;
        destruct r as [[pd' x'] o|[pd' x']], (df_next E f (d, x)) as [[d' y] o'|[d' y]]; try contradiction.
      1, 3: destruct Q as (Q1 & -> & ->); destruct o' as [o'|].
      all: try (eexists; split; [reflexivity|]; cbn; tauto).
      - apply IH. auto.
    Qed.

    (* any calls of next, one after the other, also after a panic that was caught *)
    Fixpoint calls (n : nat) (st : df_inner (L := L) (R := R) * X)
        : (df_inner (L := L) (R := R) * X) * list (outcome (option (optional_pair L R))) :=
      match n with
      | O => (st, [])
      | Datatypes.S n' =>
          match df_next E f st with
          | Ret st' o => let (st'', l) := calls n' st' in (st'', Done o :: l)
          | Panic st' => let (st'', l) := calls n' st' in (st'', Panicked :: l)
          end
      end.
    Fixpoint p_calls (n : nat) (st : p_inner * X) : option ((p_inner * X) * list (outcome (option (optional_pair L R)))) :=
      match n with
      | O => Some (st, [])
      | Datatypes.S n' =>
          match p_next st with
          | None => None
          | Some (Ret st' o) =>
              match p_calls n' st' with Some (st'', l) => Some (st'', Done o :: l) | None => None end
          | Some (Panic st') =>
              match p_calls n' st' with Some (st'', l) => Some (st'', Panicked :: l) | None => None end
          end
      end.
    Lemma calls_same : forall n pd d x, same pd d ->
      exists pd' y, p_calls n (pd, x) = Some (pd', y, snd (calls n (d, x))) /\
        same pd' (fst (fst (calls n (d, x)))) /\ y = snd (fst (calls n (d, x))).
    Proof.
      induction n as [|n IH]; intros pd d x H; cbn [p_calls calls]; [eauto|].
      destruct (p_next_same pd d x H) as (r & -> & Q). unfold same_res in Q.
      destruct r as [[pd' x'] o|[pd' x']], (df_next E f (d, x)) as [[d' y] o'|[d' y]]; try contradiction.
      - destruct Q as (Q1 & -> & ->). destruct (IH pd' d' y Q1) as (pd2 & y2 & -> & K2 & K3).
        destruct (calls n (d', y)) as [[d2 z] l]. cbn [fst snd] in *. subst. eauto.
      - destruct Q as (Q1 & ->). destruct (IH pd' d' y Q1) as (pd2 & y2 & -> & K2 & K3).
        destruct (calls n (d', y)) as [[d2 z] l]. cbn [fst snd] in *. subst. eauto.
    Qed.

    (* no cell is filled, moved or added: every cell is as before or has been freed *)
    Lemma remove_thins : forall A (pt : ptable A) b e pt', p_remove (lo E) pt b = Some (e, pt') -> thinned pt pt'.
    Proof.
      intros A pt b e pt' H. unfold p_remove in H. destruct (p_entry pt b); inversion H; subst. clear.
      unfold thinned. cbn [cells]. generalize (cells pt). intros l. revert b.
      induction l as [|c l IH]; intros [|b]; simpl; split; auto.
      - intros [|i]; simpl; auto.
      - rewrite (proj1 (IH b)). auto.
      - intros [|i]; simpl; auto. apply (IH b).
    Qed.
    Definition thin (d d' : p_inner) : Prop := thinned (pd_left d) (pd_left d') /\ thinned (pd_right d) (pd_right d').
    Lemma thin_refl : forall d, thin d d.
    Proof. intros d. split; apply thinned_refl. Qed.
    Lemma thin_trans : forall a b c, thin a b -> thin b c -> thin a c.
    Proof. intros a b c [A1 A2] [B1 B2]. split; eapply thinned_trans; eauto. Qed.
    Definition end_of {A} (r : res (p_inner * X) A) : p_inner :=
      match r with Ret (d, _) _ => d | Panic (d, _) => d end.
    Lemma right_thins : forall fuel d x r, p_next_right fuel d x = Some r -> thin d (end_of r).
    Proof.
      induction fuel as [|fuel IH]; intros d x r; cbn [p_next_right];
        (destruct (ri_next W (pd_right d) (pd_riter d)) as [[[rb|] it]|]; [| |discriminate];
         [|intros H; inversion H; subst; split; apply thinned_refl]);
        (destruct (p_entry (pd_right d) rb) as [rp|]; [|discriminate]);
        (destruct (f x (SomeRight (value rp))) as [x' [[|]|]];
         [| |intros H; inversion H; subst; split; apply thinned_refl]).
      1, 3: destruct (p_remove (lo E) (pd_right d) rb) as [[r0 pr]|] eqn:R2; [|discriminate];
        intros H; inversion H; subst; split; cbn; [apply thinned_refl|eapply remove_thins; eauto].
      - intros H; inversion H; subst; split; apply thinned_refl.
      - intros H. apply IH in H. exact H.
    Qed.
    Lemma left_thins : forall fuel d x r, p_next_left fuel d x = Some r -> thin d (end_of r).
    Proof.
      induction fuel as [|fuel IH]; intros d x r; cbn [p_next_left];
        (destruct (ri_next W (pd_left d) (pd_liter d)) as [[[lb|] it]|]; [| |discriminate];
         [|intros H; apply right_thins in H; unfold p_enter_right in H; cbn [pd_reset] in H;
           destruct (pd_reset d); exact H]);
        (destruct (p_entry (pd_left d) lb) as [lp|]; [|discriminate]);
        destruct (phash lp) as [h|].
      1, 3: (destruct (p_find (lo E) (pd_right d) h (just_id (pid lp))) as [rb|];
         [|intros H; inversion H; subst; split; apply thinned_refl]);
        (destruct (p_entry (pd_right d) rb) as [rp|]; [|discriminate]);
        (destruct (f x (SomeBoth (value lp) (value rp))) as [x' [[|]|]];
         [| |intros H; inversion H; subst; split; apply thinned_refl]).
      1, 3: destruct (p_remove (lo E) (pd_left d) lb) as [[l pl]|] eqn:R1; [|discriminate];
        destruct (p_remove (lo E) (pd_right d) rb) as [[r0 pr]|] eqn:R2; [|discriminate];
        intros H; inversion H; subst; split; cbn; eapply remove_thins; eauto.
      1: intros H; inversion H; subst; split; apply thinned_refl.
      1: intros H; apply IH in H; exact H.
      all: destruct (f x (SomeLeft (value lp))) as [x' [[|]|]];
         [| |intros H; inversion H; subst; split; apply thinned_refl].
      1, 3: destruct (p_remove (lo E) (pd_left d) lb) as [[l pl]|] eqn:R1; [|discriminate];
        intros H; inversion H; subst; split; cbn; [eapply remove_thins; eauto|apply thinned_refl].
      - intros H; inversion H; subst; split; apply thinned_refl.
      - intros H. apply IH in H. exact H.
    Qed.
    Lemma calls_thin : forall n d x d' y l, p_calls n (d, x) = Some (d', y, l) -> thin d d'.
    Proof.
      induction n as [|n IH]; intros d x d' y l; cbn [p_calls].
      - intros H; inversion H; subst. apply thin_refl.
      - destruct (p_next (d, x)) as [[[d1 x1] o|[d1 x1]]|] eqn:Q; [| |discriminate];
          apply left_thins in Q; cbn in Q;
          destruct (p_calls n (d1, x1)) as [[[d2 x2] l2]|] eqn:C; try discriminate;
          intros H; inversion H; subst; apply IH in C; eapply thin_trans; eauto.
    Qed.
    Lemma drop_thins : forall fuel d x r, p_drop_fuel fuel (d, x) = Some r -> thin d (end_of r).
    Proof.
      induction fuel as [|fuel IH]; intros d x r; cbn [p_drop_fuel];
        destruct (p_next (d, x)) as [[[d1 x1] [o|]|[d1 x1]]|] eqn:Q; try discriminate;
        apply left_thins in Q; cbn in Q; intros H; try (inversion H; subst; exact Q).
      apply IH in H. eapply thin_trans; eauto.
    Qed.
  End Filter.
End PartialBuckets.

(* As C115, for the two passes of PartialCycleMap's iterator. *)
Theorem C116_drain_filter : forall L R S X (E : env L R S) (W : nat) (m : pmap L R S) pl pr,
  0 < W -> abs pl = left_set m -> abs pr = right_set m ->
  forall (f : X -> optional_pair L R -> X * verdict) n x,
  let st := fst (calls E f n (drain_filter m, x)) in
  exists d, p_calls E W f n (p_drain_filter W pl pr, x) = Some (d, snd st, snd (calls E f n (drain_filter m, x))) /\
    abs (pd_left d) = df_left (fst st) /\ abs (pd_right d) = df_right (fst st) /\
    Some (left_over (pd_liter d)) = snd (df_size_hint (fst st)) /\
    thinned pl (pd_left d) /\ thinned pr (pd_right d) /\
    exists r, p_drop E W f (d, snd st) = Some r /\
      thinned pl (pd_left (end_of r)) /\ thinned pr (pd_right (end_of r)) /\
      match r, df_drop E f st with
      | Ret (d', y) _, Ret (d2, z) _ | Panic (d', y), Panic (d2, z) =>
          abs (pd_left d') = df_left d2 /\ abs (pd_right d') = df_right d2 /\ y = z
      | _, _ => False
      end.
Proof.
  intros L R S X E W m pl pr W0 HL HR f n x st.
  assert (H0 : same (p_drain_filter W pl pr) (drain_filter m))
    by (split; [auto|split; [auto|split; [auto|split; [apply at_start; exact W0|discriminate]]]]).
  destruct (calls_same E W f W0 n _ _ x H0) as (d & y & C1 & C2 & C3). subst y. fold st in C1, C2.
  exists d. split; [exact C1|]. assert (T := calls_thin _ _ _ _ _ _ _ _ _ C1). destruct T as [T1 T2].
  assert (C0 := C2). destruct C0 as (A1 & A2 & _ & A3 & _).
  split; [auto|]. split; [auto|].
  split; [unfold df_size_hint; cbn [snd]; f_equal; destruct A3 as (_ & -> & _);
          rewrite skipn_length, (len_abs _ _ _ A1); auto|].
  split; [auto|]. split; [auto|].
  unfold p_drop, df_drop. cbn [fst].
  rewrite (len_abs _ _ _ A1), (len_abs _ _ _ A2).
  destruct (drop_same E W f W0 (t_len (df_left (fst st)) + t_len (df_right (fst st))) d (fst st) (snd st) C2) as (r & D1 & D2).
  rewrite D1. exists r. split; auto. apply drop_thins in D1 as [U1 U2].
  split; [eapply thinned_trans; eauto|]. split; [eapply thinned_trans; eauto|].
  unfold same_res in D2. destruct st as [d0 z0]. cbn [fst snd] in *.
  destruct r as [[d' y] o|[d' y]], (df_drop_fuel E f (t_len (df_left d0) + t_len (df_right d0)) (d0, z0)) as [[d2 z] o'|[d2 z]];
    try contradiction; destruct D2 as (Q1 & Q2); destruct Q1 as (? & ? & _).
  - destruct Q2. auto.
  - auto.
Qed.

(* everything is taken, but the second call panics *)
Definition picky (x : nat) (o : optional_pair item item) : nat * verdict :=
  (Datatypes.S x, if x =? 1 then None else Some true).
Example C116_case :
  let pl := holes (left_set pm1) in let pr := holes (right_set pm1) in
  fulls pl = [1; 3; 5; 7; 9] /\ fulls pr = [1; 3; 5; 7; 9; 11] /\
  (exists d, p_calls env_collide 3 picky 7 (p_drain_filter 3 pl pr, 0)
    = Some (d, 7, [Done (Some (SomeBoth (it 5) (it 50))); Panicked; Done (Some (SomeBoth (it 1) (it 20)));
                   Done (Some (SomeLeft (it 2))); Done (Some (SomeLeft (it 4)));
                   Done (Some (SomeRight (it 30))); Done (Some (SomeRight (it 10)))]) /\
    fulls (pd_left d) = [3] /\
    exists d', p_drop env_collide 3 picky (d, 7) = Some (Ret (d', 9) tt) /\
      fulls (pd_left d') = [3] /\ fulls (pd_right d') = []) /\
  (* with the right iterator made at the start, buckets that are gone would be read *)
  p_calls env_collide 3 picky 7 (PDF pl (p_iter 3 pl) pr (p_iter 3 pr) false, 0) = None.
Proof.
  vm_compute. split; [reflexivity|]. split; [reflexivity|]. split; [|reflexivity].
  eexists. split; [reflexivity|]. split; [reflexivity|]. eexists. repeat split.
Qed.

Print Assumptions C116_drain_filter.
