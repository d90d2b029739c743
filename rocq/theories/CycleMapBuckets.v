(* drain_filter of CycleMap at the level of Buckets.v: the RawIter runs ahead of the removals,
   and every bucket that is read or removed must be full.  Eq, Hash and the closure may be
   anything here, and so may the map. *)
From Coq Require Import List NArith Lia Bool PeanoNat.
From Verif Require Import Prelude RawTable Buckets CycleMap Concrete CycleMapProps.
Import ListNotations.
Local Open Scope nat_scope.

Section CycleBuckets.
  Context {L R S : Type}.
  Variable E : env L R S.
  Variable W : nat.

  (* src/cycle_map.rs:1404-1408 *)
  Record p_inner := PDF {
    pd_left : ptable (mapping_pair L);
    pd_iter : raw_iter;
    pd_right : ptable (mapping_pair R)
  }.
  Section Filter.
    Context {X : Type}.
    Variable f : X -> L -> R -> X * verdict.

    (* src/cycle_map.rs:830-842 *)
    Definition p_drain_filter (pl : ptable (mapping_pair L)) (pr : ptable (mapping_pair R)) : p_inner :=
      PDF pl (p_iter W pl) pr.

    (* src/cycle_map.rs:1411-1430; None: undefined behaviour *)
    Fixpoint p_next_fuel (fuel : nat) (st : p_inner * X) : option (res (p_inner * X) (option (L * R))) :=
      let (d, x) := st in
      match ri_next W (pd_left d) (pd_iter d) with
      | None => None
      | Some (None, it) => Some (Ret (PDF (pd_left d) it (pd_right d), x) None)
      | Some (Some lb, it) =>
          let adv := PDF (pd_left d) it (pd_right d) in
          match p_entry (pd_left d) lb with
          | None => None
          | Some l_pairing =>
              match p_find (lo E) (pd_right d) (phash l_pairing) (just_id (pid l_pairing)) with
              | None => Some (Panic (adv, x))
              | Some rb =>
                  match p_entry (pd_right d) rb with
                  | None => None
                  | Some r_pairing =>
                      match f x (value l_pairing) (value r_pairing) with
                      | (x', None) => Some (Panic (adv, x'))
                      | (x', Some true) =>
                          match p_remove (lo E) (pd_left d) lb with
                          | None => None
                          | Some (l, pl) =>
                              match p_remove (lo E) (pd_right d) rb with
                              | None => None
                              | Some (r, pr) => Some (Ret (PDF pl it pr, x') (Some (value l, value r)))
                              end
                          end
                      | (x', Some false) =>
                          match fuel with
                          | O => Some (Panic (adv, x'))      (* out of fuel *)
                          | Datatypes.S fuel' => p_next_fuel fuel' (adv, x')
                          end
                      end
                  end
              end
          end
      end.
    Definition p_next (st : p_inner * X) : option (res (p_inner * X) (option (L * R))) :=
      p_next_fuel (left_over (pd_iter (fst st))) st.
    (* src/cycle_map.rs:1368-1374 *)
    Fixpoint p_drop_fuel (fuel : nat) (st : p_inner * X) : option (res (p_inner * X) unit) :=
      match p_next st with
      | None => None
      | Some (Panic st') => Some (Panic st')
      | Some (Ret st' None) => Some (Ret st' tt)
      | Some (Ret st' (Some _)) =>
          match fuel with
          | O => Some (Panic st')                            (* out of fuel *)
          | Datatypes.S fuel' => p_drop_fuel fuel' st'
          end
      end.
    Definition p_drop (st : p_inner * X) : option (res (p_inner * X) unit) :=
      p_drop_fuel (left_over (pd_iter (fst st))) st.

    (* the cells seen as the tables of CycleMap.v *)
    Definition same (pd : p_inner) (d : df_inner (L := L) (R := R)) : Prop :=
      abs (pd_left pd) = df_left d /\ abs (pd_right pd) = df_right d /\
      at_pos (pd_left pd) (pd_iter pd) (df_pos d).
    Definition same_res {A} (p : res (p_inner * X) A) (q : res (df_inner (L := L) (R := R) * X) A) : Prop :=
      match p, q with
      | Ret (pd, x) a, Ret (d, y) b => same pd d /\ x = y /\ a = b
      | Panic (pd, x), Panic (d, y) => same pd d /\ x = y
      | _, _ => False
      end.

    Hypothesis W0 : 0 < W.
    Lemma next_same : forall fuel pd d x, same pd d ->
      exists r, p_next_fuel fuel (pd, x) = Some r /\ same_res r (df_next_fuel E f fuel (d, x)).
    Proof.
      induction fuel as [|fuel IH]; intros pd d x (H1 & H2 & H3).
      all: assert (Q := next_at W W0 _ _ _ H3); assert (G := entry_abs (pd_left pd) (df_pos d)).
      all: cbn [p_next_fuel df_next_fuel].
      all: destruct (nth_error (fulls (pd_left pd)) (df_pos d)) as [b|] eqn:NE;
        [|destruct Q as (it & -> & Q); rewrite H1 in G; rewrite G; eexists; split; [reflexivity|];
          split; [split; auto|auto]].
      all: destruct Q as (it & -> & Q & QB); destruct G as (lp & PL & G); rewrite PL; rewrite H1 in G; rewrite G.
      all: assert (F := find_abs (lo E) (pd_right pd) (phash lp) (just_id (pid lp))); rewrite H2 in F.
      all: assert (A : same (PDF (pd_left pd) it (pd_right pd)) (DF (df_left d) (Datatypes.S (df_pos d)) (df_right d)))
        by (split; auto).
      all: destruct (t_find (lo E) (df_right d) (phash lp) (just_id (pid lp))) as [i|];
        [|rewrite F; eexists; split; [reflexivity|]; split; auto].
      all: assert (G2 := entry_abs (pd_right pd) i); rewrite H2 in G2.
      all: destruct (nth_error (fulls (pd_right pd)) i) as [rb|] eqn:NR;
        [|destruct F as [-> F]; rewrite F; eexists; split; [reflexivity|]; split; auto].
      all: rewrite F; destruct G2 as (rp & PR & ->); rewrite PR.
      all: destruct (f x (value lp) (value rp)) as [x' [[|]|]];
        [| |eexists; split; [reflexivity|]; split; auto].
      1, 3: destruct (remove_read (lo E) _ _ _ _ NE PL) as (pl & R1 & R2);
        destruct (remove_read (lo E) _ _ _ _ NR PR) as (pr & S1 & S2);
        rewrite R1, S1; eexists; split; [reflexivity|];
        split; [split; [|split]; cbn [pd_left pd_right pd_iter df_left df_right df_pos];
                [rewrite R2, H1; auto|rewrite S2, H2; auto|eapply removed_at; eauto]|split; auto].
      - eexists. split; [reflexivity|]. split; auto.
      - apply IH. exact A.
    Qed.
    Lemma remaining_same : forall pd d, same pd d -> left_over (pd_iter pd) = df_remaining d.
    Proof.
      intros pd d (H1 & _ & _ & H3 & _). rewrite H3. unfold df_remaining. rewrite <- H1.
      unfold t_len, abs, fulls. cbn [slots]. rewrite skipn_length, fulls_length. auto.
    Qed.
    Lemma p_next_same : forall pd d x, same pd d ->
      exists r, p_next (pd, x) = Some r /\ same_res r (df_next E f (d, x)).
    Proof.
      intros pd d x H. unfold p_next, df_next. cbn [fst]. rewrite (remaining_same _ _ H). apply next_same. auto.
    Qed.
    Lemma drop_same : forall fuel pd d x, same pd d ->
      exists r, p_drop_fuel fuel (pd, x) = Some r /\ same_res r (df_drop_fuel E f fuel (d, x)).
    Proof.
      induction fuel as [|fuel IH]; intros pd d x H; cbn [p_drop_fuel df_drop_fuel];
        destruct (p_next_same pd d x H) as (r & -> & Q); unfold same_res in Q;
        destruct r as [[pd' x'] o|[pd' x']], (df_next E f (d, x)) as [[d' y] o'|[d' y]]; try contradiction.
      1, 3: destruct Q as (Q1 & -> & ->); destruct o' as [o'|].
      all: try (eexists; split; [reflexivity|]; cbn; tauto).
      - apply IH. auto.
    Qed.

    (* any calls of next, one after the other, also after a panic that was caught *)
    Fixpoint calls (n : nat) (st : df_inner (L := L) (R := R) * X)
        : (df_inner (L := L) (R := R) * X) * list (outcome (option (L * R))) :=
      match n with
      | O => (st, [])
      | Datatypes.S n' =>
          match df_next E f st with
          | Ret st' o => let (st'', l) := calls n' st' in (st'', Done o :: l)
          | Panic st' => let (st'', l) := calls n' st' in (st'', Panicked :: l)
          end
      end.
    Fixpoint p_calls (n : nat) (st : p_inner * X) : option ((p_inner * X) * list (outcome (option (L * R)))) :=
      match n with
      | O => Some (st, [])
      | Datatypes.S n' =>
          match p_next st with
          | None => None
          | Some (Ret st' o) =>
              match p_calls n' st' with Some (st'', l) => Some (st'', Done o :: l) | None => None end
          | Some (Panic st') =>
              match p_calls n' st' with Some (st'', l) => Some (st'', Panicked :: l) | None => None end
          end
      end.
    Lemma calls_same : forall n pd d x, same pd d ->
      exists pd' y, p_calls n (pd, x) = Some (pd', y, snd (calls n (d, x))) /\
        same pd' (fst (fst (calls n (d, x)))) /\ y = snd (fst (calls n (d, x))).
    Proof.
      induction n as [|n IH]; intros pd d x H; cbn [p_calls calls]; [eauto|].
      destruct (p_next_same pd d x H) as (r & -> & Q). unfold same_res in Q.
      destruct r as [[pd' x'] o|[pd' x']], (df_next E f (d, x)) as [[d' y] o'|[d' y]]; try contradiction.
      - destruct Q as (Q1 & -> & ->). destruct (IH pd' d' y Q1) as (pd2 & y2 & -> & K2 & K3).
        destruct (calls n (d', y)) as [[d2 z] l]. cbn [fst snd] in *. subst. eauto.
      - destruct Q as (Q1 & ->). destruct (IH pd' d' y Q1) as (pd2 & y2 & -> & K2 & K3).
        destruct (calls n (d', y)) as [[d2 z] l]. cbn [fst snd] in *. subst. eauto.
    Qed.

    (* no cell is filled, moved or added: every cell is as before or has been freed *)
    Lemma remove_thins : forall A (pt : ptable A) b e pt', p_remove (lo E) pt b = Some (e, pt') -> thinned pt pt'.
    Proof.
      intros A pt b e pt' H. unfold p_remove in H. destruct (p_entry pt b); inversion H; subst. clear.
      unfold thinned. cbn [cells]. generalize (cells pt). intros l. revert b.
      induction l as [|c l IH]; intros [|b]; simpl; split; auto.
      - intros [|i]; simpl; auto.
      - rewrite (proj1 (IH b)). auto.
      - intros [|i]; simpl; auto. apply (IH b).
    Qed.
    Definition thin (d d' : p_inner) : Prop := thinned (pd_left d) (pd_left d') /\ thinned (pd_right d) (pd_right d').
    Lemma thin_refl : forall d, thin d d.
    Proof. intros d. split; apply thinned_refl. Qed.
    Lemma thin_trans : forall a b c, thin a b -> thin b c -> thin a c.
    Proof. intros a b c [A1 A2] [B1 B2]. split; eapply thinned_trans; eauto. Qed.
    Definition end_of {A} (r : res (p_inner * X) A) : p_inner :=
      match r with Ret (d, _) _ => d | Panic (d, _) => d end.
    Lemma next_thins : forall fuel d x r, p_next_fuel fuel (d, x) = Some r -> thin d (end_of r).
    Proof.
      induction fuel as [|fuel IH]; intros d x r; cbn [p_next_fuel];
        (destruct (ri_next W (pd_left d) (pd_iter d)) as [[[lb|] it]|]; [| |discriminate];
         [|intros H; inversion H; subst; split; apply thinned_refl]);
        (destruct (p_entry (pd_left d) lb) as [lp|]; [|discriminate]);
        (destruct (p_find (lo E) (pd_right d) (phash lp) (just_id (pid lp))) as [rb|];
         [|intros H; inversion H; subst; split; apply thinned_refl]);
        (destruct (p_entry (pd_right d) rb) as [rp|]; [|discriminate]);
        (destruct (f x (value lp) (value rp)) as [x' [[|]|]];
         [| |intros H; inversion H; subst; split; apply thinned_refl]).
      1, 3: destruct (p_remove (lo E) (pd_left d) lb) as [[l pl]|] eqn:R1; [|discriminate];
        destruct (p_remove (lo E) (pd_right d) rb) as [[r0 pr]|] eqn:R2; [|discriminate];
        intros H; inversion H; subst; split; cbn; eapply remove_thins; eauto.
      - intros H; inversion H; subst; split; apply thinned_refl.
      - intros H. apply IH in H. exact H.
    Qed.
    Lemma calls_thin : forall n d x d' y l, p_calls n (d, x) = Some (d', y, l) -> thin d d'.
    Proof.
      induction n as [|n IH]; intros d x d' y l; cbn [p_calls].
      - intros H; inversion H; subst. apply thin_refl.
      - destruct (p_next (d, x)) as [[[d1 x1] o|[d1 x1]]|] eqn:Q; [| |discriminate];
          apply next_thins in Q; cbn in Q;
          destruct (p_calls n (d1, x1)) as [[[d2 x2] l2]|] eqn:C; try discriminate;
          intros H; inversion H; subst; apply IH in C; eapply thin_trans; eauto.
    Qed.
    Lemma drop_thins : forall fuel d x r, p_drop_fuel fuel (d, x) = Some r -> thin d (end_of r).
    Proof.
      induction fuel as [|fuel IH]; intros d x r; cbn [p_drop_fuel];
        destruct (p_next (d, x)) as [[[d1 x1] [o|]|[d1 x1]]|] eqn:Q; try discriminate;
        apply next_thins in Q; cbn in Q; intros H; try (inversion H; subst; exact Q).
      apply IH in H. eapply thin_trans; eauto.
    Qed.
  End Filter.
End CycleBuckets.

(* Whatever the cells of the two tables look like, whatever Eq, Hash and the closure do, however
   often next is called (also after a caught panic) before the iterator is dropped: no bucket is
   read or removed that is not full.  Every call gives what CycleMap.v says, the tables are then
   those of CycleMap.v, and no cell has been filled or moved. *)
Theorem C115_drain_filter : forall L R S X (E : env L R S) (W : nat) (m : cmap L R S) pl pr,
  0 < W -> abs pl = left_set m -> abs pr = right_set m ->
  forall (f : X -> L -> R -> X * verdict) n x,
  let st := fst (calls E f n (drain_filter m, x)) in
  exists d, p_calls E W f n (p_drain_filter W pl pr, x) = Some (d, snd st, snd (calls E f n (drain_filter m, x))) /\
    abs (pd_left d) = df_left (fst st) /\ abs (pd_right d) = df_right (fst st) /\
    left_over (pd_iter d) = df_remaining (fst st) /\
    thinned pl (pd_left d) /\ thinned pr (pd_right d) /\
    exists r, p_drop E W f (d, snd st) = Some r /\
      thinned pl (pd_left (end_of r)) /\ thinned pr (pd_right (end_of r)) /\
      match r, df_drop E f st with
      | Ret (d', y) _, Ret (d2, z) _ | Panic (d', y), Panic (d2, z) =>
          abs (pd_left d') = df_left d2 /\ abs (pd_right d') = df_right d2 /\ y = z
      | _, _ => False
      end.
Proof.
  intros L R S X E W m pl pr W0 HL HR f n x st.
  assert (H0 : same (p_drain_filter W pl pr) (drain_filter m)) by (split; [auto|split; [auto|apply at_start; exact W0]]).
  destruct (calls_same E W f W0 n _ _ x H0) as (d & y & C1 & C2 & C3). subst y. fold st in C1, C2.
  exists d. split; auto. assert (T := calls_thin _ _ _ _ _ _ _ _ _ C1). destruct T as [T1 T2].
  split; [apply C2|]. split; [apply C2|]. split; [apply remaining_same; auto|]. split; [auto|]. split; [auto|].
  unfold p_drop, df_drop. cbn [fst].
  rewrite (remaining_same _ _ C2). destruct (drop_same E W f W0 (df_remaining (fst st)) d (fst st) (snd st) C2) as (r & D1 & D2).
  rewrite D1. exists r. split; auto. apply drop_thins in D1 as [U1 U2].
  split; [eapply thinned_trans; eauto|]. split; [eapply thinned_trans; eauto|].
  unfold same_res in D2. destruct st as [d0 z0]. cbn [fst snd] in *.
  destruct r as [[d' y] o|[d' y]], (df_drop_fuel E f (df_remaining d0) (d0, z0)) as [[d2 z] o'|[d2 z]]; try contradiction;
    destruct D2 as (Q1 & Q2); destruct Q1 as (? & ? & _).
  - destruct Q2. auto.
  - auto.
Qed.

(* every pair is taken, but the second call panics *)
Definition picky (x : nat) (l r : item) : nat * verdict :=
  (Datatypes.S x, if x =? 1 then None else Some true).
Example C115_case :
  let pl := holes (left_set m1) in let pr := holes (right_set m1) in
  fulls pl = [1; 3; 5] /\ fulls pr = [1; 3; 5] /\
  exists d, p_calls env_collide 3 picky 4 (p_drain_filter 3 pl pr, 0)
    = Some (d, 3, [Done (Some (it 4, it 30)); Panicked; Done (Some (it 5, it 50)); Done None]) /\
    fulls (pd_left d) = [3] /\ fulls (pd_right d) = [1] /\
    (* dropped instead after the panic *)
    exists d1 d2, p_calls env_collide 3 picky 2 (p_drain_filter 3 pl pr, 0)
      = Some (d1, 2, [Done (Some (it 4, it 30)); Panicked]) /\
      fulls (pd_left d1) = [3; 5] /\
      p_drop env_collide 3 picky (d1, 2) = Some (Ret (d2, 3) tt) /\ fulls (pd_left d2) = [3].
Proof.
  vm_compute. split; [reflexivity|]. split; [reflexivity|]. eexists. split; [reflexivity|].
  split; [reflexivity|]. split; [reflexivity|]. do 2 eexists. repeat split.
Qed.

Print Assumptions C115_drain_filter.
