(* Below RawTable.v: the memory of a table, and hashbrown's RawIter with its raw pointers
   (hashbrown 0.12, src/raw/mod.rs: RawIter, RawIterRange, Bucket, RawTable::remove; external).

   A table is an array of cells, some of them full.  A bucket is the index of a cell.  Reading
   or removing a bucket whose cell is not full is undefined behaviour (result None).  A RawIter
   looks at the control bytes of one group of [W] cells at a time: the cells that were full when
   the group was loaded are yielded without looking again. *)
From Coq Require Import List NArith Lia Bool PeanoNat.
From Verif Require Import Prelude RawTable ListFacts.
Import ListNotations.
Local Open Scope nat_scope.

Record ptable (A : Type) := PT { cells : list (option (N * A)); play : N }.
Arguments PT {A} _ _.
Arguments cells {A} _.
Arguments play {A} _.

(* pend: rest of the current group; nxt: start of the next one; left_over: RawIter::items *)
Record raw_iter := RI { pend : list nat; nxt : nat; left_over : nat }.

Section Memory.
  Variable lo : layout.
  Variable W : nat.                      (* Group::WIDTH *)
  Context {A : Type}.
  Implicit Types (pt : ptable A) (it : raw_iter).

  Fixpoint somes (l : list (option (N * A))) : list (N * A) :=
    match l with
    | [] => []
    | Some x :: t => x :: somes t
    | None :: t => somes t
    end.
  (* the table of RawTable.v *)
  Definition abs pt : table A := Tbl (somes (cells pt)) (play pt).
  (* the full cells, from index k on *)
  Fixpoint fulls_at (k : nat) (l : list (option (N * A))) : list nat :=
    match l with
    | [] => []
    | Some _ :: t => k :: fulls_at (S k) t
    | None :: t => fulls_at (S k) t
    end.
  Definition fulls pt : list nat := fulls_at 0 (cells pt).

  (* Bucket::as_ref *)
  Definition p_entry pt (b : nat) : option A :=
    match nth_error (cells pt) b with Some (Some (_, e)) => Some e | _ => None end.
  (* RawTable::remove: the entry is read, the cell marked as free *)
  Definition p_remove pt (b : nat) : option (A * ptable A) :=
    match p_entry pt b with
    | None => None
    | Some e => Some (e, PT (update_nth b (fun _ => None) (cells pt))
                            (hb_next lo (play pt) (CErase (N.of_nat (length (fulls_at 0 (firstn b (cells pt))))))))
    end.
  (* RawTable::find, by its contract: some full bucket with a matching entry, or none *)
  Definition p_find pt (h : N) (p : A -> bool) : option nat :=
    match t_find lo (abs pt) h p with
    | Some i => nth_error (fulls pt) i
    | None => None
    end.

  (* the full cells of the group at k, now *)
  Definition group pt (k : nat) : list nat := filter (fun b => (k <=? b) && (b <? k + W)) (fulls pt).
  (* RawTable::iter loads the first group *)
  Definition p_iter pt : raw_iter := RI (group pt 0) W (length (fulls pt)).
  (* RawIterRange::next; None: no more *)
  Fixpoint ri_step (fuel : nat) pt it : option nat * raw_iter :=
    match pend it with
    | b :: t => (Some b, RI t (nxt it) (left_over it))
    | [] =>
        match fuel with
        | O => (None, it)
        | S fuel' =>
            if length (cells pt) <=? nxt it then (None, it)
            else ri_step fuel' pt (RI (group pt (nxt it)) (nxt it + W) (left_over it))
        end
    end.
  (* RawIter::next; outer None: items would fall below zero, or is not zero at the end *)
  Definition ri_next pt it : option (option nat * raw_iter) :=
    match ri_step (S (length (cells pt))) pt it with
    | (Some b, it') => match left_over it' with
                       | O => None
                       | S n => Some (Some b, RI (pend it') (nxt it') n)
                       end
    | (None, it') => match left_over it' with O => Some (None, it') | S _ => None end
    end.

  (* ---- facts ---- *)
  Lemma fulls_at_ge : forall l k b, In b (fulls_at k l) -> k <= b.
  Proof.
    induction l as [|[x|] l IH]; simpl; intros k b H; [destruct H| |].
    - destruct H as [<-|H]; auto. apply IH in H. lia.
    - apply IH in H. lia.
  Qed.
  Lemma fulls_at_lt : forall l k b, In b (fulls_at k l) -> b < k + length l.
  Proof.
    induction l as [|[x|] l IH]; simpl; intros k b H; [destruct H| |].
    - destruct H as [<-|H]; [lia|]. apply IH in H. lia.
    - apply IH in H. lia.
  Qed.
  Lemma fulls_length : forall l k, length (fulls_at k l) = length (somes l).
  Proof. induction l as [|[x|] l IH]; simpl; intros k; auto. Qed.
  Lemma fulls_nth : forall l k i, match nth_error (fulls_at k l) i with
    | Some b => k <= b /\ exists x, nth_error l (b - k) = Some (Some x) /\ nth_error (somes l) i = Some x
    | None => nth_error (somes l) i = None
    end.
  Proof.
    induction l as [|[x|] l IH]; simpl; intros k i.
    - destruct i; simpl; auto.
    - destruct i as [|i]; simpl.
      + split; auto. rewrite Nat.sub_diag. exists x. auto.
      + specialize (IH (S k) i). destruct (nth_error (fulls_at (S k) l) i) as [b|]; auto.
        destruct IH as (G & y & Y1 & Y2). split; [lia|]. exists y. split; auto.
        replace (b - k) with (S (b - S k)) by lia. auto.
    - specialize (IH (S k) i). destruct (nth_error (fulls_at (S k) l) i) as [b|]; auto.
      destruct IH as (G & y & Y1 & Y2). split; [lia|]. exists y. split; auto.
      replace (b - k) with (S (b - S k)) by lia. auto.
  Qed.
  Lemma fulls_remove : forall l k i b, nth_error (fulls_at k l) i = Some b ->
    fulls_at k (update_nth (b - k) (fun _ => None) l) = remove_nth i (fulls_at k l) /\
    somes (update_nth (b - k) (fun _ => None) l) = remove_nth i (somes l) /\
    length (fulls_at k (firstn (b - k) l)) = i.
  Proof.
    induction l as [|[x|] l IH]; simpl; intros k i b H.
    - destruct i; discriminate.
    - destruct i as [|i]; simpl in H.
      + inversion H; subst. rewrite Nat.sub_diag. simpl. auto.
      + assert (G := fulls_nth l (S k) i). rewrite H in G. destruct G as (G & _).
        apply IH in H as (H1 & H2 & H3). replace (b - k) with (S (b - S k)) by lia. simpl.
        rewrite H1, H2, H3. auto.
    - assert (G := fulls_nth l (S k) i). rewrite H in G. destruct G as (G & _).
      apply IH in H as (H1 & H2 & H3). replace (b - k) with (S (b - S k)) by lia. simpl.
      rewrite H1, H2, H3. auto.
  Qed.

  Lemma entry_abs : forall pt i,
    match nth_error (fulls pt) i with
    | Some b => exists e, p_entry pt b = Some e /\ t_entry (abs pt) i = Some e
    | None => t_entry (abs pt) i = None
    end.
  Proof.
    intros pt i. assert (G := fulls_nth (cells pt) 0 i). unfold fulls, p_entry, t_entry, abs. cbn [slots].
    destruct (nth_error (fulls_at 0 (cells pt)) i) as [b|].
    - destruct G as (_ & [h e] & G1 & G2). rewrite Nat.sub_0_r in G1. rewrite G1, G2. eauto.
    - rewrite G. auto.
  Qed.
  Lemma remove_abs : forall pt i b, nth_error (fulls pt) i = Some b ->
    exists e pt', p_remove pt b = Some (e, pt') /\ t_entry (abs pt) i = Some e /\
      abs pt' = t_remove_at lo (abs pt) i /\ fulls pt' = remove_nth i (fulls pt) /\
      length (cells pt') = length (cells pt).
  Proof.
    intros pt i b H. assert (G := entry_abs pt i). rewrite H in G. destruct G as (e & G1 & G2).
    unfold p_remove. rewrite G1. assert (F := fulls_remove (cells pt) 0 i b H).
    rewrite Nat.sub_0_r in F. destruct F as (F1 & F2 & F3).
    exists e. eexists. split; [reflexivity|]. split; [auto|]. unfold abs, t_remove_at, fulls. cbn [cells slots lay play].
    rewrite F1, F2, F3. split; [auto|]. split; [auto|].
    clear. generalize (cells pt). intros l. revert b. induction l; intros [|b]; simpl; auto.
  Qed.
  Lemma remove_read : forall pt i b e, nth_error (fulls pt) i = Some b -> p_entry pt b = Some e ->
    exists pt', p_remove pt b = Some (e, pt') /\ abs pt' = t_remove_at lo (abs pt) i.
  Proof.
    intros pt i b e H G. destruct (remove_abs pt i b H) as (e' & pt' & R1 & _ & R3 & _).
    unfold p_remove in *. rewrite G in *. inversion R1; subst e'. eauto.
  Qed.
  Lemma find_abs : forall pt h p,
    match t_find lo (abs pt) h p with
    | None => p_find pt h p = None
    | Some i => match nth_error (fulls pt) i with
                | Some b => p_find pt h p = Some b
                | None => p_find pt h p = None /\ t_entry (abs pt) i = None
                end
    end.
  Proof.
    intros pt h p. unfold p_find. destruct (t_find lo (abs pt) h p) as [i|]; auto.
    assert (G := entry_abs pt i). destruct (nth_error (fulls pt) i) as [b|]; auto.
  Qed.

  (* every cell is as before or has been freed *)
  Definition thinned pt pt' : Prop :=
    length (cells pt') = length (cells pt) /\
    forall i, nth_error (cells pt') i = nth_error (cells pt) i \/ nth_error (cells pt') i = Some None.
  Lemma thinned_refl : forall pt, thinned pt pt.
  Proof. intros pt. split; auto. Qed.
  Lemma thinned_trans : forall a b c, thinned a b -> thinned b c -> thinned a c.
  Proof.
    intros a b c [A1 A2] [B1 B2]. split; [congruence|]. intros i.
    destruct (B2 i) as [->|]; auto.
  Qed.

  (* ---- the iterator ---- *)
  Hypothesis W0 : 0 < W.
  Definition from (k : nat) (l : list nat) : list nat := filter (fun b => k <=? b) l.
  Fixpoint rising (k : nat) (l : list nat) : Prop :=
    match l with [] => True | b :: t => k <= b /\ rising (S b) t end.
  Lemma fulls_rising : forall l k, rising k (fulls_at k l).
  Proof.
    assert (M : forall l a b, a <= b -> rising b l -> rising a l).
    { intros [|c l] a b H; simpl; auto. intros [G1 G2]. split; [lia|auto]. }
    induction l as [|[x|] l IH]; simpl; intros k; auto. apply (M _ k (S k)); auto.
  Qed.
  Lemma from_none : forall l k b, rising k l -> (forall x, In x l -> x < b) -> from b l = [].
  Proof.
    induction l as [|x l IH]; simpl; intros k b H G; auto. destruct H as [H1 H2].
    assert (x < b) by auto. destruct (b <=? x) eqn:Q; [apply Nat.leb_le in Q; lia|]. eapply IH; eauto.
  Qed.
  Lemma from_group : forall l k j, rising k l ->
    from j l = filter (fun b => (j <=? b) && (b <? j + W)) l ++ from (j + W) l.
  Proof.
    assert (ALL : forall l k j, rising k l -> j <= k -> from j l = l).
    { induction l as [|x l IH]; simpl; intros k j H J; auto. destruct H as [H1 H2].
      destruct (j <=? x) eqn:Q; [|apply Nat.leb_gt in Q; lia]. rewrite (IH (S x)); auto. lia. }
    induction l as [|x l IH]; simpl; intros k j H; auto. destruct H as [H1 H2].
    destruct (j <=? x) eqn:Q; simpl.
    - destruct (x <? j + W) eqn:Q2.
      + assert (j + W <=? x = false) as -> by (apply Nat.leb_gt; apply Nat.ltb_lt in Q2; lia).
        simpl. f_equal. eapply IH; eauto.
      + apply Nat.ltb_ge in Q2. assert (j + W <=? x = true) as -> by (apply Nat.leb_le; auto).
        assert (E1 : filter (fun b => (j <=? b) && (b <? j + W)) l = []).
        { clear - H2 Q2. revert x Q2 H2. induction l as [|y l IH]; simpl; intros x Q2 H2; auto. destruct H2 as [A B].
          assert (y <? j + W = false) as -> by (apply Nat.ltb_ge; lia). rewrite andb_false_r. eapply IH; [|eauto]. lia. }
        rewrite E1. simpl. f_equal. rewrite (ALL l (S x) j), (ALL l (S x) (j + W)); auto; apply Nat.leb_le in Q; lia.
    - apply Nat.leb_gt in Q. assert (j + W <=? x = false) as -> by (apply Nat.leb_gt; lia). eapply IH; eauto.
  Qed.

  (* [at_pos pt it n]: the iterator has still to yield the full cells from the n-th on *)
  Definition at_pos pt it (n : nat) : Prop :=
    pend it ++ from (nxt it) (fulls pt) = skipn n (fulls pt) /\
    left_over it = length (skipn n (fulls pt)) /\
    (forall b, In b (pend it) -> b < nxt it).
  Lemma at_start : forall pt, at_pos pt (p_iter pt) 0.
  Proof.
    intros pt. unfold at_pos, p_iter, group. cbn [pend nxt left_over skipn]. split; [|split; auto].
    - transitivity (from 0 (fulls pt)).
      + symmetry. apply (from_group (fulls pt) 0 0). apply fulls_rising.
      + generalize (fulls pt). intros l. unfold from. induction l as [|x l IH]; simpl; auto. f_equal. exact IH.
    - intros b H. apply filter_In in H as [_ H]. apply andb_true_iff in H as [_ H]. apply Nat.ltb_lt in H. auto.
  Qed.
  Lemma step_at : forall pt fuel it n, length (cells pt) < nxt it + fuel -> 0 < fuel ->
    pend it ++ from (nxt it) (fulls pt) = skipn n (fulls pt) -> (forall b, In b (pend it) -> b < nxt it) ->
    match ri_step fuel pt it with
    | (Some b, it') => nth_error (fulls pt) n = Some b /\ b < nxt it' /\
        pend it' ++ from (nxt it') (fulls pt) = skipn (S n) (fulls pt) /\
        (forall b, In b (pend it') -> b < nxt it') /\ left_over it' = left_over it
    | (None, it') => skipn n (fulls pt) = [] /\ left_over it' = left_over it /\
        pend it' ++ from (nxt it') (fulls pt) = skipn n (fulls pt) /\ (forall b, In b (pend it') -> b < nxt it')
    end.
  Proof.
    assert (NX : forall (l : list nat) n b t, b :: t = skipn n l -> nth_error l n = Some b /\ t = skipn (S n) l).
    { induction l as [|x l IH]; intros [|n] b t H; simpl in *; try discriminate.
      - inversion H; auto.
      - apply IH in H. auto. }
    intros pt. induction fuel as [|fuel IH]; intros it n HF H0 H1 H2; [lia|]. cbn [ri_step].
    destruct (pend it) as [|b t] eqn:P.
    - cbn [app] in H1. destruct (length (cells pt) <=? nxt it) eqn:Q.
      + apply Nat.leb_le in Q. assert (F : from (nxt it) (fulls pt) = []).
        { eapply from_none; [apply fulls_rising|]. intros x Hx. apply fulls_at_lt in Hx. lia. }
        rewrite P, <- H1, F. auto.
      + apply Nat.leb_gt in Q. destruct fuel as [|fuel].
        { exfalso. lia. }
        specialize (IH (RI (group pt (nxt it)) (nxt it + W) (left_over it)) n). cbn [pend nxt left_over] in IH.
        apply IH.
        * lia.
        * lia.
        * rewrite <- H1. symmetry. eapply from_group. apply fulls_rising.
        * intros b Hb. apply filter_In in Hb as [_ Hb]. apply andb_true_iff in Hb as [_ Hb]. apply Nat.ltb_lt in Hb. auto.
    - cbn [app] in H1. apply NX in H1 as [H1 H3]. cbn [pend nxt left_over]. split; auto. split; [apply H2; left; auto|].
      split; auto. split; auto. intros c Hc. apply H2. right; auto.
  Qed.

  (* next yields the n-th full cell, or says that there is none *)
  Lemma next_at : forall pt it n, at_pos pt it n ->
    match nth_error (fulls pt) n with
    | Some b => exists it', ri_next pt it = Some (Some b, it') /\ at_pos pt it' (S n) /\ b < nxt it'
    | None => exists it', ri_next pt it = Some (None, it') /\ at_pos pt it' n
    end.
  Proof.
    intros pt it n (H1 & H2 & H3). unfold ri_next.
    assert (Q := step_at pt (S (length (cells pt))) it n). specialize (Q ltac:(lia) ltac:(lia) H1 H3).
    destruct (ri_step (S (length (cells pt))) pt it) as [[b|] it'].
    - destruct Q as (Q1 & Q2 & Q3 & Q4 & Q5). rewrite Q1.
      assert (L : length (skipn n (fulls pt)) = S (length (skipn (S n) (fulls pt)))).
      { clear - Q1. revert n Q1. induction (fulls pt) as [|x l IH]; intros [|n] Q1; simpl in *; try discriminate; auto. }
      rewrite Q5, H2, L. eexists. split; [reflexivity|]. split; [|exact Q2]. split; auto.
    - destruct Q as (Q1 & Q2 & Q3 & Q4). rewrite Q2, H2, Q1. cbn [length].
      assert (nth_error (fulls pt) n = None) as ->.
      { apply nth_error_None. destruct (Nat.le_gt_cases (length (fulls pt)) n); auto.
        apply (f_equal (@length nat)) in Q1. rewrite skipn_length in Q1. simpl in Q1. lia. }
      exists it'. split; auto. split; auto. split; auto. rewrite Q2, H2. auto.
  Qed.
  (* the bucket just yielded may be removed *)
  Lemma removed_at : forall pt it n b e pt', at_pos pt it (S n) -> b < nxt it ->
    nth_error (fulls pt) n = Some b -> p_remove pt b = Some (e, pt') -> at_pos pt' it n.
  Proof.
    intros pt it n b e pt' (H1 & H2 & H3) HB HN HR.
    destruct (remove_abs pt n b HN) as (e2 & pt2 & R1 & R2 & R3 & R4 & R5). rewrite R1 in HR. inversion HR; subst e2 pt2.
    assert (SK : forall (l : list nat) i, skipn i (remove_nth i l) = skipn (S i) l).
    { induction l as [|x l IH]; intros [|i]; simpl; auto. apply IH. }
    assert (FR : forall (l : list nat) i, nth_error l i = Some b -> from (nxt it) (remove_nth i l) = from (nxt it) l).
    { induction l as [|x l IH]; intros [|i] Q; simpl in *; try discriminate.
      - inversion Q; subst. assert (nxt it <=? b = false) as -> by (apply Nat.leb_gt; auto). auto.
      - rewrite IH; auto. }
    unfold at_pos. rewrite R4, SK, FR by auto. auto.
  Qed.

  (* ---- iterating over a table that stays as it is ---- *)
  (* n calls of next, reading every bucket; outer None: undefined behaviour *)
  Fixpoint p_reads (n : nat) pt it : option (list (option A) * raw_iter) :=
    match n with
    | O => Some ([], it)
    | S n' =>
        match ri_next pt it with
        | None => None
        | Some (None, it') => match p_reads n' pt it' with Some (l, it'') => Some (None :: l, it'') | None => None end
        | Some (Some b, it') =>
            match p_entry pt b with
            | None => None
            | Some e => match p_reads n' pt it' with Some (l, it'') => Some (Some e :: l, it'') | None => None end
            end
        end
    end.
  Lemma p_reads_ok : forall n pt it k, at_pos pt it k ->
    exists it', p_reads n pt it = Some (map (t_entry (abs pt)) (seq k n), it') /\
      left_over it' = length (fulls pt) - (k + n).
  Proof.
    induction n as [|n IH]; intros pt it k H; cbn [p_reads seq map].
    - exists it. split; auto. destruct H as (_ & -> & _). rewrite skipn_length. lia.
    - assert (Q := next_at _ _ _ H). assert (G := entry_abs pt k). destruct (nth_error (fulls pt) k) as [b|] eqn:NE.
      + destruct Q as (it1 & -> & Q & _). destruct G as (e & -> & ->).
        destruct (IH _ _ _ Q) as (it2 & -> & L). exists it2. split; auto. lia.
      + destruct Q as (it1 & -> & Q). rewrite G.
        assert (LE : length (fulls pt) <= k) by (apply nth_error_None; auto).
        assert (Q2 : at_pos pt it1 (S k)).
        { destruct Q as (Q1 & Q2 & Q3). rewrite (skipn_all2 (fulls pt)) in Q1, Q2 by lia.
          split; [|split; auto]; rewrite (skipn_all2 (fulls pt)) by lia; auto. }
        destruct (IH _ _ _ Q2) as (it2 & -> & L). exists it2. split; auto. lia.
  Qed.
End Memory.

(* An iterator over a table that stays as it is reads full buckets only; the k-th call gives the
   k-th entry, calls after the last one give nothing, and RawIter::size_hint is exact. *)
Theorem C115_iter : forall A (W : nat) (pt : ptable A) n, 0 < W ->
  exists it, p_reads W n pt (p_iter W pt) = Some (map (fun k => option_map snd (nth_error (slots (abs pt)) k)) (seq 0 n), it) /\
    left_over it = length (slots (abs pt)) - n.
Proof.
  intros A W pt n W0. destruct (p_reads_ok W W0 n pt (p_iter W pt) 0 (at_start W W0 pt)) as (it & H1 & H2).
  exists it. split.
  - rewrite H1. f_equal. f_equal. apply map_ext. intros k. unfold t_entry.
    destruct (nth_error (slots (abs pt)) k) as [[h e]|]; auto.
  - rewrite H2. unfold fulls, abs. cbn [slots]. rewrite fulls_length. auto.
Qed.

(* cells for a table: a free cell before every entry and three at the end *)
Definition holes {A} (t : table A) : ptable A :=
  PT (flat_map (fun e => [None; Some e]) (slots t) ++ [None; None; None]) (lay t).
Lemma holes_abs : forall A (t : table A), abs (holes t) = t.
Proof.
  intros A [l n]. unfold abs, holes. cbn [cells slots lay play]. f_equal.
  induction l as [|e l IH]; simpl; congruence.
Qed.

Example C115_iter_case :
  p_reads 4 4 (holes (Tbl [(7%N, true); (7%N, false); (3%N, true)] 0%N)) (p_iter 4 (holes (Tbl [(7%N, true); (7%N, false); (3%N, true)] 0%N)))
  = Some ([Some true; Some false; Some true; None], RI [] 12 0).
Proof. reflexivity. Qed.

(* Not every use of buckets is fine: an iterator that has loaded a group yields a bucket that
   was removed in the meantime, and reading it is undefined behaviour. *)
Example stale_bucket : forall lo,
  let pt := holes (Tbl [(7%N, true); (7%N, false); (3%N, true)] 0%N) in
  exists pt' it, p_remove lo pt 3 = Some (false, pt') /\
    ri_next 4 pt (p_iter 4 pt) = Some (Some 1, it) /\
    option_map fst (ri_next 4 pt' it) = Some (Some 3) /\
    p_entry pt' 3 = None /\ p_remove lo pt' 3 = None.
Proof. intros lo pt. do 2 eexists. repeat split. Qed.

Print Assumptions C115_iter.
