(* Capacities: the contract assumed of hashbrown about RawTable::capacity, and how much
   spare capacity the table operations use up. *)
From Coq Require Import List NArith Lia Bool Permutation.
From Verif Require Import Prelude RawTable TableFacts Concrete.
Import ListNotations.
Open Scope N_scope.

(* What hashbrown promises about capacities.  capacity() is full minus tombstones. *)
Record capacity_ok (lo : layout) : Prop := {
  (* RawTable::with_capacity *)
  cap_new : forall n, n <= hb_cap lo (hb_new lo n);
  cap_le_full : forall l, hb_cap lo l <= hb_full lo l;
  (* insertion makes room if there is none, and only then reallocates *)
  cap_insert : forall l h len, len <= hb_cap lo l ->
    let l' := hb_next lo l (CInsert h len) in
    len + 1 <= hb_cap lo l' /\ hb_cap lo l <= hb_cap lo l' /\ hb_full lo l <= hb_full lo l' /\
    (len < hb_cap lo l -> hb_full lo l' = hb_full lo l);
  (* removal may leave a tombstone *)
  cap_erase : forall l i,
    let l' := hb_next lo l (CErase i) in
    hb_cap lo l <= hb_cap lo l' + 1 /\ hb_full lo l' = hb_full lo l;
  (* reserve *)
  cap_grow : forall l n len, len <= hb_cap lo l ->
    let l' := hb_next lo l (CSize (Grow n) len) in
    len + n <= hb_cap lo l' /\ hb_cap lo l <= hb_cap lo l' /\ hb_full lo l <= hb_full lo l' /\
    (len + n <= hb_cap lo l -> hb_full lo l' = hb_full lo l);
  (* shrink_to *)
  cap_shrink : forall l n len, len <= hb_cap lo l ->
    let l' := hb_next lo l (CSize (Shrink n) len) in
    N.min (hb_cap lo l) (N.max len n) <= hb_cap lo l' /\ hb_full lo l' <= hb_full lo l /\
    (hb_full lo l <= n -> hb_cap lo l' = hb_cap lo l /\ hb_full lo l' = hb_full lo l);
  (* clear, drop of a RawDrain: the memory stays; tombstones may go *)
  cap_clear : forall l,
    let l' := hb_next lo l CClear in hb_cap lo l <= hb_cap lo l' /\ hb_full lo l' = hb_full lo l
}.

Section Tables.
  Variable lo : layout.
  Hypothesis OK : layout_ok lo.
  Hypothesis CO : capacity_ok lo.
  Context {A : Type}.
  Implicit Types t : table A.

  Definition size t : N := N.of_nat (t_len t).
  (* the buckets fit *)
  Definition fits t : Prop := size t <= t_capacity lo t.
  (* insertions possible without reallocation *)
  Definition spare t : N := t_capacity lo t - size t.
  Definition full t : N := hb_full lo (lay t).

  (* from t to t' using up at most k of the spare capacity; the table is not reallocated if
     that much was there *)
  Definition uses (k : N) t t' : Prop := fits t ->
    fits t' /\ full t <= full t' /\ (k <= spare t -> spare t <= spare t' + k /\ full t' = full t).

  Lemma uses_refl : forall t, uses 0 t t.
  Proof. intros t F. unfold uses. repeat split; auto; lia. Qed.
  Lemma uses_trans : forall a b t t' t'', uses a t t' -> uses b t' t'' -> uses (a + b) t t''.
  Proof.
    intros a b t t' t'' H1 H2 F. destruct (H1 F) as (F1 & L1 & S1). destruct (H2 F1) as (F2 & L2 & S2).
    split; auto. split; [lia|]. intros K. destruct S1 as [S1 E1]; [lia|]. destruct S2 as [S2 E2]; [lia|].
    split; [lia|congruence].
  Qed.
  Lemma uses_le : forall a b t t', uses a t t' -> a <= b -> uses b t t'.
  Proof.
    intros a b t t' H HL F. destruct (H F) as (F1 & L1 & S1). split; auto. split; auto.
    intros K. destruct S1 as [S1 E1]; [lia|]. split; auto. lia.
  Qed.

  Lemma size_perm : forall s s' l l', Permutation s s' -> size (Tbl s l) = size (Tbl s' l' : table A).
  Proof. intros. unfold size, t_len. simpl. f_equal. apply Permutation_length; auto. Qed.

  Lemma insert_size : forall t h e hasher, size (t_insert lo t h e hasher) = size t + 1.
  Proof.
    intros. unfold t_insert, size, t_len. cbn [slots].
    rewrite (Permutation_length (order_perm _ OK _ _ _)). cbn [length].
    unfold t_rehash. destruct (hb_grow _ _); rewrite ?map_length; lia.
  Qed.
  Lemma insert_uses : forall t h e hasher, uses 1 t (t_insert lo t h e hasher).
  Proof.
    intros t h e hasher F. assert (Z := insert_size t h e hasher).
    destruct (cap_insert _ CO (lay t) h (size t) F) as (C1 & C2 & C3 & C4).
    unfold fits, spare, full, t_capacity in *. rewrite Z.
    change (lay (t_insert lo t h e hasher)) with (hb_next lo (lay t) (CInsert h (size t))).
    split; [lia|]. split; [lia|]. intros K. split; [lia|]. apply C4. lia.
  Qed.
  Lemma remove_at_uses : forall t i, (i < t_len t)%nat -> uses 0 t (t_remove_at lo t i).
  Proof.
    intros t i Hi F.
    assert (Z : size (t_remove_at lo t i) + 1 = size t).
    { unfold size, t_remove_at, t_len in *. cbn [slots]. revert Hi. generalize (slots t). clear.
      intros s. revert i. induction s as [|x s IH]; intros [|i] H; simpl in *; try lia.
      specialize (IH i). lia. }
    destruct (cap_erase _ CO (lay t) (N.of_nat i)) as (C1 & C2).
    unfold fits, spare, full, t_capacity in *.
    change (lay (t_remove_at lo t i)) with (hb_next lo (lay t) (CErase (N.of_nat i))).
    repeat split; lia.
  Qed.
  Lemma entry_lt : forall t i e, t_entry t i = Some e -> (i < t_len t)%nat.
  Proof.
    intros t i e H. unfold t_entry in H. apply nth_error_Some. destruct (nth_error (slots t) i); congruence.
  Qed.
  Lemma find_lt : forall t h p i, t_find lo t h p = Some i -> (i < t_len t)%nat.
  Proof.
    intros t h p i H. unfold t_find in H. apply find_some in H as [_ H].
    apply nth_error_Some. destruct (nth_error (slots t) i); congruence.
  Qed.
  Lemma remove_entry_uses : forall t h p e t', t_remove_entry lo t h p = Some (e, t') -> uses 0 t t'.
  Proof.
    intros t h p e t' H. unfold t_remove_entry in H.
    destruct (t_find lo t h p) as [i|] eqn:F; [|discriminate].
    destruct (t_entry t i); [|discriminate]. inversion H; subst. apply remove_at_uses. eapply find_lt; eauto.
  Qed.
  Lemma modify_uses : forall t i f, uses 0 t (t_modify t i f).
  Proof.
    intros t i f F. assert (Z : size (t_modify t i f) = size t).
    { unfold size, t_modify, t_len. cbn [slots]. f_equal. generalize (slots t). intros s. revert i.
      induction s as [|x s IH]; intros [|i]; simpl; auto. }
    unfold fits, spare, full, t_capacity in *. cbn [t_modify lay]. rewrite Z. repeat split; lia.
  Qed.
  Lemma clear_uses : forall t, uses 0 t (t_clear lo t).
  Proof.
    intros t F. destruct (cap_clear _ CO (lay t)) as [C1 C2].
    assert (C3 := cap_le_full _ CO (lay t)).
    unfold fits, spare, full, t_capacity in *. change (size (t_clear lo t)) with 0.
    cbn [t_clear lay] in *. repeat split; lia.
  Qed.
  Lemma clear_capacity : forall t, t_capacity lo t <= t_capacity lo (t_clear lo t).
  Proof. intros t. apply (cap_clear _ CO (lay t)). Qed.
  Lemma resize_size : forall t z hasher, size (t_resize lo t z hasher) = size t.
  Proof.
    intros. unfold t_resize, size, t_len. cbn [slots].
    rewrite (Permutation_length (order_perm _ OK _ _ _)).
    unfold t_rehash. destruct (hb_grow _ _); rewrite ?map_length; auto.
  Qed.
  Lemma grow_room : forall t n hasher, fits t ->
    let t' := t_resize lo t (Grow n) hasher in
    fits t' /\ n <= spare t' /\ t_capacity lo t <= t_capacity lo t' /\ full t <= full t' /\
    spare t <= spare t' /\ (n <= spare t -> full t' = full t).
  Proof.
    intros t n hasher F t'. assert (Z := resize_size t (Grow n) hasher). fold t' in Z.
    destruct (cap_grow _ CO (lay t) n (size t) F) as (C1 & C2 & C3 & C4).
    unfold fits, spare, full, t_capacity in *. rewrite Z. subst t'. unfold t_resize. cbn [lay].
    fold (size t). repeat split; lia.
  Qed.
  Lemma shrink_room : forall t n hasher, fits t ->
    let t' := t_resize lo t (Shrink n) hasher in
    fits t' /\ N.min (t_capacity lo t) (N.max (size t) n) <= t_capacity lo t' /\ full t' <= full t /\
    (full t <= n -> t_capacity lo t' = t_capacity lo t /\ full t' = full t).
  Proof.
    intros t n hasher F t'. assert (Z := resize_size t (Shrink n) hasher). fold t' in Z.
    destruct (cap_shrink _ CO (lay t) n (size t) F) as (C1 & C2 & C3).
    unfold fits, spare, full, t_capacity in *. rewrite Z. subst t'. unfold t_resize. cbn [lay].
    fold (size t). split; [lia|]. split; [lia|]. split; [lia|exact C3].
  Qed.
  Lemma try_grow : forall t n hasher ok t', t_try_resize lo t n hasher = (ok, t') -> fits t ->
    fits t' /\ (if ok then n <= spare t' else True) /\ t_capacity lo t <= t_capacity lo t' /\
    full t <= full t' /\ spare t <= spare t' /\ (n <= spare t -> full t' = full t).
  Proof.
    intros t n hasher ok t' H F. unfold t_try_resize in H. destruct (hb_try _ _); inversion H; subst.
    - apply grow_room, F.
    - repeat split; auto; lia.
  Qed.
  Lemma new_fits : forall l, fits (t_new l).
  Proof. intros l. unfold fits. change (size (t_new l)) with 0. lia. Qed.
  Lemma with_capacity_fits : forall n, fits (t_with_capacity lo n) /\ n <= spare (t_with_capacity lo n) /\
    n <= t_capacity lo (t_with_capacity lo n : table A).
  Proof.
    intros n. assert (C := cap_new _ CO n). unfold fits, spare, t_capacity.
    change (size (t_with_capacity lo n)) with 0. cbn [t_with_capacity t_new lay]. repeat split; lia.
  Qed.
End Tables.

(* ---- two tables: the maps ---- *)
Section Maps.
  Context {map A B : Type}.
  Variable lo : layout.
  Variables (tl : map -> table A) (tr : map -> table B).

  Definition costs (kl kr : N) (m m' : map) : Prop :=
    uses lo kl (tl m) (tl m') /\ uses lo kr (tr m) (tr m').
  Definition at_cost {X} (kl kr : N) (c : M map X) : Prop := forall m, costs kl kr m (res_state (c m)).

  Lemma costs_refl : forall m, costs 0 0 m m.
  Proof. intros m. split; apply uses_refl. Qed.
  Lemma costs_trans : forall a b c d m m' m'', costs a b m m' -> costs c d m' m'' ->
    costs (a + c) (b + d) m m''.
  Proof. intros a b c d m m' m'' [H1 H2] [H3 H4]. split; eapply uses_trans; eauto. Qed.
  Lemma costs_le : forall a b c d m m', costs a b m m' -> a <= c -> b <= d -> costs c d m m'.
  Proof. intros a b c d m m' [H1 H2] L1 L2. split; eapply uses_le; eauto. Qed.
  Lemma costs_any : forall a b m, costs a b m m.
  Proof. intros a b m. eapply costs_le; [apply costs_refl| |]; lia. Qed.

  (* stepping through a computation from a given state; [a], [b] is what may still be used *)
  Lemma cost_ret : forall {X} (x : X) m a b, costs a b m (res_state (ret x m)).
  Proof. intros. apply costs_any. Qed.
  Lemma cost_panic : forall {X} m a b, costs a b m (res_state (@panic map X m)).
  Proof. intros. apply costs_any. Qed.
  Lemma cost_bind : forall {X Y} a b a' b' (c : M map X) (f : X -> M map Y) m,
    costs a b m (res_state (c m)) ->
    (forall m' x, c m = Ret m' x -> costs a' b' m' (res_state (f x m'))) ->
    costs (a + a') (b + b') m (res_state (bind c f m)).
  Proof.
    intros X Y a b a' b' c f m H1 H2. unfold bind. destruct (c m) as [m' x|m'] eqn:E; cbn [res_state] in *.
    - eapply costs_trans; eauto.
    - eapply costs_le; [exact H1| |]; lia.
  Qed.
  (* a step that uses nothing *)
  Lemma cost_free : forall {X Y} a b (c : M map X) (f : X -> M map Y) m,
    costs 0 0 m (res_state (c m)) ->
    (forall m' x, c m = Ret m' x -> costs a b m' (res_state (f x m'))) ->
    costs a b m (res_state (bind c f m)).
  Proof. intros. eapply (cost_bind 0 0 a b); eauto. Qed.
  Lemma cost_getst : forall {X} a b (f : map -> M map X) m,
    costs a b m (res_state (f m m)) -> costs a b m (res_state (bind getst f m)).
  Proof. intros; assumption. Qed.
  Lemma cost_unwrap : forall {X Y} a b (o : option X) (f : X -> M map Y) m,
    (forall x, o = Some x -> costs a b m (res_state (f x m))) ->
    costs a b m (res_state (bind (unwrap o) f m)).
  Proof. intros X Y a b [x|] f m H; [exact (H x eq_refl)|apply costs_any]. Qed.
End Maps.

(* ---- histories ---- *)
(* What a call may do to one of the tables: add at most k items (removing any number, without
   reallocating if there is room for k), make room for n more (without reallocating if there
   is that much room), or anything to the room (shrink). *)
Inductive effect := Adds (k : N) | Needs (n : N) | Lost.

(* calls for which room for r more items is enough; what is removed in between does not count *)
Fixpoint affordable {op} (eff : op -> effect) (r : N) (ops : list op) : Prop :=
  match ops with
  | [] => True
  | o :: t => match eff o with
              | Adds k => k <= r /\ affordable eff (r - k) t
              | Needs n => n <= r /\ affordable eff r t
              | Lost => False
              end
  end.

Section Histories.
  Context {map op A : Type}.
  Variable lo : layout.
  Variable tb : map -> table A.
  Variable next : map -> op -> map.
  Variable eff : op -> effect.

  Definition effect_ok (e : effect) (t t' : table A) : Prop := fits lo t ->
    fits lo t' /\
    match e with
    | Adds k => k <= spare lo t -> spare lo t <= spare lo t' + k /\ full lo t' = full lo t
    | Needs n => spare lo t <= spare lo t' /\ (n <= spare lo t -> full lo t' = full lo t)
    | Lost => True
    end.
  Hypothesis step_ok : forall m o, effect_ok (eff o) (tb m) (tb (next m o)).

  Lemma uses_effect : forall k t t', uses lo k t t' -> effect_ok (Adds k) t t'.
  Proof. intros k t t' H F. destruct (H F) as (F' & _ & H'). auto. Qed.

  Lemma run_fits : forall ops m, fits lo (tb m) -> fits lo (tb (fold_left next ops m)).
  Proof.
    induction ops as [|o ops IH]; intros m F; simpl; auto. apply IH. apply (step_ok m o F).
  Qed.
  Lemma affordable_mono : forall ops a b, affordable eff a ops -> a <= b -> affordable eff b ops.
  Proof.
    induction ops as [|o ops IH]; intros a b H La; simpl in *; auto.
    destruct (eff o); [| |tauto]; destruct H as [H1 H2];
      (split; [lia|eapply IH; [exact H2|lia]]).
  Qed.
  Lemma run_room : forall ops m r, fits lo (tb m) -> affordable eff r ops -> r <= spare lo (tb m) ->
    full lo (tb (fold_left next ops m)) = full lo (tb m).
  Proof.
    induction ops as [|o ops IH]; intros m r F A0 H; simpl; auto.
    destruct (step_ok m o F) as [F' K]. cbn [affordable] in A0. destruct (eff o); [| |tauto].
    - destruct A0 as [A1 A2]. destruct K as [K1 K2]; [lia|]. rewrite <- K2. eapply IH; eauto. lia.
    - destruct A0 as [A1 A2]. destruct K as [K1 K2]. rewrite <- K2 by lia. eapply IH; eauto. lia.
  Qed.
End Histories.

Lemma grow_effect : forall lo, layout_ok lo -> capacity_ok lo -> forall {A} (t : table A) n hasher,
  effect_ok lo (Needs n) t (t_resize lo t (Grow n) hasher).
Proof.
  intros lo OK CO A t n hasher F. destruct (grow_room _ OK CO t n hasher F) as (B1 & B2 & B3 & B4 & B5 & B6). auto.
Qed.
Lemma shrink_effect : forall lo, layout_ok lo -> capacity_ok lo -> forall {A} (t : table A) n hasher,
  effect_ok lo Lost t (t_resize lo t (Shrink n) hasher).
Proof.
  intros lo OK CO A t n hasher F. destruct (shrink_room _ OK CO t n hasher F) as (B1 & B2). split; auto.
Qed.
Lemma try_effect : forall lo, layout_ok lo -> capacity_ok lo -> forall {A} (t : table A) n hasher,
  effect_ok lo (Needs n) t (snd (t_try_resize lo t n hasher)).
Proof.
  intros lo OK CO A t n hasher F. destruct (t_try_resize lo t n hasher) as [ok t'] eqn:T.
  destruct (try_grow _ OK CO _ _ _ _ _ T F) as (B1 & B2 & B3 & B4 & B5 & B6). auto.
Qed.
Lemma none_effect : forall lo {A} k (t : table A), effect_ok lo (Adds k) t t.
Proof. intros lo A k t F. split; auto. intros _. split; [lia|reflexivity]. Qed.

(* ---- a layout that meets the contract: tokens are 2 * full + (is there a tombstone) ---- *)
Definition tomb (l : N) : N := N.b2n (N.odd l).
Definition lo_cap : layout :=
  Layout (fun _ _ hs => seq 0 (length hs))
         (fun _ _ xs => xs)
         (fun _ => false)
         (fun l c => match c with
                     | CInsert _ len => if len <? N.div2 l - tomb l then l else 2 * (2 * N.div2 l + 2)
                     | CErase i => if N.odd i && (0 <? N.div2 l) then 2 * N.div2 l + 1 else l
                     | CSize (Grow n) len =>
                         if len + n <=? N.div2 l - tomb l then l else 2 * N.max (len + n) (N.div2 l)
                     | CSize (Shrink n) len => if N.max len n <? N.div2 l then 2 * N.max len n else l
                     | CClear => 2 * N.div2 l
                     end)
         (fun _ => true)
         (fun n => 2 * n)
         (fun l => N.div2 l - tomb l)
         N.div2.
Lemma lo_cap_layout_ok : layout_ok lo_cap.
Proof.
  constructor; simpl; intros; auto.
  apply in_seq. assert (i < length hs)%nat by (apply nth_error_Some; congruence). lia.
Qed.
Lemma tomb_even : forall n, tomb (2 * n) = 0.
Proof. intros n. unfold tomb. rewrite N.odd_mul. reflexivity. Qed.
Lemma tomb_odd : forall n, tomb (2 * n + 1) = 1.
Proof.
  intros n. unfold tomb. rewrite N.odd_add, N.odd_mul. reflexivity.
Qed.
Lemma div2_odd : forall n, N.div2 (2 * n + 1) = n.
Proof. intros n. rewrite <- N.succ_double_spec. apply N.div2_succ_double. Qed.
Lemma div2_even : forall n, N.div2 (2 * n) = n.
Proof. intros n. rewrite <- N.double_spec. apply N.div2_double. Qed.
Lemma tomb_le : forall l, tomb l <= 1.
Proof. intros l. unfold tomb. destruct (N.odd l); simpl; lia. Qed.
Ltac hide l := generalize dependent (tomb l); generalize dependent (N.div2 l); intros.
Lemma lo_cap_ok : capacity_ok lo_cap.
Proof.
  constructor; cbn [lo_cap hb_cap hb_full hb_next hb_new].
  - intros n. rewrite div2_even, tomb_even. lia.
  - intros l. apply N.le_sub_l.
  - intros l h len H. assert (T := tomb_le l).
    destruct (N.ltb_spec len (N.div2 l - tomb l)); cbn zeta.
    + hide l. repeat split; lia.
    + rewrite div2_even, tomb_even. hide l. repeat split; lia.
  - intros l i. assert (T := tomb_le l). destruct (N.odd i && _) eqn:Q; cbn zeta.
    + apply andb_true_iff in Q as [_ Q]. apply N.ltb_lt in Q. rewrite div2_odd, tomb_odd. hide l. lia.
    + hide l. lia.
  - intros l n len H. assert (T := tomb_le l).
    destruct (N.leb_spec (len + n) (N.div2 l - tomb l)); cbn zeta.
    + hide l. repeat split; lia.
    + rewrite div2_even, tomb_even. hide l. repeat split; lia.
  - intros l n len H. assert (T := tomb_le l).
    destruct (N.ltb_spec (N.max len n) (N.div2 l)); cbn zeta.
    + rewrite div2_even, tomb_even. hide l. split; [|split]; lia.
    + hide l. repeat split; lia.
  - intros l. cbn zeta. rewrite div2_even, tomb_even. split; [hide l; lia|reflexivity].
Qed.

(* items with key equality, no collisions, the counting tables above *)
Definition env_cap : env item item N :=
  Env _ _ _ item_eq item_eq (fun s a => s + fst a) (fun s a => s + fst a) (fun _ p => snd p) lo_cap false.
Lemma env_cap_ok : lawful env_cap.
Proof.
  constructor; simpl; auto using item_eq_equiv, lo_cap_layout_ok;
    intros s x y H; rewrite (item_eq_key _ _ H); auto.
Qed.
