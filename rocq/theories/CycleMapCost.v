(* CycleMap: how often a call runs the Hash and Eq of the items: property C106. *)
From Coq Require Import List NArith Lia Bool Permutation PeanoNat.
From Verif Require Import Closures Prelude RawTable Optionals CycleMap ListFacts TableFacts SoundTables
  CycleMapSpec CycleMapHistory CycleMapProofs CycleMapProofs2 CycleMapProofs3 CycleMapHistoryProofs
  Concrete CycleMapProps CycleMapProps2 CycleMapAny Capacity CycleMapCapacity
  Faults FaultTables CycleMapFault CycleMapFaultProofs CycleMapFaultProps CycleMapFaultAny Cost.
Import ListNotations.
Open Scope N_scope.

(* The budget of a call: one unit for every call of Hash or Eq.  It depends on the items stored
   on the two sides, ls and rs, and on what rehashing a side may cost, gl and gr.
   [like_l l]: the left items whose hash has the tag of the hash of l; no hash table with such
   tags can avoid comparing l with them. *)
Section Budget.
  Context {L R : Type}.
  Variables (tag : N -> N) (hl : L -> N) (hr : R -> N) (ls : list L) (rs : list R) (gl gr : nat).
  Local Open Scope nat_scope.

  Definition like_l (l : L) : nat := length (filter (fun x => N.eqb (tag (hl x)) (tag (hl l))) ls).
  Definition like_r (r : R) : nat := length (filter (fun x => N.eqb (tag (hr x)) (tag (hr r))) rs).
  Definition insert_cost (l : L) (r : R) : nat := 4 + like_l l + like_r r.
  Definition swap_l_cost (old new : L) : nat := 4 + 2 * like_l new + 2 * like_l old.
  Definition swap_r_cost (old new : R) : nat := 5 + 2 * like_r new + 2 * like_r old.
  Definition budget (o : op L R) : nat :=
    match o with
    | ContainsLeft l | GetRight l | RemoveViaLeft l => 1 + like_l l
    | ContainsRight r | GetLeft r | RemoveViaRight r => 1 + like_r r
    | ArePaired l r => 2 + like_l l + like_r r
    | Remove l r => 3 + 2 * like_l l + like_r r
    | Insert l r => insert_cost l r + gl + gr
    | SwapLeft old new => swap_l_cost old new + gl
    | SwapRight old new => swap_r_cost old new + gr
    | SwapLeftChecked old ex new => 2 + like_l old + like_r ex + swap_l_cost old new + gl
    | SwapRightChecked old ex new => 2 + like_l ex + like_r old + swap_r_cost old new + gr
    | SwapLeftOrInsert old new r =>
        1 + like_l old + Nat.max (swap_l_cost old new) (insert_cost new r) + gl + gr
    | SwapRightOrInsert old new l =>
        1 + like_r old + Nat.max (swap_r_cost old new) (insert_cost l new) + gl + gr
    | IterAll => list_sum (map (fun l => 1 + like_l l) ls)
    | Retain X f x => list_sum (map (fun l => 4 + 2 * like_l l) ls)
    | ShrinkTo _ | ShrinkToFit | Reserve _ | TryReserve _ => length ls + length rs
    | Extend _ => 0 (* see [extend_within] *)
    | Len | IsEmpty | IterLeftAll | IterRightAll | DrainAll | DrainFilter _ _ _ _ _ | Clear | CloneSelf => 0
    end.
End Budget.
Definition is_extend {L R} (o : op L R) : bool := match o with Extend _ => true | _ => false end.

Section Costs.
  Context {L R S : Type}.
  Variable E : env L R S.
  Variable F : fault.
  Variable tag : N -> N.
  Hypothesis FR : frugal (lo E) tag.
  Notation map := (cmap L R S).
  Notation FM A := (M (fuse * cmap L R S) A).
  Local Open Scope nat_scope.

  Notation nl m h := (near tag (left_set m) h).
  Notation nr m h := (near tag (right_set m) h).
  Notation hl m l := (hashL E (hash_builder m) l).
  Notation hr m r := (hashR E (hash_builder m) r).
  Definition under (m m' : map) : Prop :=
    hash_builder m' = hash_builder m /\ less (lo E) (left_set m) (left_set m') /\ less (lo E) (right_set m) (right_set m').
  Lemma under_refl : forall m, under m m.
  Proof. intros m. split; [auto|split; apply less_refl]. Qed.
  Lemma under_trans : forall m1 m2 m3, under m1 m2 -> under m2 m3 -> under m1 m3.
  Proof.
    intros m1 m2 m3 (H1 & H2 & H3) (H4 & H5 & H6). split; [congruence|].
    split; eapply less_trans; eauto.
  Qed.

  Lemma ch_hash_l : forall m l, cheap 1 (hash_l E m l) (fun h => h = hl m l).
  Proof. intros. apply ch_user. auto. Qed.
  Lemma ch_hash_r : forall m r, cheap 1 (hash_r E m r) (fun h => h = hr m r).
  Proof. intros. apply ch_user. auto. Qed.
  Lemma ch_find_left : forall m h l, cheap (nl m h) (find_left E m h l) (fun _ => True).
  Proof. intros. apply ch_get; auto. Qed.
  Lemma ch_find_right : forall m h r, cheap (nr m h) (find_right E m h r) (fun _ => True).
  Proof. intros. apply ch_get; auto. Qed.

  Lemma sp_left_remove : forall m h l, spends (nl m h) m (u_left_remove_entry E h l) (fun m' _ => under m m').
  Proof.
    intros m h l. unfold u_left_remove_entry.
    eapply sp_more; [eapply (sp_look_bind _ 0); [apply ch_remove_entry; exact FR|]|lia|intros ? ? X; exact X].
    intros [[e t]|] HQ; [|apply sp_ret, under_refl].
    apply (sp_bind 0 0 _ _ _ (fun m' _ => under m m')); [|intros; apply sp_ret; auto].
    apply sp_calm. intros m' a Q. unfold bind, getst, putst in Q. inversion Q; subst.
    split; [auto|]. split; simpl; [eapply HQ; eauto|apply less_refl].
  Qed.
  Lemma sp_right_remove : forall m h r, spends (nr m h) m (u_right_remove_entry E h r) (fun m' _ => under m m').
  Proof.
    intros m h r. unfold u_right_remove_entry.
    eapply sp_more; [eapply (sp_look_bind _ 0); [apply ch_remove_entry; exact FR|]|lia|intros ? ? X; exact X].
    intros [[e t]|] HQ; [|apply sp_ret, under_refl].
    apply (sp_bind 0 0 _ _ _ (fun m' _ => under m m')); [|intros; apply sp_ret; auto].
    apply sp_calm. intros m' a Q. unfold bind, getst, putst in Q. inversion Q; subst.
    split; [auto|]. split; simpl; [apply less_refl|eapply HQ; eauto].
  Qed.
  Lemma left_remove_under : forall h p m m' a, left_remove_entry E h p m = Ret m' a -> under m m'.
  Proof.
    intros h p m m' a Q. unfold left_remove_entry, bind, getst, putst in Q.
    destruct (t_remove_entry _ _ _ _) as [[e t]|] eqn:X; inversion Q; subst; [|apply under_refl].
    split; [auto|]. split; simpl; [eapply less_remove; [apply less_refl|eauto]|apply less_refl].
  Qed.
  Lemma right_remove_under : forall h p m m' a, right_remove_entry E h p m = Ret m' a -> under m m'.
  Proof.
    intros h p m m' a Q. unfold right_remove_entry, bind, getst, putst in Q.
    destruct (t_remove_entry _ _ _ _) as [[e t]|] eqn:X; inversion Q; subst; [|apply under_refl].
    split; [auto|]. split; simpl; [apply less_refl|eapply less_remove; [apply less_refl|eauto]].
  Qed.

  (* ---- reading ---- *)
  Lemma ch_are_paired : forall m l r, cheap (2 + nl m (hl m l) + nr m (hr m r)) (u_are_paired E m l r) (fun _ => True).
  Proof.
    intros m l r. unfold u_are_paired. replace (2 + nl m (hl m l) + nr m (hr m r))
      with (1 + (1 + (nl m (hl m l) + (nr m (hr m r) + 0)))) by lia.
    eapply ch_bind; [apply ch_hash_l|]. intros a ->. eapply ch_bind; [apply ch_hash_r|]. intros a ->.
    eapply ch_bind; [apply ch_find_left|]. intros a _. eapply ch_bind; [apply ch_find_right|]. intros b _.
    apply ch_ret. auto.
  Qed.
  Lemma ch_key_l : forall {A} m l (f : N -> option (mapping_pair L) -> A),
    cheap (1 + nl m (hl m l)) (h <- hash_l E m l ;; o <- find_left E m h l ;; ret (f h o)) (fun _ => True).
  Proof.
    intros A m l f. eapply ch_bind; [apply ch_hash_l|]. intros a ->.
    eapply (ch_then _ 0); [apply ch_find_left| |lia]. intros a _. apply ch_ret. auto.
  Qed.
  Lemma ch_key_r : forall {A} m r (f : N -> option (mapping_pair R) -> A),
    cheap (1 + nr m (hr m r)) (h <- hash_r E m r ;; o <- find_right E m h r ;; ret (f h o)) (fun _ => True).
  Proof.
    intros A m r f. eapply ch_bind; [apply ch_hash_r|]. intros a ->.
    eapply (ch_then _ 0); [apply ch_find_right| |lia]. intros a _. apply ch_ret. auto.
  Qed.
  Lemma ch_get_right : forall m l, cheap (1 + nl m (hl m l)) (u_get_right E m l) (fun _ => True).
  Proof. intros. unfold u_get_right. apply (ch_key_l m l (fun h o => match o with None => None | Some p => _ end)). Qed.
  Lemma ch_get_left : forall m r, cheap (1 + nr m (hr m r)) (u_get_left E m r) (fun _ => True).
  Proof. intros. unfold u_get_left. apply (ch_key_r m r (fun h o => match o with None => None | Some p => _ end)). Qed.
  Lemma ch_get_left_inner : forall m l, cheap (1 + nl m (hl m l)) (u_get_left_inner E m l) (fun _ => True).
  Proof. intros. eapply ch_bind; [apply ch_hash_l|]. intros a ->. apply ch_find_left. Qed.

  (* the keys of the entries an iterator has still to visit *)
  Definition keys (it : @iter_t L) : list L := List.map (fun x => value (snd x)) it.
  Definition sums (f : L -> nat) (it : @iter_t L) : nat := list_sum (List.map f (keys it)).
  Lemma ch_iter_next : forall m it,
    cheap (match it with [] => 0 | (_, e) :: _ => 1 + nl m (hl m (value e)) end) (u_iter_next E m it)
      (fun x => match it with
                | [] => x = (None, [])
                | (_, e) :: rest => exists r, x = (Some (value e, r), rest)
                end).
  Proof.
    intros m [|[h e] rest]; simpl u_iter_next; [apply ch_ret; auto|].
    eapply (ch_then _ 0); [apply ch_get_right| |lia]. intros o _.
    eapply (ch_then 0 0); [apply (ch_unwrap 0 o (fun _ => True)); auto| |lia]. intros r _. apply ch_ret. eauto.
  Qed.
  Lemma ch_iter_rest : forall m fuel it,
    cheap (sums (fun l => 1 + nl m (hl m l)) it) (u_iter_rest E m fuel it) (fun _ => True).
  Proof.
    induction fuel as [|fuel IH]; intros it; simpl.
    - eapply (ch_then _ 0); [apply ch_iter_next| |destruct it as [|[h e] rest]; unfold sums; simpl; lia].
      intros [[p|] it'] _; [apply ch_panic|apply ch_ret; auto].
    - destruct it as [|[h e] rest].
      + eapply (ch_then 0 0); [apply (ch_iter_next m [])| |unfold sums; simpl; lia].
        intros a ->. apply ch_ret. auto.
      + eapply (ch_then (1 + nl m (hl m (value e))) (sums (fun l => 1 + nl m (hl m l)) rest));
          [apply (ch_iter_next m ((h, e) :: rest))| |unfold sums; simpl; lia].
        intros a (r & ->). eapply (ch_then _ 0); [apply IH| |lia]. intros. apply ch_ret. auto.
  Qed.
  Lemma ch_retain_scan : forall {X} (f : X -> L -> R -> X * verdict) m fuel it x,
    cheap (sums (fun l => 4 + 2 * nl m (hl m l)) it) (u_retain_scan E f m fuel it x) (fun _ => True).
  Proof.
    intros X f m. induction fuel as [|fuel IH]; intros [|[h e] rest] x; simpl u_retain_scan.
    1, 3: eapply (ch_then 0 0); [apply (ch_iter_next m [])| |lia]; intros a ->; apply ch_ret; auto.
    all: set (n := nl m (hl m (value e))).
    all: assert (HD : forall r (keep : bool), cheap (3 + n) (if negb keep
           then l_hash <- hash_l E m (value e) ;; r_hash <- hash_r E m r ;; p <- u_get_left_inner E m (value e) ;;
                p <- unwrap p ;; ret [(l_hash, r_hash, pid p)]
           else ret []) (fun _ => True)).
    1, 3: intros r [|]; simpl negb; cbv iota; [apply ch_ret; exact I|];
      apply (ch_then 1 (2 + n) _ _ _ (fun _ => True)); [apply ch_user; auto| |lia]; intros a _;
      apply (ch_then 1 (1 + n) _ _ _ (fun _ => True)); [apply ch_user; auto| |lia]; intros b _;
      eapply (ch_then _ 0); [apply ch_get_left_inner| |fold n; lia]; intros o _;
      apply (ch_then 0 0 _ _ _ (fun _ => True)); [apply ch_unwrap; auto| |lia]; intros; apply ch_ret; auto.
    - eapply (ch_then (1 + n) (3 + n)); [apply (ch_iter_next m ((h, e) :: rest))| |unfold sums; simpl; fold n; lia].
      intros a (r & ->). destruct (f x (value e) r) as [x' [keep|]];
        [|apply ch_ret; exact I].
      eapply (ch_then _ 0); [apply HD| |lia]. intros. apply ch_panic.
    - eapply (ch_then (1 + n) (3 + n + sums (fun l => 4 + 2 * nl m (hl m l)) rest));
        [apply (ch_iter_next m ((h, e) :: rest))| |unfold sums; simpl; fold n; lia].
      intros a (r & ->). destruct (f x (value e) r) as [x' [keep|]];
        [|apply ch_ret; exact I].
      eapply ch_bind; [apply HD|]. intros d _. eapply (ch_then _ 0); [apply IH| |lia].
      intros. apply ch_ret. auto.
  Qed.

  Lemma sp_retain : forall {X} (f : X -> L -> R -> X * verdict) m x,
    spends (sums (fun l => 4 + 2 * nl m (hl m l)) (iter m)) m (u_retain E f x) (fun _ _ => True).
  Proof.
    intros X f m x. unfold u_retain. eapply (sp_look_then _ 0); [apply ch_retain_scan| |lia].
    intros [y l|y] _; [|apply sp_panic]. apply sp_calm. auto.
  Qed.

  (* ---- removing ---- *)
  Lemma sp_remove_via_left : forall m l, spends (1 + nl m (hl m l)) m (u_remove_via_left E l) (fun m' _ => under m m').
  Proof.
    intros m l. unfold u_remove_via_left. eapply sp_look_bind; [apply ch_hash_l|]. intros a ->.
    eapply (sp_then _ 0); [apply sp_left_remove| |lia]. intros m1 [e|] U; [|apply sp_ret; auto].
    apply (sp_then 0 0 _ _ _ _ (fun m' _ => under m m')); [| |lia].
    - apply sp_calm. intros m2 o Q. eapply under_trans; [exact U|eapply right_remove_under; eauto].
    - intros m2 o U2. apply (sp_then 0 0 _ _ _ _ (fun m' _ => under m m')); [apply sp_unwrap; auto| |lia].
      intros. apply sp_ret. auto.
  Qed.
  Lemma sp_remove_via_right : forall m r, spends (1 + nr m (hr m r)) m (u_remove_via_right E r) (fun m' _ => under m m').
  Proof.
    intros m r. unfold u_remove_via_right. eapply sp_look_bind; [apply ch_hash_r|]. intros a ->.
    eapply (sp_then _ 0); [apply sp_right_remove| |lia]. intros m1 [e|] U; [|apply sp_ret; auto].
    apply (sp_then 0 0 _ _ _ _ (fun m' _ => under m m')); [| |lia].
    - apply sp_calm. intros m2 o Q. eapply under_trans; [exact U|eapply left_remove_under; eauto].
    - intros m2 o U2. apply (sp_then 0 0 _ _ _ _ (fun m' _ => under m m')); [apply sp_unwrap; auto| |lia].
      intros. apply sp_ret. auto.
  Qed.
  Lemma sp_remove : forall m l r,
    spends (3 + 2 * nl m (hl m l) + nr m (hr m r)) m (u_remove E l r) (fun _ _ => True).
  Proof.
    intros m l r. unfold u_remove. eapply (sp_look_then _ (1 + nl m (hl m l))); [apply ch_are_paired| |lia].
    intros [|] _; [|apply sp_ret; exact I].
    eapply sp_more; [apply sp_remove_via_left|lia|auto].
  Qed.

  (* ---- adding ---- *)
  Definition ins_l (m : map) (h : N) := rehash_cost (lo E) (left_set m) (hb_next (lo E) (lay (left_set m)) (CInsert h (N.of_nat (t_len (left_set m))))).
  Definition ins_r (m : map) (h : N) := rehash_cost (lo E) (right_set m) (hb_next (lo E) (lay (right_set m)) (CInsert h (N.of_nat (t_len (right_set m))))).
  Lemma sp_left_insert : forall m h e, spends (ins_l m h) m (u_left_insert E F h e) (fun (m' : map) (_ : unit) => right_set m' = right_set (m : map)).
  Proof.
    intros m h e w Hw. unfold u_left_insert, on_left, u_insert. simpl.
    destruct (rehashing_cost (lo E) F true (left_set m) _ (t_insert (lo E) (left_set m) h e (make_hasher_l E (hash_builder m))) w Hw)
      as (w' & HL & ->). exists w'. auto.
  Qed.
  Lemma sp_right_insert : forall m h e, spends (ins_r m h) m (u_right_insert E F h e) (fun _ _ => True).
  Proof.
    intros m h e w Hw. unfold u_right_insert, on_right, u_insert. simpl.
    destruct (rehashing_cost (lo E) F true (right_set m) _ (t_insert (lo E) (right_set m) h e (make_hasher_r E (hash_builder m))) w Hw)
      as (w' & HL & ->). exists w'. auto.
  Qed.
  Lemma sp_left_resize : forall (m : map) z, spends (t_len (left_set m)) m
    (on_left (fun s t => u_resize (lo E) F t z (make_hasher_l E s))) (fun (m' : map) (_ : unit) => right_set m' = right_set (m : map)).
  Proof.
    intros m z w Hw. unfold on_left, u_resize. simpl.
    destruct (rehashing_cost (lo E) F (match z with Grow _ => true | Shrink _ => false end) (left_set m)
      (hb_next (lo E) (lay (left_set m)) (CSize z (N.of_nat (t_len (left_set m)))))
      (t_resize (lo E) (left_set m) z (make_hasher_l E (hash_builder m))) w) as (w' & HL & ->);
      [pose proof (rehash_le (lo E) (left_set m) (hb_next (lo E) (lay (left_set m)) (CSize z (N.of_nat (t_len (left_set m)))))); lia|].
    exists w'. split; [|auto].
    pose proof (rehash_le (lo E) (left_set m) (hb_next (lo E) (lay (left_set m)) (CSize z (N.of_nat (t_len (left_set m)))))). lia.
  Qed.
  Lemma sp_right_resize : forall (m : map) z, spends (t_len (right_set m)) m
    (on_right (fun s t => u_resize (lo E) F t z (make_hasher_r E s))) (fun _ _ => True).
  Proof.
    intros m z w Hw. unfold on_right, u_resize. simpl.
    destruct (rehashing_cost (lo E) F (match z with Grow _ => true | Shrink _ => false end) (right_set m)
      (hb_next (lo E) (lay (right_set m)) (CSize z (N.of_nat (t_len (right_set m)))))
      (t_resize (lo E) (right_set m) z (make_hasher_r E (hash_builder m))) w) as (w' & HL & ->);
      [pose proof (rehash_le (lo E) (right_set m) (hb_next (lo E) (lay (right_set m)) (CSize z (N.of_nat (t_len (right_set m)))))); lia|].
    exists w'. split; [|auto].
    pose proof (rehash_le (lo E) (right_set m) (hb_next (lo E) (lay (right_set m)) (CSize z (N.of_nat (t_len (right_set m)))))). lia.
  Qed.
  (* ---- insert; ml, mr: what rehashing may cost ---- *)
  Definition rehash_bound (ml mr : nat) (m : map) : Prop := forall m', under m m' ->
    (forall h, ins_l m' h <= ml) /\ (forall h, ins_r m' h <= mr).
  Lemma rehash_bound_len : forall m, rehash_bound (t_len (left_set m)) (t_len (right_set m)) m.
  Proof.
    intros m m' (_ & H1 & H2). apply less_len in H1. apply less_len in H2.
    split; intros h; unfold ins_l, ins_r; (etransitivity; [apply rehash_le|auto]).
  Qed.
  (* no rehashing where there is room *)
  Lemma rehash_bound_room : forall m, capacity_ok (lo E) -> calm_ok (lo E) ->
    room E 1 m -> rehash_bound 0 0 m.
  Proof.
    assert (H : forall A (t t' : table A) h, capacity_ok (lo E) -> calm_ok (lo E) -> less (lo E) t t' ->
      room_for (lo E) 1 t -> rehash_cost (lo E) t' (hb_next (lo E) (lay t') (CInsert h (N.of_nat (t_len t')))) <= 0).
    { intros A t t' h CO CA U Q. pose proof (less_room (lo E) t t' 1 CO U Q) as RM. unfold rehash_cost.
      rewrite (calm_insert _ CA); auto. unfold room_for, size, t_capacity in RM. lia. }
    intros m CO CA [RL RR] m' (_ & H1 & H2). split; intros h; eapply H; eauto.
  Qed.
  Lemma rehash_bound_under : forall ml mr m m', under m m' -> rehash_bound ml mr m -> rehash_bound ml mr m'.
  Proof. intros ml mr m m' U H m'' U'. apply H. eapply under_trans; eauto. Qed.
  Lemma nl_under : forall m m' l, under m m' -> nl m' (hl m' l) <= nl m (hl m l).
  Proof. intros m m' l (-> & H & _). apply (less_near (lo E)), H. Qed.
  Lemma nr_under : forall m m' r, under m m' -> nr m' (hr m' r) <= nr m (hr m r).
  Proof. intros m m' r (-> & _ & H). apply (less_near (lo E)), H. Qed.

  Lemma sp_insert : forall ml mr m l r, rehash_bound ml mr m ->
    spends (4 + nl m (hl m l) + nr m (hr m r) + ml + mr) m (u_insert_pair E F l r) (fun _ _ => True).
  Proof.
    intros ml mr m l r RB. unfold u_insert_pair.
    eapply (sp_then _ (3 + nr m (hr m r) + ml + mr)); [apply sp_remove_via_left| |lia]. intros m1 a U1.
    eapply (sp_then _ (2 + ml + mr)); [apply sp_remove_via_right| |pose proof (nr_under m m1 r U1); lia].
    intros m2 b U2. assert (U : under m m2) by exact (under_trans _ _ _ U1 U2).
    cbv zeta. eapply (sp_look_then _ (1 + ml + mr)); [apply ch_hash_l| |lia]. intros h1 _.
    eapply (sp_look_then _ (ml + mr)); [apply ch_hash_r| |lia]. intros h2 _.
    eapply (sp_look_then 0 (ml + mr)); [apply (ch_ret _ _ (fun _ => True)); exact I| |lia]. intros c _.
    apply (sp_then 0 (ml + mr) _ _ _ _ (fun m' _ => left_set m' = left_set m2 /\ right_set m' = right_set m2)); [| |lia].
    { apply sp_calm. intros m' x Q. unfold incr_counter, bind, getst, putst in Q.
      destruct (u64_incr _ _); inversion Q; subst. auto. }
    intros m3 u3 [HL HR]. destruct (RB m2 U) as [B1 B2].
    eapply (sp_then _ mr); [apply sp_left_insert| |unfold ins_l; rewrite HL; specialize (B1 h1); unfold ins_l in B1; lia].
    intros m4 u4 Q4. eapply (sp_then _ 0); [apply sp_right_insert| |].
    - intros. apply sp_ret. auto.
    - unfold ins_r. rewrite Q4, HR. specialize (B2 h2). unfold ins_r in B2. lia.
  Qed.

  (* ---- swaps ---- *)
  Lemma sp_swap_left_check : forall m old new,
    spends (2 + 2 * nl m (hl m new)) m (u_swap_left_eq_check E old new (hl m new)) (fun m' _ => under m m').
  Proof.
    intros m old new. unfold u_swap_left_eq_check.
    eapply (sp_look_then _ (2 + nl m (hl m new))); [apply ch_find_left| |lia].
    intros [e|] _; [|apply sp_ret, under_refl].
    eapply (sp_look_then 1 (1 + nl m (hl m new))); [apply (ch_user _ (fun _ => True)); exact I| |lia].
    intros [|] _; [|apply sp_ret, under_refl]. apply sp_remove_via_left.
  Qed.
  Lemma sp_swap_right_check : forall m old new,
    spends (2 + 2 * nr m (hr m new)) m (u_swap_right_eq_check E old new (hr m new)) (fun m' _ => under m m').
  Proof.
    intros m old new. unfold u_swap_right_eq_check.
    eapply (sp_look_then _ (2 + nr m (hr m new))); [apply ch_find_right| |lia].
    intros [e|] _; [|apply sp_ret, under_refl].
    eapply (sp_look_then 1 (1 + nr m (hr m new))); [apply (ch_user _ (fun _ => True)); exact I| |lia].
    intros [|] _; [|apply sp_ret, under_refl]. apply sp_remove_via_right.
  Qed.
  Lemma sp_swap_left : forall ml mr m old new, rehash_bound ml mr m ->
    spends (4 + 2 * nl m (hl m new) + 2 * nl m (hl m old) + ml) m (u_swap_left E F old new) (fun _ _ => True).
  Proof.
    intros ml mr m old new RB. unfold u_swap_left.
    eapply (sp_look_then _ (3 + 2 * nl m (hl m new) + 2 * nl m (hl m old) + ml)); [apply ch_hash_l| |lia]. intros h ->.
    eapply (sp_then _ (1 + 2 * nl m (hl m old) + ml)); [apply sp_swap_left_check| |lia]. intros m1 eq U1.
    pose proof (nl_under m m1 old U1) as N1.
    eapply (sp_look_then _ (2 * nl m (hl m old) + ml)); [apply ch_hash_l| |lia]. intros h ->.
    eapply (sp_look_then _ (nl m (hl m old) + ml)); [apply ch_find_left| |lia].
    intros [e|] _; [|apply sp_ret; auto].
    apply (sp_then 0 (nl m (hl m old) + ml) _ _ _ _ (fun m' _ => under m1 m')); [| |lia].
    { apply sp_calm. intros m' x Q. unfold bind, getst, putst in Q.
      destruct (t_find _ _ _ _); simpl in Q; inversion Q; subst.
      split; [auto|]. split; simpl; [apply less_refl|apply less_modify, less_refl]. }
    intros m2 u U2. cbv zeta. assert (U : under m m2) by exact (under_trans _ _ _ U1 U2).
    assert (N2 : nl m2 (hl m1 old) <= nl m1 (hl m1 old)) by (destruct U2 as (_ & H & _); apply (less_near (lo E)), H).
    eapply (sp_then _ ml); [apply sp_left_remove| |lia]. intros m3 o U3.
    assert (UU : under m m3) by exact (under_trans _ _ _ U U3).
    apply (sp_then 0 ml _ _ _ _ (fun m' _ => m' = m3)); [apply sp_unwrap; auto| |lia]. intros m4 p ->.
    destruct (RB m3 UU) as [B _]. eapply (sp_then _ 0); [apply sp_left_insert| |specialize (B (hl m new)); lia].
    intros. apply sp_ret. auto.
  Qed.
  Lemma sp_swap_right : forall ml mr m old new, rehash_bound ml mr m ->
    spends (5 + 2 * nr m (hr m new) + 2 * nr m (hr m old) + mr) m (u_swap_right E F old new) (fun _ _ => True).
  Proof.
    intros ml mr m old new RB. unfold u_swap_right.
    eapply (sp_look_then _ (4 + 2 * nr m (hr m new) + 2 * nr m (hr m old) + mr)); [apply ch_hash_r| |lia]. intros h ->.
    eapply (sp_then _ (2 + 2 * nr m (hr m old) + mr)); [apply sp_swap_right_check| |lia]. intros m1 eq U1.
    pose proof (nr_under m m1 old U1) as N1.
    eapply (sp_look_then _ (1 + 2 * nr m (hr m old) + mr)); [apply ch_hash_r| |lia]. intros h ->.
    eapply (sp_look_then _ (1 + nr m (hr m old) + mr)); [apply ch_find_right| |lia].
    intros [e|] _; [|apply sp_ret; auto].
    apply (sp_then 0 (1 + nr m (hr m old) + mr) _ _ _ _ (fun m' _ => m' = m1)); [| |lia].
    { apply sp_calm. intros m' x Q. unfold bind, getst in Q. destruct (t_find _ _ _ _); inversion Q; auto. }
    intros m1' i ->. eapply (sp_look_then _ (nr m (hr m old) + mr)); [apply ch_hash_r| |lia]. intros h _.
    apply (sp_then 0 (nr m (hr m old) + mr) _ _ _ _ (fun m' _ => under m1 m')); [| |lia].
    { apply sp_calm. intros m' x Q. unfold bind, getst, putst in Q. inversion Q; subst.
      split; [auto|]. split; simpl; [apply less_modify, less_refl|apply less_refl]. }
    intros m2 u U2. cbv zeta. assert (U : under m m2) by exact (under_trans _ _ _ U1 U2).
    assert (N2 : nr m2 (hr m1 old) <= nr m1 (hr m1 old)) by (destruct U2 as (_ & _ & H); apply (less_near (lo E)), H).
    eapply (sp_then _ mr); [apply sp_right_remove| |lia]. intros m3 o U3.
    assert (UU : under m m3) by exact (under_trans _ _ _ U U3).
    apply (sp_then 0 mr _ _ _ _ (fun m' _ => m' = m3)); [apply sp_unwrap; auto| |lia]. intros m4 p ->.
    destruct (RB m3 UU) as [_ B]. eapply (sp_then _ 0); [apply sp_right_insert| |specialize (B h); lia].
    intros. apply sp_ret. auto.
  Qed.
  Lemma sp_swap_left_checked : forall ml mr m old ex new, rehash_bound ml mr m ->
    spends (2 + nl m (hl m old) + nr m (hr m ex) + (4 + 2 * nl m (hl m new) + 2 * nl m (hl m old) + ml)) m
      (u_swap_left_checked E F old ex new) (fun _ _ => True).
  Proof.
    intros ml mr m old ex new RB. eapply sp_look_bind; [apply ch_are_paired|]. intros [|] _; simpl; [|apply sp_ret; auto].
    eapply sp_swap_left; eauto.
  Qed.
  Lemma sp_swap_right_checked : forall ml mr m old ex new, rehash_bound ml mr m ->
    spends (2 + nl m (hl m ex) + nr m (hr m old) + (5 + 2 * nr m (hr m new) + 2 * nr m (hr m old) + mr)) m
      (u_swap_right_checked E F old ex new) (fun _ _ => True).
  Proof.
    intros ml mr m old ex new RB. eapply sp_look_bind; [apply ch_are_paired|]. intros [|] _; simpl; [|apply sp_ret; auto].
    eapply sp_swap_right; eauto.
  Qed.
  Lemma sp_swap_left_or_insert : forall ml mr m old new r, rehash_bound ml mr m ->
    spends (1 + nl m (hl m old) + Nat.max (4 + 2 * nl m (hl m new) + 2 * nl m (hl m old))
                                           (4 + nl m (hl m new) + nr m (hr m r)) + ml + mr) m
      (u_swap_left_or_insert E F old new r) (fun _ _ => True).
  Proof.
    intros ml mr m old new r RB. unfold u_swap_left_or_insert.
    set (k := Nat.max _ _). eapply (sp_look_then _ (nl m (hl m old) + k + ml + mr)); [apply ch_hash_l| |lia].
    intros h ->. eapply (sp_look_then _ (k + ml + mr)); [apply ch_find_left| |lia]. intros [e|] _.
    - eapply sp_more; [eapply sp_swap_left; eauto|unfold k; lia|auto].
    - eapply (sp_then _ 0); [eapply sp_insert; eauto| |unfold k; lia]. intros. apply sp_ret. auto.
  Qed.
  Lemma sp_swap_right_or_insert : forall ml mr m old new l, rehash_bound ml mr m ->
    spends (1 + nr m (hr m old) + Nat.max (5 + 2 * nr m (hr m new) + 2 * nr m (hr m old))
                                           (4 + nl m (hl m l) + nr m (hr m new)) + ml + mr) m
      (u_swap_right_or_insert E F old new l) (fun _ _ => True).
  Proof.
    intros ml mr m old new r RB. unfold u_swap_right_or_insert.
    set (k := Nat.max _ _). eapply (sp_look_then _ (nr m (hr m old) + k + ml + mr)); [apply ch_hash_r| |lia].
    intros h ->. eapply (sp_look_then _ (k + ml + mr)); [apply ch_find_right| |lia]. intros [e|] _.
    - eapply sp_more; [eapply sp_swap_right; eauto|unfold k; lia|auto].
    - eapply (sp_then _ 0); [eapply sp_insert; eauto| |unfold k; lia].
      intros m' d _. destruct d; first [apply sp_ret; exact I|apply sp_panic].
  Qed.

  (* ---- capacities ---- *)
  Lemma sp_resize_both : forall m z,
    spends (t_len (left_set m) + t_len (right_set m)) m (u_resize_both E F z) (fun _ _ => True).
  Proof.
    intros m z. unfold u_resize_both. eapply sp_bind; [apply sp_left_resize|]. intros m' u <-. apply sp_right_resize.
  Qed.
  Lemma sp_shrink_to_fit : forall m,
    spends (t_len (left_set m) + t_len (right_set m)) m (u_shrink_to_fit E F) (fun _ _ => True).
  Proof.
    intros m. unfold u_shrink_to_fit.
    apply (sp_look_then 0 (t_len (left_set m) + t_len (right_set m)) _ _ _ _ (fun _ => True));
      [apply ch_ret; exact I| |lia]. intros n _.
    eapply sp_bind; [apply sp_left_resize|]. intros m' u <-.
    apply (sp_look_then 0 (t_len (right_set m')) _ _ _ _ (fun _ => True)); [apply ch_ret; exact I| |lia]. intros k _.
    apply sp_right_resize.
  Qed.
  Lemma sp_try_l : forall (m : map) n, spends (t_len (left_set m)) m
    (on_left (fun s t => u_try_resize (lo E) F t n (make_hasher_l E s))) (fun m' (_ : bool) => right_set m' = right_set m).
  Proof.
    intros m n w Hw. unfold on_left, u_try_resize. cbn [fst snd].
    destruct (hb_try _ _); [|exists w; split; [lia|split; auto]].
    destruct (sp_left_resize m (Grow n) w Hw) as (w' & L1 & X). exists w'. split; [lia|].
    unfold on_left in X. cbn [fst snd] in X. destruct (u_resize _ _ _ _ _ _) as [[f t] a|[f t]]; simpl in *; auto.
  Qed.
  Lemma sp_try_r : forall (m : map) n, spends (t_len (right_set m)) m
    (on_right (fun s t => u_try_resize (lo E) F t n (make_hasher_r E s))) (fun _ (_ : bool) => True).
  Proof.
    intros m n w Hw. unfold on_right, u_try_resize. cbn [fst snd].
    destruct (hb_try _ _); [|exists w; split; [lia|split; auto]].
    destruct (sp_right_resize m (Grow n) w Hw) as (w' & L1 & X). exists w'. split; [lia|].
    unfold on_right in X. cbn [fst snd] in X. destruct (u_resize _ _ _ _ _ _) as [[f t] a|[f t]]; simpl in *; auto.
  Qed.
  Lemma sp_try_reserve : forall m n,
    spends (t_len (left_set m) + t_len (right_set m)) m (u_try_reserve E F n) (fun _ _ => True).
  Proof.
    intros m n. unfold u_try_reserve. eapply sp_bind; [apply sp_try_l|]. intros m' [|] <-; [apply sp_try_r|apply sp_ret; auto].
  Qed.

  (* ---- all calls ---- *)
  (* in terms of the items *)
  Lemma via_spends : forall {A} n m w (k : A -> out L R) (c : FM A) c0 K Q, tracks m c c0 K -> spends n m c Q ->
    n <= w -> u_via k c m (Some w) = via k (c0 m).
  Proof.
    intros A n m w k c c0 K Q T SP Hw. destruct (spends_tracks _ _ _ _ _ _ T SP w Hw) as (w' & HC).
    unfold u_via, via. rewrite HC. destruct (c0 m); reflexivity.
  Qed.
  Lemma read_spends : forall {A} n m w (k : A -> out L R) (f : map -> M fuse A) o Q, agrees (f m) o -> cheap n (f m) Q ->
    n <= w -> u_via k (look f) m (Some w) = seen m k o.
  Proof.
    intros A n m w k f o Q T SP Hw. destruct (cheap_agrees _ _ _ _ T SP w Hw) as (w' & HC).
    unfold u_via, look. cbn [fst snd]. rewrite HC. destruct o; reflexivity.
  Qed.

  Hypothesis OK : lawful E.
  Variables (GL : L -> Prop) (GR : R -> Prop).
  Notation Inv := (Inv E GL GR).
  Lemma near_l : forall s m l, Inv s m ->
    nl m (hl m l) = like_l tag (hashL E s) (t_values (@value L) (left_set m)) l.
  Proof. intros s m l (-> & H & _). rewrite (near_items tag _ _ _ _ _ _ H). reflexivity. Qed.
  Lemma near_r : forall s m r, Inv s m ->
    nr m (hr m r) = like_r tag (hashR E s) (t_values (@value R) (right_set m)) r.
  Proof. intros s m r (-> & _ & H). rewrite (near_items tag _ _ _ _ _ _ H). reflexivity. Qed.
  Lemma budget_ok : forall s m gl gr o w, Inv s m -> rehash_bound gl gr m -> is_extend o = false ->
    budget tag (hashL E s) (hashR E s) (t_values (@value L) (left_set m)) (t_values (@value R) (right_set m))
      gl gr o <= w ->
    u_step E F m o (Some w) = step E m o.
  Proof.
    intros s m gl gr o w I0 RB X B.
    assert (LL : length (t_values (@value L) (left_set m)) = t_len (left_set m)) by apply map_length.
    assert (LR : length (t_values (@value R) (right_set m)) = t_len (right_set m)) by apply map_length.
    destruct o; try discriminate X; cbn [u_step step budget] in *; auto;
      unfold insert_cost, swap_l_cost, swap_r_cost in B; rewrite ?LL, ?LR, <- ?(near_l s), <- ?(near_r s) in B by exact I0.
    - eapply via_spends; [apply tr_insert|eapply sp_insert, RB|lia].
    - eapply via_spends; [apply (tr_remove E _ _ _ (fun _ => True)); auto|apply sp_remove|lia].
    - eapply via_spends; [apply (tr_remove_via_left E _ _ (fun _ => True)); auto|apply sp_remove_via_left|lia].
    - eapply via_spends; [apply (tr_remove_via_right E _ _ (fun _ => True)); auto|apply sp_remove_via_right|lia].
    - eapply via_spends; [apply tr_swap_left|eapply sp_swap_left, RB|lia].
    - eapply via_spends; [apply tr_swap_left_checked|eapply sp_swap_left_checked, RB|lia].
    - eapply via_spends; [apply tr_swap_left_or_insert|eapply sp_swap_left_or_insert, RB|lia].
    - eapply via_spends; [apply tr_swap_right|eapply sp_swap_right, RB|lia].
    - eapply via_spends; [apply tr_swap_right_checked|eapply sp_swap_right_checked, RB|lia].
    - eapply via_spends; [apply tr_swap_right_or_insert|eapply sp_swap_right_or_insert, RB|lia].
    - apply (read_spends (2 + nl m (hl m l) + nr m (hr m r)) m w OBool (fun m => u_are_paired E m l r) (Done _) (fun _ => True));
        [apply ag_are_paired|apply ch_are_paired|lia].
    - apply (read_spends (1 + nl m (hl m l)) m w OBool (fun m => u_contains_left E m l) (Done _) (fun _ => True));
        [apply ag_contains_left|apply (ch_key_l m l (fun _ o => match o with Some _ => true | None => false end))|lia].
    - apply (read_spends (1 + nr m (hr m r)) m w OBool (fun m => u_contains_right E m r) (Done _) (fun _ => True));
        [apply ag_contains_right|apply (ch_key_r m r (fun _ o => match o with Some _ => true | None => false end))|lia].
    - apply (read_spends (1 + nr m (hr m r)) m w OL (fun m => u_get_left E m r) (Done _) (fun _ => True));
        [apply ag_get_left|apply ch_get_left|lia].
    - apply (read_spends (1 + nl m (hl m l)) m w OR (fun m => u_get_right E m l) (Done _) (fun _ => True));
        [apply ag_get_right|apply ch_get_right|lia].
    - eapply read_spends; [apply ag_iter_all|apply ch_iter_rest|].
      etransitivity; [|exact B]. unfold sums, keys, iter. fold (t_values (@value L) (left_set m)).
      apply Nat.eq_le_incl. f_equal. apply map_ext. intros l. rewrite (near_l s) by exact I0. auto.
    - destruct (spends_tracks _ _ _ _ _ _ (tr_retain E f m x (fun _ => True) I) (sp_retain f m x) w) as (w' & HC).
      + etransitivity; [|exact B]. unfold sums, keys, iter. fold (t_values (@value L) (left_set m)).
        apply Nat.eq_le_incl. f_equal. apply map_ext. intros l. rewrite (near_l s) by exact I0. auto.
      + unfold u_via. rewrite HC. unfold retain_m. destruct (retain E f (m, x)) as [[? ?] []|[? ?]]; reflexivity.
    - eapply via_spends; [apply (tr_resize_both E F m (Shrink n))|apply sp_resize_both|lia].
    - eapply via_spends; [apply tr_shrink_to_fit, (lo_ok E OK)|apply sp_shrink_to_fit|lia].
    - eapply via_spends; [apply (tr_resize_both E F m (Grow n))|apply sp_resize_both|lia].
    - eapply via_spends; [apply tr_try_reserve|apply sp_try_reserve|lia].
  Qed.
  (* == : two lookups for every pair, in two maps *)
  Lemma ch_all_paired : forall m other P fuel it, collect (iter_next E m) fuel it = Done P ->
    cheap (sums (fun l => 1 + nl m (hl m l)) it +
           list_sum (List.map (fun p => 2 + nl other (hl other (fst p)) + nr other (hr other (snd p))) P))
      (u_all_paired E m other fuel it) (fun _ => True).
  Proof.
    intros m other P fuel. revert P. induction fuel as [|fuel IH]; intros P it C; simpl in *.
    - destruct it as [|[h e] rest].
      + eapply (ch_then 0 0); [apply (ch_iter_next m [])| |apply Nat.le_0_l]. intros a ->. apply ch_ret. auto.
      + exfalso. simpl in C. destruct (get_right E m (value e)); discriminate.
    - destruct it as [|[h e] rest].
      + eapply (ch_then 0 0); [apply (ch_iter_next m [])| |apply Nat.le_0_l]. intros a ->. apply ch_ret. auto.
      + simpl in C. destruct (get_right E m (value e)) as [r|] eqn:G; [|discriminate].
        destruct (collect (iter_next E m) fuel rest) as [P'|] eqn:C'; [|discriminate]. simpl in C.
        inversion C; subst P. cbn [List.map list_sum fold_right fst snd].
        set (n2 := 2 + nl other (hl other (value e)) + nr other (hr other r)).
        eapply (ch_then (1 + nl m (hl m (value e))) (n2 + _)).
        * intros w Hw. destruct (cheap_agrees _ _ _ _ (ag_get_right E m (value e)) (ch_get_right m (value e)) w Hw) as (w' & HC).
          destruct (ch_get_right m (value e) w Hw) as (w2 & HL & X). rewrite HC in X. destruct X as [[= ->] _].
          exists w2. split; [exact HL|]. simpl. unfold bind. rewrite HC, G. simpl. split; auto.
          instantiate (1 := fun x => x = (Some (value e, r), rest)). reflexivity.
        * intros a ->. eapply ch_bind; [apply ch_are_paired|]. intros [|] _; [apply IH; exact C'|apply ch_ret; auto].
        * unfold sums, keys, list_sum. simpl. lia.
  Qed.
End Costs.

Section Props.
  Context {L R S : Type}.
  Variable E : env L R S.
  Hypothesis OK : lawful E.
  Variable F : fault.
  Hypothesis FO : fault_ok F.
  Variable tag : N -> N.
  Hypothesis FR : frugal (lo E) tag.
  Notation map := (cmap L R S).
  Notation budget_of m := (budget tag (hashL E (hash_builder m)) (hashR E (hash_builder m))).

  Lemma survives_inv : forall m ops, survives E F m ops ->
    Inv E (fun _ => True) (fun _ => True) (hash_builder m) m.
  Proof.
    intros m ops (s & ll & lr & ->).
    assert (I1 : Inv E (fun _ => True) (fun _ => True) s (fst (u_xrun E F (with_hasher s ll lr) ops))).
    { apply u_xrun_inv; try apply Forall_top; auto. apply inv_new. }
    destruct I1 as (H & I1). split; auto. rewrite H. exact I1.
  Qed.

  (* ---- C106 ---- after any history, panics included, no call runs user code more often than
     its budget: with that much fuse it does what it does without *)
  Theorem C106_budget : forall m ops ls rs o w, survives E F m ops -> lefts m ls -> rights m rs ->
    is_extend o = false -> (budget_of m ls rs (length ls) (length rs) o <= w)%nat ->
    u_step E F m o (Some w) = step E m o.
  Proof.
    intros m ops ls rs o w SV HL HR X B. apply lefts_are in HL. apply rights_are in HR. subst.
    eapply (budget_ok E F tag FR OK); eauto using survives_inv.
    unfold t_values. rewrite !map_length. apply rehash_bound_len.
  Qed.
  (* nothing is rehashed where there is room *)
  Theorem C106_roomy : forall m ops ls rs o w, capacity_ok (lo E) -> calm_ok (lo E) ->
    survives E F m ops -> lefts m ls -> rights m rs -> room E 1 m ->
    is_extend o = false -> (budget_of m ls rs 0 0 o <= w)%nat ->
    u_step E F m o (Some w) = step E m o.
  Proof.
    intros m ops ls rs o w CO CA SV HL HR RM X B. apply lefts_are in HL. apply rights_are in HR. subst.
    eapply (budget_ok E F tag FR OK); eauto using survives_inv, rehash_bound_room.
  Qed.
  (* without collisions a lookup is one Hash and at most one Eq, whatever the size of the map *)
  Definition uncrowded (m : map) (ls : list L) (rs : list R) : Prop :=
    (forall a b, In a ls -> In b ls -> tag (hashL E (hash_builder m) a) = tag (hashL E (hash_builder m) b) -> eqL E a b = true) /\
    (forall a b, In a rs -> In b rs -> tag (hashR E (hash_builder m) a) = tag (hashR E (hash_builder m) b) -> eqR E a b = true).
  Theorem C106_lookup : forall m ops ls rs, survives E F m ops -> lefts m ls -> rights m rs -> uncrowded m ls rs ->
    forall o w, match o with
                | ContainsLeft _ | ContainsRight _ | GetLeft _ | GetRight _ | RemoveViaLeft _ | RemoveViaRight _ => (2 <= w)%nat
                | ArePaired _ _ => (4 <= w)%nat
                | _ => False
                end -> u_step E F m o (Some w) = step E m o.
  Proof.
    intros m ops ls rs SV HL HR [U1 U2] o w W.
    destruct (C92_sides E OK F FO m ops SV) as (ls' & rs' & HL' & HR' & D1 & D2 & _).
    apply lefts_are in HL' as Q. apply lefts_are in HL as Q'. rewrite <- Q' in Q. subst ls'. clear Q'.
    apply rights_are in HR' as Q. apply rights_are in HR as Q'. rewrite <- Q' in Q. subst rs'. clear Q'.
    assert (NL : forall l, (like_l tag (hashL E (hash_builder m)) ls l <= 1)%nat).
    { intros l. apply (filter_one (eqL E)); auto. intros a b Ha Hb P1 P2. apply U1; auto.
      apply N.eqb_eq in P1, P2. congruence. }
    assert (NR : forall r, (like_r tag (hashR E (hash_builder m)) rs r <= 1)%nat).
    { intros l. apply (filter_one (eqR E)); auto. intros a b Ha Hb P1 P2. apply U2; auto.
      apply N.eqb_eq in P1, P2. congruence. }
    eapply C106_budget; eauto; destruct o; try destruct W; simpl; auto;
      try specialize (NL l); try specialize (NR r); lia.
  Qed.

  (* extend: the budgets of the insertions, one after the other *)
  Inductive extend_within : map -> list (L * R) -> nat -> Prop :=
  | within_nil : forall m, extend_within m [] 0
  | within_cons : forall m ls rs l r xs n, lefts m ls -> rights m rs ->
      extend_within (fst (step E m (Insert l r))) xs n ->
      extend_within m ((l, r) :: xs) (budget_of m ls rs (length ls) (length rs) (Insert l r) + n).
  Lemma sp_extend : forall m xs n, Inv E (fun _ => True) (fun _ => True) (hash_builder m) m -> extend_within m xs n ->
    spends n m (u_extend E F xs) (fun _ _ => True).
  Proof.
    intros m xs n I H. induction H as [m|m ls rs l r xs n HL HR _ IH]; simpl u_extend; [apply sp_ret; auto|].
    intros w Hw.
    assert (SP : spends (budget_of m ls rs (length ls) (length rs) (Insert l r)) m (u_insert_pair E F l r) (fun _ _ => True)).
    { apply lefts_are in HL. apply rights_are in HR. subst.
      eapply sp_more; [apply (sp_insert E F tag FR), rehash_bound_len| |auto].
      cbn [budget]. unfold insert_cost. rewrite <- (near_l E tag (fun _ => True) (fun _ => True)), <- (near_r E tag (fun _ => True) (fun _ => True)) by exact I.
      unfold t_values. rewrite !map_length. unfold t_len. lia. }
    destruct (SP w) as (w1 & L1 & X); [lia|].
    destruct (spends_tracks _ _ _ _ _ _ (tr_insert E F m l r) SP w) as (w2 & HC); [lia|].
    unfold bind. rewrite HC in *. assert (Q : fst (step E m (Insert l r)) = res_state (insert E l r m)).
    { simpl. unfold via. destruct (insert E l r m); auto. }
    assert (I2 : Inv E (fun _ => True) (fun _ => True) (hash_builder m) (fst (step E m (Insert l r)))).
    { rewrite <- (u_step_calm E F (lo_ok E OK)).
      apply (u_xstep_inv E OK F FO (fun _ => True) (fun _ => True) (hash_builder m) (Call (Insert l r)) None); auto;
        apply Forall_top; auto. }
    destruct (insert E l r m) as [m1 d|m1]; simpl in X.
    - destruct X as [[= ->] _]. cbn [res_state] in Q. rewrite Q in IH, I2. destruct I2 as (Q2 & I2).
      assert (I3 : Inv E (fun _ => True) (fun _ => True) (hash_builder m1) m1) by (split; [auto|rewrite Q2; exact I2]).
      destruct (IH I3 w1) as (w3 & L3 & Y); [lia|]. exists w3. split; [lia|]. exact Y.
    - inversion X; subst. exists w1. split; [lia|auto].
  Qed.
  Theorem C106_extend : forall m ops xs n w, survives E F m ops -> extend_within m xs n -> (n <= w)%nat ->
    u_step E F m (Extend xs) (Some w) = step E m (Extend xs).
  Proof.
    intros m ops xs n w SV H Hw. cbn [u_step step]. eapply via_spends; [apply tr_extend|apply sp_extend; eauto using survives_inv|exact Hw].
  Qed.
  (* m == m': an iteration over m and a lookup in m' for every pair *)
  Theorem C106_eq : forall m ops ls m' ops' ls' rs' P w,
    survives E F m ops -> survives E F m' ops' -> lefts m ls -> lefts m' ls' -> rights m' rs' -> iter_all E m = Done P ->
    (list_sum (List.map (fun l => 1 + like_l tag (hashL E (hash_builder m)) ls l) ls) +
     list_sum (List.map (fun p => 2 + like_l tag (hashL E (hash_builder m')) ls' (fst p)
                                   + like_r tag (hashR E (hash_builder m')) rs' (snd p)) P) <= w)%nat ->
    exists w', u_map_eq E m m' (Some w) = inner (map_eq E m m') (Some w').
  Proof.
    intros m ops ls m' ops' ls' rs' P w SV SV' HL HL' HR' IA B.
    apply lefts_are in HL. apply lefts_are in HL'. apply rights_are in HR'. subst.
    pose proof (survives_inv _ _ SV) as I. pose proof (survives_inv _ _ SV') as I'.
    eapply cheap_agrees; [apply ag_map_eq| |exact B].
    unfold u_map_eq. destruct (negb _); [apply (ch_ret _ _ (fun _ => True)); exact Logic.I|].
    eapply ch_more; [eapply (ch_all_paired E tag FR); exact IA| |intros ? X; exact X].
    apply Nat.add_le_mono; apply Nat.eq_le_incl.
    - unfold sums, keys, iter. fold (t_values (@value L) (left_set m)). f_equal. apply map_ext. intros l.
      rewrite (near_l E tag _ _ _ _ _ I). auto.
    - f_equal. apply map_ext. intros [l r]. simpl. rewrite (near_l E tag _ _ _ _ _ I'), (near_r E tag _ _ _ _ _ I'). auto.
  Qed.
End Props.

(* ---- cases: the contracts can be met, and the budgets are not too generous ---- *)
(* env_room compares with every item of a side, so the tag is the same for all; env_spread with
   those that agree in 7 bits *)
Definition cost_ops : list (xop item item * fuse) :=
  [(Call (Insert (it 1) (it 11)), None); (Call (Insert (it 2) (it 12)), None); (Call (Insert (it 3) (it 13)), None);
   (Call (Insert (it 3) (it 14)), Some 2%nat)].
Definition cost_map {S} (E : env item item S) (s : S) : cmap item item S :=
  fst (u_xrun E f_in_place (with_hasher s 0 0) cost_ops).
(* the last unit of the budget is needed *)
Definition tight {S} (E : env item item S) (m : cmap item item S) (o : op item item) (n : nat) : bool :=
  match snd (u_step E f_in_place m o (Some (n - 1)%nat)), snd (u_step E f_in_place m o (Some n)) with
  | OPanic, OPanic => false
  | OPanic, _ => true
  | _, _ => false
  end.
Example C106_case :
  let m := cost_map env_spread 0 in
  let b := budget (fun h => N.land h 127) (hashL env_spread 0) (hashR env_spread 0) [it 2; it 1] [it 12; it 11] 2 2 in
  survives env_spread f_in_place m cost_ops /\
  (exists ls rs, lefts m ls /\ rights m rs /\ ls = [it 2; it 1] /\ rs = [it 12; it 11] /\
     uncrowded env_spread (fun h => N.land h 127) m ls rs) /\
  List.map (fun o => (b o, tight env_spread m o (b o)))
    [GetRight (it 4); GetLeft (it 11); ArePaired (it 1) (it 14); Remove (it 1) (it 11); Insert (it 4) (it 14); IterAll; ShrinkToFit]
  = [(1, true); (2, true); (3, true); (6, true); (8, true); (4, true); (4, true)]%nat.
Proof.
  split; [exists 0, 0, 0; reflexivity|]. split; [|vm_compute; reflexivity].
  exists [it 2; it 1], [it 12; it 11]. repeat (split; [vm_compute; reflexivity|]).
  split; intros a b [<-|[<-|[]]] [<-|[<-|[]]]; vm_compute; try reflexivity; discriminate.
Qed.
(* room for more: no rehashing, and the budget without it *)
Example C106_roomy_case :
  let m := cost_map env_room 0 in
  let b := budget (fun _ => 0) (hashL env_room 0) (hashR env_room 0) [it 2; it 1] [it 12; it 11] 0 0 in
  survives env_room f_in_place m cost_ops /\ room env_room 1 m /\
  (exists ls rs, lefts m ls /\ rights m rs /\ ls = [it 2; it 1] /\ rs = [it 12; it 11]) /\
  List.map (fun o => (b o, tight env_room m o (b o)))
    [GetRight (it 4); ArePaired (it 4) (it 14); Remove (it 1) (it 11); Insert (it 4) (it 14)]
  = [(3, true); (6, true); (9, true); (8, true)]%nat.
Proof.
  split; [exists 0, 0, 0; reflexivity|]. split; [split; vm_compute; discriminate|]. split; [|vm_compute; reflexivity].
  exists [it 2; it 1], [it 12; it 11]. repeat split.
Qed.
Example C106_extend_case : exists n, extend_within env_spread (fun h => N.land h 127) (cost_map env_spread 0)
  [(it 4, it 14); (it 1, it 12)] n /\ n = 20%nat.
Proof.
  eexists. split.
  - eapply within_cons with (ls := [it 2; it 1]) (rs := [it 12; it 11]); [vm_compute; reflexivity|vm_compute; reflexivity|].
    eapply within_cons; [vm_compute; reflexivity|vm_compute; reflexivity|]. apply within_nil.
  - vm_compute. reflexivity.
Qed.

Print Assumptions C106_budget.
Print Assumptions C106_roomy.
Print Assumptions C106_lookup.
Print Assumptions C106_extend.
Print Assumptions C106_eq.
