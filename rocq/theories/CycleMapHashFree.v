(* CycleMap: property C06, independence from hashes and table layout. *)
From Coq Require Import List NArith Lia Bool Permutation PeanoNat.
From Verif Require Import Closures Prelude RawTable Optionals CycleMap ListFacts TableFacts CycleMapSpec
  CycleMapHistory CycleMapProofs CycleMapProofs2 CycleMapProofs3 CycleMapHistoryProofs Concrete
  CycleMapProps CycleMapProps2.
Import ListNotations.
Open Scope N_scope.

Section HashFree.
  Context {L R : Type}.

  (* The results of calls whose outcome does not hang on the order of iteration: closures
     answer from the pair alone, and a drain_filter is not leaked half way. *)
  Definition order_free (o : op L R) : Prop :=
    match o with
    | Retain X f _ => exists p : L -> R -> bool, forall x l r, snd (f x l r) = Some (p l r)
    | DrainFilter X f _ _ leak =>
        leak = false /\ exists p : L -> R -> bool, forall x l r, snd (f x l r) = Some (p l r)
    | _ => True
    end.

  (* Equal results, up to the order of items; the items of an unfinished drain_filter are
     compared in number only; try_reserve may succeed or fail. *)
  Definition out_equiv (w1 w2 : out L R) : Prop :=
    match w1, w2 with
    | OPairs a, OPairs b => Permutation a b
    | OLs a, OLs b => Permutation a b
    | ORs a, ORs b => Permutation a b
    | OItems a p, OItems b q =>
        p = q /\ length (filter (fun o => match o with Some _ => true | None => false end) a) =
                 length (filter (fun o => match o with Some _ => true | None => false end) b) /\
        (In None a -> Permutation a b)
    | _, _ => w1 = w2
    end.
  Definition same_out (o : op L R) (w1 w2 : out L R) : Prop :=
    match o with
    | TryReserve _ => exists b1 b2, w1 = OBool b1 /\ w2 = OBool b2
    | _ => out_equiv w1 w2
    end.

  Variables (eL : L -> L -> bool) (eR : R -> R -> bool).
  Hypothesis EL : equivalence eL.
  Hypothesis ER : equivalence eR.
  Notation bij := (bijective eL eR).

  Lemma bij_perm : forall P Q, Permutation P Q -> bij P -> bij Q.
  Proof.
    intros P Q H [A B]. split; [apply (distinct_perm _ EL (map fst P))|apply (distinct_perm _ ER (map snd P))];
      auto using Permutation_map.
  Qed.
  Lemma distinct_map_filter : forall {A T} (e : T -> T -> bool) (k : A -> T) p l,
    distinct e (map k l) -> distinct e (map k (filter p l)).
  Proof.
    induction l; simpl; intros D; auto. apply distinct_cons in D as [A1 D].
    destruct (p a); auto. simpl. apply distinct_cons. split; auto.
    intros y Hy. apply A1. apply in_map_iff in Hy as (z & <- & Hz).
    apply filter_In in Hz as [Hz _]. apply in_map; auto.
  Qed.
  Lemma bij_filter : forall P p, bij P -> bij (filter p P).
  Proof. intros P p [A B]. split; apply distinct_map_filter; auto. Qed.
  Lemma insert_bij : forall P l r, bij P -> bij (s_insert eL eR P l r).
  Proof.
    intros P l r H. unfold s_insert.
    assert (bij (del_r eR (del_l eL P l) r)) as [A B] by (apply bij_filter, bij_filter; auto).
    split; simpl; apply distinct_cons; split; auto; intros y Hy;
      apply in_map_iff in Hy as (z & <- & Hz); unfold del_r, del_l in Hz;
      apply filter_In in Hz as [Hz X]; apply filter_In in Hz as [Hz Y].
    - apply negb_true_iff; auto.
    - apply negb_true_iff; auto.
  Qed.

  Lemma find_key_perm : forall {A T} (e : T -> T -> bool) (k : A -> T) l1 l2 q,
    equivalence e -> Permutation l1 l2 -> distinct e (map k l1) ->
    find (fun x => e q (k x)) l1 = find (fun x => e q (k x)) l2.
  Proof.
    intros A T e k l1 l2 q EQ PM D.
    destruct (split_key e EQ k l1 q D) as [(z & Z & PZ & X & Y)|N].
    - rewrite (find_perm_unique l1 z Z _ PZ X Y).
      symmetry. eapply find_perm_unique; [|exact X|exact Y]. rewrite <- PM. auto.
    - rewrite !find_all_false; auto. intros x Hx. apply N.
      eapply Permutation_in; [symmetry; exact PM|auto].
  Qed.
  Lemma find_l_perm : forall (P Q : list (L * R)) l, Permutation P Q -> bij P -> find_l eL P l = find_l eL Q l.
  Proof. intros P Q l H [A B]. apply (find_key_perm eL fst); auto. Qed.
  Lemma find_r_perm : forall (P Q : list (L * R)) r, Permutation P Q -> bij P -> find_r eR P r = find_r eR Q r.
  Proof. intros P Q r H [A B]. apply (find_key_perm eR snd); auto. Qed.
  Lemma del_l_perm : forall (P Q : list (L * R)) l, Permutation P Q -> Permutation (del_l eL P l) (del_l eL Q l).
  Proof. intros. apply filter_perm; auto. Qed.
  Lemma del_r_perm : forall (P Q : list (L * R)) l, Permutation P Q -> Permutation (del_r eR P l) (del_r eR Q l).
  Proof. intros. apply filter_perm; auto. Qed.
  Lemma s_insert_perm : forall (P Q : list (L * R)) l r, Permutation P Q ->
    Permutation (s_insert eL eR P l r) (s_insert eL eR Q l r).
  Proof. intros. constructor. apply del_r_perm, del_l_perm; auto. Qed.
  Lemma s_insert_out_perm : forall P Q l r, Permutation P Q -> bij P ->
    s_insert_out eL eR P l r = s_insert_out eL eR Q l r.
  Proof.
    intros P Q l r H B. unfold s_insert_out. rewrite (find_l_perm P Q l); auto.
    rewrite (find_r_perm (del_l eL P l) (del_l eL Q l)); auto using del_l_perm.
    apply bij_filter; auto.
  Qed.
  Lemma paired_perm : forall (P Q : list (L * R)) l r, Permutation P Q ->
    s_are_paired eL eR P l r = s_are_paired eL eR Q l r.
  Proof. intros. apply existsb_perm; auto. Qed.
  Lemma contains_l_perm : forall (P Q : list (L * R)) l, Permutation P Q ->
    s_contains_left eL P l = s_contains_left eL Q l.
  Proof. intros. apply existsb_perm; auto. Qed.
  Lemma contains_r_perm : forall (P Q : list (L * R)) r, Permutation P Q ->
    s_contains_right eR P r = s_contains_right eR Q r.
  Proof. intros. apply existsb_perm; auto. Qed.
  Lemma swap_left_perm : forall (P Q : list (L * R)) o n, Permutation P Q -> bij P ->
    Permutation (s_swap_left eL P o n) (s_swap_left eL Q o n) /\
    s_swap_left_out eL P o n = s_swap_left_out eL Q o n.
  Proof.
    intros P Q o n H B. unfold s_swap_left, s_swap_left_out, s_swap_left_evict, s_swap_left_base.
    rewrite (find_l_perm P Q o), (find_l_perm P Q n); auto. split; auto.
    destruct (find_l eL Q o) as [[a b]|]; destruct (eL n o); auto using del_l_perm.
  Qed.
  Lemma swap_right_perm : forall (P Q : list (L * R)) o n, Permutation P Q -> bij P ->
    Permutation (s_swap_right eR P o n) (s_swap_right eR Q o n) /\
    s_swap_right_out eR P o n = s_swap_right_out eR Q o n.
  Proof.
    intros P Q o n H B. unfold s_swap_right, s_swap_right_out, s_swap_right_evict, s_swap_right_base.
    rewrite (find_r_perm P Q o), (find_r_perm P Q n); auto. split; auto.
    destruct (find_r eR Q o) as [[a b]|]; destruct (eR n o); auto using del_r_perm.
  Qed.
  Lemma insert_all_perm : forall xs (P Q : list (L * R)), Permutation P Q ->
    Permutation (s_insert_all eL eR P xs) (s_insert_all eL eR Q xs).
  Proof.
    unfold s_insert_all. induction xs as [|[a b] xs IH]; simpl; intros P Q H; auto.
    apply IH. apply s_insert_perm; auto.
  Qed.

  Lemma filter_somes : forall {A} (l : list A) k n,
    filter (fun o : option A => match o with Some _ => true | None => false end)
           (firstn n (map Some l) ++ repeat None k) = firstn n (map Some l).
  Proof.
    intros A l k n. rewrite filter_app. rewrite filter_all_true, filter_all_false.
    - apply app_nil_r.
    - intros x Hx. apply repeat_spec in Hx. subst; auto.
    - intros x Hx. assert (I : In x (map Some l)).
      { rewrite <- (firstn_skipn n (map Some l)). apply in_or_app; auto. }
      apply in_map_iff in I as (y & <- & _). auto.
  Qed.
  Lemma items_equiv : forall (t1 t2 : list (L * R)) n, Permutation t1 t2 ->
    out_equiv (OItems (firstn n (map Some t1) ++ repeat None (n - length t1)) false)
              (OItems (firstn n (map Some t2) ++ repeat None (n - length t2)) false).
  Proof.
    intros t1 t2 n H. simpl. assert (LN := Permutation_length H). split; auto. split.
    - rewrite !filter_somes, !firstn_length, !map_length. lia.
    - intros I. rewrite LN. apply Permutation_app_tail.
      assert (n - length t1 <> 0)%nat.
      { intros Z. rewrite Z in I. simpl in I. rewrite app_nil_r in I.
        assert (I' : In None (map (@Some (L * R)) t1)).
        { rewrite <- (firstn_skipn n (map Some t1)). apply in_or_app; auto. }
        apply in_map_iff in I' as (y & E & _). discriminate. }
      rewrite !firstn_all2 by (rewrite map_length; lia). apply Permutation_map; auto.
  Qed.

  Lemma s_step_det : forall o P1 P2 P1' P2' w1 w2, order_free o -> bij P1 -> Permutation P1 P2 ->
    s_step eL eR P1 o P1' w1 -> s_step eL eR P2 o P2' w2 ->
    Permutation P1' P2' /\ same_out o w1 w2.
  Proof.
    intros o P1 P2 P1' P2' w1 w2 OF B H S1 S2. destruct o; simpl in S1, S2, OF.
    - destruct S1 as [-> ->], S2 as [-> ->]. split; [apply s_insert_perm; auto|].
      simpl. rewrite (s_insert_out_perm P1 P2); auto.
    - destruct S1 as [-> ->], S2 as [-> ->]. unfold s_remove, s_remove_out. simpl.
      rewrite (paired_perm P1 P2), (find_l_perm P1 P2); auto.
      split; auto. destruct (s_are_paired eL eR P2 l r); auto using del_l_perm.
    - destruct S1 as [-> ->], S2 as [-> ->]. simpl. rewrite (find_l_perm P1 P2); auto using del_l_perm.
    - destruct S1 as [-> ->], S2 as [-> ->]. simpl. rewrite (find_r_perm P1 P2); auto using del_r_perm.
    - destruct S1 as [-> ->], S2 as [-> ->].
      destruct (swap_left_perm P1 P2 old new H B) as [X ->]. simpl; auto.
    - destruct (swap_left_perm P1 P2 old new H B) as [X Y].
      rewrite (paired_perm P1 P2) in S1; auto.
      destruct (s_are_paired eL eR P2 old expected); destruct S1 as [-> ->], S2 as [-> ->];
        rewrite ?Y; simpl; auto.
    - destruct (swap_left_perm P1 P2 old new H B) as [X Y].
      rewrite (contains_l_perm P1 P2) in S1; auto.
      destruct (s_contains_left eL P2 old); destruct S1 as [-> ->], S2 as [-> ->].
      + rewrite ?Y; simpl; auto.
      + rewrite (s_insert_out_perm P1 P2); auto. simpl. split; auto. apply s_insert_perm; auto.
    - destruct S1 as [-> ->], S2 as [-> ->].
      destruct (swap_right_perm P1 P2 old new H B) as [X ->]. simpl; auto.
    - destruct (swap_right_perm P1 P2 old new H B) as [X Y].
      rewrite (paired_perm P1 P2) in S1; auto.
      destruct (s_are_paired eL eR P2 expected old); destruct S1 as [-> ->], S2 as [-> ->];
        rewrite ?Y; simpl; auto.
    - destruct (swap_right_perm P1 P2 old new H B) as [X Y].
      rewrite (contains_r_perm P1 P2) in S1; auto.
      destruct (s_contains_right eR P2 old); destruct S1 as [-> ->], S2 as [-> ->].
      + rewrite ?Y; simpl; auto.
      + rewrite (contains_l_perm P1 P2), (find_r_perm P1 P2); auto.
        split; [apply s_insert_perm; auto|]. simpl.
        destruct (s_contains_left eL P2 to_insert); simpl; auto.
    - destruct S1 as [-> ->], S2 as [-> ->]. simpl. rewrite (paired_perm P1 P2); auto.
    - destruct S1 as [-> ->], S2 as [-> ->]. simpl. rewrite (contains_l_perm P1 P2); auto.
    - destruct S1 as [-> ->], S2 as [-> ->]. simpl. rewrite (contains_r_perm P1 P2); auto.
    - destruct S1 as [-> ->], S2 as [-> ->]. simpl. unfold s_get_left.
      rewrite (find_r_perm P1 P2); auto.
    - destruct S1 as [-> ->], S2 as [-> ->]. simpl. unfold s_get_right.
      rewrite (find_l_perm P1 P2); auto.
    - destruct S1 as [-> ->], S2 as [-> ->]. simpl. rewrite (Permutation_length H); auto.
    - destruct S1 as [-> ->], S2 as [-> ->]. simpl. split; auto.
      destruct P1, P2; auto; apply Permutation_length in H; discriminate.
    - destruct S1 as (-> & Q1 & A & ->), S2 as (-> & Q2 & A' & ->). simpl. split; auto.
      rewrite A, A'. auto.
    - destruct S1 as (-> & Q1 & A & ->), S2 as (-> & Q2 & A' & ->). simpl. split; auto.
      apply Permutation_map. rewrite A, A'. auto.
    - destruct S1 as (-> & Q1 & A & ->), S2 as (-> & Q2 & A' & ->). simpl. split; auto.
      apply Permutation_map. rewrite A, A'. auto.
    - destruct S1 as [-> ->], S2 as [-> ->]. split; [apply insert_all_perm; auto|simpl; auto].
    - destruct OF as (p & Hp). destruct S1 as (Q1 & A & S1), S2 as (Q2 & A' & S2).
      destruct (s_filter_pure f p Hp Q1 x) as (x1 & F1), (s_filter_pure f p Hp Q2 x) as (x2 & F2).
      rewrite F1 in S1. rewrite F2 in S2. destruct S1 as [-> ->], S2 as [-> ->]. simpl.
      split; auto. apply filter_perm. rewrite A, A'. auto.
    - destruct S1 as (-> & Q1 & A & ->), S2 as (-> & Q2 & A' & ->). split; auto.
      assert (X : Permutation Q1 Q2) by (rewrite A, A'; auto). simpl. split; auto. split.
      + rewrite !filter_app, !app_length. simpl.
        f_equal. apply Permutation_length. apply filter_perm, Permutation_map; auto.
      + intros _. apply Permutation_app_tail, Permutation_map; auto.
    - destruct OF as (-> & p & Hp). destruct S1 as (Q1 & A & S1), S2 as (Q2 & A' & S2).
      destruct (s_filter_pure f p Hp Q1 x) as (x1 & F1), (s_filter_pure f p Hp Q2 x) as (x2 & F2).
      rewrite F1 in S1. rewrite F2 in S2. simpl in S1, S2. destruct S1 as [-> ->], S2 as [-> ->].
      assert (XX : Permutation Q1 Q2) by (rewrite A, A'; auto).
      split; [apply filter_perm; auto|]. apply items_equiv. apply filter_perm; auto.
    - destruct S1 as [-> ->], S2 as [-> ->]. simpl; auto.
    - destruct S1 as [-> ->], S2 as [-> ->]. simpl; auto.
    - destruct S1 as [-> ->], S2 as [-> ->]. simpl; auto.
    - destruct S1 as [-> ->], S2 as [-> ->]. simpl; auto.
    - destruct S1 as [-> ->], S2 as [-> ->]. simpl; auto.
    - destruct S1 as (-> & b1 & ->), S2 as (-> & b2 & ->). split; auto. simpl. eauto.
  Qed.
End HashFree.

(* Two environments with the same Eq but otherwise unrelated: hasher types, hash functions,
   hashbrown layouts, overflow checks. *)
Theorem C06_hash_independence :
  forall {L R S1 S2 : Type} (E1 : env L R S1) (E2 : env L R S2) s1 s2 ll1 lr1 ll2 lr2 ops,
    lawful E1 -> lawful E2 ->
    eqL E1 = eqL E2 -> eqR E1 = eqR E2 ->
    Forall order_free ops -> budget ops < two64 ->
    let (m1, ws1) := run E1 (with_hasher s1 ll1 lr1) ops in
    let (m2, ws2) := run E2 (with_hasher s2 ll2 lr2) ops in
    (* the same results *)
    Forall2 (fun o ww => same_out o (fst ww) (snd ww)) ops (combine ws1 ws2) /\
    length ws1 = length ops /\ length ws2 = length ops /\
    (* the same pairs *)
    (exists P1 P2, contents E1 m1 P1 /\ contents E2 m2 P2 /\ Permutation P1 P2).
Proof.
  intros L R S1 S2 E1 E2 s1 s2 ll1 lr1 ll2 lr2 ops OK1 OK2 HL HR.
  assert (G : forall ops c1 c2 m1 m2 P1 P2, Repr E1 s1 c1 m1 P1 -> Repr E2 s2 c2 m2 P2 ->
    Permutation P1 P2 -> Forall order_free ops -> c1 + budget ops < two64 -> c2 + budget ops < two64 ->
    Forall2 (fun o ww => same_out o (fst ww) (snd ww)) ops
            (combine (snd (run E1 m1 ops)) (snd (run E2 m2 ops))) /\
    length (snd (run E1 m1 ops)) = length ops /\ length (snd (run E2 m2 ops)) = length ops /\
    exists P1 P2, contents E1 (fst (run E1 m1 ops)) P1 /\ contents E2 (fst (run E2 m2 ops)) P2 /\
                  Permutation P1 P2).
  { clear ops. induction ops as [|o ops IH]; intros c1 c2 m1 m2 P1 P2 H1 H2 PM OF B1 B2.
    - simpl. repeat split; auto.
      destruct (iter_all_ok E1 OK1 _ _ _ _ H1) as (Q1 & V1 & X1).
      destruct (iter_all_ok E2 OK2 _ _ _ _ H2) as (Q2 & V2 & X2).
      exists Q1, Q2. repeat split; auto. rewrite X1, X2. auto.
    - simpl in B1, B2. inversion OF as [|? ? OF1 OF2]; subst.
      destruct (step_ok E1 OK1 s1 c1 m1 P1 o H1) as (P1' & c1' & T1 & H1' & C1); [lia|].
      destruct (step_ok E2 OK2 s2 c2 m2 P2 o H2) as (P2' & c2' & T2 & H2' & C2); [lia|].
      rewrite <- HL, <- HR in T2.
      destruct (s_step_det (eqL E1) (eqR E1) (eqL_equiv _ OK1) (eqR_equiv _ OK1)
                  o P1 P2 P1' P2' _ _ OF1 (repr_bij _ _ _ _ _ H1) PM T1 T2) as [PM' SO].
      simpl. destruct (step E1 m1 o) as [m1' w1], (step E2 m2 o) as [m2' w2].
      cbn [fst snd] in *.
      destruct (IH c1' c2' m1' m2' P1' P2') as (A & A1 & A2 & A3); auto; [lia|lia|].
      destruct (run E1 m1' ops) as [m1'' ws1], (run E2 m2' ops) as [m2'' ws2].
      cbn [fst snd combine length] in *. repeat split; auto. }
  intros OF B.
  specialize (G ops 0 0 _ _ [] [] (new_ok E1 s1 ll1 lr1) (new_ok E2 s2 ll2 lr2)
                (Permutation_refl _) OF B B).
  destruct (run E1 _ ops), (run E2 _ ops). exact G.
Qed.

(* The same history with colliding and with well-separated hashes. *)
Definition hist2 : list (op item item) :=
  [Extend [(it 1, it 10); (it 2, it 20); (it 129, it 30)]; SwapLeft (it' 1) (it 129);
   Retain unit (fun _ l r => (tt, Some (negb (fst l =? 2)))) tt; Insert (it 7) (it 70);
   GetLeft (it 10); IterAll; RemoveViaRight (it' 70); DrainAll].
Example C06_case : Forall order_free hist2 /\ budget hist2 < two64 /\
  snd (run env_collide (with_hasher 7 0 0) hist2) <> [] /\
  snd (run env_spread (with_hasher 1 5 6) hist2) =
    [OUnit; OSwapL (SomeBoth (it 1) (it 129, it 30)); OUnit; OIns Neither;
     OL (Some (it 129)); OPairs [(it 7, it 70); (it 129, it 10)]; OPair (Some (it 7, it 70));
     OItems [Some (it 129, it 10); None] false].
Proof.
  split; [|split; [vm_compute; reflexivity|split; [vm_compute; discriminate|vm_compute; reflexivity]]].
  repeat constructor. exists (fun l _ => negb (fst l =? 2)). auto.
Qed.
Print Assumptions C06_hash_independence.
