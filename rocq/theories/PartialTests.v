(* /repo/tests/partial_cycle_map_tests.rs and the doc-comment examples of
   /repo/src/partial_cycle_map.rs, run in the model (see TestKit.v). *)
From Coq Require Import List NArith Lia Bool.
From Verif Require Import Prelude RawTable Optionals PartialCycleMap Concrete TestKit.
Import ListNotations.
Open Scope N_scope.

Section Tests.
  Variable E : env N N N.
  Notation map := (pmap N N N).
  Notation T := (M map unit).
  Notation op := (optional_pair N N).

  Definition new_ (s : N) : res map unit := Ret (with_hasher s 0 0) tt.
  Definition with_ (n : N) : res map unit := Ret (with_capacity_and_hasher E n 7) tt.
  Definition collected (s : N) (l : list (N * N)) : res map unit := from_iter_pairs E s 0 0 l.
  Definition collected_ops (s : N) (l : list op) : res map unit := from_iter E s 0 0 l.
  (* /repo/tests/partial_cycle_map_tests.rs:13-17 *)
  Definition default_map : T := start (collected 1 (twins 0 10)).
  (* 19-26 *)
  Definition unpaired_map : T :=
    start (with_ 10) ;;;
    for_each (range 0 10) (fun i => insert_left E i ;;; calls (insert_right E i)).
  Definition retain_ (f : op -> bool) : T := stateless (retain E (answer f)).
  Definition retain_paired_ (f : N -> N -> bool) : T :=
    stateless (retain_paired E (answer (fun p => f (fst p) (snd p)))).
  Definition retain_unpaired_ (f : op -> bool) : T := stateless (retain_unpaired E (answer f)).
  (* map.drain(), n calls of next, drop *)
  Definition drain_ (n : nat) : M map (list op) := fun m =>
    match drain_nexts E n (drain m) with
    | Ret d l => match drain_drop E d with
                 | Ret d' _ => Ret (drain_end E m d') (somes l)
                 | Panic d' => Panic (drain_end E m d')
                 end
    | Panic d => Panic (drain_end E m d)
    end.
  (* collect() stops at the first None *)
  Fixpoint until_none {A} (l : list (option A)) : list A :=
    match l with Some a :: t => a :: until_none t | _ => [] end.
  (* map.drain_filter(f).collect(), or a for loop over it *)
  Definition drain_filter_ (f : op -> bool) : M map (list op) := fun m =>
    match df_nexts E (answer f) (len_left m + len_right m + 1) (drain_filter m, tt) with
    | Ret st l =>
        match df_drop E (answer f) st with
        | Ret st' _ => Ret (df_end m (fst st')) (until_none l)
        | Panic st' => Panic (df_end m (fst st'))
        end
    | Panic st => Panic (df_end m (fst st))
    end.
  Definition even_left (x : op) : bool :=
    match op_get_left x with Some l => l mod 2 =? 0 | None => true end.
  Definition paired m l r := are_paired E m l r.

  (* ---- /repo/tests/partial_cycle_map_tests.rs ---- *)

  (* 29-46, without the capacities; 49-53 *)
  Definition construction_test : T :=
    start (new_ 1) ;;; shows len_left 0%nat ;;; shows len_right 0%nat ;;;
    default_map ;;; shows len_left 10%nat ;;; shows len_right 10%nat ;;;
    clear E ;;; holds is_empty ;;; shows len_left 0%nat ;;; shows len_right 0%nat ;;;
    unpaired_map ;;; shows len_left 10%nat ;;; shows len_right 10%nat.
  Definition construction_capacity_test : T :=
    start (new_ 1) ;;; shows (capacity_left E) 0 ;;; shows (capacity_right E) 0 ;;;
    default_map ;;; m <- getst ;; clear E ;;;
    shows (capacity_left E) (capacity_left E m) ;;; shows (capacity_right E) (capacity_right E m).
  (* 56-69 *)
  Definition insert_test : T :=
    start (with_ 100) ;;;
    for_each (range 0 100) (fun i => gives (insert E i i) (Neither, Neither)) ;;;
    shows len_left 100%nat ;;; shows len_right 100%nat ;;;
    holds (fun m => okay (paired_rest E m (iter_paired m)) (forallb (fun p => fst p =? snd p))).
  (* 72-84 *)
  Definition get_tests : T :=
    default_map ;;;
    holds (fun m => contains_left E m 0) ;;; holds (fun m => contains_right E m 0) ;;;
    shows (fun m => get_left E m 42) None ;;; shows (fun m => get_left E m 0) (Some 0) ;;;
    shows (fun m => get_right E m 42) None ;;; shows (fun m => get_right E m 0) (Some 0).
  (* 87-106 *)
  Definition remove_tests : T :=
    default_map ;;; gives (remove E 42 42) None ;;; gives (remove E 0 0) (Some (0, 0)) ;;;
    default_map ;;; gives (remove_via_right E 42) Neither ;;; gives (remove_via_right E 0) (SomeBoth 0 0) ;;;
    default_map ;;; gives (remove_via_left E 42) Neither ;;; gives (remove_via_left E 0) (SomeBoth 0 0).
  (* 109-132 *)
  Definition swap_left_not_found_test : T :=
    default_map ;;; gives (swap_left E 101 102) Neither ;;;
    default_map ;;; gives (swap_left E 0 101) (SomeLeft 0) ;;;
    shows (fun m => get_right E m 101) (Some 0) ;;;
    default_map ;;; gives (swap_left E 0 1) (SomeBoth 0 (SomeBoth 1 1)) ;;;
    shows (fun m => get_right E m 1) (Some 0).
  (* 135-149 *)
  Definition swap_left_checked_test : T :=
    default_map ;;; gives (swap_left_checked E 0 1 2) Neither ;;;
    gives (swap_left_checked E 0 0 101) (SomeLeft 0).
  (* 152-168 *)
  Definition swap_left_or_insert_tests : T :=
    default_map ;;; gives (swap_left_or_insert E 0 101 0) (SomeLeft 0) ;;;
    default_map ;;; gives (swap_left_or_insert E 101 102 102) Neither.
  (* 171-200 *)
  Definition swap_right_not_found_test : T :=
    default_map ;;; gives (swap_right E 101 102) Neither ;;;
    default_map ;;; gives (swap_right E 0 101) (SomeLeft 0) ;;;
    shows (fun m => get_left E m 101) (Some 0) ;;;
    default_map ;;; gives (swap_right E 0 1) (SomeBoth 0 (SomeBoth 1 1)) ;;;
    shows (fun m => get_left E m 1) (Some 0).
  (* 203-217 *)
  Definition swap_right_checked_test : T :=
    default_map ;;; gives (swap_right_checked E 1 0 2) Neither ;;;
    gives (swap_right_checked E 0 0 101) (SomeLeft 0).
  (* 220-235 *)
  Definition swap_right_or_insert_tests : T :=
    default_map ;;; gives (swap_right_or_insert E 0 101 0) (SomeLeft 0) ;;;
    default_map ;;; gives (swap_right_or_insert E 101 102 102) Neither.
  (* 239-254 (also 275-290, 303-318) *)
  Definition thirds : T :=
    start (with_ 100) ;;;
    for_each (range 0 34) (fun i => gives (insert E i i) (Neither, Neither)) ;;;
    for_each (range 34 67) (fun i => gives (insert_left E i) Neither) ;;;
    for_each (range 67 100) (fun i => gives (insert_right E i) Neither) ;;;
    shows len_left 67%nat ;;; shows len_right 67%nat.
  (* 238-271: the items for which the closure answers true go *)
  Definition retain_test : T :=
    thirds ;;; retain_ even_left ;;; shows len_left 33%nat ;;; shows len_right 50%nat ;;;
    holds (fun m => okay (iter_all E m) (forallb (fun x =>
      match x with SomeLeft v | SomeBoth v _ => v mod 2 =? 1 | _ => true end))).
  (* 274-299 *)
  Definition retain_paired_test : T :=
    thirds ;;; retain_paired_ (fun l _ => l mod 2 =? 0) ;;;
    shows len_left 50%nat ;;; shows len_right 50%nat ;;;
    holds (fun m => okay (iter_all E m) (forallb (fun x =>
      match x with SomeBoth v _ => v mod 2 =? 1 | _ => true end))).
  (* 302-333 *)
  Definition retain_unpaired_test : T :=
    thirds ;;; retain_unpaired_ even_left ;;; shows len_left 50%nat ;;; shows len_right 34%nat ;;;
    holds (fun m => okay (iter_all E m) (forallb (fun x =>
      match x with SomeLeft v => v mod 2 =? 1 | _ => true end))).
  (* 336-370 *)
  Definition iter_tests : T :=
    default_map ;;; yields (fun m => iter_len E m (iter m)) 10%nat ;;;
    l <- reading (iter_all E) ;; m <- getst ;;
    start (collected_ops 5 l) ;;; yields (fun c => map_eq E c m) true ;;;
    default_map ;;; shows (fun m => single_len (iter_left m)) 10%nat ;;;
    shows (fun m => List.map (fun p => value (snd p)) (iter_left m)) (range 0 10) ;;;
    shows (fun m => single_len (iter_right m)) 10%nat ;;;
    shows (fun m => List.map (fun p => value (snd p)) (iter_right m)) (range 0 10).
  (* 373-395 *)
  Definition paired_iter_tests : T :=
    default_map ;;; yields (fun m => paired_len E m (iter_paired m)) 10%nat ;;;
    l <- reading (fun m => paired_rest E m (iter_paired m)) ;; m <- getst ;;
    start (collected 5 l) ;;; yields (fun c => map_eq E c m) true ;;;
    unpaired_map ;;; yields (fun m => paired_len E m (iter_paired m)) 0%nat ;;;
    l <- reading (fun m => paired_rest E m (iter_paired m)) ;;
    start (collected 5 l) ;;; yields (fun c => map_eq E c (with_hasher 6 0 0)) true.
  (* 398-420 *)
  Definition unpaired_iter_tests : T :=
    unpaired_map ;;; yields (fun m => unpaired_len (iter_unpaired m)) 20%nat ;;;
    l <- reading (fun m => unpaired_rest (iter_unpaired m)) ;; m <- getst ;;
    start (collected_ops 5 l) ;;; yields (fun c => map_eq E c m) true ;;;
    default_map ;;; yields (fun m => unpaired_len (iter_unpaired m)) 0%nat ;;;
    l <- reading (fun m => unpaired_rest (iter_unpaired m)) ;;
    start (collected_ops 5 l) ;;; yields (fun c => map_eq E c (with_hasher 6 0 0)) true.
  (* 423-438 *)
  Definition five_paired : T :=
    unpaired_map ;;; for_each (range 0 5) (fun i => gives (pair E i i) true).
  Definition pairing_tests : T :=
    five_paired ;;; for_each (range 0 5) (fun i => gives (pair E i (i + 5)) false) ;;;
    for_each (range 0 10) (fun i => shows (fun m => paired m i i) (i <? 5)).
  (* 441-460 *)
  Definition unpair_tests : T :=
    five_paired ;;;
    gives (unpair E 10 0) false ;;; gives (unpair E 0 10) false ;;; gives (unpair E 10 10) false ;;;
    gives (unpair E 0 5) false ;;; gives (unpair E 5 0) false ;;; gives (unpair E 5 5) false ;;;
    gives (unpair E 0 0) true ;;; fails (fun m => paired m 0 0).
  (* 463-483 *)
  Definition remove_left_tests : T :=
    five_paired ;;; gives (remove_left E 10) None ;;;
    gives (remove_left E 0) (Some 0) ;;; fails (fun m => contains_left E m 0) ;;;
    holds (fun m => contains_right E m 0) ;;;
    gives (remove_left E 5) (Some 5) ;;; fails (fun m => contains_left E m 5).
  (* 486-506 *)
  Definition remove_right_tests : T :=
    five_paired ;;; gives (remove_right E 10) None ;;;
    gives (remove_right E 0) (Some 0) ;;; fails (fun m => contains_right E m 0) ;;;
    holds (fun m => contains_left E m 0) ;;;
    gives (remove_right E 5) (Some 5) ;;; fails (fun m => contains_right E m 5).
  (* 509-547 *)
  Definition forced_pairing_tests : T :=
    let all l p := holds (fun m => forallb (p m) l) in
    unpaired_map ;;;
    for_each (range 0 5) (fun i => gives (pair_forced E i i) Neither) ;;;
    all (range 0 5) (fun m i => paired m i i) ;;;
    for_each (range 0 5) (fun i => gives (pair_forced E i (i + 5)) (SomeRight i)) ;;;
    all (range 0 5) (fun m i => negb (paired m i i)) ;;;
    all (range 0 5) (fun m i => paired m i (i + 5)) ;;;
    for_each (range 5 10) (fun i => gives (pair_forced E i i) (SomeLeft (i - 5))) ;;;
    all (range 0 5) (fun m i => negb (paired m i (i + 5))) ;;;
    all (range 5 10) (fun m i => paired m i i) ;;;
    for_each (range 0 10) (fun i => calls (pair_forced E i i)) ;;;
    for_each (range 0 5) (fun i => gives (pair_forced E i (i + 5)) (SomeBoth (i + 5) i)) ;;;
    all (range 0 5) (fun m i => paired m i (i + 5)) ;;;
    all (range 0 10) (fun m i => negb (paired m i i)) ;;;
    all (range 5 10) (fun m i => negb (is_left_paired E m i)) ;;;
    all (range 0 5) (fun m i => negb (is_right_paired E m i)).
  (* 550-590 *)
  Definition forced_removed_pairing_tests : T :=
    let all l p := holds (fun m => forallb (p m) l) in
    unpaired_map ;;;
    for_each (range 0 5) (fun i => gives (pair_forced_remove E i i) Neither) ;;;
    all (range 0 5) (fun m i => paired m i i) ;;;
    for_each (range 0 5) (fun i => gives (pair_forced_remove E i (i + 5)) (SomeRight i)) ;;;
    all (range 0 5) (fun m i => negb (paired m i i)) ;;;
    all (range 0 5) (fun m i => paired m i (i + 5)) ;;;
    for_each (range 5 10) (fun i => gives (pair_forced_remove E i i) (SomeLeft (i - 5))) ;;;
    all (range 0 5) (fun m i => negb (paired m i (i + 5))) ;;;
    all (range 5 10) (fun m i => paired m i i) ;;;
    unpaired_map ;;;
    for_each (range 0 10) (fun i => calls (pair_forced_remove E i i)) ;;;
    for_each (range 0 5) (fun i => gives (pair_forced_remove E i (i + 5)) (SomeBoth (i + 5) i)) ;;;
    all (range 0 5) (fun m i => paired m i (i + 5)) ;;;
    all (range 0 10) (fun m i => negb (paired m i i)) ;;;
    all (range 5 10) (fun m i => negb (is_left_paired E m i)) ;;;
    all (range 0 5) (fun m i => negb (is_right_paired E m i)).
  (* 593-659, without the capacities *)
  Definition five_forced : T :=
    unpaired_map ;;; for_each (range 0 5) (fun i => gives (pair_forced_remove E i i) Neither).
  Definition halved (odd : N) : T :=
    unpaired_map ;;;
    for_each (range 0 10) (fun i =>
      if i mod 2 =? odd then calls (remove_via_right E i)
      else if i <? 5 then gives (pair_forced_remove E i i) Neither else ret tt).
  Definition drain_tests : T :=
    five_forced ;;; new_map <- getst ;;
    l <- drain_ 21 ;;
    shows len_left 0%nat ;;; shows len_right 0%nat ;;;
    start (collected_ops 5 l) ;;; yields (fun other => map_eq E other new_map) true ;;;
    halved 0 ;;; new_map_one <- getst ;; halved 1 ;;; new_map_two <- getst ;;
    five_forced ;;;
    l <- drain_filter_ (fun x => match op_get_right x with Some r => r mod 2 =? 0 | None => false end) ;;
    shows len_left 7%nat ;;; shows len_right 5%nat ;;;
    yields (fun m => map_eq E m new_map_one) true ;;;
    start (collected_ops 5 l) ;;; yields (fun other => map_eq E other new_map_two) true.
  (* 613-614; that drain_filter keeps the capacity (655-656) depends on where hashbrown leaves
     tombstones, and is left out *)
  Definition drain_capacity_tests : T :=
    five_forced ;;; m <- getst ;;
    drain_ 21 ;;;
    shows (capacity_left E) (capacity_left E m) ;;; shows (capacity_right E) (capacity_right E m).
  (* 662-665 *)
  Definition misc_tests : T := default_map ;;; fails (fun m => paired m 0 1).
  (* 668-708 *)
  Definition shrink_tests : T :=
    let within (lo hi : N) := holds (fun m => (lo <=? capacity_left E m) && (capacity_left E m <=? hi) &&
                                    (lo <=? capacity_right E m) && (capacity_right E m <=? hi)) in
    start (with_ 100) ;;; m <- getst ;;
    let cap := capacity_left E m in
    insert E 1 2 ;;; insert E 3 4 ;;;
    shows (capacity_left E) cap ;;; shows (capacity_right E) cap ;;;
    shrink_to_left E 10 ;;; shrink_to_right E 10 ;;; within 10 cap ;;;
    shrink_to_left E 0 ;;; shrink_to_right E 0 ;;; within 2 cap ;;;
    shrink_to_left E 10 ;;; shrink_to_right E 10 ;;; within 2 cap ;;;
    start (with_ 100) ;;; insert E 1 2 ;;; insert E 3 4 ;;;
    shows (capacity_left E) cap ;;; shows (capacity_right E) cap ;;; within 10 cap ;;;
    shrink_to_fit E ;;; within 2 10.
  (* 711-732 *)
  Definition reserve_tests : T :=
    start (new_ 1) ;;; shows (capacity_left E) 0 ;;;
    reserve_left E 10 ;;; fails (fun m => capacity_left E m =? 0) ;;;
    reserve_right E 10 ;;; fails (fun m => capacity_right E m =? 0) ;;;
    start (new_ 1) ;;; shows (capacity_left E) 0 ;;; shows (capacity_right E) 0 ;;;
    gives (try_reserve_left E 10) true ;;; fails (fun m => capacity_left E m =? 0) ;;;
    gives (try_reserve_right E 10) true ;;; fails (fun m => capacity_right E m =? 0).
  (* 735-739 *)
  Definition eq_test : T :=
    default_map ;;; m <- getst ;;
    start (collected 4 (twins 0 10)) ;;; yields (fun m' => map_eq E (clone m) m') true ;;;
    yields (fun m' => map_eq E m' m) true.

  (* ---- doc comments of /repo/src/partial_cycle_map.rs ---- *)

  Definition one : T := start (new_ 3) ;;; calls (insert E 1 1).
  Definition five : T := start (collected 2 (twins 0 5)).
  (* 59-95 *)
  Definition doc_59 : T :=
    start (collected_ops 2 (List.map (fun i => SomeBoth i i) (range 0 6) ++
                            List.map SomeLeft (range 6 10))) ;;;
    shows len_left 10%nat ;;; shows len_right 6%nat ;;;
    fails (fun m => contains_right E m 7) ;;; shows (fun m => get_left E m 7) None ;;;
    shows (fun m => get_right E m 3) (Some 3) ;;;
    holds (fun m => paired m 4 4) ;;; gives (remove_right E 4) (Some 4) ;;;
    gives (unpair E 3 3) true ;;; fails (fun m => paired m 3 3) ;;;
    gives (pair E 3 3) true ;;; holds (fun m => paired m 3 3).
  (* 141-161 *)
  Definition doc_141 : T :=
    five ;;; gives (insert E 5 5) (Neither, Neither) ;;;
    gives (insert E 0 6) (SomeBoth 0 0, Neither) ;;;
    gives (insert E 7 1) (Neither, SomeBoth 1 1) ;;;
    gives (insert E 2 3) (SomeBoth 2 2, SomeBoth 3 3).
  (* 203-266 *)
  Definition doc_203 : T :=
    five ;;; gives (insert_left E 5) Neither ;;; gives (insert_left E 5) (SomeLeft 5) ;;;
    gives (insert_left E 0) (SomeBoth 0 0) ;;;
    five ;;; gives (insert_right E 5) Neither ;;; gives (insert_right E 5) (SomeRight 5) ;;;
    gives (insert_right E 0) (SomeBoth 0 0).
  Definition loose : T :=
    start (new_ 3) ;;; insert_left E 1 ;;; insert_left E 2 ;;; insert_right E 1 ;;;
    calls (insert_right E 2).
  (* 293-309 *)
  Definition doc_293 : T :=
    loose ;;; fails (fun m => paired m 1 1) ;;; gives (pair E 1 1) true ;;;
    holds (fun m => paired m 1 1) ;;; gives (pair E 1 2) false.
  (* 337-357 *)
  Definition doc_337 : T :=
    loose ;;; fails (fun m => paired m 1 1) ;;; gives (pair_forced E 1 1) Neither ;;;
    holds (fun m => paired m 1 1) ;;; gives (pair_forced E 1 2) (SomeRight 1) ;;;
    holds (fun m => paired m 1 2) ;;; fails (fun m => paired m 1 1).
  (* 437-457 *)
  Definition doc_437 : T :=
    loose ;;; fails (fun m => paired m 1 1) ;;; gives (pair_forced_remove E 1 1) Neither ;;;
    holds (fun m => paired m 1 1) ;;; gives (pair_forced_remove E 1 2) (SomeRight 1) ;;;
    holds (fun m => paired m 1 2) ;;; fails (fun m => paired m 1 1).
  (* 534-549 *)
  Definition doc_534 : T :=
    one ;;; insert_left E 2 ;;; insert_right E 2 ;;;
    gives (unpair E 1 1) true ;;; fails (fun m => paired m 1 1) ;;;
    fails (fun m => paired m 2 2) ;;; gives (unpair E 2 2) false.
  (* 602-654 *)
  Definition doc_602 : T :=
    one ;;; holds (fun m => paired m 1 1) ;;; fails (fun m => paired m 2 1) ;;;
    fails (fun m => paired m 2 2) ;;;
    one ;;; insert_left E 2 ;;; holds (fun m => contains_left E m 1) ;;;
    holds (fun m => contains_left E m 2) ;;; fails (fun m => contains_left E m 3) ;;;
    one ;;; insert_right E 2 ;;; holds (fun m => contains_right E m 1) ;;;
    holds (fun m => contains_right E m 2) ;;; fails (fun m => contains_right E m 3).
  (* 663-775 *)
  Definition doc_663 : T :=
    one ;;; gives (remove E 1 1) (Some (1, 1)) ;;; gives (remove E 1 1) None ;;;
    one ;;; insert_left E 2 ;;; gives (remove_left E 1) (Some 1) ;;;
    holds (fun m => contains_right E m 1) ;;;
    one ;;; insert_left E 2 ;;; gives (remove_via_left E 1) (SomeBoth 1 1) ;;;
    gives (remove_via_left E 2) (SomeLeft 2) ;;; gives (remove_via_left E 3) Neither ;;;
    one ;;; insert_right E 2 ;;; gives (remove_right E 1) (Some 1) ;;;
    holds (fun m => contains_left E m 1) ;;;
    one ;;; insert_right E 2 ;;; gives (remove_via_right E 1) (SomeBoth 1 1) ;;;
    gives (remove_via_right E 2) (SomeRight 2) ;;; gives (remove_via_right E 3) Neither.
  (* 826-841 *)
  Definition doc_826 : T :=
    one ;;; insert E 2 2 ;;; insert_left E 3 ;;;
    gives (swap_left E 1 0) (SomeLeft 1) ;;; gives (swap_left E 2 3) (SomeBoth 2 (SomeLeft 3)) ;;;
    gives (swap_left E 4 5) Neither.
  (* 894-937; the map is empty *)
  Definition doc_894 : T :=
    start (new_ 3) ;;; a <- swap_left_checked E 1 1 2 ;;
    m <- getst ;; b <- (if paired m 1 1 then swap_left E 1 2 else ret Neither) ;; assert_eq a b ;;;
    start (new_ 3) ;;; swap_left_or_insert E 1 2 1 ;;;
    m <- getst ;;
    if negb (contains_left E m 1) then calls (swap_left E 1 2) else calls (insert E 2 1).
  (* 981-996 *)
  Definition doc_981 : T :=
    one ;;; insert E 2 2 ;;; insert_right E 3 ;;;
    gives (swap_right E 1 0) (SomeLeft 1) ;;; gives (swap_right E 2 3) (SomeBoth 2 (SomeRight 3)) ;;;
    gives (swap_right E 4 5) Neither.
  (* 1049-1092; the map is empty *)
  Definition doc_1049 : T :=
    start (new_ 3) ;;; a <- swap_right_checked E 1 1 2 ;;
    m <- getst ;; b <- (if paired m 1 1 then swap_right E 1 2 else ret Neither) ;; assert_eq a b ;;;
    start (new_ 3) ;;; swap_right_or_insert E 1 2 1 ;;;
    m <- getst ;;
    if negb (contains_right E m 1) then calls (swap_right E 1 2) else calls (insert E 2 1).
  (* 1136-1173 *)
  Definition doc_1136 : T :=
    one ;;; insert_right E 2 ;;; shows (fun m => get_left E m 1) (Some 1) ;;;
    shows (fun m => get_left E m 2) None ;;; shows (fun m => get_left E m 3) None ;;;
    one ;;; insert_left E 2 ;;; shows (fun m => get_right E m 1) (Some 1) ;;;
    shows (fun m => get_right E m 2) None ;;; shows (fun m => get_right E m 3) None.
  (* 1234-1293 *)
  Definition doc_1234 : T :=
    five ;;; holds (fun m => okay (iter_all E m) (forallb (fun x =>
      match x with Neither => false | _ => true end))) ;;;
    holds (fun m => okay (unpaired_rest (iter_unpaired m)) (forallb (fun x =>
      match x with SomeLeft _ | SomeRight _ => true | _ => false end))).
  (* 1345-1365, without the capacity *)
  Definition doc_1345 : T :=
    one ;;; insert E 2 2 ;;; l <- drain_ 1 ;;
    assert (forallb (fun x => match x with
                              | SomeBoth l r => ((l =? 1) || (l =? 2)) && ((r =? 1) || (r =? 2))
                              | _ => false end) l) ;;;
    holds is_empty.
  Definition doc_1345_capacity : T :=
    one ;;; insert E 2 2 ;;; m <- getst ;; drain_ 1 ;;; shows (capacity_left E) (capacity_left E m).
  Definition fifty : T :=
    start (collected 2 (twins 0 50)) ;;; extend E (List.map SomeLeft (range 50 100)).
  Definition just_left (x : op) : bool := match x with SomeLeft _ => true | _ => false end.
  (* 1387-1400 *)
  Definition doc_1387 : T :=
    fifty ;;; l <- drain_filter_ just_left ;;
    assert (forallb (fun x => is_some (op_get_left x) && negb (is_some (op_get_right x))) l) ;;;
    shows len_left 50%nat.
  (* 1423-1433 *)
  Definition doc_1423 : T := fifty ;;; retain_ just_left ;;; shows len_left 50%nat.
  (* 1475-1485 *)
  Definition doc_1475 : T :=
    fifty ;;; retain_paired_ (fun l _ => l mod 2 =? 0) ;;; shows len_left 75%nat.
  (* 1508-1518 *)
  Definition doc_1508 : T :=
    fifty ;;; retain_unpaired_ (fun x => match x with SomeLeft l => l mod 2 =? 0 | _ => true end) ;;;
    shows len_left 75%nat.
  (* 1566-1625, 1835-1852; 1592-1605 shrinks the left table and looks at the right one *)
  Definition doc_1566 : T :=
    start (with_ 100) ;;; insert E 1 2 ;;; insert E 3 4 ;;;
    holds (fun m => 100 <=? capacity_left E m) ;;; holds (fun m => 100 <=? capacity_right E m) ;;;
    shrink_to_left E 10 ;;;
    holds (fun m => 10 <=? capacity_left E m) ;;; holds (fun m => 10 <=? capacity_right E m) ;;;
    shrink_to_left E 0 ;;;
    holds (fun m => 2 <=? capacity_left E m) ;;; holds (fun m => 2 <=? capacity_right E m) ;;;
    shrink_to_left E 10 ;;;
    holds (fun m => 2 <=? capacity_left E m) ;;; holds (fun m => 2 <=? capacity_right E m) ;;;
    start (with_ 100) ;;; insert E 1 2 ;;; insert E 3 4 ;;; shrink_to_fit E ;;;
    holds (fun m => 2 <=? capacity_left E m).
  (* 1861-1918 *)
  Definition doc_1861 : T :=
    start (new_ 3) ;;; shows len_left 0%nat ;;; insert E 1 1 ;;; insert_left E 2 ;;;
    shows len_left 2%nat ;;;
    start (new_ 3) ;;; shows len_right 0%nat ;;; insert E 1 1 ;;; insert_right E 2 ;;;
    shows len_right 2%nat ;;;
    start (new_ 3) ;;; holds is_empty ;;; insert E 1 1 ;;; shows len_left 1%nat ;;; fails is_empty ;;;
    start (new_ 3) ;;; holds is_empty ;;; insert E 1 1 ;;; fails is_empty ;;;
    clear E ;;; holds is_empty.

  Definition all_tests : list T :=
    [construction_test; insert_test; get_tests; remove_tests; swap_left_not_found_test;
     swap_left_checked_test; swap_left_or_insert_tests; swap_right_not_found_test;
     swap_right_checked_test; swap_right_or_insert_tests; retain_test; retain_paired_test;
     retain_unpaired_test; iter_tests; paired_iter_tests; unpaired_iter_tests; pairing_tests;
     unpair_tests; remove_left_tests; remove_right_tests; forced_pairing_tests;
     forced_removed_pairing_tests; drain_tests; misc_tests; eq_test; doc_59; doc_141; doc_203;
     doc_293; doc_337; doc_437; doc_534; doc_602; doc_663; doc_826; doc_894; doc_981; doc_1049;
     doc_1136; doc_1234; doc_1345; doc_1387; doc_1423; doc_1475; doc_1508; doc_1861].
  Definition capacity_tests : list T :=
    [construction_capacity_test; drain_capacity_tests; shrink_tests; reserve_tests;
     doc_1345_capacity; doc_1566].
  Definition verdicts (ts : list T) : list bool :=
    List.map (fun t => passed (t (with_hasher 0 0 0))) ts.
End Tests.

Example tests_pass : forallb (fun E => forallb id (verdicts (all_tests E))) worlds = true.
Proof. vm_compute. reflexivity. Qed.
Example capacity_tests_pass :
  forallb (fun E => forallb id (verdicts (capacity_tests E))) counting = true.
Proof. vm_compute. reflexivity. Qed.
