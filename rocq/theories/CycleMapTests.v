(* /repo/tests/cycle_map_tests.rs and the doc-comment examples of /repo/src/cycle_map.rs, run in
   the model (see TestKit.v). *)
From Coq Require Import List NArith Lia Bool.
From Verif Require Import Prelude RawTable Optionals CycleMap Concrete TestKit.
Import ListNotations.
Open Scope N_scope.

Section Tests.
  Variable E : env N N N.
  Notation map := (cmap N N N).
  Notation T := (M map unit).

  (* CycleMap::new(), ::with_capacity(n), collect() of pairs; every map has a hasher of its own *)
  Definition new_ (s : N) : res map unit := Ret (with_hasher s 0 0) tt.
  Definition with_ (n : N) : res map unit := Ret (with_capacity_and_hasher E n 7) tt.
  Definition collected (s : N) (l : list (N * N)) : res map unit := from_iter E s 0 0 l.
  Definition default_map : T := start (collected 1 (twins 0 10)).
  Definition iter_ok (p : N * N -> bool) : T := holds (fun m => okay (iter_all E m) (forallb p)).
  Definition retain_ (f : N -> N -> bool) : T :=
    stateless (retain E (fun x l r => (x, Some (f l r)))).
  (* map.drain(), n calls of next *)
  Definition drain_ (n : nat) : M map (list (N * N)) := fun m =>
    match drain_nexts E n (drain m) with
    | Ret d l => Ret (drain_end E m d) (somes l)
    | Panic d => Panic (drain_end E m d)
    end.
  (* map.drain_filter(f), n calls of next, drop *)
  Definition drain_filter_ (f : N -> N -> bool) (n : nat) : M map (list (N * N)) := fun m =>
    match df_nexts E (fun x l r => (x, Some (f l r))) n (drain_filter m, tt) with
    | Ret st l =>
        match df_drop E (fun x l r => (x, Some (f l r))) st with
        | Ret st' _ => Ret (df_end m (fst st')) (somes l)
        | Panic st' => Panic (df_end m (fst st'))
        end
    | Panic st => Panic (df_end m (fst st))
    end.

  (* ---- /repo/tests/cycle_map_tests.rs ---- *)

  (* 21-32, without the capacities *)
  Definition construction_test : T :=
    start (new_ 1) ;;; shows len 0%nat ;;;
    default_map ;;; shows len 10%nat ;;;
    clear E ;;; holds is_empty ;;; shows len 0%nat.
  (* 21-32, the capacities *)
  Definition construction_capacity_test : T :=
    start (new_ 1) ;;; shows (capacity E) 0 ;;;
    default_map ;;; m <- getst ;; clear E ;;; shows (capacity E) (capacity E m).
  (* 35-47 *)
  Definition insert_test : T :=
    start (with_ 100) ;;;
    for_each (range 0 100) (fun i => gives (insert E i i) Neither) ;;;
    shows len 100%nat ;;; iter_ok (fun p => fst p =? snd p).
  (* 50-62 *)
  Definition get_tests : T :=
    default_map ;;;
    holds (fun m => contains_left E m 0) ;;; holds (fun m => contains_right E m 0) ;;;
    shows (fun m => get_left E m 42) None ;;; shows (fun m => get_left E m 0) (Some 0) ;;;
    shows (fun m => get_right E m 42) None ;;; shows (fun m => get_right E m 0) (Some 0).
  (* 65-84 *)
  Definition remove_tests : T :=
    default_map ;;; gives (remove E 42 42) None ;;; gives (remove E 0 0) (Some (0, 0)) ;;;
    default_map ;;; gives (remove_via_right E 42) None ;;; gives (remove_via_right E 0) (Some (0, 0)) ;;;
    default_map ;;; gives (remove_via_left E 42) None ;;; gives (remove_via_left E 0) (Some (0, 0)).
  (* 87-110 *)
  Definition swap_left_not_found_test : T :=
    default_map ;;; gives (swap_left E 101 102) Neither ;;;
    default_map ;;; gives (swap_left E 0 101) (SomeLeft 0) ;;;
    shows (fun m => get_right E m 101) (Some 0) ;;;
    default_map ;;; gives (swap_left E 0 1) (SomeBoth 0 (1, 1)) ;;;
    shows (fun m => get_right E m 1) (Some 0).
  (* 113-127 *)
  Definition swap_left_checked_test : T :=
    default_map ;;; gives (swap_left_checked E 0 1 2) Neither ;;;
    gives (swap_left_checked E 0 0 101) (SomeLeft 0).
  (* 130-146 *)
  Definition swap_left_or_insert_tests : T :=
    default_map ;;; gives (swap_left_or_insert E 0 101 0) (SomeLeft 0) ;;;
    default_map ;;; gives (swap_left_or_insert E 101 102 102) Neither.
  (* 149-178 *)
  Definition swap_right_not_found_test : T :=
    default_map ;;; gives (swap_right E 101 102) Neither ;;;
    default_map ;;; gives (swap_right E 0 101) (SomeLeft 0) ;;;
    shows (fun m => get_left E m 101) (Some 0) ;;;
    default_map ;;; gives (swap_right E 0 1) (SomeBoth 0 (1, 1)) ;;;
    shows (fun m => get_left E m 1) (Some 0).
  (* 181-195 *)
  Definition swap_right_checked_test : T :=
    default_map ;;; gives (swap_right_checked E 1 0 2) Neither ;;;
    gives (swap_right_checked E 0 0 101) (SomeLeft 0).
  (* 198-213 *)
  Definition swap_right_or_insert_tests : T :=
    default_map ;;; gives (swap_right_or_insert E 0 101 0) (SomeLeft 0) ;;;
    default_map ;;; gives (swap_right_or_insert E 101 102 102) Neither.
  (* 216-229 *)
  Definition retain_test : T :=
    start (with_ 100) ;;;
    for_each (range 0 100) (fun i => gives (insert E i i) Neither) ;;;
    shows len 100%nat ;;;
    retain_ (fun x _ => x mod 2 =? 0) ;;; shows len 50%nat ;;;
    iter_ok (fun p => fst p mod 2 =? 0).
  (* 232-266; the map collected from the iterator has its own hasher *)
  Definition iter_tests : T :=
    default_map ;;; shows (fun m => iter_len (iter m)) 10%nat ;;;
    shows (fun m => iter_len (iter_clone (iter m))) 10%nat ;;;
    l <- reading (iter_all E) ;;
    m <- getst ;;
    start (collected 5 l) ;;; yields (fun c => map_eq E c m) true ;;;
    default_map ;;; shows (fun m => single_len (iter_left m)) 10%nat ;;;
    shows (fun m => List.map (fun p => value (snd p)) (iter_left m)) (range 0 10) ;;;
    shows (fun m => single_len (iter_right m)) 10%nat ;;;
    shows (fun m => List.map (fun p => value (snd p)) (iter_right m)) (range 0 10).
  (* 269-283, without the capacity *)
  Definition drain_tests : T :=
    start (collected 2 (twins 0 100)) ;;;
    l <- drain_ 101 ;; shows len 0%nat ;;;
    start (collected 3 l) ;;; shows len 100%nat ;;;
    start (collected 2 (twins 0 100)) ;;;
    l <- drain_filter_ (fun l _ => l mod 2 =? 0) 51 ;; shows len 50%nat ;;;
    start (collected 3 l) ;;; shows len 50%nat ;;; iter_ok (fun p => fst p mod 2 =? 0).
  (* 271-274 *)
  Definition drain_capacity_tests : T :=
    start (collected 2 (twins 0 100)) ;;; m <- getst ;;
    drain_ 101 ;;; shows (capacity E) (capacity E m).
  (* 286-290 *)
  Definition eq_test : T :=
    default_map ;;; m <- getst ;;
    start (collected 4 (twins 0 10)) ;;; yields (fun m' => map_eq E (clone m) m') true ;;;
    yields (fun m' => map_eq E m' m) true.
  (* 293-318 *)
  Definition shrink_tests : T :=
    start (with_ 100) ;;; m <- getst ;;
    let cap := capacity E m in
    insert E 1 2 ;;; insert E 3 4 ;;; shows (capacity E) cap ;;;
    shrink_to E 10 ;;;
    holds (fun m => 10 <=? capacity E m) ;;; holds (fun m => capacity E m <=? cap) ;;;
    shrink_to E 0 ;;;
    holds (fun m => 2 <=? capacity E m) ;;; holds (fun m => capacity E m <=? cap) ;;;
    shrink_to E 10 ;;;
    holds (fun m => 2 <=? capacity E m) ;;; holds (fun m => capacity E m <=? cap) ;;;
    start (with_ 100) ;;; insert E 1 2 ;;; insert E 3 4 ;;; shows (capacity E) cap ;;;
    holds (fun m => 10 <=? capacity E m) ;;;
    shrink_to_fit E ;;;
    holds (fun m => 2 <=? capacity E m) ;;; holds (fun m => capacity E m <=? 10).
  (* 321-335 *)
  Definition reserve_tests : T :=
    start (new_ 1) ;;; shows (capacity E) 0 ;;;
    reserve E 10 ;;; fails (fun m => capacity E m =? 0) ;;;
    start (new_ 1) ;;; shows (capacity E) 0 ;;;
    gives (try_reserve E 10) true ;;; fails (fun m => capacity E m =? 0).
  (* 344-348 *)
  Definition misc_tests : T := default_map ;;; fails (fun m => are_paired E m 0 1).

  (* ---- doc comments of /repo/src/cycle_map.rs ---- *)

  Definition one : T := start (new_ 3) ;;; calls (insert E 1 1).
  Definition hundred : T := start (collected 2 (twins 0 100)).
  (* 56-87; "three" is 3 *)
  Definition doc_56 : T :=
    start (collected 2 (twins 0 10)) ;;; shows len 10%nat ;;;
    shows (fun m => get_left E m 7) (Some 7) ;;; shows (fun m => get_right E m 3) (Some 3) ;;;
    gives (remove_via_right E 7) (Some (7, 7)) ;;; gives (remove_via_left E 3) (Some (3, 3)) ;;;
    retain_ (fun _ i => i mod 2 =? 0) ;;; holds (fun m => contains_right E m 2).
  (* 134-154 *)
  Definition doc_134 : T :=
    start (collected 2 (twins 0 5)) ;;;
    gives (insert E 5 5) Neither ;;; gives (insert E 0 6) (SomeLeft (0, 0)) ;;;
    gives (insert E 7 1) (SomeRight (1, 1)) ;;; gives (insert E 2 3) (SomeBoth (2, 2) (3, 3)).
  (* 189-197 *)
  Definition doc_189 : T :=
    one ;;; holds (fun m => are_paired E m 1 1) ;;; fails (fun m => are_paired E m 2 1) ;;;
    fails (fun m => are_paired E m 2 2).
  (* 214-237 *)
  Definition doc_214 : T :=
    one ;;; holds (fun m => contains_left E m 1) ;;; fails (fun m => contains_left E m 2) ;;;
    one ;;; holds (fun m => contains_right E m 1) ;;; fails (fun m => contains_right E m 2).
  (* 246-296 *)
  Definition doc_246 : T :=
    one ;;; gives (remove E 1 1) (Some (1, 1)) ;;; gives (remove E 1 1) None ;;;
    one ;;; gives (remove_via_left E 1) (Some (1, 1)) ;;; gives (remove_via_left E 1) None ;;;
    one ;;; gives (remove_via_right E 1) (Some (1, 1)) ;;; gives (remove_via_right E 1) None.
  (* 331-349 *)
  Definition doc_331 : T :=
    hundred ;;; gives (swap_left E 101 102) Neither ;;;
    gives (swap_left E 42 101) (SomeLeft 42) ;;; holds (fun m => are_paired E m 101 42) ;;;
    gives (swap_left E 84 0) (SomeBoth 84 (0, 0)) ;;; holds (fun m => are_paired E m 0 84).
  (* 397-411 *)
  Definition doc_397 : T :=
    hundred ;;; gives (swap_left_checked E 42 42 101) (SomeLeft 42) ;;;
    holds (fun m => are_paired E m 101 42) ;;;
    gives (swap_left_checked E 84 85 101) Neither ;;; holds (fun m => are_paired E m 84 84).
  (* 425-439 *)
  Definition doc_425 : T :=
    hundred ;;; gives (swap_left_or_insert E 42 101 42) (SomeLeft 42) ;;;
    holds (fun m => are_paired E m 101 42) ;;;
    gives (swap_left_or_insert E 102 103 103) Neither ;;; holds (fun m => are_paired E m 103 103).
  (* 481-499 *)
  Definition doc_481 : T :=
    hundred ;;; gives (swap_right E 101 102) Neither ;;;
    gives (swap_right E 42 101) (SomeLeft 42) ;;; holds (fun m => are_paired E m 42 101) ;;;
    gives (swap_right E 84 0) (SomeBoth 84 (0, 0)) ;;; holds (fun m => are_paired E m 84 0).
  (* 548-562 *)
  Definition doc_548 : T :=
    hundred ;;; gives (swap_right_checked E 42 42 101) (SomeLeft 42) ;;;
    holds (fun m => are_paired E m 42 101) ;;;
    gives (swap_right_checked E 84 85 101) Neither ;;; holds (fun m => are_paired E m 84 84).
  (* 578-592 *)
  Definition doc_578 : T :=
    hundred ;;; gives (swap_right_or_insert E 42 101 42) (SomeLeft 42) ;;;
    holds (fun m => are_paired E m 42 101) ;;;
    gives (swap_right_or_insert E 102 103 103) Neither ;;; holds (fun m => are_paired E m 103 103).
  (* 636-668 *)
  Definition doc_636 : T :=
    one ;;; shows (fun m => get_left E m 1) (Some 1) ;;; shows (fun m => get_left E m 2) None ;;;
    one ;;; shows (fun m => get_right E m 1) (Some 1) ;;; shows (fun m => get_right E m 2) None.
  (* 780-795; here n calls of next instead of one *)
  Definition doc_780 (n : nat) : T :=
    start (new_ 3) ;;; insert E 1 1 ;;; insert E 2 2 ;;;
    l <- drain_ n ;;
    assert (forallb (fun p => ((fst p =? 1) || (fst p =? 2)) && ((snd p =? 1) || (snd p =? 2))) l) ;;;
    holds is_empty.
  (* 786, 794 *)
  Definition doc_780_capacity : T :=
    start (new_ 3) ;;; insert E 1 1 ;;; insert E 2 2 ;;; m <- getst ;;
    drain_ 1 ;;; shows (capacity E) (capacity E m).
  (* 818-829 *)
  Definition doc_818 : T :=
    hundred ;;; l <- drain_filter_ (fun l _ => l mod 2 =? 1) 51 ;;
    assert (forallb (fun p => fst p mod 2 =? 1) l) ;;; shows len 50%nat.
  (* 848-860 *)
  Definition doc_848 : T :=
    hundred ;;; retain_ (fun l _ => l mod 2 =? 0) ;;; shows len 50%nat ;;;
    iter_ok (fun p => fst p mod 2 =? 0).
  (* 886-921, 1037-1041 *)
  Definition doc_886 : T :=
    start (with_ 100) ;;; holds (fun m => 100 <=? capacity E m) ;;; insert E 1 2 ;;; insert E 3 4 ;;;
    holds (fun m => 100 <=? capacity E m) ;;;
    shrink_to E 10 ;;; holds (fun m => 10 <=? capacity E m) ;;;
    shrink_to E 0 ;;; holds (fun m => 2 <=? capacity E m) ;;;
    shrink_to E 10 ;;; holds (fun m => 2 <=? capacity E m) ;;;
    start (with_ 100) ;;; insert E 1 2 ;;; insert E 3 4 ;;;
    shrink_to_fit E ;;; holds (fun m => 2 <=? capacity E m).
  (* 1052-1093 *)
  Definition doc_1052 : T :=
    start (new_ 3) ;;; shows len 0%nat ;;; insert E 1 1 ;;; shows len 1%nat ;;;
    start (new_ 3) ;;; holds is_empty ;;; insert E 1 1 ;;; shows len 1%nat ;;; fails is_empty ;;;
    start (new_ 3) ;;; holds is_empty ;;; insert E 1 1 ;;; fails is_empty ;;;
    clear E ;;; holds is_empty.

  Definition all_tests : list T :=
    [construction_test; insert_test; get_tests; remove_tests; swap_left_not_found_test;
     swap_left_checked_test; swap_left_or_insert_tests; swap_right_not_found_test;
     swap_right_checked_test; swap_right_or_insert_tests; retain_test; iter_tests; drain_tests;
     eq_test; misc_tests; doc_56; doc_134; doc_189; doc_214; doc_246; doc_331; doc_397; doc_425;
     doc_481; doc_548; doc_578; doc_636; doc_780 1; doc_818; doc_848; doc_1052].
  Definition capacity_tests : list T :=
    [construction_capacity_test; drain_capacity_tests; shrink_tests; reserve_tests;
     doc_780_capacity; doc_886].
  Definition verdicts (ts : list T) : list bool :=
    List.map (fun t => passed (t (with_hasher 0 0 0))) ts.
End Tests.

Example tests_pass : forallb (fun E => forallb id (verdicts (all_tests E))) worlds = true.
Proof. vm_compute. reflexivity. Qed.
Example capacity_tests_pass :
  forallb (fun E => forallb id (verdicts (capacity_tests E))) counting = true.
Proof. vm_compute. reflexivity. Qed.
