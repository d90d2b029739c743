(* /repo/tests/group_map.rs and the doc-comment examples of /repo/src/group_map.rs, run in the
   model (see TestKit.v). *)
From Coq Require Import List NArith Lia Bool.
From Verif Require Import Prelude RawTable Optionals GroupMap Concrete TestKit.
Import ListNotations.
Open Scope N_scope.

Section Tests.
  Variable E : env N N N.
  Notation map := (gmap N N N).
  Notation T := (M map unit).

  Definition new_ (s : N) : res map unit := Ret (with_hasher s 0 0) tt.
  Definition with_ (n : N) : res map unit := Ret (with_capacity_and_hasher E n 7) tt.
  Definition collected (s : N) (l : list (N * N)) : res map unit := from_iter_pairs E s 0 0 l.
  Definition collected_ops (s : N) (l : list (option N * N)) : res map unit := from_iter E s 0 0 l.
  (* /repo/tests/group_map.rs:12-16 *)
  Definition default_map : T := start (collected 1 (twins 0 10)).
  Definition lonely : T := start (collected_ops 1 (List.map (fun i => (None, i)) (range 0 10))).
  Definition retain_paired_ (f : N -> N -> bool) : T :=
    stateless (retain_paired E (answer (fun p => f (fst p) (snd p)))).
  Definition retain_unpaired_ (f : N -> bool) : T := stateless (retain_unpaired E (answer f)).
  Definition paired m l r := are_paired E m l r.
  Notation lefts := (option (list N * N)).
  Definition none : lefts := None.

  (* ---- /repo/tests/group_map.rs ---- *)

  (* 19-36, without the capacities *)
  Definition construction_test : T :=
    start (new_ 1) ;;; shows len_left 0%nat ;;; shows len_right 0%nat ;;;
    default_map ;;; shows len_left 10%nat ;;; shows len_right 10%nat ;;;
    clear E ;;; holds is_empty ;;; shows len_left 0%nat ;;; shows len_right 0%nat.
  Definition construction_capacity_test : T :=
    start (new_ 1) ;;; shows (capacity_left E) 0 ;;; shows (capacity_right E) 0 ;;;
    default_map ;;; m <- getst ;; clear E ;;;
    shows (capacity_left E) (capacity_left E m) ;;; shows (capacity_right E) (capacity_right E m).
  (* 39-72; "0", "1", .. are 0, 1, .. and "zero", "one", .. are 100, 101, ..  The third loop
     starts with insert("0", 0), which the map holds as a pair: the test expects the pair gone *)
  Definition insert_tests : T :=
    start (new_ 1) ;;;
    for_each (range 0 10) (fun i => insert E i i ;;; holds (fun m => paired m i i)) ;;;
    for_each (range 0 10) (fun i =>
      insert E (100 + i) i ;;; holds (fun m => paired m i i) ;;; holds (fun m => paired m (100 + i) i)) ;;;
    for_each (range 0 10) (fun i =>
      insert E i (10 * i) ;;; fails (fun m => paired m i i) ;;; holds (fun m => contains_right E m i)) ;;;
    for_each (range 1 10) (fun i =>
      insert E i i ;;; holds (fun m => paired m i i) ;;; fails (fun m => paired m i (10 * i)) ;;;
      holds (fun m => contains_right E m (10 * i))).
  (* 75-88 *)
  Definition insert_remove_test : T :=
    start (with_ 100) ;;;
    for_each (range 0 100) (fun i => gives (insert_remove E i i) (None, none)) ;;;
    shows len_left 100%nat ;;; shows len_right 100%nat ;;;
    holds (fun m => okay (paired_rest E m (iter_paired m)) (forallb (fun p => fst p =? snd p))).
  (* 91-116 *)
  Definition swap_right_remove_tests : T :=
    default_map ;;;
    for_each (range 20 30) (fun i =>
      gives (swap_right_remove E (i - 10) i) None ;;; holds (fun m => contains_right E m i) ;;;
      fails (fun m => is_right_paired E m i)) ;;;
    for_each (range 10 20) (fun i =>
      gives (swap_right_remove E (i - 10) i) (Some (i - 10)) ;;;
      holds (fun m => paired m (i - 10) i) ;;; fails (fun m => contains_right E m (i - 10)) ;;;
      fails (fun m => is_right_paired E m (i - 10))).
  (* 119-142 *)
  Definition swap_right_tests : T :=
    default_map ;;;
    for_each (range 20 30) (fun i =>
      swap_right E (i - 10) i ;;; holds (fun m => contains_right E m i) ;;;
      fails (fun m => is_right_paired E m i)) ;;;
    for_each (range 10 20) (fun i =>
      swap_right E (i - 10) i ;;;
      holds (fun m => paired m (i - 10) i) ;;; holds (fun m => contains_right E m (i - 10)) ;;;
      fails (fun m => is_right_paired E m (i - 10))).
  (* 145-158 *)
  Definition get_tests : T :=
    default_map ;;;
    holds (fun m => contains_left E m 0) ;;; holds (fun m => contains_right E m 0) ;;;
    fails (fun m => is_some (get_left_iter E m 42)) ;;;
    holds (fun m => match get_left_iter E m 0 with
                    | Some it => okay (pair_next E m it) (fun x => same (fst x) (Some 0))
                    | None => false end) ;;;
    shows (fun m => get_right E m 42) None ;;; shows (fun m => get_right E m 0) (Some 0).
  (* 161-192 *)
  Definition remove_tests : T :=
    default_map ;;; gives (remove E 42 42) none ;;; gives (remove E 0 0) (Some ([0], 0)) ;;;
    default_map ;;; gives (remove_right E 42) none ;;; gives (remove_right E 0) (Some ([0], 0)) ;;;
    default_map ;;; gives (remove_left E 42) None ;;; gives (remove_left E 0) (Some 0).
  Definition halves : T :=
    start (with_ 100) ;;;
    for_each (range 0 50) (fun i => gives (insert_remove E i i) (None, none)) ;;;
    for_each (range 50 100) (fun i => gives (insert_right E i) none) ;;;
    shows len_left 50%nat ;;; shows len_right 100%nat.
  (* 195-217: the items for which the closure answers true go *)
  Definition retain_paired_test : T :=
    halves ;;; retain_paired_ (fun l _ => l mod 2 =? 0) ;;;
    shows len_left 25%nat ;;; shows len_right 100%nat ;;;
    holds (fun m => okay (iter_rest E m (iter m)) (forallb (fun x =>
      match fst x with Some v => v mod 2 =? 1 | None => true end))).
  (* 220-236 *)
  Definition retain_unpaired_test : T :=
    halves ;;; retain_unpaired_ (fun v => v mod 2 =? 0) ;;;
    shows len_left 50%nat ;;; shows len_right 75%nat.
  (* 239-268 *)
  Definition iter_tests : T :=
    default_map ;;; yields (fun m => iter_len E m (iter m)) 10%nat ;;;
    yields (fun m => iter_len E m (iter_clone (iter m))) 10%nat ;;;
    shows (fun m => length (iter_left m)) 10%nat ;;;
    yields (fun m => left_rest (iter_left m)) (range 0 10) ;;;
    shows (fun m => length (iter_right m)) 10%nat ;;;
    yields (fun m => right_rest (iter_right m)) (range 0 10).
  (* 271-296 *)
  Definition paired_iter_tests : T :=
    default_map ;;; yields (fun m => paired_len E m (iter_paired m)) 10%nat ;;;
    l <- reading (fun m => paired_rest E m (iter_paired m)) ;; m <- getst ;;
    start (collected 5 l) ;;; yields (fun c => map_eq E c m) true ;;;
    lonely ;;; yields (fun m => paired_len E m (iter_paired m)) 0%nat ;;;
    l <- reading (fun m => paired_rest E m (iter_paired m)) ;;
    start (collected 5 l) ;;; yields (fun c => map_eq E c (with_hasher 6 0 0)) true.
  (* 299-313 *)
  Definition unpaired_iter_tests : T :=
    lonely ;;; yields (fun m => unpaired_len (iter_unpaired m)) 10%nat ;;;
    default_map ;;; yields (fun m => unpaired_len (iter_unpaired m)) 0%nat.
  (* 316-340 *)
  Definition pairing_tests : T :=
    lonely ;;; for_each (range 0 5) (fun i => gives (insert_left E i i) None) ;;;
    for_each (range 0 5) (fun i =>
      gives (pair E i (i + 5)) true ;;; holds (fun m => paired m i (i + 5)) ;;;
      fails (fun m => paired m i i)) ;;;
    for_each (range 0 10) (fun i =>
      if i <? 5 then holds (fun m => paired m i (i + 5)) ;;; fails (fun m => paired m i i)
      else fails (fun m => paired m i i) ;;; holds (fun m => paired m (i - 5) i)).
  (* 343-346 *)
  Definition misc_tests : T := default_map ;;; fails (fun m => paired m 0 1).
  (* 349-353 *)
  Definition eq_test : T :=
    default_map ;;; m <- getst ;;
    start (collected 4 (twins 0 10)) ;;; yields (fun m' => map_eq E (clone m) m') true ;;;
    yields (fun m' => map_eq E m' m) true.

  (* ---- doc comments of /repo/src/group_map.rs ---- *)

  Definition one : T := start (new_ 3) ;;; insert E 1 1.
  Definition two : T := one ;;; calls (insert_left E 2 1).
  Definition five : T := start (collected 2 (twins 0 5)).
  (* 98-149; "zero" is 100, "0" is 0 *)
  Definition doc_98 : T :=
    start (collected 2 (flat_map (fun i => [(100 + i, i); (i, i)]) (range 0 5))) ;;;
    shows len_left 10%nat ;;; shows len_right 5%nat ;;;
    holds (fun m => contains_right E m 0) ;;;
    shows (fun m => get_right E m 100) (Some 0) ;;; shows (fun m => get_right E m 0) (Some 0) ;;;
    holds (fun m => match get_left_iter E m 0 with
                    | Some it => okay (pair_rest E m it) (forallb (fun l => (l =? 100) || (l =? 0)))
                    | None => false end) ;;;
    remove_left E 100 ;;; fails (fun m => contains_left E m 100) ;;;
    holds (fun m => contains_left E m 0) ;;;
    shows (fun m => option_map pair_len (get_left_iter E m 0)) (Some 1%nat) ;;;
    o <- remove_right E 1 ;; p <- unwrap o ;; assert_eq (length (fst p)) 2%nat ;;;
    fails (fun m => contains_left E m 101) ;;; fails (fun m => contains_left E m 1) ;;;
    fails (fun m => contains_right E m 1) ;;;
    gives (pair E 103 4) true ;;; holds (fun m => paired m 103 4) ;;; fails (fun m => paired m 103 3).
  (* 202-228, 312-338 *)
  Definition doc_202 : T :=
    five ;;; fails (fun m => contains_left E m 5) ;;; fails (fun m => contains_right E m 5) ;;;
    insert E 5 5 ;;; holds (fun m => paired m 5 5) ;;;
    insert E 0 10 ;;; holds (fun m => contains_right E m 0) ;;; fails (fun m => paired m 0 0) ;;;
    holds (fun m => paired m 0 10) ;;;
    insert E 10 0 ;;; holds (fun m => paired m 10 0) ;;;
    insert E 2 4 ;;; holds (fun m => paired m 2 4) ;;; holds (fun m => paired m 4 4) ;;;
    fails (fun m => paired m 2 2).
  (* 374-384 *)
  Definition doc_374 : T :=
    five ;;; gives (insert_left E 100 0) None ;;; holds (fun m => paired m 0 0) ;;;
    holds (fun m => paired m 100 0).
  (* 418-430; "X" is 77 *)
  Definition doc_418 : T :=
    start (collected 2 (List.map (fun i => (i, 77)) (range 0 5))) ;;;
    gives (insert_right E 0) none ;;; gives (insert_right E 77) (Some (range 0 5, 77)).
  (* 457-469 *)
  Definition doc_457 : T :=
    two ;;; swap_right E 1 2 ;;; holds (fun m => contains_right E m 1) ;;;
    fails (fun m => is_right_paired E m 1) ;;; holds (fun m => paired m 1 2) ;;;
    holds (fun m => paired m 2 2).
  (* 503-514 *)
  Definition doc_503 : T :=
    two ;;; swap_right_remove E 1 2 ;;; fails (fun m => contains_right E m 1) ;;;
    holds (fun m => paired m 1 2) ;;; holds (fun m => paired m 2 2).
  (* 551-561 *)
  Definition doc_551 : T :=
    one ;;; insert_right E 2 ;;; gives (pair E 1 2) true ;;; holds (fun m => paired m 1 2) ;;;
    fails (fun m => paired m 1 1).
  (* 596-666 *)
  Definition doc_596 : T :=
    one ;;; insert_right E 2 ;;; holds (fun m => is_right_paired E m 1) ;;;
    fails (fun m => is_right_paired E m 2) ;;;
    one ;;; holds (fun m => paired m 1 1) ;;;
    one ;;; holds (fun m => contains_left E m 1) ;;; fails (fun m => contains_left E m 2) ;;;
    one ;;; insert_right E 2 ;;; holds (fun m => contains_right E m 1) ;;;
    holds (fun m => contains_right E m 2) ;;; fails (fun m => contains_right E m 3).
  (* 678-734 *)
  Definition doc_678 : T :=
    two ;;; gives (remove E 1 1) (Some (range 1 3, 1)) ;;; gives (remove E 1 1) none ;;;
    one ;;; gives (remove_left E 1) (Some 1) ;;; gives (remove_left E 2) None ;;;
    two ;;; insert_right E 2 ;;; gives (remove_right E 1) (Some (range 1 3, 1)) ;;;
    gives (remove_right E 2) (Some ([], 2)).
  (* 774-786 *)
  Definition doc_774 : T :=
    two ;;; m <- getst ;;
    it <- unwrap (get_left_iter E m 1) ;;
    '(a, it) <- reading (fun m => pair_next E m it) ;; a <- unwrap a ;; assert ((a =? 1) || (a =? 2)) ;;;
    '(a, it) <- reading (fun m => pair_next E m it) ;; a <- unwrap a ;; assert ((a =? 1) || (a =? 2)) ;;;
    '(a, it) <- reading (fun m => pair_next E m it) ;; assert (negb (is_some a)).
  (* 804-811 *)
  Definition doc_804 : T :=
    one ;;; insert_right E 2 ;;; shows (fun m => get_right E m 1) (Some 1) ;;;
    shows (fun m => get_right E m 2) None.
  Definition six : T := five ;;; calls (insert_right E 5).
  (* 849-906 *)
  Definition doc_849 : T :=
    six ;;; holds (fun m => okay (iter_rest E m (iter m)) (forallb (fun x =>
      match fst x with Some _ => negb (snd x =? 5) | None => snd x =? 5 end))) ;;;
    six ;;; holds (fun m => okay (paired_rest E m (iter_paired m)) (forallb (fun x => negb (snd x =? 5)))) ;;;
    six ;;; m <- getst ;;
    '(a, it) <- reading (fun m => unpaired_next (iter_unpaired m)) ;; assert_eq a (Some 5) ;;;
    '(a, it) <- reading (fun _ => unpaired_next it) ;; assert_eq a None.
  Definition fifty : T :=
    start (collected 2 (twins 0 50)) ;;; extend E (List.map (fun i => (None, i)) (range 50 100)).
  (* 961-971 *)
  Definition doc_961 : T :=
    fifty ;;; retain_unpaired_ (fun r => r mod 2 =? 0) ;;;
    shows len_left 50%nat ;;; shows len_right 75%nat.
  (* 994-1004 *)
  Definition doc_994 : T :=
    fifty ;;; retain_paired_ (fun _ r => r mod 2 =? 0) ;;;
    shows len_left 25%nat ;;; shows len_right 100%nat.
  (* 1154-1171 *)
  Definition doc_1154 : T :=
    start (with_ 100) ;;; holds (fun m => 100 <=? capacity_left E m) ;;;
    holds (fun m => 100 <=? capacity_right E m).
  (* 1180-1243 *)
  Definition doc_1180 : T :=
    start (new_ 3) ;;; shows len_left 0%nat ;;; insert E 1 1 ;;; insert_right E 2 ;;;
    shows len_left 1%nat ;;;
    start (new_ 3) ;;; shows len_right 0%nat ;;; insert E 1 1 ;;; insert_right E 2 ;;;
    shows len_right 2%nat ;;;
    start (new_ 3) ;;; holds is_empty ;;; insert E 1 1 ;;; fails is_empty ;;;
    start (new_ 3) ;;; holds is_empty ;;; insert_right E 1 ;;; shows len_left 0%nat ;;;
    shows len_right 1%nat ;;; fails is_empty ;;;
    start (new_ 3) ;;; holds is_empty ;;; insert E 1 1 ;;; fails is_empty ;;;
    clear E ;;; holds is_empty.

  Definition all_tests : list T :=
    [construction_test; insert_tests; insert_remove_test; swap_right_remove_tests; swap_right_tests;
     get_tests; remove_tests; retain_paired_test; retain_unpaired_test; iter_tests; paired_iter_tests;
     unpaired_iter_tests; pairing_tests; misc_tests; eq_test; doc_98; doc_202; doc_374; doc_418;
     doc_457; doc_503; doc_551; doc_596; doc_678; doc_774; doc_804; doc_849; doc_961; doc_994; doc_1180].
  Definition capacity_tests : list T := [construction_capacity_test; doc_1154].
  Definition verdicts (ts : list T) : list bool :=
    List.map (fun t => passed (t (with_hasher 0 0 0))) ts.
End Tests.

Example tests_pass : forallb (fun E => forallb id (verdicts (all_tests E))) worlds = true.
Proof. vm_compute. reflexivity. Qed.
Example capacity_tests_pass :
  forallb (fun E => forallb id (verdicts (capacity_tests E))) counting = true.
Proof. vm_compute. reflexivity. Qed.
