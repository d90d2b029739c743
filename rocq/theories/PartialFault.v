(* src/partial_cycle_map.rs again, with every call of user code (Hash, Eq) a possible panic;
   see Faults.v and CycleMapFault.v.  Same functions as in PartialCycleMap.v, in the same order;
   [user] marks the calls of make_hash and of ==, [u_find], [u_get], [u_remove_entry] searches
   with equivalent_key, [u_insert] and [u_resize] table operations that may rehash.  Searches
   with hash_and_id and just_id run no user code. *)
From Coq Require Import List NArith Lia Bool Permutation PeanoNat.
From Verif Require Import Closures Prelude RawTable Optionals PartialCycleMap ListFacts TableFacts SoundTables
  PartialSpec PartialHistory PartialAny Faults.
Import ListNotations.
Open Scope N_scope.

Section Fault.
  Context {L R S : Type}.
  Variable E : env L R S.
  Variable F : fault.
  Notation map := (pmap L R S).
  Notation FM A := (M (fuse * pmap L R S) A).

  (* src/utils.rs:4-12 make_hash *)
  Definition hash_l (m : map) (l : L) : M fuse N := user (hashL E (hash_builder m) l).
  Definition hash_r (m : map) (r : R) : M fuse N := user (hashR E (hash_builder m) r).
  (* searches with equivalent_key *)
  Definition find_left (m : map) (h : N) (l : L) : M fuse (option (mapping_pair L)) :=
    u_get (lo E) (left_set m) h (equivalent_key (eqL E) l).
  Definition find_right (m : map) (h : N) (r : R) : M fuse (option (mapping_pair R)) :=
    u_get (lo E) (right_set m) h (equivalent_key (eqR E) r).
  Definition u_left_remove_entry (h : N) (l : L) : FM (option (mapping_pair L)) :=
    o <- look (fun m => u_remove_entry (lo E) (left_set m) h (equivalent_key (eqL E) l)) ;;
    match o with
    | Some (e, t) => calmly (m <- getst ;; putst (set_left t m)) ;;; ret (Some e)
    | None => ret None
    end.
  Definition u_right_remove_entry (h : N) (r : R) : FM (option (mapping_pair R)) :=
    o <- look (fun m => u_remove_entry (lo E) (right_set m) h (equivalent_key (eqR E) r)) ;;
    match o with
    | Some (e, t) => calmly (m <- getst ;; putst (set_right t m)) ;;; ret (Some e)
    | None => ret None
    end.
  (* insertions and changes of size *)
  Definition on_left {A} (c : S -> table (mapping_pair L) -> fuse -> res (fuse * table (mapping_pair L)) A)
    : FM A :=
    fun wm => match c (hash_builder (snd wm)) (left_set (snd wm)) (fst wm) with
              | Ret (w, t) a => Ret (w, set_left t (snd wm)) a
              | Panic (w, t) => Panic (w, set_left t (snd wm))
              end.
  Definition on_right {A} (c : S -> table (mapping_pair R) -> fuse -> res (fuse * table (mapping_pair R)) A)
    : FM A :=
    fun wm => match c (hash_builder (snd wm)) (right_set (snd wm)) (fst wm) with
              | Ret (w, t) a => Ret (w, set_right t (snd wm)) a
              | Panic (w, t) => Panic (w, set_right t (snd wm))
              end.
  Definition u_left_insert (h : N) (e : mapping_pair L) : FM unit :=
    on_left (fun s t => u_insert (lo E) F t h e (make_hasher_l E s)).
  Definition u_right_insert (h : N) (e : mapping_pair R) : FM unit :=
    on_right (fun s t => u_insert (lo E) F t h e (make_hasher_r E s)).

  (* src/partial_cycle_map.rs:577-584, 589-596 *)
  Definition u_is_left_paired (m : map) (left : L) : M fuse bool :=
    hash <- hash_l m left ;;
    o <- find_left m hash left ;;
    ret (match o with Some l => is_some (phash l) | None => false end).
  Definition u_is_right_paired (m : map) (right : R) : M fuse bool :=
    hash <- hash_r m right ;;
    o <- find_right m hash right ;;
    ret (match o with Some r => is_some (phash r) | None => false end).
  (* src/partial_cycle_map.rs:611-622 *)
  Definition u_are_paired (m : map) (left : L) (right : R) : M fuse bool :=
    l_hash <- hash_l m left ;;
    r_hash <- hash_r m right ;;
    opt_left <- find_left m l_hash left ;;
    opt_right <- find_right m r_hash right ;;
    ret (match opt_left, opt_right with
         | Some l, Some r => (pid l =? pid r) && opt_is l_hash (phash r) && opt_is r_hash (phash l)
         | _, _ => false
         end).
  (* src/partial_cycle_map.rs:637-640, 655-658 *)
  Definition u_contains_left (m : map) (left : L) : M fuse bool :=
    hash <- hash_l m left ;; o <- find_left m hash left ;; ret (is_some o).
  Definition u_contains_right (m : map) (right : R) : M fuse bool :=
    hash <- hash_r m right ;; o <- find_right m hash right ;; ret (is_some o).

  (* src/partial_cycle_map.rs:693-700 *)
  Definition u_remove_left (item : L) : FM (option L) :=
    l_hash <- look (fun m => hash_l m item) ;;
    o <- u_left_remove_entry l_hash item ;;
    match o with
    | None => ret None
    | Some it =>
        match phash it with
        | Some hash =>
            calmly (m <- getst ;;
                    b <- unwrap (t_get_mut E (right_set m) hash (just_id (pid it))) ;;
                    right_assign (fst b) (set_hash None)) ;;;
            ret (Some (value it))
        | None => ret (Some (value it))
        end
    end.
  (* src/partial_cycle_map.rs:718-737 *)
  Definition u_remove_via_left (item : L) : FM (optional_pair L R) :=
    l_hash <- look (fun m => hash_l m item) ;;
    o <- u_left_remove_entry l_hash item ;;
    match o with
    | None => ret Neither
    | Some left_pairing =>
        match phash left_pairing with
        | Some hash =>
            ro <- calmly (right_remove_entry E hash (hash_and_id l_hash (pid left_pairing))) ;;
            rp <- unwrap ro ;;
            ret (op_from_pair (Some (value left_pairing), Some (value rp)))
        | None => ret (op_from_pair (Some (value left_pairing), None))
        end
    end.
  (* src/partial_cycle_map.rs:752-759 *)
  Definition u_remove_right (item : R) : FM (option R) :=
    r_hash <- look (fun m => hash_r m item) ;;
    o <- u_right_remove_entry r_hash item ;;
    match o with
    | None => ret None
    | Some it =>
        match phash it with
        | Some hash =>
            calmly (m <- getst ;;
                    b <- unwrap (t_get_mut E (left_set m) hash (just_id (pid it))) ;;
                    left_assign (fst b) (set_hash None)) ;;;
            ret (Some (value it))
        | None => ret (Some (value it))
        end
    end.
  (* src/partial_cycle_map.rs:776-795 *)
  Definition u_remove_via_right (item : R) : FM (optional_pair L R) :=
    r_hash <- look (fun m => hash_r m item) ;;
    o <- u_right_remove_entry r_hash item ;;
    match o with
    | None => ret Neither
    | Some right_pairing =>
        match phash right_pairing with
        | Some hash =>
            lo_ <- calmly (left_remove_entry E hash (hash_and_id r_hash (pid right_pairing))) ;;
            lp <- unwrap lo_ ;;
            ret (op_from_pair (Some (value lp), Some (value right_pairing)))
        | None => ret (op_from_pair (None, Some (value right_pairing)))
        end
    end.
  (* src/partial_cycle_map.rs:671-678 *)
  Definition u_remove (left : L) (right : R) : FM (option (L * R)) :=
    b <- look (fun m => u_are_paired m left right) ;;
    if b then
      d <- u_remove_via_left left ;;
      match op_to_opt d with
      | None => ret None
      | Some (opt_l, opt_r) =>
          l <- unwrap opt_l ;; r <- unwrap opt_r ;; ret (Some (l, r))
      end
    else ret None.

  (* src/partial_cycle_map.rs:162-190 *)
  Definition u_insert_pair (left : L) (right : R) : FM (optional_pair L R * optional_pair L R) :=
    opt_from_left <- u_remove_via_left left ;;
    opt_from_right <- u_remove_via_right right ;;
    l_hash <- look (fun m => hash_l m left) ;;
    r_hash <- look (fun m => hash_r m right) ;;
    c <- look (fun m => ret (counter m)) ;;
    let left_pairing := MP left (Some r_hash) c in
    let right_pairing := MP right (Some l_hash) c in
    calmly (incr_counter E) ;;;
    u_left_insert l_hash left_pairing ;;;
    u_right_insert r_hash right_pairing ;;;
    ret (opt_from_left, opt_from_right).
  (* src/partial_cycle_map.rs:222-238 *)
  Definition u_insert_left (left : L) : FM (optional_pair L R) :=
    opt_from_left <- u_remove_via_left left ;;
    l_hash <- look (fun m => hash_l m left) ;;
    c <- look (fun m => ret (counter m)) ;;
    calmly (incr_counter E) ;;;
    u_left_insert l_hash (MP left None c) ;;;
    ret opt_from_left.
  (* src/partial_cycle_map.rs:269-285 *)
  Definition u_insert_right (right : R) : FM (optional_pair L R) :=
    opt_from_right <- u_remove_via_right right ;;
    r_hash <- look (fun m => hash_r m right) ;;
    c <- look (fun m => ret (counter m)) ;;
    calmly (incr_counter E) ;;;
    u_right_insert r_hash (MP right None c) ;;;
    ret opt_from_right.

  (* the two hashes and the two searches with which pair, pair_forced, pair_forced_remove and
     unpair begin (src/partial_cycle_map.rs:313-320, 364-371, 465-472, 551-556); the code after
     them runs no user code *)
  Definition u_find_both (m : map) (left : L) (right : R) : M fuse unit :=
    l_hash <- hash_l m left ;;
    r_hash <- hash_r m right ;;
    find_left m l_hash left ;;;
    find_right m r_hash right ;;;
    ret tt.
  (* src/partial_cycle_map.rs:312-329.  Here and below [pair E], [unpair E], .. stand for the
     rest of the function: the searches they start with find what was just found *)
  Definition u_pair (left : L) (right : R) : FM bool :=
    look (fun m => u_find_both m left right) ;;; calmly (pair E left right).
  (* src/partial_cycle_map.rs:360-429 *)
  Definition u_pair_forced (l : L) (r : R) : FM (optional_pair L R) :=
    b <- look (fun m => u_are_paired m l r) ;;
    if b then ret Neither else
    look (fun m => u_find_both m l r) ;;; calmly (pair_forced E l r).
  (* src/partial_cycle_map.rs:461-528 *)
  Definition u_pair_forced_remove (l : L) (r : R) : FM (optional_pair L R) :=
    b <- look (fun m => u_are_paired m l r) ;;
    if b then ret Neither else
    look (fun m => u_find_both m l r) ;;; calmly (pair_forced_remove E l r).
  (* src/partial_cycle_map.rs:550-572 *)
  Definition u_unpair (left : L) (right : R) : FM bool :=
    look (fun m => u_find_both m left right) ;;; calmly (unpair E left right).

  (* src/partial_cycle_map.rs:962-971 *)
  Definition u_swap_left_eq_check (old new : L) (new_hash : N) : FM (optional_pair L R) :=
    o <- look (fun m => find_left m new_hash new) ;;
    match o with
    | None => ret Neither
    | Some _ => b <- look (fun _ => user (negb (eqL E new old))) ;;
                if b then u_remove_via_left new else ret Neither
    end.
  (* src/partial_cycle_map.rs:842-887 *)
  Definition u_swap_left (old new : L) : FM (optional_pair L (optional_pair L R)) :=
    new_l_hash <- look (fun m => hash_l m new) ;;
    eq_opt <- u_swap_left_eq_check old new new_l_hash ;;
    old_l_hash <- look (fun m => hash_l m old) ;;
    o <- look (fun m => find_left m old_l_hash old) ;;
    match o with
    | None => ret Neither
    | Some l_pairing =>
        calmly (match phash l_pairing with
                | Some hash =>
                    m <- getst ;;
                    b <- unwrap (t_get_mut E (right_set m) hash (hash_and_id old_l_hash (pid l_pairing))) ;;
                    right_assign (fst b) (set_hash (Some new_l_hash))
                | None => ret tt
                end) ;;;
        let new_left_pairing := MP new (phash l_pairing) (pid l_pairing) in
        o <- u_left_remove_entry old_l_hash old ;;
        old_left <- unwrap o ;;
        u_left_insert new_l_hash new_left_pairing ;;;
        match eq_opt with
        | Neither => ret (SomeLeft (value old_left))
        | _ => ret (SomeBoth (value old_left) eq_opt)
        end
    end.
  (* src/partial_cycle_map.rs:909-920 *)
  Definition u_swap_left_checked (old : L) (expected : R) (new : L)
      : FM (optional_pair L (optional_pair L R)) :=
    b <- look (fun m => u_are_paired m old expected) ;;
    if negb b then ret Neither else u_swap_left old new.
  (* src/partial_cycle_map.rs:940-959 *)
  Definition u_swap_left_or_insert (old new : L) (to_insert : R)
      : FM (optional_pair L (optional_pair L R)) :=
    old_l_hash <- look (fun m => hash_l m old) ;;
    o <- look (fun m => find_left m old_l_hash old) ;;
    if is_some o then u_swap_left old new
    else
      d <- u_insert_pair new to_insert ;;
      match d with
      | (Neither, Neither) => ret Neither
      | (Neither, p) => ret (SomeRight p)
      | _ => panic
      end.

  (* src/partial_cycle_map.rs:1122-1131 *)
  Definition u_swap_right_eq_check (old new : R) (new_hash : N) : FM (optional_pair L R) :=
    o <- look (fun m => find_right m new_hash new) ;;
    match o with
    | None => ret Neither
    | Some _ => b <- look (fun _ => user (negb (eqR E new old))) ;;
                if b then u_remove_via_right new else ret Neither
    end.
  (* src/partial_cycle_map.rs:997-1042 *)
  Definition u_swap_right (old new : R) : FM (optional_pair R (optional_pair L R)) :=
    new_r_hash <- look (fun m => hash_r m new) ;;
    eq_opt <- u_swap_right_eq_check old new new_r_hash ;;
    old_r_hash <- look (fun m => hash_r m old) ;;
    o <- look (fun m => find_right m old_r_hash old) ;;
    match o with
    | None => ret Neither
    | Some r_pairing =>
        calmly (match phash r_pairing with
                | Some hash =>
                    m <- getst ;;
                    b <- unwrap (t_get_mut E (left_set m) hash (hash_and_id old_r_hash (pid r_pairing))) ;;
                    left_assign (fst b) (set_hash (Some new_r_hash))
                | None => ret tt
                end) ;;;
        let new_right_pairing := MP new (phash r_pairing) (pid r_pairing) in
        o <- u_right_remove_entry old_r_hash old ;;
        old_right <- unwrap o ;;
        u_right_insert new_r_hash new_right_pairing ;;;
        match eq_opt with
        | Neither => ret (SomeLeft (value old_right))
        | _ => ret (SomeBoth (value old_right) eq_opt)
        end
    end.
  (* src/partial_cycle_map.rs:1064-1075 *)
  Definition u_swap_right_checked (old : R) (expected : L) (new : R)
      : FM (optional_pair R (optional_pair L R)) :=
    b <- look (fun m => u_are_paired m expected old) ;;
    if negb b then ret Neither else u_swap_right old new.
  (* src/partial_cycle_map.rs:1095-1119 *)
  Definition u_swap_right_or_insert (old new : R) (to_insert : L)
      : FM (optional_pair R (optional_pair L R)) :=
    old_r_hash <- look (fun m => hash_r m old) ;;
    o <- look (fun m => find_right m old_r_hash old) ;;
    if is_some o then u_swap_right old new
    else
      d <- u_insert_pair to_insert new ;;
      match d with
      | (Neither, Neither) => ret Neither
      | (p, Neither) => ret (SomeRight p)
      | _ => panic
      end.

  (* src/partial_cycle_map.rs:1145-1160, 1174-1189; Q = R and Q = L *)
  Definition u_get_left (m : map) (item : R) : M fuse (option L) :=
    r_hash <- hash_r m item ;;
    o <- find_right m r_hash item ;;
    ret (match o with
         | None => None
         | Some right_pairing =>
             match phash right_pairing with
             | None => None
             | Some hash => option_map value (t_get (lo E) (left_set m) hash
                                                (hash_and_id r_hash (pid right_pairing)))
             end
         end).
  Definition u_get_right (m : map) (item : L) : M fuse (option R) :=
    l_hash <- hash_l m item ;;
    o <- find_left m l_hash item ;;
    ret (match o with
         | None => None
         | Some left_pairing =>
             match phash left_pairing with
             | None => None
             | Some hash => option_map value (t_get (lo E) (right_set m) hash
                                                (hash_and_id l_hash (pid left_pairing)))
             end
         end).
  (* src/partial_cycle_map.rs:1199-1202, 1214-1217 *)
  Definition u_get_left_inner (m : map) (item : L) : M fuse (option (mapping_pair L)) :=
    hash <- hash_l m item ;; find_left m hash item.
  Definition u_get_right_inner (m : map) (item : R) : M fuse (option (mapping_pair R)) :=
    hash <- hash_r m item ;; find_right m hash item.

  (* src/partial_cycle_map.rs:2022-2031 *)
  Definition u_iter_next (m : map) (it : @iter_l L) : M fuse (option (optional_pair L R) * @iter_l L) :=
    match it with
    | [] => ret (None, [])
    | (_, l) :: rest =>
        o <- u_get_right m (value l) ;;
        ret (Some (op_from_pair (Some (value l), o)), rest)
    end.
  (* src/partial_cycle_map.rs:2093-2108 *)
  Fixpoint u_paired_next (m : map) (it : @iter_l L) : M fuse (option (L * R) * @iter_l L) :=
    match it with
    | [] => ret (None, [])
    | (_, l) :: rest =>
        match phash l with
        | None => u_paired_next m rest
        | Some h =>
            l_hash <- hash_l m (value l) ;;
            o <- inner (get_via_hashes_and_id E m l_hash h (pid l)) ;;
            ret (o, rest)
        end
    end.
  (* a complete for loop over an iterator *)
  Fixpoint u_collect {I A} (next : I -> M fuse (option A * I)) (fuel : nat) (it : I) : M fuse (list A) :=
    x <- next it ;;
    match x with
    | (None, _) => ret []
    | (Some p, it') =>
        match fuel with
        | O => panic
        | Datatypes.S fuel' => l <- u_collect next fuel' it' ;; ret (p :: l)
        end
    end.
  Definition u_iter_all (m : map) : M fuse (list (optional_pair L R)) :=
    u_collect (u_iter_next m) (length (iter m)) (iter m).
  Definition u_paired_all (m : map) : M fuse (list (L * R)) :=
    u_collect (u_paired_next m) (length (iter_paired m)) (iter_paired m).

  (* src/partial_cycle_map.rs:1746-1758 *)
  Definition u_eq_item (other : map) (op : optional_pair L R) : M fuse bool :=
    match op with
    | SomeLeft l => o <- u_get_right other l ;; ret (negb (is_some o))
    | SomeRight r => o <- u_get_left other r ;; ret (negb (is_some o))
    | SomeBoth l r => u_are_paired other l r
    | Neither => panic
    end.
  Fixpoint u_all_items (m other : map) (fuel : nat) (it : @iter_l L) : M fuse bool :=
    x <- u_iter_next m it ;;
    match x with
    | (None, _) => ret true
    | (Some op, it') =>
        b <- u_eq_item other op ;;
        if b then
          match fuel with
          | O => panic
          | Datatypes.S fuel' => u_all_items m other fuel' it'
          end
        else ret false
    end.
  Definition u_map_eq (m other : map) : M fuse bool :=
    if negb (Nat.eqb (len_left m) (len_left other)) && negb (Nat.eqb (len_right m) (len_right other))
    then ret false
    else u_all_items m other (length (iter m)) (iter m).

  (* src/partial_cycle_map.rs:1932-1936 *)
  Fixpoint u_extend_pairs (l : list (L * R)) : FM unit :=
    match l with
    | [] => ret tt
    | (a, b) :: t => u_insert_pair a b ;;; u_extend_pairs t
    end.
  (* src/partial_cycle_map.rs:1946-1961 *)
  Fixpoint u_extend (l : list (optional_pair L R)) : FM unit :=
    match l with
    | [] => ret tt
    | Neither :: t => u_extend t
    | SomeLeft a :: t => u_insert_left a ;;; u_extend t
    | SomeRight b :: t => u_insert_right b ;;; u_extend t
    | SomeBoth a b :: t => u_insert_pair a b ;;; u_extend t
    end.

  (* src/partial_cycle_map.rs:1441-1451 *)
  Definition u_opt {A B} (f : A -> M fuse B) (o : option A) : M fuse (option B) :=
    match o with None => ret None | Some a => b <- f a ;; ret (Some b) end.
  Definition u_retain_key (m : map) (op : optional_pair L R) : M fuse drop_tup :=
    let (lft, rgt) := op_to_pair op in
    l_hash <- u_opt (hash_l m) lft ;;
    r_hash <- u_opt (hash_r m) rgt ;;
    match lft with
    | Some l => o <- u_get_left_inner m l ;; p <- unwrap o ;; ret (l_hash, r_hash, pid p)
    | None =>
        match rgt with
        | Some r => o <- u_get_right_inner m r ;; p <- unwrap o ;; ret (l_hash, r_hash, pid p)
        | None => panic
        end
    end.
  (* src/partial_cycle_map.rs:1493-1496 *)
  Definition u_retain_paired_key (m : map) (p : L * R) : M fuse drop_tup :=
    l_hash <- hash_l m (fst p) ;;
    r_hash <- hash_r m (snd p) ;;
    o <- u_get_left_inner m (fst p) ;;
    e <- unwrap o ;;
    ret (Some l_hash, Some r_hash, pid e).
  (* src/partial_cycle_map.rs:1527-1541; get_left_inner_with_hash takes the hash just made *)
  Definition u_retain_unpaired_key (m : map) (op : optional_pair L R) : M fuse drop_tup :=
    match op with
    | SomeLeft l =>
        l_hash <- hash_l m l ;;
        o <- find_left m l_hash l ;;
        e <- unwrap o ;;
        ret (Some l_hash, None, pid e)
    | SomeRight r =>
        r_hash <- hash_r m r ;;
        o <- find_right m r_hash r ;;
        e <- unwrap o ;;
        ret (None, Some r_hash, pid e)
    | _ => panic
    end.
  (* the for loop of the three retain functions; their second loop runs no user code *)
  Section Retain.
    Context {X A I : Type}.
    Variable f : X -> A -> X * verdict.
    Variable next : I -> M fuse (option A * I).
    Variable key : A -> M fuse drop_tup.
    (* the outer Panic: user code or an unwrap; the inner one: the closure *)
    Fixpoint u_retain_scan (fuel : nat) (it : I) (x : X) : M fuse (res X (list drop_tup)) :=
      o <- next it ;;
      match o with
      | (None, _) => ret (Ret x [])
      | (Some a, it') =>
          match f x a with
          | (x', None) => ret (Panic x')
          | (x', Some ans) =>
              d <- (if ans : bool then t <- key a ;; ret [t] else ret []) ;;
              match fuel with
              | O => panic
              | Datatypes.S fuel' =>
                  r <- u_retain_scan fuel' it' x' ;;
                  ret (match r with Ret x'' l => Ret x'' (d ++ l) | Panic x'' => Panic x'' end)
              end
          end
      end.
  End Retain.
  Definition u_retain_with {X} (scan : map -> M fuse (res X (list drop_tup))) : FM unit :=
    r <- look scan ;;
    match r with
    | Panic _ => panic
    | Ret _ to_drop => calmly (drop_all E to_drop)
    end.
  (* src/partial_cycle_map.rs:1434-1469 *)
  Definition u_retain {X} (f : X -> optional_pair L R -> X * verdict) (x : X) : FM unit :=
    u_retain_with (fun m =>
      u_retain_scan f (u_iter_next m) (u_retain_key m) (length (iter m)) (iter m) x).
  (* src/partial_cycle_map.rs:1486-1502 *)
  Definition u_retain_paired {X} (f : X -> L * R -> X * verdict) (x : X) : FM unit :=
    u_retain_with (fun m =>
      u_retain_scan f (u_paired_next m) (u_retain_paired_key m) (length (iter_paired m)) (iter_paired m) x).
  (* src/partial_cycle_map.rs:1519-1557 *)
  Definition u_retain_unpaired {X} (f : X -> optional_pair L R -> X * verdict) (x : X) : FM unit :=
    u_retain_with (fun m =>
      u_retain_scan f (fun it => inner (unpaired_next it)) (u_retain_unpaired_key m)
        (length (fst (iter_unpaired m)) + length (snd (iter_unpaired m))) (iter_unpaired m) x).

  (* src/partial_cycle_map.rs:1580-1583, 1645-1648, 1606-1609, 1662-1665, 1626-1631 *)
  Definition u_resize_left (z : sizing) : FM unit :=
    on_left (fun s t => u_resize (lo E) F t z (make_hasher_l E s)).
  Definition u_resize_right (z : sizing) : FM unit :=
    on_right (fun s t => u_resize (lo E) F t z (make_hasher_r E s)).
  Definition u_shrink_to_fit : FM unit :=
    n <- look (fun m => ret (len_left m)) ;;
    u_resize_left (Shrink (N.of_nat n)) ;;;
    n <- look (fun m => ret (len_right m)) ;;
    u_resize_right (Shrink (N.of_nat n)).
  (* src/partial_cycle_map.rs:1679-1683, 1697-1701 *)
  Definition u_try_reserve_left (additional : N) : FM bool :=
    on_left (fun s t => u_try_resize (lo E) F t additional (make_hasher_l E s)).
  Definition u_try_reserve_right (additional : N) : FM bool :=
    on_right (fun s t => u_try_resize (lo E) F t additional (make_hasher_r E s)).

  (* ---- histories ---- *)
  Definition u_via {A} (k : A -> out L R) (c : FM A) (m : map) (w : fuse) : map * out L R :=
    match c (w, m) with Ret (_, m') a => (m', k a) | Panic (_, m') => (m', OPanic) end.

  (* one call, user code panicking as the fuse w says; the calls not listed run no user code *)
  Definition u_step (m : map) (o : op L R) (w : fuse) : map * out L R :=
    match o with
    | Insert l r => u_via OIns (u_insert_pair l r) m w
    | InsertLeft l => u_via OEntry (u_insert_left l) m w
    | InsertRight r => u_via OEntry (u_insert_right r) m w
    | Pair l r => u_via OBool (u_pair l r) m w
    | PairForced l r => u_via OEntry (u_pair_forced l r) m w
    | PairForcedRemove l r => u_via OEntry (u_pair_forced_remove l r) m w
    | Unpair l r => u_via OBool (u_unpair l r) m w
    | Remove l r => u_via OPair (u_remove l r) m w
    | RemoveLeft l => u_via OL (u_remove_left l) m w
    | RemoveRight r => u_via OR (u_remove_right r) m w
    | RemoveViaLeft l => u_via OEntry (u_remove_via_left l) m w
    | RemoveViaRight r => u_via OEntry (u_remove_via_right r) m w
    | SwapLeft old new => u_via OSwapL (u_swap_left old new) m w
    | SwapLeftChecked old ex new => u_via OSwapL (u_swap_left_checked old ex new) m w
    | SwapLeftOrInsert old new ti => u_via OSwapL (u_swap_left_or_insert old new ti) m w
    | SwapRight old new => u_via OSwapR (u_swap_right old new) m w
    | SwapRightChecked old ex new => u_via OSwapR (u_swap_right_checked old ex new) m w
    | SwapRightOrInsert old new ti => u_via OSwapR (u_swap_right_or_insert old new ti) m w
    | ArePaired l r => u_via OBool (look (fun m => u_are_paired m l r)) m w
    | IsLeftPaired l => u_via OBool (look (fun m => u_is_left_paired m l)) m w
    | IsRightPaired r => u_via OBool (look (fun m => u_is_right_paired m r)) m w
    | ContainsLeft l => u_via OBool (look (fun m => u_contains_left m l)) m w
    | ContainsRight r => u_via OBool (look (fun m => u_contains_right m r)) m w
    | GetLeft r => u_via OL (look (fun m => u_get_left m r)) m w
    | GetRight l => u_via OR (look (fun m => u_get_right m l)) m w
    | IterAll => u_via OEntries (look u_iter_all) m w
    | IterPairedAll => u_via OPairs (look u_paired_all) m w
    | ExtendPairs xs => u_via (fun _ => OUnit) (u_extend_pairs xs) m w
    | Extend xs => u_via (fun _ => OUnit) (u_extend xs) m w
    | Retain X f x => u_via (fun _ => OUnit) (u_retain f x) m w
    | RetainPaired X f x => u_via (fun _ => OUnit) (u_retain_paired f x) m w
    | RetainUnpaired X f x => u_via (fun _ => OUnit) (u_retain_unpaired f x) m w
    | ShrinkToLeft n => u_via (fun _ => OUnit) (u_resize_left (Shrink n)) m w
    | ShrinkToRight n => u_via (fun _ => OUnit) (u_resize_right (Shrink n)) m w
    | ShrinkToFit => u_via (fun _ => OUnit) u_shrink_to_fit m w
    | ReserveLeft n => u_via (fun _ => OUnit) (u_resize_left (Grow n)) m w
    | ReserveRight n => u_via (fun _ => OUnit) (u_resize_right (Grow n)) m w
    | TryReserveLeft n => u_via OBool (u_try_reserve_left n) m w
    | TryReserveRight n => u_via OBool (u_try_reserve_right n) m w
    | LenLeft | LenRight | IsEmpty | IterUnpairedAll | IterLeftAll | IterRightAll
    | DrainN _ | DrainFilter _ _ _ _ _ | Clear | CloneSelf => step E m o
    end.
  Definition u_xstep (m : map) (o : xop L R) (w : fuse) : map * out L R :=
    match o with
    | Call o => u_step m o w
    | DrainLeak n => xstep E m (DrainLeak n)
    end.
  Fixpoint u_run (m : map) (ops : list (op L R * fuse)) : map * list (out L R) :=
    match ops with
    | [] => (m, [])
    | (o, w) :: t => let (m', a) := u_step m o w in
                     let (m'', b) := u_run m' t in (m'', a :: b)
    end.
  Fixpoint u_xrun (m : map) (ops : list (xop L R * fuse)) : map * list (out L R) :=
    match ops with
    | [] => (m, [])
    | (o, w) :: t => let (m', a) := u_xstep m o w in
                     let (m'', b) := u_xrun m' t in (m'', a :: b)
    end.
End Fault.
