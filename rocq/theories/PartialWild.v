(* src/partial_cycle_map.rs again, with user code (Hash, Eq) that does as it likes; see Wild.v.
   Same functions as in PartialFault.v, in the same order; [w_hashL] and [w_hashR] are the calls
   of make_hash, [w_find], [w_get], [w_get_mut], [w_remove_entry] searches with equivalent_key,
   [w_insert] and [w_resize] table operations that may rehash.  Searches with hash_and_id and
   just_id run no user code. *)
From Coq Require Import List NArith Lia Bool Permutation PeanoNat.
From Verif Require Import Closures Prelude RawTable Optionals PartialCycleMap ListFacts TableFacts
  PartialHistory PartialAny Faults Wild.
Import ListNotations.
Open Scope N_scope.

Section Wild.
  Context {L R S W : Type}.
  Variable E : wenv L R S W.
  Notation B := (calm_env E).
  Notation map := (pmap L R S).
  Notation FM A := (M (W * pmap L R S) A).

  (* a computation that runs no user code *)
  Definition w_inner {A} (o : outcome A) : M W A :=
    match o with Done a => ret a | Panicked => panic end.
  (* src/utils.rs:4-12 make_hash *)
  Definition hash_l (m : map) (l : L) : M W N := w_hashL E (hash_builder m) l.
  Definition hash_r (m : map) (r : R) : M W N := w_hashR E (hash_builder m) r.
  (* searches with equivalent_key *)
  Definition find_left (m : map) (h : N) (l : L) : M W (option (mapping_pair L)) :=
    w_get (w_lo E) (left_set m) h (fun e => w_eqL E l (value e)).
  Definition find_right (m : map) (h : N) (r : R) : M W (option (mapping_pair R)) :=
    w_get (w_lo E) (right_set m) h (fun e => w_eqR E r (value e)).
  Definition w_left_remove_entry (h : N) (l : L) : FM (option (mapping_pair L)) :=
    o <- w_look (fun m => w_remove_entry (w_lo E) (left_set m) h (fun e => w_eqL E l (value e))) ;;
    match o with
    | Some (e, t) => w_calmly (m <- getst ;; putst (set_left t m)) ;;; ret (Some e)
    | None => ret None
    end.
  Definition w_right_remove_entry (h : N) (r : R) : FM (option (mapping_pair R)) :=
    o <- w_look (fun m => w_remove_entry (w_lo E) (right_set m) h (fun e => w_eqR E r (value e))) ;;
    match o with
    | Some (e, t) => w_calmly (m <- getst ;; putst (set_right t m)) ;;; ret (Some e)
    | None => ret None
    end.
  (* insertions and changes of size *)
  Definition on_left {A} (c : S -> table (mapping_pair L) -> W -> res (W * table (mapping_pair L)) A)
    : FM A :=
    fun wm => match c (hash_builder (snd wm)) (left_set (snd wm)) (fst wm) with
              | Ret (w, t) a => Ret (w, set_left t (snd wm)) a
              | Panic (w, t) => Panic (w, set_left t (snd wm))
              end.
  Definition on_right {A} (c : S -> table (mapping_pair R) -> W -> res (W * table (mapping_pair R)) A)
    : FM A :=
    fun wm => match c (hash_builder (snd wm)) (right_set (snd wm)) (fst wm) with
              | Ret (w, t) a => Ret (w, set_right t (snd wm)) a
              | Panic (w, t) => Panic (w, set_right t (snd wm))
              end.
  Definition w_left_insert (h : N) (e : mapping_pair L) : FM unit :=
    on_left (fun s t => w_insert (w_lo E) (w_fault E) t h e (fun e => w_hashL E s (value e))).
  Definition w_right_insert (h : N) (e : mapping_pair R) : FM unit :=
    on_right (fun s t => w_insert (w_lo E) (w_fault E) t h e (fun e => w_hashR E s (value e))).

  (* src/partial_cycle_map.rs:577-584, 589-596 *)
  Definition w_is_left_paired (m : map) (left : L) : M W bool :=
    hash <- hash_l m left ;;
    o <- find_left m hash left ;;
    ret (match o with Some l => is_some (phash l) | None => false end).
  Definition w_is_right_paired (m : map) (right : R) : M W bool :=
    hash <- hash_r m right ;;
    o <- find_right m hash right ;;
    ret (match o with Some r => is_some (phash r) | None => false end).
  (* src/partial_cycle_map.rs:611-622 *)
  Definition w_are_paired (m : map) (left : L) (right : R) : M W bool :=
    l_hash <- hash_l m left ;;
    r_hash <- hash_r m right ;;
    opt_left <- find_left m l_hash left ;;
    opt_right <- find_right m r_hash right ;;
    ret (match opt_left, opt_right with
         | Some l, Some r => (pid l =? pid r) && opt_is l_hash (phash r) && opt_is r_hash (phash l)
         | _, _ => false
         end).
  (* src/partial_cycle_map.rs:637-640, 655-658 *)
  Definition w_contains_left (m : map) (left : L) : M W bool :=
    hash <- hash_l m left ;; o <- find_left m hash left ;; ret (is_some o).
  Definition w_contains_right (m : map) (right : R) : M W bool :=
    hash <- hash_r m right ;; o <- find_right m hash right ;; ret (is_some o).

  (* src/partial_cycle_map.rs:693-700 *)
  Definition w_remove_left (item : L) : FM (option L) :=
    l_hash <- w_look (fun m => hash_l m item) ;;
    o <- w_left_remove_entry l_hash item ;;
    match o with
    | None => ret None
    | Some it =>
        match phash it with
        | Some hash =>
            w_calmly (m <- getst ;;
                    b <- unwrap (t_get_mut B (right_set m) hash (just_id (pid it))) ;;
                    right_assign (fst b) (set_hash None)) ;;;
            ret (Some (value it))
        | None => ret (Some (value it))
        end
    end.
  (* src/partial_cycle_map.rs:718-737 *)
  Definition w_remove_via_left (item : L) : FM (optional_pair L R) :=
    l_hash <- w_look (fun m => hash_l m item) ;;
    o <- w_left_remove_entry l_hash item ;;
    match o with
    | None => ret Neither
    | Some left_pairing =>
        match phash left_pairing with
        | Some hash =>
            ro <- w_calmly (right_remove_entry B hash (hash_and_id l_hash (pid left_pairing))) ;;
            rp <- unwrap ro ;;
            ret (op_from_pair (Some (value left_pairing), Some (value rp)))
        | None => ret (op_from_pair (Some (value left_pairing), None))
        end
    end.
  (* src/partial_cycle_map.rs:752-759 *)
  Definition w_remove_right (item : R) : FM (option R) :=
    r_hash <- w_look (fun m => hash_r m item) ;;
    o <- w_right_remove_entry r_hash item ;;
    match o with
    | None => ret None
    | Some it =>
        match phash it with
        | Some hash =>
            w_calmly (m <- getst ;;
                    b <- unwrap (t_get_mut B (left_set m) hash (just_id (pid it))) ;;
                    left_assign (fst b) (set_hash None)) ;;;
            ret (Some (value it))
        | None => ret (Some (value it))
        end
    end.
  (* src/partial_cycle_map.rs:776-795 *)
  Definition w_remove_via_right (item : R) : FM (optional_pair L R) :=
    r_hash <- w_look (fun m => hash_r m item) ;;
    o <- w_right_remove_entry r_hash item ;;
    match o with
    | None => ret Neither
    | Some right_pairing =>
        match phash right_pairing with
        | Some hash =>
            lo_ <- w_calmly (left_remove_entry B hash (hash_and_id r_hash (pid right_pairing))) ;;
            lp <- unwrap lo_ ;;
            ret (op_from_pair (Some (value lp), Some (value right_pairing)))
        | None => ret (op_from_pair (None, Some (value right_pairing)))
        end
    end.
  (* src/partial_cycle_map.rs:671-678 *)
  Definition w_remove (left : L) (right : R) : FM (option (L * R)) :=
    b <- w_look (fun m => w_are_paired m left right) ;;
    if b then
      d <- w_remove_via_left left ;;
      match op_to_opt d with
      | None => ret None
      | Some (opt_l, opt_r) =>
          l <- unwrap opt_l ;; r <- unwrap opt_r ;; ret (Some (l, r))
      end
    else ret None.

  (* src/partial_cycle_map.rs:162-190 *)
  Definition w_insert_pair (left : L) (right : R) : FM (optional_pair L R * optional_pair L R) :=
    opt_from_left <- w_remove_via_left left ;;
    opt_from_right <- w_remove_via_right right ;;
    l_hash <- w_look (fun m => hash_l m left) ;;
    r_hash <- w_look (fun m => hash_r m right) ;;
    c <- w_look (fun m => ret (counter m)) ;;
    let left_pairing := MP left (Some r_hash) c in
    let right_pairing := MP right (Some l_hash) c in
    w_calmly (incr_counter B) ;;;
    w_left_insert l_hash left_pairing ;;;
    w_right_insert r_hash right_pairing ;;;
    ret (opt_from_left, opt_from_right).
  (* src/partial_cycle_map.rs:222-238 *)
  Definition w_insert_left (left : L) : FM (optional_pair L R) :=
    opt_from_left <- w_remove_via_left left ;;
    l_hash <- w_look (fun m => hash_l m left) ;;
    c <- w_look (fun m => ret (counter m)) ;;
    w_calmly (incr_counter B) ;;;
    w_left_insert l_hash (MP left None c) ;;;
    ret opt_from_left.
  (* src/partial_cycle_map.rs:269-285 *)
  Definition w_insert_right (right : R) : FM (optional_pair L R) :=
    opt_from_right <- w_remove_via_right right ;;
    r_hash <- w_look (fun m => hash_r m right) ;;
    c <- w_look (fun m => ret (counter m)) ;;
    w_calmly (incr_counter B) ;;;
    w_right_insert r_hash (MP right None c) ;;;
    ret opt_from_right.

  (* RawTable::get_mut with equivalent_key: the bucket and the entry in it *)
  Definition w_get_mut {A} (t : table A) (h : N) (p : A -> M W bool) : M W (option (nat * A)) :=
    o <- w_find (w_lo E) t h p ;;
    ret (match o with
         | Some i => match t_entry t i with Some e => Some (i, e) | None => None end
         | None => None
         end).
  (* the two hashes and the two searches with which pair, pair_forced, pair_forced_remove and
     unpair begin (src/partial_cycle_map.rs:313-316, 364-367, 465-468, 551-554) *)
  Definition w_find_both (m : map) (left : L) (right : R)
      : M W (N * N * option (nat * mapping_pair L) * option (nat * mapping_pair R)) :=
    l_hash <- hash_l m left ;;
    r_hash <- hash_r m right ;;
    opt_left <- w_get_mut (left_set m) l_hash (fun e => w_eqL E left (value e)) ;;
    opt_right <- w_get_mut (right_set m) r_hash (fun e => w_eqR E right (value e)) ;;
    ret (l_hash, r_hash, opt_left, opt_right).
  (* the rest of these functions (src/partial_cycle_map.rs:317-329, 368-429, 469-528, 555-572),
     which runs no user code *)
  Definition pair_found (l_hash r_hash : N) (opt_left : option (nat * mapping_pair L))
      (opt_right : option (nat * mapping_pair R)) : M map bool :=
    m <- getst ;;
    match opt_left, opt_right with
    | Some (i, le), Some (j, re) =>
        match phash le, phash re with
        | None, None =>
            left_assign i (set_hash (Some r_hash)) ;;;
            right_assign j (set_hash (Some l_hash)) ;;;
            right_assign j (set_id (pid le)) ;;;
            ret true
        | _, _ => ret false
        end
    | _, _ => ret false
    end.
  Definition pair_forced_found (l_hash r_hash : N) (opt_left : option (nat * mapping_pair L))
      (opt_right : option (nat * mapping_pair R)) : M map (optional_pair L R) :=
    m <- getst ;;
    match opt_left, opt_right with
    | Some (i, le), Some (j, re) =>
        match phash le, phash re with
        | None, None =>
            left_assign i (set_hash (Some r_hash)) ;;;
            right_assign j (set_hash (Some l_hash)) ;;;
            right_assign j (set_id (pid le)) ;;;
            ret Neither
        | Some lp_hash, None =>
            left_assign i (set_hash (Some r_hash)) ;;;
            right_assign j (set_hash (Some l_hash)) ;;;
            let old_id := pid le in
            left_assign i (set_id (pid re)) ;;;
            m <- getst ;;
            b <- unwrap (t_get_mut B (right_set m) lp_hash (hash_and_id l_hash old_id)) ;;
            right_assign (fst b) (set_hash None) ;;;
            m <- getst ;;
            e <- unwrap (t_get (w_lo E) (right_set m) lp_hash (just_id old_id)) ;;
            ret (SomeRight (value e))
        | None, Some rp_hash =>
            left_assign i (set_hash (Some r_hash)) ;;;
            right_assign j (set_hash (Some l_hash)) ;;;
            let old_id := pid re in
            right_assign j (set_id (pid le)) ;;;
            m <- getst ;;
            b <- unwrap (t_get_mut B (left_set m) rp_hash (hash_and_id r_hash old_id)) ;;
            left_assign (fst b) (set_hash None) ;;;
            m <- getst ;;
            e <- unwrap (t_get (w_lo E) (left_set m) rp_hash (just_id old_id)) ;;
            ret (SomeLeft (value e))
        | Some lp_hash, Some rp_hash =>
            left_assign i (set_hash (Some r_hash)) ;;;
            right_assign j (set_hash (Some l_hash)) ;;;
            let old_l_id := pid le in
            let old_r_id := pid re in
            left_assign i (set_id (counter m)) ;;;
            right_assign j (set_id (counter m)) ;;;
            incr_counter B ;;;
            m <- getst ;;
            b <- unwrap (t_get_mut B (left_set m) rp_hash (hash_and_id r_hash old_r_id)) ;;
            left_assign (fst b) (set_hash None) ;;;
            m <- getst ;;
            b <- unwrap (t_get_mut B (right_set m) lp_hash (hash_and_id l_hash old_l_id)) ;;
            right_assign (fst b) (set_hash None) ;;;
            m <- getst ;;
            a <- unwrap (t_get (w_lo E) (left_set m) rp_hash (just_id old_r_id)) ;;
            e <- unwrap (t_get (w_lo E) (right_set m) lp_hash (just_id old_l_id)) ;;
            ret (SomeBoth (value a) (value e))
        end
    | _, _ => ret Neither
    end.
  Definition pair_forced_remove_found (l_hash r_hash : N) (opt_left : option (nat * mapping_pair L))
      (opt_right : option (nat * mapping_pair R)) : M map (optional_pair L R) :=
    m <- getst ;;
    match opt_left, opt_right with
    | Some (i, le), Some (j, re) =>
        match phash le, phash re with
        | None, None =>
            left_assign i (set_hash (Some r_hash)) ;;;
            right_assign j (set_hash (Some l_hash)) ;;;
            right_assign j (set_id (pid le)) ;;;
            ret Neither
        | Some lp_hash, None =>
            left_assign i (set_hash (Some r_hash)) ;;;
            right_assign j (set_hash (Some l_hash)) ;;;
            let old_id := pid le in
            left_assign i (set_id (pid re)) ;;;
            o <- right_remove_entry B lp_hash (just_id old_id) ;;
            e <- unwrap o ;;
            ret (SomeRight (value e))
        | None, Some rp_hash =>
            left_assign i (set_hash (Some r_hash)) ;;;
            right_assign j (set_hash (Some l_hash)) ;;;
            let old_id := pid re in
            right_assign j (set_id (pid le)) ;;;
            o <- left_remove_entry B rp_hash (hash_and_id r_hash old_id) ;;
            e <- unwrap o ;;
            ret (SomeLeft (value e))
        | Some lp_hash, Some rp_hash =>
            left_assign i (set_hash (Some r_hash)) ;;;
            right_assign j (set_hash (Some l_hash)) ;;;
            let old_l_id := pid le in
            let old_r_id := pid re in
            left_assign i (set_id (counter m)) ;;;
            right_assign j (set_id (counter m)) ;;;
            incr_counter B ;;;
            o <- left_remove_entry B rp_hash (just_id old_r_id) ;;
            a <- unwrap o ;;
            o <- right_remove_entry B lp_hash (just_id old_l_id) ;;
            e <- unwrap o ;;
            ret (SomeBoth (value a) (value e))
        end
    | _, _ => ret Neither
    end.
  Definition unpair_found (l_hash r_hash : N) (opt_left : option (nat * mapping_pair L))
      (opt_right : option (nat * mapping_pair R)) : M map bool :=
    m <- getst ;;
    match opt_left, opt_right with
    | Some (i, le), Some (j, re) =>
        match phash le, phash re with
        | Some l_h, Some r_h =>
            if (l_hash =? r_h) && (r_hash =? l_h) then
              left_assign i (set_hash None) ;;;
              right_assign j (set_hash None) ;;;
              right_assign j (set_id (counter m)) ;;;
              incr_counter B ;;;
              ret true
            else ret false
        | _, _ => ret false
        end
    | _, _ => ret false
    end.
  (* src/partial_cycle_map.rs:312-329 *)
  Definition w_pair (left : L) (right : R) : FM bool :=
    f <- w_look (fun m => w_find_both m left right) ;;
    let '(l_hash, r_hash, a, b) := f in w_calmly (pair_found l_hash r_hash a b).
  (* src/partial_cycle_map.rs:360-429 *)
  Definition w_pair_forced (l : L) (r : R) : FM (optional_pair L R) :=
    b <- w_look (fun m => w_are_paired m l r) ;;
    if b then ret Neither else
    f <- w_look (fun m => w_find_both m l r) ;;
    let '(l_hash, r_hash, a, b) := f in w_calmly (pair_forced_found l_hash r_hash a b).
  (* src/partial_cycle_map.rs:461-528 *)
  Definition w_pair_forced_remove (l : L) (r : R) : FM (optional_pair L R) :=
    b <- w_look (fun m => w_are_paired m l r) ;;
    if b then ret Neither else
    f <- w_look (fun m => w_find_both m l r) ;;
    let '(l_hash, r_hash, a, b) := f in w_calmly (pair_forced_remove_found l_hash r_hash a b).
  (* src/partial_cycle_map.rs:550-572 *)
  Definition w_unpair (left : L) (right : R) : FM bool :=
    f <- w_look (fun m => w_find_both m left right) ;;
    let '(l_hash, r_hash, a, b) := f in w_calmly (unpair_found l_hash r_hash a b).

  (* src/partial_cycle_map.rs:962-971 *)
  Definition w_swap_left_eq_check (old new : L) (new_hash : N) : FM (optional_pair L R) :=
    o <- w_look (fun m => find_left m new_hash new) ;;
    match o with
    | None => ret Neither
    | Some _ => b <- w_look (fun _ => w_neL E new old) ;;
                if b then w_remove_via_left new else ret Neither
    end.
  (* src/partial_cycle_map.rs:842-887 *)
  Definition w_swap_left (old new : L) : FM (optional_pair L (optional_pair L R)) :=
    new_l_hash <- w_look (fun m => hash_l m new) ;;
    eq_opt <- w_swap_left_eq_check old new new_l_hash ;;
    old_l_hash <- w_look (fun m => hash_l m old) ;;
    o <- w_look (fun m => find_left m old_l_hash old) ;;
    match o with
    | None => ret Neither
    | Some l_pairing =>
        w_calmly (match phash l_pairing with
                | Some hash =>
                    m <- getst ;;
                    b <- unwrap (t_get_mut B (right_set m) hash (hash_and_id old_l_hash (pid l_pairing))) ;;
                    right_assign (fst b) (set_hash (Some new_l_hash))
                | None => ret tt
                end) ;;;
        let new_left_pairing := MP new (phash l_pairing) (pid l_pairing) in
        o <- w_left_remove_entry old_l_hash old ;;
        old_left <- unwrap o ;;
        w_left_insert new_l_hash new_left_pairing ;;;
        match eq_opt with
        | Neither => ret (SomeLeft (value old_left))
        | _ => ret (SomeBoth (value old_left) eq_opt)
        end
    end.
  (* src/partial_cycle_map.rs:909-920 *)
  Definition w_swap_left_checked (old : L) (expected : R) (new : L)
      : FM (optional_pair L (optional_pair L R)) :=
    b <- w_look (fun m => w_are_paired m old expected) ;;
    if negb b then ret Neither else w_swap_left old new.
  (* src/partial_cycle_map.rs:940-959 *)
  Definition w_swap_left_or_insert (old new : L) (to_insert : R)
      : FM (optional_pair L (optional_pair L R)) :=
    old_l_hash <- w_look (fun m => hash_l m old) ;;
    o <- w_look (fun m => find_left m old_l_hash old) ;;
    if is_some o then w_swap_left old new
    else
      d <- w_insert_pair new to_insert ;;
      match d with
      | (Neither, Neither) => ret Neither
      | (Neither, p) => ret (SomeRight p)
      | _ => panic
      end.

  (* src/partial_cycle_map.rs:1122-1131 *)
  Definition w_swap_right_eq_check (old new : R) (new_hash : N) : FM (optional_pair L R) :=
    o <- w_look (fun m => find_right m new_hash new) ;;
    match o with
    | None => ret Neither
    | Some _ => b <- w_look (fun _ => w_neR E new old) ;;
                if b then w_remove_via_right new else ret Neither
    end.
  (* src/partial_cycle_map.rs:997-1042 *)
  Definition w_swap_right (old new : R) : FM (optional_pair R (optional_pair L R)) :=
    new_r_hash <- w_look (fun m => hash_r m new) ;;
    eq_opt <- w_swap_right_eq_check old new new_r_hash ;;
    old_r_hash <- w_look (fun m => hash_r m old) ;;
    o <- w_look (fun m => find_right m old_r_hash old) ;;
    match o with
    | None => ret Neither
    | Some r_pairing =>
        w_calmly (match phash r_pairing with
                | Some hash =>
                    m <- getst ;;
                    b <- unwrap (t_get_mut B (left_set m) hash (hash_and_id old_r_hash (pid r_pairing))) ;;
                    left_assign (fst b) (set_hash (Some new_r_hash))
                | None => ret tt
                end) ;;;
        let new_right_pairing := MP new (phash r_pairing) (pid r_pairing) in
        o <- w_right_remove_entry old_r_hash old ;;
        old_right <- unwrap o ;;
        w_right_insert new_r_hash new_right_pairing ;;;
        match eq_opt with
        | Neither => ret (SomeLeft (value old_right))
        | _ => ret (SomeBoth (value old_right) eq_opt)
        end
    end.
  (* src/partial_cycle_map.rs:1064-1075 *)
  Definition w_swap_right_checked (old : R) (expected : L) (new : R)
      : FM (optional_pair R (optional_pair L R)) :=
    b <- w_look (fun m => w_are_paired m expected old) ;;
    if negb b then ret Neither else w_swap_right old new.
  (* src/partial_cycle_map.rs:1095-1119 *)
  Definition w_swap_right_or_insert (old new : R) (to_insert : L)
      : FM (optional_pair R (optional_pair L R)) :=
    old_r_hash <- w_look (fun m => hash_r m old) ;;
    o <- w_look (fun m => find_right m old_r_hash old) ;;
    if is_some o then w_swap_right old new
    else
      d <- w_insert_pair to_insert new ;;
      match d with
      | (Neither, Neither) => ret Neither
      | (p, Neither) => ret (SomeRight p)
      | _ => panic
      end.

  (* src/partial_cycle_map.rs:1145-1160, 1174-1189; Q = R and Q = L *)
  Definition w_get_left (m : map) (item : R) : M W (option L) :=
    r_hash <- hash_r m item ;;
    o <- find_right m r_hash item ;;
    ret (match o with
         | None => None
         | Some right_pairing =>
             match phash right_pairing with
             | None => None
             | Some hash => option_map value (t_get (w_lo E) (left_set m) hash
                                                (hash_and_id r_hash (pid right_pairing)))
             end
         end).
  Definition w_get_right (m : map) (item : L) : M W (option R) :=
    l_hash <- hash_l m item ;;
    o <- find_left m l_hash item ;;
    ret (match o with
         | None => None
         | Some left_pairing =>
             match phash left_pairing with
             | None => None
             | Some hash => option_map value (t_get (w_lo E) (right_set m) hash
                                                (hash_and_id l_hash (pid left_pairing)))
             end
         end).
  (* src/partial_cycle_map.rs:1199-1202, 1214-1217 *)
  Definition w_get_left_inner (m : map) (item : L) : M W (option (mapping_pair L)) :=
    hash <- hash_l m item ;; find_left m hash item.
  Definition w_get_right_inner (m : map) (item : R) : M W (option (mapping_pair R)) :=
    hash <- hash_r m item ;; find_right m hash item.

  (* src/partial_cycle_map.rs:2022-2031 *)
  Definition w_iter_next (m : map) (it : @iter_l L) : M W (option (optional_pair L R) * @iter_l L) :=
    match it with
    | [] => ret (None, [])
    | (_, l) :: rest =>
        o <- w_get_right m (value l) ;;
        ret (Some (op_from_pair (Some (value l), o)), rest)
    end.
  (* src/partial_cycle_map.rs:2093-2108 *)
  Fixpoint w_paired_next (m : map) (it : @iter_l L) : M W (option (L * R) * @iter_l L) :=
    match it with
    | [] => ret (None, [])
    | (_, l) :: rest =>
        match phash l with
        | None => w_paired_next m rest
        | Some h =>
            l_hash <- hash_l m (value l) ;;
            o <- w_inner (get_via_hashes_and_id B m l_hash h (pid l)) ;;
            ret (o, rest)
        end
    end.
  (* a complete for loop over an iterator *)
  Fixpoint w_collect {I A} (next : I -> M W (option A * I)) (fuel : nat) (it : I) : M W (list A) :=
    x <- next it ;;
    match x with
    | (None, _) => ret []
    | (Some p, it') =>
        match fuel with
        | O => panic
        | Datatypes.S fuel' => l <- w_collect next fuel' it' ;; ret (p :: l)
        end
    end.
  Definition w_iter_all (m : map) : M W (list (optional_pair L R)) :=
    w_collect (w_iter_next m) (length (iter m)) (iter m).
  Definition w_paired_all (m : map) : M W (list (L * R)) :=
    w_collect (w_paired_next m) (length (iter_paired m)) (iter_paired m).

  (* src/partial_cycle_map.rs:1746-1758 *)
  Definition w_eq_item (other : map) (op : optional_pair L R) : M W bool :=
    match op with
    | SomeLeft l => o <- w_get_right other l ;; ret (negb (is_some o))
    | SomeRight r => o <- w_get_left other r ;; ret (negb (is_some o))
    | SomeBoth l r => w_are_paired other l r
    | Neither => panic
    end.
  Fixpoint w_all_items (m other : map) (fuel : nat) (it : @iter_l L) : M W bool :=
    x <- w_iter_next m it ;;
    match x with
    | (None, _) => ret true
    | (Some op, it') =>
        b <- w_eq_item other op ;;
        if b then
          match fuel with
          | O => panic
          | Datatypes.S fuel' => w_all_items m other fuel' it'
          end
        else ret false
    end.
  Definition w_map_eq (m other : map) : M W bool :=
    if negb (Nat.eqb (len_left m) (len_left other)) && negb (Nat.eqb (len_right m) (len_right other))
    then ret false
    else w_all_items m other (length (iter m)) (iter m).

  (* src/partial_cycle_map.rs:1932-1936 *)
  Fixpoint w_extend_pairs (l : list (L * R)) : FM unit :=
    match l with
    | [] => ret tt
    | (a, b) :: t => w_insert_pair a b ;;; w_extend_pairs t
    end.
  (* src/partial_cycle_map.rs:1946-1961 *)
  Fixpoint w_extend (l : list (optional_pair L R)) : FM unit :=
    match l with
    | [] => ret tt
    | Neither :: t => w_extend t
    | SomeLeft a :: t => w_insert_left a ;;; w_extend t
    | SomeRight b :: t => w_insert_right b ;;; w_extend t
    | SomeBoth a b :: t => w_insert_pair a b ;;; w_extend t
    end.

  (* src/partial_cycle_map.rs:1441-1451 *)
  Definition w_opt {A B} (f : A -> M W B) (o : option A) : M W (option B) :=
    match o with None => ret None | Some a => b <- f a ;; ret (Some b) end.
  Definition w_retain_key (m : map) (op : optional_pair L R) : M W drop_tup :=
    let (lft, rgt) := op_to_pair op in
    l_hash <- w_opt (hash_l m) lft ;;
    r_hash <- w_opt (hash_r m) rgt ;;
    match lft with
    | Some l => o <- w_get_left_inner m l ;; p <- unwrap o ;; ret (l_hash, r_hash, pid p)
    | None =>
        match rgt with
        | Some r => o <- w_get_right_inner m r ;; p <- unwrap o ;; ret (l_hash, r_hash, pid p)
        | None => panic
        end
    end.
  (* src/partial_cycle_map.rs:1493-1496 *)
  Definition w_retain_paired_key (m : map) (p : L * R) : M W drop_tup :=
    l_hash <- hash_l m (fst p) ;;
    r_hash <- hash_r m (snd p) ;;
    o <- w_get_left_inner m (fst p) ;;
    e <- unwrap o ;;
    ret (Some l_hash, Some r_hash, pid e).
  (* src/partial_cycle_map.rs:1527-1541; get_left_inner_with_hash takes the hash just made *)
  Definition w_retain_unpaired_key (m : map) (op : optional_pair L R) : M W drop_tup :=
    match op with
    | SomeLeft l =>
        l_hash <- hash_l m l ;;
        o <- find_left m l_hash l ;;
        e <- unwrap o ;;
        ret (Some l_hash, None, pid e)
    | SomeRight r =>
        r_hash <- hash_r m r ;;
        o <- find_right m r_hash r ;;
        e <- unwrap o ;;
        ret (None, Some r_hash, pid e)
    | _ => panic
    end.
  (* the for loop of the three retain functions; their second loop runs no user code *)
  Section Retain.
    Context {X A I : Type}.
    Variable f : X -> A -> X * verdict.
    Variable next : I -> M W (option A * I).
    Variable key : A -> M W drop_tup.
    (* the outer Panic: user code or an unwrap; the w_inner one: the closure *)
    Fixpoint w_retain_scan (fuel : nat) (it : I) (x : X) : M W (res X (list drop_tup)) :=
      o <- next it ;;
      match o with
      | (None, _) => ret (Ret x [])
      | (Some a, it') =>
          match f x a with
          | (x', None) => ret (Panic x')
          | (x', Some ans) =>
              d <- (if ans : bool then t <- key a ;; ret [t] else ret []) ;;
              match fuel with
              | O => panic
              | Datatypes.S fuel' =>
                  r <- w_retain_scan fuel' it' x' ;;
                  ret (match r with Ret x'' l => Ret x'' (d ++ l) | Panic x'' => Panic x'' end)
              end
          end
      end.
  End Retain.
  Definition w_retain_with {X} (scan : map -> M W (res X (list drop_tup))) : FM unit :=
    r <- w_look scan ;;
    match r with
    | Panic _ => panic
    | Ret _ to_drop => w_calmly (drop_all B to_drop)
    end.
  (* src/partial_cycle_map.rs:1434-1469 *)
  Definition w_retain {X} (f : X -> optional_pair L R -> X * verdict) (x : X) : FM unit :=
    w_retain_with (fun m =>
      w_retain_scan f (w_iter_next m) (w_retain_key m) (length (iter m)) (iter m) x).
  (* src/partial_cycle_map.rs:1486-1502 *)
  Definition w_retain_paired {X} (f : X -> L * R -> X * verdict) (x : X) : FM unit :=
    w_retain_with (fun m =>
      w_retain_scan f (w_paired_next m) (w_retain_paired_key m) (length (iter_paired m)) (iter_paired m) x).
  (* src/partial_cycle_map.rs:1519-1557 *)
  Definition w_retain_unpaired {X} (f : X -> optional_pair L R -> X * verdict) (x : X) : FM unit :=
    w_retain_with (fun m =>
      w_retain_scan f (fun it => w_inner (unpaired_next it)) (w_retain_unpaired_key m)
        (length (fst (iter_unpaired m)) + length (snd (iter_unpaired m))) (iter_unpaired m) x).

  (* src/partial_cycle_map.rs:1580-1583, 1645-1648, 1606-1609, 1662-1665, 1626-1631 *)
  Definition w_resize_left (z : sizing) : FM unit :=
    on_left (fun s t => w_resize (w_lo E) (w_fault E) t z (fun e => w_hashL E s (value e))).
  Definition w_resize_right (z : sizing) : FM unit :=
    on_right (fun s t => w_resize (w_lo E) (w_fault E) t z (fun e => w_hashR E s (value e))).
  Definition w_shrink_to_fit : FM unit :=
    n <- w_look (fun m => ret (len_left m)) ;;
    w_resize_left (Shrink (N.of_nat n)) ;;;
    n <- w_look (fun m => ret (len_right m)) ;;
    w_resize_right (Shrink (N.of_nat n)).
  (* src/partial_cycle_map.rs:1679-1683, 1697-1701 *)
  Definition w_try_reserve_left (additional : N) : FM bool :=
    on_left (fun s t => w_try_resize (w_lo E) (w_fault E) t additional (fun e => w_hashL E s (value e))).
  Definition w_try_reserve_right (additional : N) : FM bool :=
    on_right (fun s t => w_try_resize (w_lo E) (w_fault E) t additional (fun e => w_hashR E s (value e))).

  (* ---- histories ---- *)
  Definition w_via {A} (k : A -> out L R) (c : FM A) (m : map) (w : W) : map * out L R :=
    match c (w, m) with Ret (_, m') a => (m', k a) | Panic (_, m') => (m', OPanic) end.

  (* one call, user code panicking as the W w says; the calls not listed run no user code *)
  Definition w_step (m : map) (o : op L R) (w : W) : map * out L R :=
    match o with
    | Insert l r => w_via OIns (w_insert_pair l r) m w
    | InsertLeft l => w_via OEntry (w_insert_left l) m w
    | InsertRight r => w_via OEntry (w_insert_right r) m w
    | Pair l r => w_via OBool (w_pair l r) m w
    | PairForced l r => w_via OEntry (w_pair_forced l r) m w
    | PairForcedRemove l r => w_via OEntry (w_pair_forced_remove l r) m w
    | Unpair l r => w_via OBool (w_unpair l r) m w
    | Remove l r => w_via OPair (w_remove l r) m w
    | RemoveLeft l => w_via OL (w_remove_left l) m w
    | RemoveRight r => w_via OR (w_remove_right r) m w
    | RemoveViaLeft l => w_via OEntry (w_remove_via_left l) m w
    | RemoveViaRight r => w_via OEntry (w_remove_via_right r) m w
    | SwapLeft old new => w_via OSwapL (w_swap_left old new) m w
    | SwapLeftChecked old ex new => w_via OSwapL (w_swap_left_checked old ex new) m w
    | SwapLeftOrInsert old new ti => w_via OSwapL (w_swap_left_or_insert old new ti) m w
    | SwapRight old new => w_via OSwapR (w_swap_right old new) m w
    | SwapRightChecked old ex new => w_via OSwapR (w_swap_right_checked old ex new) m w
    | SwapRightOrInsert old new ti => w_via OSwapR (w_swap_right_or_insert old new ti) m w
    | ArePaired l r => w_via OBool (w_look (fun m => w_are_paired m l r)) m w
    | IsLeftPaired l => w_via OBool (w_look (fun m => w_is_left_paired m l)) m w
    | IsRightPaired r => w_via OBool (w_look (fun m => w_is_right_paired m r)) m w
    | ContainsLeft l => w_via OBool (w_look (fun m => w_contains_left m l)) m w
    | ContainsRight r => w_via OBool (w_look (fun m => w_contains_right m r)) m w
    | GetLeft r => w_via OL (w_look (fun m => w_get_left m r)) m w
    | GetRight l => w_via OR (w_look (fun m => w_get_right m l)) m w
    | IterAll => w_via OEntries (w_look w_iter_all) m w
    | IterPairedAll => w_via OPairs (w_look w_paired_all) m w
    | ExtendPairs xs => w_via (fun _ => OUnit) (w_extend_pairs xs) m w
    | Extend xs => w_via (fun _ => OUnit) (w_extend xs) m w
    | Retain X f x => w_via (fun _ => OUnit) (w_retain f x) m w
    | RetainPaired X f x => w_via (fun _ => OUnit) (w_retain_paired f x) m w
    | RetainUnpaired X f x => w_via (fun _ => OUnit) (w_retain_unpaired f x) m w
    | ShrinkToLeft n => w_via (fun _ => OUnit) (w_resize_left (Shrink n)) m w
    | ShrinkToRight n => w_via (fun _ => OUnit) (w_resize_right (Shrink n)) m w
    | ShrinkToFit => w_via (fun _ => OUnit) w_shrink_to_fit m w
    | ReserveLeft n => w_via (fun _ => OUnit) (w_resize_left (Grow n)) m w
    | ReserveRight n => w_via (fun _ => OUnit) (w_resize_right (Grow n)) m w
    | TryReserveLeft n => w_via OBool (w_try_reserve_left n) m w
    | TryReserveRight n => w_via OBool (w_try_reserve_right n) m w
    | LenLeft | LenRight | IsEmpty | IterUnpairedAll | IterLeftAll | IterRightAll
    | DrainN _ | DrainFilter _ _ _ _ _ | Clear | CloneSelf => step B m o
    end.
  Definition w_xstep (m : map) (o : xop L R) (w : W) : map * out L R :=
    match o with
    | Call o => w_step m o w
    | DrainLeak n => xstep B m (DrainLeak n)
    end.
End Wild.

(* a history: every call finds user code and a world of its own; the calls with what they return *)
Fixpoint w_xrun {L R S W} (m : pmap L R S) (cs : list (wenv L R S W * W * xop L R))
    : pmap L R S * list (xop L R * out L R) :=
  match cs with
  | [] => (m, [])
  | (E, w, o) :: t => let (m', a) := w_xstep E m o w in
                      let (m'', b) := w_xrun m' t in (m'', (o, a) :: b)
  end.
