(* src/partial_cycle_map.rs: PartialCycleMap and its iterators, function by function.
   (Function names are those of the Rust code; this file is not imported together with
   CycleMap.v.) *)
From Coq Require Import List NArith Lia Bool.
From Verif Require Import Prelude RawTable Optionals.
Import ListNotations.
Open Scope N_scope.

(* src/partial_cycle_map.rs:25-29 *)
Record mapping_pair (T : Type) := MP { value : T; phash : option N; pid : N }.
Arguments MP {T} _ _ _.
Arguments value {T} _.
Arguments phash {T} _.
Arguments pid {T} _.

(* [Some(hash) == x.hash] on Option<u64> *)
Definition opt_is (h : N) (o : option N) : bool :=
  match o with Some x => h =? x | None => false end.
Definition is_some {T} (o : option T) : bool := match o with Some _ => true | None => false end.

(* src/partial_cycle_map.rs:31-33; [qeq] is Q: PartialEq<K> *)
Definition equivalent_key {Q K} (qeq : Q -> K -> bool) (k : Q) : mapping_pair K -> bool :=
  fun x => qeq k (value x).
(* src/partial_cycle_map.rs:35-37 *)
Definition hash_and_id {K} (hash id : N) : mapping_pair K -> bool :=
  fun x => (id =? pid x) && opt_is hash (phash x).
(* src/partial_cycle_map.rs:40-42; also the closures |p| p.id == id of retain *)
Definition just_id {K} (id : N) : mapping_pair K -> bool :=
  fun x => id =? pid x.

(* assignments to the fields of a MappingPair *)
Definition set_hash {T} (h : option N) (p : mapping_pair T) : mapping_pair T :=
  MP (value p) h (pid p).
Definition set_id {T} (i : N) (p : mapping_pair T) : mapping_pair T :=
  MP (value p) (phash p) i.

(* src/partial_cycle_map.rs:96-101 *)
Record pmap (L R S : Type) := PM {
  hash_builder : S;
  counter : N;
  left_set : table (mapping_pair L);
  right_set : table (mapping_pair R)
}.
Arguments PM {L R S} _ _ _ _.
Arguments hash_builder {L R S} _.
Arguments counter {L R S} _.
Arguments left_set {L R S} _.
Arguments right_set {L R S} _.

Section PartialCycleMap.
  Context {L R S : Type}.
  Variable E : env L R S.
  Notation map := (pmap L R S).

  Definition set_left (t : table (mapping_pair L)) (m : map) : map :=
    PM (hash_builder m) (counter m) t (right_set m).
  Definition set_right (t : table (mapping_pair R)) (m : map) : map :=
    PM (hash_builder m) (counter m) (left_set m) t.
  Definition set_counter (c : N) (m : map) : map :=
    PM (hash_builder m) c (left_set m) (right_set m).

  (* src/utils.rs:15-21 make_hasher with src/partial_cycle_map.rs:2456-2460 *)
  Definition make_hasher_l (s : S) : mapping_pair L -> N := fun p => hashL E s (value p).
  Definition make_hasher_r (s : S) : mapping_pair R -> N := fun p => hashR E s (value p).

  (* [self.counter += 1] *)
  Definition incr_counter : M map unit :=
    m <- getst ;;
    c <- unwrap (u64_incr (ovf E) (counter m)) ;;
    putst (set_counter c m).

  (* [self.left_set.remove_entry(..)], [self.right_set.remove_entry(..)] *)
  Definition left_remove_entry (h : N) (p : mapping_pair L -> bool)
      : M map (option (mapping_pair L)) :=
    m <- getst ;;
    match t_remove_entry (lo E) (left_set m) h p with
    | Some (e, t) => putst (set_left t m) ;;; ret (Some e)
    | None => ret None
    end.
  Definition right_remove_entry (h : N) (p : mapping_pair R -> bool)
      : M map (option (mapping_pair R)) :=
    m <- getst ;;
    match t_remove_entry (lo E) (right_set m) h p with
    | Some (e, t) => putst (set_right t m) ;;; ret (Some e)
    | None => ret None
    end.
  (* [self.left_set.insert(h, e, make_hasher(..))] *)
  Definition left_insert (h : N) (e : mapping_pair L) : M map unit :=
    m <- getst ;;
    putst (set_left (t_insert (lo E) (left_set m) h e (make_hasher_l (hash_builder m))) m).
  Definition right_insert (h : N) (e : mapping_pair R) : M map unit :=
    m <- getst ;;
    putst (set_right (t_insert (lo E) (right_set m) h e (make_hasher_r (hash_builder m))) m).

  (* RawTable::get_mut: the bucket and the entry in it *)
  Definition t_get_mut {A} (t : table A) (h : N) (p : A -> bool) : option (nat * A) :=
    match t_find (lo E) t h p with
    | Some i => match t_entry t i with Some e => Some (i, e) | None => None end
    | None => None
    end.
  (* assignment through the reference returned by get_mut *)
  Definition left_assign (i : nat) (f : mapping_pair L -> mapping_pair L) : M map unit :=
    m <- getst ;; putst (set_left (t_modify (left_set m) i f) m).
  Definition right_assign (i : nat) (f : mapping_pair R -> mapping_pair R) : M map unit :=
    m <- getst ;; putst (set_right (t_modify (right_set m) i f) m).

  (* src/partial_cycle_map.rs:1788-1795, 1818-1825, 1724-1726;
     ll, lr: unspecified initial layouts of the two tables *)
  Definition with_hasher (s : S) (ll lr : N) : map :=
    PM s 0 (t_new ll) (t_new lr).

  (* src/partial_cycle_map.rs:577-584 *)
  Definition is_left_paired (m : map) (left : L) : bool :=
    match t_get (lo E) (left_set m) (hashL E (hash_builder m) left)
            (equivalent_key (eqL E) left) with
    | Some l => is_some (phash l)
    | None => false
    end.
  (* src/partial_cycle_map.rs:589-596 *)
  Definition is_right_paired (m : map) (right : R) : bool :=
    match t_get (lo E) (right_set m) (hashR E (hash_builder m) right)
            (equivalent_key (eqR E) right) with
    | Some r => is_some (phash r)
    | None => false
    end.

  (* src/partial_cycle_map.rs:611-622 *)
  Definition are_paired (m : map) (left : L) (right : R) : bool :=
    let l_hash := hashL E (hash_builder m) left in
    let r_hash := hashR E (hash_builder m) right in
    match t_get (lo E) (left_set m) l_hash (equivalent_key (eqL E) left),
          t_get (lo E) (right_set m) r_hash (equivalent_key (eqR E) right) with
    | Some l, Some r => (pid l =? pid r) && opt_is l_hash (phash r) && opt_is r_hash (phash l)
    | _, _ => false
    end.

  (* src/partial_cycle_map.rs:637-640, 655-658 *)
  Definition contains_left (m : map) (left : L) : bool :=
    is_some (t_get (lo E) (left_set m) (hashL E (hash_builder m) left)
               (equivalent_key (eqL E) left)).
  Definition contains_right (m : map) (right : R) : bool :=
    is_some (t_get (lo E) (right_set m) (hashR E (hash_builder m) right)
               (equivalent_key (eqR E) right)).

  (* src/partial_cycle_map.rs:693-700 *)
  Definition remove_left (item : L) : M map (option L) :=
    m <- getst ;;
    let l_hash := hashL E (hash_builder m) item in
    o <- left_remove_entry l_hash (equivalent_key (eqL E) item) ;;
    match o with
    | None => ret None
    | Some it =>
        match phash it with
        | Some hash =>
            m <- getst ;;
            b <- unwrap (t_get_mut (right_set m) hash (just_id (pid it))) ;;
            right_assign (fst b) (set_hash None) ;;;
            ret (Some (value it))
        | None => ret (Some (value it))
        end
    end.

  (* src/partial_cycle_map.rs:718-737 *)
  Definition remove_via_left (item : L) : M map (optional_pair L R) :=
    m <- getst ;;
    let l_hash := hashL E (hash_builder m) item in
    o <- left_remove_entry l_hash (equivalent_key (eqL E) item) ;;
    match o with
    | None => ret Neither
    | Some left_pairing =>
        match phash left_pairing with
        | Some hash =>
            ro <- right_remove_entry hash (hash_and_id l_hash (pid left_pairing)) ;;
            rp <- unwrap ro ;;
            ret (op_from_pair (Some (value left_pairing), Some (value rp)))
        | None => ret (op_from_pair (Some (value left_pairing), None))
        end
    end.

  (* src/partial_cycle_map.rs:752-759 *)
  Definition remove_right (item : R) : M map (option R) :=
    m <- getst ;;
    let r_hash := hashR E (hash_builder m) item in
    o <- right_remove_entry r_hash (equivalent_key (eqR E) item) ;;
    match o with
    | None => ret None
    | Some it =>
        match phash it with
        | Some hash =>
            m <- getst ;;
            b <- unwrap (t_get_mut (left_set m) hash (just_id (pid it))) ;;
            left_assign (fst b) (set_hash None) ;;;
            ret (Some (value it))
        | None => ret (Some (value it))
        end
    end.

  (* src/partial_cycle_map.rs:776-795 *)
  Definition remove_via_right (item : R) : M map (optional_pair L R) :=
    m <- getst ;;
    let r_hash := hashR E (hash_builder m) item in
    o <- right_remove_entry r_hash (equivalent_key (eqR E) item) ;;
    match o with
    | None => ret Neither
    | Some right_pairing =>
        match phash right_pairing with
        | Some hash =>
            lo_ <- left_remove_entry hash (hash_and_id r_hash (pid right_pairing)) ;;
            lp <- unwrap lo_ ;;
            ret (op_from_pair (Some (value lp), Some (value right_pairing)))
        | None => ret (op_from_pair (None, Some (value right_pairing)))
        end
    end.

  (* src/partial_cycle_map.rs:671-678; Option::from(OptionalPair) is 231-244 of optionals.rs *)
  Definition remove (left : L) (right : R) : M map (option (L * R)) :=
    m <- getst ;;
    if are_paired m left right then
      d <- remove_via_left left ;;
      match op_to_opt d with
      | None => ret None
      | Some (opt_l, opt_r) =>
          l <- unwrap opt_l ;; r <- unwrap opt_r ;; ret (Some (l, r))
      end
    else ret None.

  (* src/partial_cycle_map.rs:798-813 *)
  Definition remove_via_hashes_and_id (l_hash r_hash id : N) : M map (optional_pair L R) :=
    left_opt <- left_remove_entry l_hash (hash_and_id r_hash id) ;;
    right_opt <- right_remove_entry r_hash (hash_and_id l_hash id) ;;
    ret (op_from_pair (option_map value left_opt, option_map value right_opt)).

  (* src/partial_cycle_map.rs:162-190 *)
  Definition insert (left : L) (right : R) : M map (optional_pair L R * optional_pair L R) :=
    opt_from_left <- remove_via_left left ;;
    opt_from_right <- remove_via_right right ;;
    m <- getst ;;
    let l_hash := hashL E (hash_builder m) left in
    let r_hash := hashR E (hash_builder m) right in
    let left_pairing := MP left (Some r_hash) (counter m) in
    let right_pairing := MP right (Some l_hash) (counter m) in
    incr_counter ;;;
    left_insert l_hash left_pairing ;;;
    right_insert r_hash right_pairing ;;;
    ret (opt_from_left, opt_from_right).

  (* src/partial_cycle_map.rs:222-238 *)
  Definition insert_left (left : L) : M map (optional_pair L R) :=
    opt_from_left <- remove_via_left left ;;
    m <- getst ;;
    let l_hash := hashL E (hash_builder m) left in
    let left_pairing := MP left None (counter m) in
    incr_counter ;;;
    left_insert l_hash left_pairing ;;;
    ret opt_from_left.

  (* src/partial_cycle_map.rs:269-285 *)
  Definition insert_right (right : R) : M map (optional_pair L R) :=
    opt_from_right <- remove_via_right right ;;
    m <- getst ;;
    let r_hash := hashR E (hash_builder m) right in
    let right_pairing := MP right None (counter m) in
    incr_counter ;;;
    right_insert r_hash right_pairing ;;;
    ret opt_from_right.

  (* src/partial_cycle_map.rs:312-329 *)
  Definition pair (left : L) (right : R) : M map bool :=
    m <- getst ;;
    let l_hash := hashL E (hash_builder m) left in
    let r_hash := hashR E (hash_builder m) right in
    match t_get_mut (left_set m) l_hash (equivalent_key (eqL E) left),
          t_get_mut (right_set m) r_hash (equivalent_key (eqR E) right) with
    | Some (i, le), Some (j, re) =>
        match phash le, phash re with
        | None, None =>
            left_assign i (set_hash (Some r_hash)) ;;;
            right_assign j (set_hash (Some l_hash)) ;;;
            right_assign j (set_id (pid le)) ;;;
            ret true
        | _, _ => ret false
        end
    | _, _ => ret false
    end.

  (* src/partial_cycle_map.rs:360-429; the references returned are modelled by the items *)
  Definition pair_forced (l : L) (r : R) : M map (optional_pair L R) :=
    m <- getst ;;
    if are_paired m l r then ret Neither else
    let l_hash := hashL E (hash_builder m) l in
    let r_hash := hashR E (hash_builder m) r in
    match t_get_mut (left_set m) l_hash (equivalent_key (eqL E) l),
          t_get_mut (right_set m) r_hash (equivalent_key (eqR E) r) with
    | Some (i, le), Some (j, re) =>
        match phash le, phash re with
        | None, None =>
            left_assign i (set_hash (Some r_hash)) ;;;
            right_assign j (set_hash (Some l_hash)) ;;;
            right_assign j (set_id (pid le)) ;;;
            ret Neither
        | Some lp_hash, None =>
            left_assign i (set_hash (Some r_hash)) ;;;
            right_assign j (set_hash (Some l_hash)) ;;;
            let old_id := pid le in
            left_assign i (set_id (pid re)) ;;;
            m <- getst ;;
            b <- unwrap (t_get_mut (right_set m) lp_hash (hash_and_id l_hash old_id)) ;;
            right_assign (fst b) (set_hash None) ;;;
            m <- getst ;;
            e <- unwrap (t_get (lo E) (right_set m) lp_hash (just_id old_id)) ;;
            ret (SomeRight (value e))
        | None, Some rp_hash =>
            left_assign i (set_hash (Some r_hash)) ;;;
            right_assign j (set_hash (Some l_hash)) ;;;
            let old_id := pid re in
            right_assign j (set_id (pid le)) ;;;
            m <- getst ;;
            b <- unwrap (t_get_mut (left_set m) rp_hash (hash_and_id r_hash old_id)) ;;
            left_assign (fst b) (set_hash None) ;;;
            m <- getst ;;
            e <- unwrap (t_get (lo E) (left_set m) rp_hash (just_id old_id)) ;;
            ret (SomeLeft (value e))
        | Some lp_hash, Some rp_hash =>
            left_assign i (set_hash (Some r_hash)) ;;;
            right_assign j (set_hash (Some l_hash)) ;;;
            let old_l_id := pid le in
            let old_r_id := pid re in
            left_assign i (set_id (counter m)) ;;;
            right_assign j (set_id (counter m)) ;;;
            incr_counter ;;;
            m <- getst ;;
            b <- unwrap (t_get_mut (left_set m) rp_hash (hash_and_id r_hash old_r_id)) ;;
            left_assign (fst b) (set_hash None) ;;;
            m <- getst ;;
            b <- unwrap (t_get_mut (right_set m) lp_hash (hash_and_id l_hash old_l_id)) ;;
            right_assign (fst b) (set_hash None) ;;;
            m <- getst ;;
            a <- unwrap (t_get (lo E) (left_set m) rp_hash (just_id old_r_id)) ;;
            e <- unwrap (t_get (lo E) (right_set m) lp_hash (just_id old_l_id)) ;;
            ret (SomeBoth (value a) (value e))
        end
    | _, _ => ret Neither
    end.

  (* src/partial_cycle_map.rs:461-528 *)
  Definition pair_forced_remove (l : L) (r : R) : M map (optional_pair L R) :=
    m <- getst ;;
    if are_paired m l r then ret Neither else
    let l_hash := hashL E (hash_builder m) l in
    let r_hash := hashR E (hash_builder m) r in
    match t_get_mut (left_set m) l_hash (equivalent_key (eqL E) l),
          t_get_mut (right_set m) r_hash (equivalent_key (eqR E) r) with
    | Some (i, le), Some (j, re) =>
        match phash le, phash re with
        | None, None =>
            left_assign i (set_hash (Some r_hash)) ;;;
            right_assign j (set_hash (Some l_hash)) ;;;
            right_assign j (set_id (pid le)) ;;;
            ret Neither
        | Some lp_hash, None =>
            left_assign i (set_hash (Some r_hash)) ;;;
            right_assign j (set_hash (Some l_hash)) ;;;
            let old_id := pid le in
            left_assign i (set_id (pid re)) ;;;
            o <- right_remove_entry lp_hash (just_id old_id) ;;
            e <- unwrap o ;;
            ret (SomeRight (value e))
        | None, Some rp_hash =>
            left_assign i (set_hash (Some r_hash)) ;;;
            right_assign j (set_hash (Some l_hash)) ;;;
            let old_id := pid re in
            right_assign j (set_id (pid le)) ;;;
            o <- left_remove_entry rp_hash (hash_and_id r_hash old_id) ;;
            e <- unwrap o ;;
            ret (SomeLeft (value e))
        | Some lp_hash, Some rp_hash =>
            left_assign i (set_hash (Some r_hash)) ;;;
            right_assign j (set_hash (Some l_hash)) ;;;
            let old_l_id := pid le in
            let old_r_id := pid re in
            left_assign i (set_id (counter m)) ;;;
            right_assign j (set_id (counter m)) ;;;
            incr_counter ;;;
            o <- left_remove_entry rp_hash (just_id old_r_id) ;;
            a <- unwrap o ;;
            o <- right_remove_entry lp_hash (just_id old_l_id) ;;
            e <- unwrap o ;;
            ret (SomeBoth (value a) (value e))
        end
    | _, _ => ret Neither
    end.

  (* src/partial_cycle_map.rs:550-572 *)
  Definition unpair (left : L) (right : R) : M map bool :=
    m <- getst ;;
    let l_hash := hashL E (hash_builder m) left in
    let r_hash := hashR E (hash_builder m) right in
    match t_get_mut (left_set m) l_hash (equivalent_key (eqL E) left),
          t_get_mut (right_set m) r_hash (equivalent_key (eqR E) right) with
    | Some (i, le), Some (j, re) =>
        match phash le, phash re with
        | Some l_h, Some r_h =>
            if (l_hash =? r_h) && (r_hash =? l_h) then
              left_assign i (set_hash None) ;;;
              right_assign j (set_hash None) ;;;
              right_assign j (set_id (counter m)) ;;;
              incr_counter ;;;
              ret true
            else ret false
        | _, _ => ret false
        end
    | _, _ => ret false
    end.

  (* src/partial_cycle_map.rs:962-971 *)
  Definition swap_left_eq_check (old new : L) (new_hash : N) : M map (optional_pair L R) :=
    m <- getst ;;
    if is_some (t_get (lo E) (left_set m) new_hash (equivalent_key (eqL E) new))
       && negb (eqL E new old)
    then remove_via_left new else ret Neither.

  (* src/partial_cycle_map.rs:842-887.  l_pairing is read again after r_pairing has been
     updated; it lives in the other table, so its fields are unchanged. *)
  Definition swap_left (old new : L) : M map (optional_pair L (optional_pair L R)) :=
    m0 <- getst ;;
    let new_l_hash := hashL E (hash_builder m0) new in
    eq_opt <- swap_left_eq_check old new new_l_hash ;;
    m <- getst ;;
    let old_l_hash := hashL E (hash_builder m) old in
    match t_get (lo E) (left_set m) old_l_hash (equivalent_key (eqL E) old) with
    | None => ret Neither
    | Some l_pairing =>
        match phash l_pairing with
        | Some hash =>
            b <- unwrap (t_get_mut (right_set m) hash (hash_and_id old_l_hash (pid l_pairing))) ;;
            right_assign (fst b) (set_hash (Some new_l_hash))
        | None => ret tt
        end ;;;
        let new_left_pairing := MP new (phash l_pairing) (pid l_pairing) in
        o <- left_remove_entry old_l_hash (equivalent_key (eqL E) old) ;;
        old_left <- unwrap o ;;
        left_insert new_l_hash new_left_pairing ;;;
        match eq_opt with
        | Neither => ret (SomeLeft (value old_left))
        | _ => ret (SomeBoth (value old_left) eq_opt)
        end
    end.

  (* src/partial_cycle_map.rs:909-920 *)
  Definition swap_left_checked (old : L) (expected : R) (new : L)
      : M map (optional_pair L (optional_pair L R)) :=
    m <- getst ;;
    if negb (are_paired m old expected) then ret Neither else swap_left old new.

  (* src/partial_cycle_map.rs:940-959 *)
  Definition swap_left_or_insert (old new : L) (to_insert : R)
      : M map (optional_pair L (optional_pair L R)) :=
    m <- getst ;;
    if is_some (t_get (lo E) (left_set m) (hashL E (hash_builder m) old)
                  (equivalent_key (eqL E) old))
    then swap_left old new
    else
      d <- insert new to_insert ;;
      match d with
      | (Neither, Neither) => ret Neither
      | (Neither, p) => ret (SomeRight p)
      | _ => panic                       (* unreachable!("There isn't a left item") *)
      end.

  (* src/partial_cycle_map.rs:1122-1131 *)
  Definition swap_right_eq_check (old new : R) (new_hash : N) : M map (optional_pair L R) :=
    m <- getst ;;
    if is_some (t_get (lo E) (right_set m) new_hash (equivalent_key (eqR E) new))
       && negb (eqR E new old)
    then remove_via_right new else ret Neither.

  (* src/partial_cycle_map.rs:997-1042 *)
  Definition swap_right (old new : R) : M map (optional_pair R (optional_pair L R)) :=
    m0 <- getst ;;
    let new_r_hash := hashR E (hash_builder m0) new in
    eq_opt <- swap_right_eq_check old new new_r_hash ;;
    m <- getst ;;
    let old_r_hash := hashR E (hash_builder m) old in
    match t_get (lo E) (right_set m) old_r_hash (equivalent_key (eqR E) old) with
    | None => ret Neither
    | Some r_pairing =>
        match phash r_pairing with
        | Some hash =>
            b <- unwrap (t_get_mut (left_set m) hash (hash_and_id old_r_hash (pid r_pairing))) ;;
            left_assign (fst b) (set_hash (Some new_r_hash))
        | None => ret tt
        end ;;;
        let new_right_pairing := MP new (phash r_pairing) (pid r_pairing) in
        o <- right_remove_entry old_r_hash (equivalent_key (eqR E) old) ;;
        old_right <- unwrap o ;;
        right_insert new_r_hash new_right_pairing ;;;
        match eq_opt with
        | Neither => ret (SomeLeft (value old_right))
        | _ => ret (SomeBoth (value old_right) eq_opt)
        end
    end.

  (* src/partial_cycle_map.rs:1064-1075 *)
  Definition swap_right_checked (old : R) (expected : L) (new : R)
      : M map (optional_pair R (optional_pair L R)) :=
    m <- getst ;;
    if negb (are_paired m expected old) then ret Neither else swap_right old new.

  (* src/partial_cycle_map.rs:1095-1119 *)
  Definition swap_right_or_insert (old new : R) (to_insert : L)
      : M map (optional_pair R (optional_pair L R)) :=
    m <- getst ;;
    if is_some (t_get (lo E) (right_set m) (hashR E (hash_builder m) old)
                  (equivalent_key (eqR E) old))
    then swap_right old new
    else
      d <- insert to_insert new ;;
      match d with
      | (Neither, Neither) => ret Neither
      | (p, Neither) => ret (SomeRight p)
      | _ => panic                       (* unreachable!("There isn't a left item") *)
      end.

  (* src/partial_cycle_map.rs:1145-1160, 1220-1226; Q is the borrowed form of R *)
  Definition get_left_q {Q} (qhash : S -> Q -> N) (qeq : Q -> R -> bool) (m : map) (item : Q)
      : option L :=
    let r_hash := qhash (hash_builder m) item in
    match t_get (lo E) (right_set m) r_hash (equivalent_key qeq item) with
    | None => None
    | Some right_pairing =>
        match phash right_pairing with
        | None => None
        | Some hash =>
            option_map value (t_get (lo E) (left_set m) hash
                                (hash_and_id r_hash (pid right_pairing)))
        end
    end.
  (* src/partial_cycle_map.rs:1174-1189, 1205-1211 *)
  Definition get_right_q {Q} (qhash : S -> Q -> N) (qeq : Q -> L -> bool) (m : map) (item : Q)
      : option R :=
    let l_hash := qhash (hash_builder m) item in
    match t_get (lo E) (left_set m) l_hash (equivalent_key qeq item) with
    | None => None
    | Some left_pairing =>
        match phash left_pairing with
        | None => None
        | Some hash =>
            option_map value (t_get (lo E) (right_set m) hash
                                (hash_and_id l_hash (pid left_pairing)))
        end
    end.
  Definition get_left (m : map) (item : R) : option L := get_left_q (hashR E) (eqR E) m item.
  Definition get_right (m : map) (item : L) : option R := get_right_q (hashL E) (eqL E) m item.

  (* src/partial_cycle_map.rs:1192-1196 *)
  Definition get_via_hashes_and_id (m : map) (l_hash r_hash id : N) : outcome (option (L * R)) :=
    match t_get (lo E) (left_set m) l_hash (hash_and_id r_hash id) with
    | None => Done None
    | Some left_pairing =>
        match t_get (lo E) (right_set m) r_hash (hash_and_id l_hash id) with
        | None => Panicked
        | Some right_pairing => Done (Some (value left_pairing, value right_pairing))
        end
    end.

  (* src/partial_cycle_map.rs:1199-1202, 1214-1217 *)
  Definition get_left_inner (m : map) (item : L) : option (mapping_pair L) :=
    t_get (lo E) (left_set m) (hashL E (hash_builder m) item) (equivalent_key (eqL E) item).
  Definition get_right_inner (m : map) (item : R) : option (mapping_pair R) :=
    t_get (lo E) (right_set m) (hashR E (hash_builder m) item) (equivalent_key (eqR E) item).

  (* src/partial_cycle_map.rs:1870-1872, 1886-1888, 1902-1904 *)
  Definition len_left (m : map) : nat := t_len (left_set m).
  Definition len_right (m : map) : nat := t_len (right_set m).
  Definition is_empty (m : map) : bool := Nat.eqb (len_left m + len_right m) 0.

  (* src/partial_cycle_map.rs:1919-1922 *)
  Definition clear : M map unit :=
    m <- getst ;;
    putst (set_left (t_clear (lo E) (left_set m)) m) ;;;
    m <- getst ;;
    putst (set_right (t_clear (lo E) (right_set m)) m).

  (* src/partial_cycle_map.rs:1710-1717; item Clone is taken to return the same value
     (the other case is clone_with in PartialClone.v) *)
  Definition clone (m : map) : map :=
    PM (hash_builder m) (counter m) (left_set m) (right_set m).

  (* ---- iterators ---- *)
  Definition iter_l := list (N * mapping_pair L).
  Definition iter_r := list (N * mapping_pair R).

  (* src/partial_cycle_map.rs:1248-1253 *)
  Definition iter (m : map) : iter_l := slots (left_set m).
  (* src/partial_cycle_map.rs:2022-2031 *)
  Definition iter_next (m : map) (it : iter_l) : outcome (option (optional_pair L R) * iter_l) :=
    match it with
    | [] => Done (None, [])
    | (_, l) :: rest =>
        Done (Some (op_from_pair (Some (value l), get_right m (value l))), rest)
    end.
  (* src/partial_cycle_map.rs:2033-2035 (lower and upper bound) *)
  Definition iter_size_hint (it : iter_l) : nat * option nat := (length it, Some (length it)).

  (* src/partial_cycle_map.rs:1267-1273; right_iter is never read *)
  Definition iter_paired (m : map) : iter_l := slots (left_set m).
  (* src/partial_cycle_map.rs:2093-2108 *)
  Fixpoint paired_next (m : map) (it : iter_l) : outcome (option (L * R) * iter_l) :=
    match it with
    | [] => Done (None, [])
    | (_, l) :: rest =>
        match phash l with
        | None => paired_next m rest
        | Some h =>
            match get_via_hashes_and_id m (hashL E (hash_builder m) (value l)) h (pid l) with
            | Panicked => Panicked
            | Done o => Done (o, rest)
            end
        end
    end.
  (* src/partial_cycle_map.rs:2110-2112 *)
  Definition paired_size_hint (it : iter_l) : nat * option nat := (length it, Some (length it)).

  (* src/partial_cycle_map.rs:1294-1300 *)
  Definition iter_unpaired (m : map) : iter_l * iter_r := (slots (left_set m), slots (right_set m)).
  (* src/partial_cycle_map.rs:2179-2187 *)
  Fixpoint unpaired_next_r (it : iter_r) : option (optional_pair L R) * iter_r :=
    match it with
    | [] => (None, [])
    | (_, r) :: rest =>
        match phash r with
        | Some _ => unpaired_next_r rest
        | None => (Some (SomeRight (value r)), rest)
        end
    end.
  (* src/partial_cycle_map.rs:2170-2178 *)
  Fixpoint unpaired_next_l (it : iter_l) (rt : iter_r)
      : outcome (option (optional_pair L R) * (iter_l * iter_r)) :=
    match it with
    | [] => let (o, rt') := unpaired_next_r rt in Done (o, ([], rt'))
    | (_, l) :: rest =>
        match phash l with
        | Some _ => unpaired_next_l rest rt
        | None => Done (Some (SomeLeft (value l)), (rest, rt))
        end
    end.
  Definition unpaired_next (it : iter_l * iter_r) := unpaired_next_l (fst it) (snd it).
  (* src/partial_cycle_map.rs:2190-2192 *)
  Definition unpaired_size_hint (it : iter_l * iter_r) : nat * option nat :=
    (length (fst it), Some (length (fst it))).

  (* src/partial_cycle_map.rs:1314-1319, 1333-1338, 2244-2265 *)
  Definition single_next {T} (it : list (N * mapping_pair T))
      : outcome (option T * list (N * mapping_pair T)) :=
    match it with
    | [] => Done (None, [])
    | (_, x) :: rest => Done (Some (value x), rest)
    end.
  Definition iter_left (m : map) : list (N * mapping_pair L) := slots (left_set m).
  Definition iter_right (m : map) : list (N * mapping_pair R) := slots (right_set m).
  Definition single_len {T} (it : list (N * mapping_pair T)) : nat := length it.

  (* complete for loops over the iterators *)
  Definition iter_all (m : map) : outcome (list (optional_pair L R)) :=
    collect (iter_next m) (length (iter m)) (iter m).
  Definition paired_rest (m : map) (it : iter_l) : outcome (list (L * R)) :=
    collect (paired_next m) (length it) it.
  Definition unpaired_rest (it : iter_l * iter_r) : outcome (list (optional_pair L R)) :=
    collect unpaired_next (length (fst it) + length (snd it)) it.
  (* src/partial_cycle_map.rs:2044-2046, 2121-2123, 2201-2203: len() is self.clone().count() *)
  Definition iter_len (m : map) (it : iter_l) : outcome nat :=
    omap (@length _) (collect (iter_next m) (length it) it).
  Definition paired_len (m : map) (it : iter_l) : outcome nat := omap (@length _) (paired_rest m it).
  Definition unpaired_len (it : iter_l * iter_r) : outcome nat :=
    omap (@length _) (unpaired_rest it).

  (* src/partial_cycle_map.rs:1746-1758 *)
  Definition eq_item (other : map) (op : optional_pair L R) : outcome bool :=
    match op with
    | SomeLeft l => Done (negb (is_some (get_right other l)))
    | SomeRight r => Done (negb (is_some (get_left other r)))
    | SomeBoth l r => Done (are_paired other l r)
    | Neither => Panicked                (* unreachable!("There has to be at least one item.") *)
    end.
  Fixpoint all_items (m other : map) (fuel : nat) (it : iter_l) : outcome bool :=
    match iter_next m it with
    | Panicked => Panicked
    | Done (None, _) => Done true
    | Done (Some op, it') =>
        match eq_item other op with
        | Panicked => Panicked
        | Done false => Done false
        | Done true =>
            match fuel with
            | O => Panicked              (* out of fuel *)
            | Datatypes.S fuel' => all_items m other fuel' it'
            end
        end
    end.
  Definition map_eq (m other : map) : outcome bool :=
    if negb (Nat.eqb (len_left m) (len_left other)) && negb (Nat.eqb (len_right m) (len_right other))
    then Done false
    else all_items m other (length (iter m)) (iter m).

  (* src/partial_cycle_map.rs:1932-1936 *)
  Fixpoint extend_pairs (l : list (L * R)) : M map unit :=
    match l with
    | [] => ret tt
    | (a, b) :: t => insert a b ;;; extend_pairs t
    end.
  (* src/partial_cycle_map.rs:1946-1961 *)
  Fixpoint extend (l : list (optional_pair L R)) : M map unit :=
    match l with
    | [] => ret tt
    | Neither :: t => extend t
    | SomeLeft a :: t => insert_left a ;;; extend t
    | SomeRight b :: t => insert_right b ;;; extend t
    | SomeBoth a b :: t => insert a b ;;; extend t
    end.
  (* src/partial_cycle_map.rs:1969-1973, 1981-1985 *)
  Definition from_iter_pairs (s : S) (ll lr : N) (l : list (L * R)) : res map unit :=
    extend_pairs l (with_hasher s ll lr).
  Definition from_iter (s : S) (ll lr : N) (l : list (optional_pair L R)) : res map unit :=
    extend l (with_hasher s ll lr).

  (* ---- retain ---- *)
  (* what is pushed on to_drop *)
  Definition drop_tup := (option N * option N * N)%type.

  (* src/partial_cycle_map.rs:1453-1468 and 1544-1556 *)
  Definition drop_one (tup : drop_tup) : M map unit :=
    match tup with
    | (Some l, Some r, id) => remove_via_hashes_and_id l r id ;;; ret tt
    | (Some l, None, id) => left_remove_entry l (just_id id) ;;; ret tt
    | (None, Some r, id) => right_remove_entry r (just_id id) ;;; ret tt
    | (None, None, _) => panic           (* unreachable!(..) *)
    end.
  Fixpoint drop_all (l : list drop_tup) : M map unit :=
    match l with [] => ret tt | t :: l' => drop_one t ;;; drop_all l' end.

  (* src/partial_cycle_map.rs:1441-1451; None: an unwrap fails *)
  Definition retain_key (m : map) (op : optional_pair L R) : option drop_tup :=
    let (lft, rgt) := op_to_pair op in
    let l_hash := option_map (hashL E (hash_builder m)) lft in
    let r_hash := option_map (hashR E (hash_builder m)) rgt in
    match lft with
    | Some l => option_map (fun p => (l_hash, r_hash, pid p)) (get_left_inner m l)
    | None =>
        match rgt with
        | Some r => option_map (fun p => (l_hash, r_hash, pid p)) (get_right_inner m r)
        | None => None
        end
    end.
  (* src/partial_cycle_map.rs:1493-1496 *)
  Definition retain_paired_key (m : map) (p : L * R) : option drop_tup :=
    option_map (fun e => (Some (hashL E (hash_builder m) (fst p)),
                          Some (hashR E (hash_builder m) (snd p)), pid e))
               (get_left_inner m (fst p)).
  (* src/partial_cycle_map.rs:1527-1541 *)
  Definition retain_unpaired_key (m : map) (op : optional_pair L R) : option drop_tup :=
    match op with
    | SomeLeft l => option_map (fun e => (Some (hashL E (hash_builder m) l), None, pid e))
                               (get_left_inner m l)
    | SomeRight r => option_map (fun e => (None, Some (hashR E (hash_builder m) r), pid e))
                                (get_right_inner m r)
    | _ => None                          (* unreachable!(..) *)
    end.

  (* The three retain functions share one shape: a for loop that asks the closure about
     every item of an iterator and collects the items to drop, then a loop that drops them.
     [A]: item type, [I]: iterator state. *)
  Section Retain.
    Context {X A I : Type}.
    Variable f : X -> A -> X * verdict.
    Variable next : I -> outcome (option A * I).
    Variable key : A -> option drop_tup.

    Fixpoint retain_scan (fuel : nat) (it : I) (x : X) : res X (list drop_tup) :=
      match next it with
      | Panicked => Panic x
      | Done (None, _) => Ret x []
      | Done (Some a, it') =>
          match f x a with
          | (x', None) => Panic x'
          | (x', Some ans) =>
              let step (to_drop : list drop_tup) :=
                match fuel with
                | O => Panic x'          (* out of fuel *)
                | Datatypes.S fuel' =>
                    match retain_scan fuel' it' x' with
                    | Panic x'' => Panic x''
                    | Ret x'' l => Ret x'' (to_drop ++ l)
                    end
                end in
              if ans then
                match key a with
                | None => Panic x'
                | Some t => step [t]
                end
              else step []
          end
      end.
    Definition retain_with (fuel : nat) (it : I) (mx : map * X) : res (map * X) unit :=
      let (m, x) := mx in
      match retain_scan fuel it x with
      | Panic x' => Panic (m, x')
      | Ret x' to_drop =>
          match drop_all to_drop m with
          | Ret m' _ => Ret (m', x') tt
          | Panic m' => Panic (m', x')
          end
      end.
  End Retain.
  (* src/partial_cycle_map.rs:1434-1469 *)
  Definition retain {X} (f : X -> optional_pair L R -> X * verdict) (mx : map * X) :=
    let m := fst mx in
    retain_with f (iter_next m) (retain_key m) (length (iter m)) (iter m) mx.
  (* src/partial_cycle_map.rs:1486-1502 *)
  Definition retain_paired {X} (f : X -> L * R -> X * verdict) (mx : map * X) :=
    let m := fst mx in
    retain_with f (paired_next m) (retain_paired_key m) (length (iter_paired m)) (iter_paired m) mx.
  (* src/partial_cycle_map.rs:1519-1557 *)
  Definition retain_unpaired {X} (f : X -> optional_pair L R -> X * verdict) (mx : map * X) :=
    let m := fst mx in
    retain_with f unpaired_next (retain_unpaired_key m)
      (length (fst (iter_unpaired m)) + length (snd (iter_unpaired m))) (iter_unpaired m) mx.

  (* ---- drain ---- src/partial_cycle_map.rs:2271-2278 *)
  Record drain_t := Drain {
    di_left : list (N * mapping_pair L);
    di_right : table (mapping_pair R)
  }.
  (* src/partial_cycle_map.rs:1366-1371 *)
  Definition drain (m : map) : drain_t := Drain (slots (left_set m)) (right_set m).
  (* src/partial_cycle_map.rs:2309-2329; [right_ref.drain().next()] takes the first right item
     and, the RawDrain being dropped at once, empties the right table *)
  Definition drain_next (d : drain_t) : res drain_t (option (optional_pair L R)) :=
    match di_left d with
    | (_, lp) :: rest =>
        match phash lp with
        | Some hash =>
            match t_remove_entry (lo E) (di_right d) hash (just_id (pid lp)) with
            | None => Panic (Drain rest (di_right d))
            | Some (rp, t) => Ret (Drain rest t) (Some (SomeBoth (value lp) (value rp)))
            end
        | None => Ret (Drain rest (di_right d)) (Some (SomeLeft (value lp)))
        end
    | [] =>
        let d' := Drain [] (t_clear (lo E) (di_right d)) in
        match slots (di_right d) with
        | [] => Ret d' None
        | (_, rp) :: _ => Ret d' (Some (SomeRight (value rp)))
        end
    end.
  (* src/partial_cycle_map.rs:2331-2343: size_hint and len *)
  Definition drain_size_hint (d : drain_t) : nat * option nat :=
    (length (di_left d), Some (length (di_left d))).
  (* n calls of next *)
  Fixpoint drain_nexts (n : nat) (d : drain_t) : res drain_t (list (option (optional_pair L R))) :=
    match n with
    | O => Ret d []
    | Datatypes.S n' =>
        match drain_next d with
        | Panic d' => Panic d'
        | Ret d' a => match drain_nexts n' d' with
                      | Panic d'' => Panic d''
                      | Ret d'' l => Ret d'' (a :: l)
                      end
        end
    end.
  (* src/partial_cycle_map.rs:2285-2291: Drop calls next until None *)
  Fixpoint drain_drop_fuel (fuel : nat) (d : drain_t) : res drain_t unit :=
    match drain_next d with
    | Panic d' => Panic d'
    | Ret d' None => Ret d' tt
    | Ret d' (Some _) =>
        match fuel with
        | O => Panic d'                  (* out of fuel *)
        | Datatypes.S fuel' => drain_drop_fuel fuel' d'
        end
    end.
  Definition drain_drop (d : drain_t) : res drain_t unit :=
    drain_drop_fuel (Datatypes.S (length (di_left d))) d.
  (* the map after the DrainIter is gone: dropping RawDrain empties the left table; the
     counter is not reset *)
  Definition drain_end (m : map) (d : drain_t) : map :=
    PM (hash_builder m) (counter m) (t_clear (lo E) (left_set m)) (di_right d).

  (* ---- drain_filter ---- src/partial_cycle_map.rs:2402-2408.  [df_lpos], [df_rpos]: the
     RawIters (buckets at positions below have been visited) *)
  Record df_inner := DF {
    df_left : table (mapping_pair L);
    df_lpos : nat;
    df_right : table (mapping_pair R);
    df_rpos : nat;
    df_reset : bool
  }.
  Section DrainFilter.
    Context {X : Type}.
    Variable f : X -> optional_pair L R -> X * verdict.

    (* src/partial_cycle_map.rs:1401-1417 *)
    Definition drain_filter (m : map) : df_inner := DF (left_set m) 0 (right_set m) 0 true.

    (* src/partial_cycle_map.rs:2438-2445 *)
    Fixpoint df_next_right (fuel : nat) (d : df_inner) (x : X)
        : res (df_inner * X) (option (optional_pair L R)) :=
      match t_entry (df_right d) (df_rpos d) with
      | None => Ret (d, x) None
      | Some rp =>
          let adv := DF (df_left d) (df_lpos d) (df_right d) (Datatypes.S (df_rpos d)) (df_reset d) in
          match f x (SomeRight (value rp)) with
          | (x', None) => Panic (adv, x')
          | (x', Some true) =>
              Ret (DF (df_left d) (df_lpos d) (t_remove_at (lo E) (df_right d) (df_rpos d))
                      (df_rpos d) (df_reset d), x')
                  (Some (SomeRight (value rp)))
          | (x', Some false) =>
              match fuel with
              | O => Panic (adv, x')     (* out of fuel *)
              | Datatypes.S fuel' => df_next_right fuel' adv x'
              end
          end
      end.
    (* src/partial_cycle_map.rs:2434-2437 *)
    Definition df_enter_right (d : df_inner) : df_inner :=
      if df_reset d then DF (df_left d) (df_lpos d) (df_right d) 0 false else d.

    (* src/partial_cycle_map.rs:2415-2433 *)
    Fixpoint df_next_left (fuel : nat) (d : df_inner) (x : X)
        : res (df_inner * X) (option (optional_pair L R)) :=
      match t_entry (df_left d) (df_lpos d) with
      | None =>
          let d' := df_enter_right d in
          df_next_right (t_len (df_right d')) d' x
      | Some lp =>
          let adv := DF (df_left d) (Datatypes.S (df_lpos d)) (df_right d) (df_rpos d) (df_reset d) in
          let go_on x' :=
            match fuel with
            | O => Panic (adv, x')       (* out of fuel *)
            | Datatypes.S fuel' => df_next_left fuel' adv x'
            end in
          match phash lp with
          | Some hash =>
              match t_get_mut (df_right d) hash (just_id (pid lp)) with
              | None => Panic (adv, x)
              | Some (j, rp) =>
                  match f x (SomeBoth (value lp) (value rp)) with
                  | (x', None) => Panic (adv, x')
                  | (x', Some true) =>
                      Ret (DF (t_remove_at (lo E) (df_left d) (df_lpos d)) (df_lpos d)
                              (t_remove_at (lo E) (df_right d) j) (df_rpos d) (df_reset d), x')
                          (Some (SomeBoth (value lp) (value rp)))
                  | (x', Some false) => go_on x'
                  end
              end
          | None =>
              match f x (SomeLeft (value lp)) with
              | (x', None) => Panic (adv, x')
              | (x', Some true) =>
                  Ret (DF (t_remove_at (lo E) (df_left d) (df_lpos d)) (df_lpos d)
                          (df_right d) (df_rpos d) (df_reset d), x')
                      (Some (SomeLeft (value lp)))
              | (x', Some false) => go_on x'
              end
          end
      end.
    Definition df_next (st : df_inner * X) : res (df_inner * X) (option (optional_pair L R)) :=
      df_next_left (t_len (df_left (fst st))) (fst st) (snd st).

    (* src/partial_cycle_map.rs:2390-2393 (lower and upper bound) *)
    Definition df_size_hint (d : df_inner) : nat * option nat :=
      (0%nat, Some (t_len (df_left d) - df_lpos d)%nat).

    (* n explicit calls of next by the user *)
    Fixpoint df_nexts (n : nat) (st : df_inner * X)
        : res (df_inner * X) (list (option (optional_pair L R))) :=
      match n with
      | O => Ret st []
      | Datatypes.S n' =>
          match df_next st with
          | Panic st' => Panic st'
          | Ret st' a => match df_nexts n' st' with
                         | Panic st'' => Panic st''
                         | Ret st'' l => Ret st'' (a :: l)
                         end
          end
      end.
    (* src/partial_cycle_map.rs:2371-2377: Drop runs next until None *)
    Fixpoint df_drop_fuel (fuel : nat) (st : df_inner * X) : res (df_inner * X) unit :=
      match df_next st with
      | Panic st' => Panic st'
      | Ret st' None => Ret st' tt
      | Ret st' (Some _) =>
          match fuel with
          | O => Panic st'               (* out of fuel *)
          | Datatypes.S fuel' => df_drop_fuel fuel' st'
          end
      end.
    Definition df_drop (st : df_inner * X) : res (df_inner * X) unit :=
      df_drop_fuel (t_len (df_left (fst st)) + t_len (df_right (fst st))) st.
    (* the map after the iterator is gone *)
    Definition df_end (m : map) (d : df_inner) : map :=
      PM (hash_builder m) (counter m) (df_left d) (df_right d).
  End DrainFilter.

  (* ---- capacity ---- *)
  (* src/partial_cycle_map.rs:1580-1583, 1645-1648 *)
  Definition resize_left (z : sizing) : M map unit :=
    m <- getst ;;
    putst (set_left (t_resize (lo E) (left_set m) z (make_hasher_l (hash_builder m))) m).
  (* src/partial_cycle_map.rs:1606-1609, 1662-1665 *)
  Definition resize_right (z : sizing) : M map unit :=
    m <- getst ;;
    putst (set_right (t_resize (lo E) (right_set m) z (make_hasher_r (hash_builder m))) m).
  Definition shrink_to_left (n : N) : M map unit := resize_left (Shrink n).
  Definition shrink_to_right (n : N) : M map unit := resize_right (Shrink n).
  Definition reserve_left (n : N) : M map unit := resize_left (Grow n).
  Definition reserve_right (n : N) : M map unit := resize_right (Grow n).
  (* src/partial_cycle_map.rs:1626-1631 *)
  Definition shrink_to_fit : M map unit :=
    m <- getst ;; resize_left (Shrink (N.of_nat (len_left m))) ;;;
    m <- getst ;; resize_right (Shrink (N.of_nat (len_right m))).
  (* src/partial_cycle_map.rs:1679-1683, 1697-1701; true = Ok(()) *)
  Definition try_reserve_left (n : N) : M map bool :=
    m <- getst ;;
    let (ok, t) := t_try_resize (lo E) (left_set m) n (make_hasher_l (hash_builder m)) in
    putst (set_left t m) ;;; ret ok.
  Definition try_reserve_right (n : N) : M map bool :=
    m <- getst ;;
    let (ok, t) := t_try_resize (lo E) (right_set m) n (make_hasher_r (hash_builder m)) in
    putst (set_right t m) ;;; ret ok.
  (* src/partial_cycle_map.rs:1818-1826, 124-126 *)
  Definition with_capacity_and_hasher (n : N) (s : S) : map :=
    PM s 0 (t_with_capacity (lo E) n) (t_with_capacity (lo E) n).
  (* src/partial_cycle_map.rs:1840-1843, 1853-1856 *)
  Definition capacity_left (m : map) : N := t_capacity (lo E) (left_set m).
  Definition capacity_right (m : map) : N := t_capacity (lo E) (right_set m).
End PartialCycleMap.
Arguments Drain {L R} _ _.
Arguments DF {L R} _ _ _ _ _.
