(* src/group_map.rs: GroupMap and its iterators, function by function.
   (Function names are those of the Rust code; this file is not imported together with
   CycleMap.v or PartialCycleMap.v.) *)
From Coq Require Import List NArith Lia Bool.
From Verif Require Import Prelude RawTable.
Import ListNotations.
Open Scope N_scope.

(* src/group_map.rs:60-65 *)
Record left_item (T : Type) := LI { l_value : T; l_hash : N; l_rid : N; l_id : N }.
Arguments LI {T} _ _ _ _.
Arguments l_value {T} _.
Arguments l_hash {T} _.
Arguments l_rid {T} _.
Arguments l_id {T} _.

(* src/group_map.rs:68-72 *)
Record right_item (T : Type) := RI { r_value : T; r_pairs : table (N * N); r_id : N }.
Arguments RI {T} _ _ _.
Arguments r_value {T} _.
Arguments r_pairs {T} _.
Arguments r_id {T} _.

Definition is_some {T} (o : option T) : bool := match o with Some _ => true | None => false end.
(* Eq of (u64, ID), src/group_map.rs:56-57 *)
Definition pair_eqb (a b : N * N) : bool := (fst a =? fst b) && (snd a =? snd b).

(* src/group_map.rs:23-27, 29-33: x.value.borrow().eq(k), so the stored item is the first
   argument (the other two maps ask k.eq(&x.value)); [qeq] is Q: PartialEq behind K: Borrow<Q> *)
Definition equivalent_key_left {Q K} (qeq : K -> Q -> bool) (k : Q) : left_item K -> bool :=
  fun x => qeq (l_value x) k.
Definition equivalent_key_right {Q K} (qeq : K -> Q -> bool) (k : Q) : right_item K -> bool :=
  fun x => qeq (r_value x) k.
(* src/group_map.rs:35-37 *)
Definition left_with_left_id {K} (id : N) : left_item K -> bool := fun x => l_id x =? id.
(* src/group_map.rs:51-53 *)
Definition right_with_right_id {K} (id : N) : right_item K -> bool := fun x => r_id x =? id.

(* assignments to fields *)
Definition set_l_hash {T} (h : N) (x : left_item T) : left_item T :=
  LI (l_value x) h (l_rid x) (l_id x).
Definition set_l_rid {T} (i : N) (x : left_item T) : left_item T :=
  LI (l_value x) (l_hash x) i (l_id x).
Definition set_pairs {T} (t : table (N * N)) (x : right_item T) : right_item T :=
  RI (r_value x) t (r_id x).

(* src/group_map.rs:152-158 *)
Record gmap (L R S : Type) := GM {
  hash_builder : S;
  left_counter : N;
  right_counter : N;
  left_set : table (left_item L);
  right_set : table (right_item R)
}.
Arguments GM {L R S} _ _ _ _ _.
Arguments hash_builder {L R S} _.
Arguments left_counter {L R S} _.
Arguments right_counter {L R S} _.
Arguments left_set {L R S} _.
Arguments right_set {L R S} _.

Section GroupMap.
  Context {L R S : Type}.
  Variable E : env L R S.
  Notation map := (gmap L R S).

  Definition set_left (t : table (left_item L)) (m : map) : map :=
    GM (hash_builder m) (left_counter m) (right_counter m) t (right_set m).
  Definition set_right (t : table (right_item R)) (m : map) : map :=
    GM (hash_builder m) (left_counter m) (right_counter m) (left_set m) t.

  (* src/utils.rs:15-21 make_hasher with src/group_map.rs:1694-1698, 1736-1740 *)
  Definition make_hasher_l (s : S) : left_item L -> N := fun p => hashL E s (l_value p).
  Definition make_hasher_r (s : S) : right_item R -> N := fun p => hashR E s (r_value p).

  (* [self.left_counter += 1], [self.right_counter += 1], src/group_map.rs:1770-1774 *)
  Definition incr_left : M map unit :=
    m <- getst ;;
    c <- unwrap (u64_incr (ovf E) (left_counter m)) ;;
    putst (GM (hash_builder m) c (right_counter m) (left_set m) (right_set m)).
  Definition incr_right : M map unit :=
    m <- getst ;;
    c <- unwrap (u64_incr (ovf E) (right_counter m)) ;;
    putst (GM (hash_builder m) (left_counter m) c (left_set m) (right_set m)).

  (* The HashSet<(u64, ID)> of right item number [i]: new()/with_capacity(1) (the initial
     layout is a function of i, which no other set shares), insert, remove, contains *)
  Definition set_new (i : N) : table (N * N) := t_new i.
  Definition set_insert (i : N) (t : table (N * N)) (p : N * N) : table (N * N) :=
    hs_insert (lo E) pair_eqb (hashP E i) t p.
  Definition set_remove (i : N) (t : table (N * N)) (p : N * N) : table (N * N) :=
    hs_remove (lo E) pair_eqb (hashP E i) t p.
  Definition set_contains (i : N) (t : table (N * N)) (p : N * N) : bool :=
    hs_contains (lo E) pair_eqb (hashP E i) t p.
  (* [iter.collect::<HashSet<_>>()] *)
  Definition set_collect (i : N) (ps : list (N * N)) : table (N * N) :=
    fold_left (set_insert i) ps (set_new i).

  (* src/group_map.rs:45-49 *)
  Definition right_with_left_pair (p : N * N) : right_item R -> bool :=
    fun x => set_contains (r_id x) (r_pairs x) p.
  (* [x.pairs.insert(p)], [x.pairs.remove(&p)] *)
  Definition pairs_insert (p : N * N) (x : right_item R) : right_item R :=
    set_pairs (set_insert (r_id x) (r_pairs x) p) x.
  Definition pairs_remove (p : N * N) (x : right_item R) : right_item R :=
    set_pairs (set_remove (r_id x) (r_pairs x) p) x.

  (* [self.left_set.remove_entry(..)], [self.right_set.remove_entry(..)] *)
  Definition left_remove_entry (h : N) (p : left_item L -> bool) : M map (option (left_item L)) :=
    m <- getst ;;
    match t_remove_entry (lo E) (left_set m) h p with
    | Some (e, t) => putst (set_left t m) ;;; ret (Some e)
    | None => ret None
    end.
  Definition right_remove_entry (h : N) (p : right_item R -> bool)
      : M map (option (right_item R)) :=
    m <- getst ;;
    match t_remove_entry (lo E) (right_set m) h p with
    | Some (e, t) => putst (set_right t m) ;;; ret (Some e)
    | None => ret None
    end.
  (* [self.left_set.insert(h, e, make_hasher(..))] *)
  Definition left_insert (h : N) (e : left_item L) : M map unit :=
    m <- getst ;;
    putst (set_left (t_insert (lo E) (left_set m) h e (make_hasher_l (hash_builder m))) m).
  Definition right_insert (h : N) (e : right_item R) : M map unit :=
    m <- getst ;;
    putst (set_right (t_insert (lo E) (right_set m) h e (make_hasher_r (hash_builder m))) m).

  (* RawTable::get_mut: the bucket and the entry in it *)
  Definition t_get_mut {A} (t : table A) (h : N) (p : A -> bool) : option (nat * A) :=
    match t_find (lo E) t h p with
    | Some i => match t_entry t i with Some e => Some (i, e) | None => None end
    | None => None
    end.
  (* assignment through the reference returned by get_mut *)
  Definition left_assign (i : nat) (f : left_item L -> left_item L) : M map unit :=
    m <- getst ;; putst (set_left (t_modify (left_set m) i f) m).
  Definition right_assign (i : nat) (f : right_item R -> right_item R) : M map unit :=
    m <- getst ;; putst (set_right (t_modify (right_set m) i f) m).

  (* src/group_map.rs:1105-1113, 1136-1144, 1041-1048, 170-172, 182-184;
     ll, lr: unspecified initial layouts of the two tables *)
  Definition with_hasher (s : S) (ll lr : N) : map := GM s 0 0 (t_new ll) (t_new lr).

  (* [self.left_set.get(hash(item), equivalent_key_left(item))], src/group_map.rs:828-834, 837-843 *)
  Definition find_left (m : map) (item : L) : option (left_item L) :=
    t_get (lo E) (left_set m) (hashL E (hash_builder m) item) (equivalent_key_left (eqL E) item).
  Definition find_right (m : map) (item : R) : option (right_item R) :=
    t_get (lo E) (right_set m) (hashR E (hash_builder m) item) (equivalent_key_right (eqR E) item).

  (* HashSet::is_empty *)
  Definition set_is_empty (t : table (N * N)) : bool := Nat.eqb (t_len t) 0.

  (* src/group_map.rs:605-612 *)
  Definition is_right_paired (m : map) (right : R) : bool :=
    match find_right m right with
    | Some r => negb (set_is_empty (r_pairs r))
    | None => false
    end.

  (* src/group_map.rs:625-636 *)
  Definition are_paired (m : map) (left : L) (right : R) : bool :=
    let lh := hashL E (hash_builder m) left in
    let rh := hashR E (hash_builder m) right in
    match find_left m left, find_right m right with
    | Some l, Some r => (l_hash l =? rh) && set_contains (r_id r) (r_pairs r) (lh, l_id l)
    | _, _ => false
    end.

  (* src/group_map.rs:649-652, 667-672 *)
  Definition contains_left (m : map) (left : L) : bool := is_some (find_left m left).
  Definition contains_right (m : map) (right : R) : bool := is_some (find_right m right).

  (* src/group_map.rs:706-718 *)
  Definition remove_left (item : L) : M map (option L) :=
    m <- getst ;;
    let lh := hashL E (hash_builder m) item in
    o <- left_remove_entry lh (equivalent_key_left (eqL E) item) ;;
    match o with
    | None => ret None
    | Some left_item =>
        let p := (lh, l_id left_item) in
        m <- getst ;;
        b <- unwrap (t_get_mut (right_set m) (l_hash left_item) (right_with_left_pair p)) ;;
        right_assign (fst b) (pairs_remove p) ;;;
        ret (Some (l_value left_item))
    end.

  (* src/group_map.rs:740-749 and 758-767: the map closure run by collect *)
  Fixpoint remove_pairs (ps : list (N * N)) : M map (list L) :=
    match ps with
    | [] => ret []
    | (h, i) :: t =>
        o <- left_remove_entry h (left_with_left_id i) ;;
        e <- unwrap o ;;
        rest <- remove_pairs t ;;
        ret (l_value e :: rest)
    end.
  (* collect into a HashSet<L>: later items equal to an earlier one are dropped.  (The
     iteration order of the set returned to the caller is not modelled.) *)
  Fixpoint collect_set (seen : list L) (ls : list L) : list L :=
    match ls with
    | [] => rev seen
    | l :: t => if existsb (eqL E l) seen then collect_set seen t else collect_set (l :: seen) t
    end.

  (* src/group_map.rs:735-751 *)
  Definition remove_right (item : R) : M map (option (list L * R)) :=
    m <- getst ;;
    let rh := hashR E (hash_builder m) item in
    o <- right_remove_entry rh (equivalent_key_right (eqR E) item) ;;
    match o with
    | None => ret None
    | Some right_item =>
        ls <- remove_pairs (hs_elems (r_pairs right_item)) ;;
        ret (Some (collect_set [] ls, r_value right_item))
    end.

  (* src/group_map.rs:754-769 *)
  Definition remove_via_hash_and_id (r_hash id : N) : M map (option (list L * R)) :=
    o <- right_remove_entry r_hash (right_with_right_id id) ;;
    match o with
    | None => ret None
    | Some right_item =>
        ls <- remove_pairs (hs_elems (r_pairs right_item)) ;;
        ret (Some (ls, r_value right_item))
    end.

  (* src/group_map.rs:687-693 *)
  Definition remove (left : L) (right : R) : M map (option (list L * R)) :=
    m <- getst ;;
    if are_paired m left right then remove_right right else ret None.

  (* src/group_map.rs:231-303 *)
  Definition insert (left : L) (right : R) : M map unit :=
    m <- getst ;;
    let lh := hashL E (hash_builder m) left in
    let rh := hashR E (hash_builder m) right in
    let rc := right_counter m in
    match t_get_mut (left_set m) lh (equivalent_key_left (eqL E) left),
          t_get_mut (right_set m) rh (equivalent_key_right (eqR E) right) with
    | None, None =>
        left_insert lh (LI left rh rc (left_counter m)) ;;;
        right_insert rh (RI right (set_insert rc (set_new rc) (lh, left_counter m)) rc) ;;;
        incr_left ;;;
        incr_right
    | Some (i, l), None =>
        let p := (lh, l_id l) in
        b <- unwrap (t_get_mut (right_set m) (l_hash l) (right_with_left_pair p)) ;;
        left_assign i (set_l_hash rh) ;;;
        left_assign i (set_l_rid rc) ;;;
        right_assign (fst b) (pairs_remove p) ;;;
        right_insert rh (RI right (set_insert rc (set_new rc) p) rc) ;;;
        incr_right
    | None, Some (j, r) =>
        right_assign j (pairs_insert (lh, left_counter m)) ;;;
        left_insert lh (LI left rh (r_id r) (left_counter m)) ;;;
        incr_left
    | Some (i, l), Some (j, r) =>
        let p := (lh, l_id l) in
        right_assign j (pairs_insert p) ;;;
        m <- getst ;;
        b <- unwrap (t_get_mut (right_set m) (l_hash l) (right_with_right_id (l_rid l))) ;;
        right_assign (fst b) (pairs_remove p) ;;;
        left_assign i (set_l_hash rh) ;;;
        left_assign i (set_l_rid (r_id r))
    end.

  (* src/group_map.rs:341-367 *)
  Definition insert_remove (left : L) (right : R) : M map (option L * option (list L * R)) :=
    opt_from_left <- remove_left left ;;
    opt_from_right <- remove_right right ;;
    m <- getst ;;
    let lh := hashL E (hash_builder m) left in
    let rh := hashR E (hash_builder m) right in
    let lc := left_counter m in
    let rc := right_counter m in
    incr_left ;;;
    incr_right ;;;
    left_insert lh (LI left rh rc lc) ;;;
    right_insert rh (RI right (set_insert rc (set_new rc) (lh, lc)) rc) ;;;
    ret (opt_from_left, opt_from_right).

  (* src/group_map.rs:385-407 *)
  Definition insert_left (left : L) (right : R) : M map (option L) :=
    m <- getst ;;
    let rh := hashR E (hash_builder m) right in
    match t_get_mut (right_set m) rh (equivalent_key_right (eqR E) right) with
    | None => ret None
    | Some (j, r) =>
        let lh := hashL E (hash_builder m) left in
        let lc := left_counter m in
        right_assign j (pairs_insert (lh, lc)) ;;;
        digest <- remove_left left ;;
        incr_left ;;;
        left_insert lh (LI left rh (r_id r) lc) ;;;
        ret digest
    end.

  (* src/group_map.rs:434-449 *)
  Definition insert_right (right : R) : M map (option (list L * R)) :=
    digest <- remove_right right ;;
    m <- getst ;;
    let rh := hashR E (hash_builder m) right in
    let rc := right_counter m in
    incr_right ;;;
    right_insert rh (RI right (set_new rc) rc) ;;;
    ret digest.

  (* src/group_map.rs:489-494 and 536-541: the for loop *)
  Fixpoint rehash_pairs (new_hash : N) (ps : list (N * N)) : M map unit :=
    match ps with
    | [] => ret tt
    | (h, i) :: t =>
        m <- getst ;;
        b <- unwrap (t_get_mut (left_set m) h (left_with_left_id i)) ;;
        left_assign (fst b) (set_l_hash new_hash) ;;;
        rehash_pairs new_hash t
    end.

  (* src/group_map.rs:472-497; drain() leaves r.pairs empty *)
  Definition swap_right (old new : R) : M map unit :=
    m <- getst ;;
    let old_hash := hashR E (hash_builder m) old in
    match t_get_mut (right_set m) old_hash (equivalent_key_right (eqR E) old) with
    | None => insert_right new ;;; ret tt
    | Some (j, r) =>
        let rc := right_counter m in
        let set := set_collect rc (hs_elems (r_pairs r)) in
        right_assign j (set_pairs (t_clear (lo E) (r_pairs r))) ;;;
        let new_hash := hashR E (hash_builder m) new in
        right_insert new_hash (RI new set rc) ;;;
        incr_right ;;;
        rehash_pairs new_hash (hs_elems set)
    end.

  (* src/group_map.rs:515-545 *)
  Definition swap_right_remove (old new : R) : M map (option R) :=
    m <- getst ;;
    let old_hash := hashR E (hash_builder m) old in
    o <- right_remove_entry old_hash (equivalent_key_right (eqR E) old) ;;
    match o with
    | None => insert_right new ;;; ret None
    | Some r =>
        let rc := right_counter m in
        let set := set_collect rc (hs_elems (r_pairs r)) in
        let new_hash := hashR E (hash_builder m) new in
        right_insert new_hash (RI new set rc) ;;;
        incr_right ;;;
        rehash_pairs new_hash (hs_elems set) ;;;
        ret (Some (r_value r))
    end.

  (* src/group_map.rs:562-591 *)
  Definition pair (left : L) (right : R) : M map bool :=
    m <- getst ;;
    let lh := hashL E (hash_builder m) left in
    let rh := hashR E (hash_builder m) right in
    match t_get_mut (left_set m) lh (equivalent_key_left (eqL E) left), find_right m right with
    | Some (i, l), Some r =>
        left_assign i (set_l_hash rh) ;;;
        left_assign i (set_l_rid (r_id r)) ;;;
        m <- getst ;;
        b <- unwrap (t_get_mut (right_set m) (l_hash l) (right_with_right_id (l_rid l))) ;;
        right_assign (fst b) (pairs_remove (lh, l_id l)) ;;;
        m <- getst ;;
        b' <- unwrap (t_get_mut (right_set m) rh (equivalent_key_right (eqR E) right)) ;;
        right_assign (fst b') (pairs_insert (lh, l_id l)) ;;;
        ret true
    | _, _ => ret false
    end.

  (* src/group_map.rs:812-826; Q is the borrowed form of L *)
  Definition get_right_q {Q} (qhash : S -> Q -> N) (qeq : L -> Q -> bool) (m : map) (item : Q)
      : option R :=
    match t_get (lo E) (left_set m) (qhash (hash_builder m) item) (equivalent_key_left qeq item) with
    | None => None
    | Some l =>
        option_map r_value
          (t_get (lo E) (right_set m) (l_hash l) (right_with_right_id (l_rid l)))
    end.
  Definition get_right (m : map) (item : L) : option R := get_right_q (hashL E) (eqL E) m item.

  (* src/group_map.rs:1189-1191, 1205-1207, 1227-1229 *)
  Definition len_left (m : map) : nat := t_len (left_set m).
  Definition len_right (m : map) : nat := t_len (right_set m).
  Definition is_empty (m : map) : bool := Nat.eqb (len_left m + len_right m) 0.

  (* src/group_map.rs:1244-1247 *)
  Definition clear : M map unit :=
    m <- getst ;;
    putst (set_left (t_clear (lo E) (left_set m)) m) ;;;
    m <- getst ;;
    putst (set_right (t_clear (lo E) (right_set m)) m).

  (* src/group_map.rs:1030-1038; item Clone is taken to return the same value
     (the other case is clone_with in GroupClone.v) *)
  Definition clone (m : map) : map :=
    GM (hash_builder m) (left_counter m) (right_counter m) (left_set m) (right_set m).

  (* ---- iterators ---- *)
  Definition iter_l := list (N * left_item L).
  Definition iter_r := list (N * right_item R).

  (* src/group_map.rs:1630-1634, 787-799; the elements of the set still to come *)
  Definition pair_iter := list (N * N).
  Definition get_left_iter_q {Q} (qhash : S -> Q -> N) (qeq : R -> Q -> bool) (m : map) (item : Q)
      : option pair_iter :=
    option_map (fun r => hs_elems (r_pairs r))
      (t_get (lo E) (right_set m) (qhash (hash_builder m) item) (equivalent_key_right qeq item)).
  Definition get_left_iter (m : map) (item : R) : option pair_iter :=
    get_left_iter_q (hashR E) (eqR E) m item.
  (* src/group_map.rs:1661-1670 *)
  Definition pair_next (m : map) (it : pair_iter) : outcome (option L * pair_iter) :=
    match it with
    | [] => Done (None, [])
    | (h, i) :: rest =>
        match t_get (lo E) (left_set m) h (left_with_left_id i) with
        | Some l => Done (Some (l_value l), rest)
        | None => Panicked
        end
    end.
  (* src/group_map.rs:1671-1682: size_hint and len *)
  Definition pair_len (it : pair_iter) : nat := length it.

  (* src/group_map.rs:1307-1311 *)
  Record iter_t := Iter { right_iter : iter_r; left_iter : option (list (N * N)) }.
  (* src/group_map.rs:864-870 *)
  Definition iter (m : map) : iter_t := Iter (slots (right_set m)) None.
  (* src/group_map.rs:1313-1321 *)
  Definition iter_clone (it : iter_t) : iter_t := Iter (right_iter it) None.

  (* src/group_map.rs:1358-1376: the part after the left iterator is exhausted *)
  Definition iter_next_right (m : map) (lit : option (list (N * N))) (rit : iter_r)
      : outcome (option (option L * R) * iter_t) :=
    match rit with
    | [] => Done (None, Iter [] lit)
    | (_, r) :: rest =>
        match hs_elems (r_pairs r) with
        | [] => Done (Some (None, r_value r), Iter rest lit)
        | (h, i) :: ps =>
            Done (Some (option_map l_value (t_get (lo E) (left_set m) h (left_with_left_id i)),
                        r_value r),
                  Iter rest (Some ps))
        end
    end.
  (* src/group_map.rs:1342-1377 *)
  Definition iter_next (m : map) (it : iter_t) : outcome (option (option L * R) * iter_t) :=
    match left_iter it with
    | Some ((h, i) :: ps) =>
        match t_get (lo E) (left_set m) h (left_with_left_id i) with
        | None => Panicked
        | Some l =>
            match t_get (lo E) (right_set m) (l_hash l) (right_with_right_id (l_rid l)) with
            | None => Panicked
            | Some r => Done (Some (Some (l_value l), r_value r), Iter (right_iter it) (Some ps))
            end
        end
    | lit => iter_next_right m lit (right_iter it)
    end.
  (* src/group_map.rs:1379-1381 (lower and upper bound) *)
  Definition iter_size_hint (it : iter_t) : nat * option nat :=
    (length (right_iter it), Some (length (right_iter it))).
  (* an upper bound of the items still to come, used as fuel *)
  Definition iter_bound (it : iter_t) : nat :=
    (match left_iter it with Some ps => length ps | None => 0 end
     + fold_right (fun x n => Datatypes.S (t_len (r_pairs (snd x))) + n) 0 (right_iter it))%nat.

  (* src/group_map.rs:886-891 *)
  Definition iter_paired (m : map) : iter_l := slots (left_set m).
  (* src/group_map.rs:1437-1450 *)
  Definition paired_next (m : map) (it : iter_l) : outcome (option (L * R) * iter_l) :=
    match it with
    | [] => Done (None, [])
    | (_, l) :: rest =>
        match t_get (lo E) (right_set m) (l_hash l) (right_with_right_id (l_rid l)) with
        | None => Panicked
        | Some r => Done (Some (l_value l, r_value r), rest)
        end
    end.
  (* src/group_map.rs:1452-1454 (lower and upper bound) *)
  Definition paired_size_hint (it : iter_l) : nat * option nat := (length it, Some (length it)).

  (* src/group_map.rs:907-912 *)
  Definition iter_unpaired (m : map) : iter_r := slots (right_set m).
  (* src/group_map.rs:1510-1517 *)
  Fixpoint unpaired_next (it : iter_r) : outcome (option R * iter_r) :=
    match it with
    | [] => Done (None, [])
    | (_, r) :: rest =>
        if set_is_empty (r_pairs r) then Done (Some (r_value r), rest) else unpaired_next rest
    end.
  (* src/group_map.rs:1519-1521 (lower and upper bound) *)
  Definition unpaired_size_hint (it : iter_r) : nat * option nat := (length it, Some (length it)).

  (* src/group_map.rs:927-932, 1570-1582; size_hint and len are the length *)
  Definition iter_left (m : map) : iter_l := slots (left_set m).
  Definition left_next (it : iter_l) : outcome (option L * iter_l) :=
    match it with [] => Done (None, []) | (_, x) :: rest => Done (Some (l_value x), rest) end.
  (* src/group_map.rs:947-952, 1613-1625 *)
  Definition iter_right (m : map) : iter_r := slots (right_set m).
  Definition right_next (it : iter_r) : outcome (option R * iter_r) :=
    match it with [] => Done (None, []) | (_, x) :: rest => Done (Some (r_value x), rest) end.

  (* complete for loops over the iterators *)
  Definition iter_rest (m : map) (it : iter_t) : outcome (list (option L * R)) :=
    collect (iter_next m) (iter_bound it) it.
  Definition paired_rest (m : map) (it : iter_l) : outcome (list (L * R)) :=
    collect (paired_next m) (length it) it.
  Definition unpaired_rest (it : iter_r) : outcome (list R) :=
    collect unpaired_next (length it) it.
  Definition left_rest (it : iter_l) : outcome (list L) := collect left_next (length it) it.
  Definition right_rest (it : iter_r) : outcome (list R) := collect right_next (length it) it.
  Definition pair_rest (m : map) (it : pair_iter) : outcome (list L) :=
    collect (pair_next m) (length it) it.
  (* src/group_map.rs:1390-1392, 1463-1465, 1530-1532: len() is self.clone().count() *)
  Definition iter_len (m : map) (it : iter_t) : outcome nat :=
    omap (@length _) (iter_rest m (iter_clone it)).
  Definition paired_len (m : map) (it : iter_l) : outcome nat := omap (@length _) (paired_rest m it).
  Definition unpaired_len (it : iter_r) : outcome nat := omap (@length _) (unpaired_rest it).

  (* src/group_map.rs:1067-1075 *)
  Definition eq_item (other : map) (x : option L * R) : bool :=
    match fst x with
    | Some l => are_paired other l (snd x)
    | None => negb (is_right_paired other (snd x))
    end.
  Fixpoint all_items (m other : map) (fuel : nat) (it : iter_t) : outcome bool :=
    match iter_next m it with
    | Panicked => Panicked
    | Done (None, _) => Done true
    | Done (Some x, it') =>
        if eq_item other x then
          match fuel with
          | O => Panicked                (* out of fuel *)
          | Datatypes.S fuel' => all_items m other fuel' it'
          end
        else Done false
    end.
  Definition map_eq (m other : map) : outcome bool :=
    if negb (Nat.eqb (len_left m) (len_left other)) && negb (Nat.eqb (len_right m) (len_right other))
    then Done false
    else all_items m other (iter_bound (iter m)) (iter m).

  (* src/group_map.rs:1257-1265 *)
  Fixpoint extend (xs : list (option L * R)) : M map unit :=
    match xs with
    | [] => ret tt
    | (Some l, r) :: t => insert l r ;;; extend t
    | (None, r) :: t => insert_right r ;;; extend t
    end.
  (* src/group_map.rs:1275-1279 *)
  Fixpoint extend_pairs (xs : list (L * R)) : M map unit :=
    match xs with
    | [] => ret tt
    | (l, r) :: t => insert l r ;;; extend_pairs t
    end.
  (* src/group_map.rs:1287-1291, 1299-1303 *)
  Definition from_iter (s : S) (ll lr : N) (xs : list (option L * R)) : res map unit :=
    extend xs (with_hasher s ll lr).
  Definition from_iter_pairs (s : S) (ll lr : N) (xs : list (L * R)) : res map unit :=
    extend_pairs xs (with_hasher s ll lr).

  (* ---- retain ---- *)
  (* Both retain functions share one shape: a for loop that asks the closure about every item
     of an iterator and pushes (hash, id) on to_drop, then a loop that drops them.
     [A]: item type, [I]: iterator state; [key] None: an unwrap fails. *)
  Section Retain.
    Context {X A I : Type}.
    Variable f : X -> A -> X * verdict.
    Variable next : I -> outcome (option A * I).
    Variable key : A -> option (N * N).
    Variable drop_all : list (N * N) -> M map unit.

    Fixpoint retain_scan (fuel : nat) (it : I) (x : X) : res X (list (N * N)) :=
      match next it with
      | Panicked => Panic x
      | Done (None, _) => Ret x []
      | Done (Some a, it') =>
          match f x a with
          | (x', None) => Panic x'
          | (x', Some ans) =>
              let step (to_drop : list (N * N)) :=
                match fuel with
                | O => Panic x'          (* out of fuel *)
                | Datatypes.S fuel' =>
                    match retain_scan fuel' it' x' with
                    | Panic x'' => Panic x''
                    | Ret x'' l => Ret x'' (to_drop ++ l)
                    end
                end in
              if ans then
                match key a with
                | None => Panic x'
                | Some t => step [t]
                end
              else step []
          end
      end.
    Definition retain_with (fuel : nat) (it : I) (mx : map * X) : res (map * X) unit :=
      let (m, x) := mx in
      match retain_scan fuel it x with
      | Panic x' => Panic (m, x')
      | Ret x' to_drop =>
          match drop_all to_drop m with
          | Ret m' _ => Ret (m', x') tt
          | Panic m' => Panic (m', x')
          end
      end.
  End Retain.

  (* src/group_map.rs:985-987 *)
  Fixpoint drop_lefts (l : list (N * N)) : M map unit :=
    match l with
    | [] => ret tt
    | (h, id) :: t => left_remove_entry h (left_with_left_id id) ;;; drop_lefts t
    end.
  (* src/group_map.rs:1018-1020 *)
  Fixpoint drop_rights (l : list (N * N)) : M map unit :=
    match l with
    | [] => ret tt
    | (h, id) :: t => remove_via_hash_and_id h id ;;; drop_rights t
    end.
  (* src/group_map.rs:980-982 *)
  Definition retain_paired_key (m : map) (p : L * R) : option (N * N) :=
    option_map (fun e => (hashL E (hash_builder m) (fst p), l_id e)) (find_left m (fst p)).
  (* src/group_map.rs:1013-1015 *)
  Definition retain_unpaired_key (m : map) (r : R) : option (N * N) :=
    option_map (fun e => (hashR E (hash_builder m) r, r_id e)) (find_right m r).

  (* src/group_map.rs:972-988 *)
  Definition retain_paired {X} (f : X -> L * R -> X * verdict) (mx : map * X) :=
    let m := fst mx in
    retain_with f (paired_next m) (retain_paired_key m) drop_lefts
      (length (iter_paired m)) (iter_paired m) mx.
  (* src/group_map.rs:1005-1021 *)
  Definition retain_unpaired {X} (f : X -> R -> X * verdict) (mx : map * X) :=
    let m := fst mx in
    retain_with f unpaired_next (retain_unpaired_key m) drop_rights
      (length (iter_unpaired m)) (iter_unpaired m) mx.

  (* ---- capacity ---- *)
  (* src/group_map.rs:1136-1144, 182-184 *)
  Definition with_capacity_and_hasher (n : N) (s : S) : map :=
    GM s 0 0 (t_with_capacity (lo E) n) (t_with_capacity (lo E) n).
  (* src/group_map.rs:1159-1162, 1172-1175 *)
  Definition capacity_left (m : map) : N := t_capacity (lo E) (left_set m).
  Definition capacity_right (m : map) : N := t_capacity (lo E) (right_set m).
End GroupMap.
Arguments Iter {R} _ _.
