(* src/cycle_map.rs: CycleMap and its iterators, function by function. *)
From Coq Require Import List NArith Lia Bool.
From Verif Require Import Prelude RawTable Optionals.
Import ListNotations.
Open Scope N_scope.

(* src/cycle_map.rs:24-28 *)
Record mapping_pair (T : Type) := MP { value : T; phash : N; pid : N }.
Arguments MP {T} _ _ _.
Arguments value {T} _.
Arguments phash {T} _.
Arguments pid {T} _.

(* src/cycle_map.rs:30-32; [qeq] is Q: PartialEq<K> *)
Definition equivalent_key {Q K} (qeq : Q -> K -> bool) (k : Q) : mapping_pair K -> bool :=
  fun x => qeq k (value x).
(* src/cycle_map.rs:34-36 *)
Definition hash_and_id {K} (hash id : N) : mapping_pair K -> bool :=
  fun x => (id =? pid x) && (hash =? phash x).
(* src/cycle_map.rs:38-40 *)
Definition just_id {K} (id : N) : mapping_pair K -> bool :=
  fun x => id =? pid x.

(* src/cycle_map.rs:88-93 *)
Record cmap (L R S : Type) := CM {
  hash_builder : S;
  counter : N;
  left_set : table (mapping_pair L);
  right_set : table (mapping_pair R)
}.
Arguments CM {L R S} _ _ _ _.
Arguments hash_builder {L R S} _.
Arguments counter {L R S} _.
Arguments left_set {L R S} _.
Arguments right_set {L R S} _.

Section CycleMap.
  Context {L R S : Type}.
  Variable E : env L R S.
  Notation map := (cmap L R S).

  Definition set_left (t : table (mapping_pair L)) (m : map) : map :=
    CM (hash_builder m) (counter m) t (right_set m).
  Definition set_right (t : table (mapping_pair R)) (m : map) : map :=
    CM (hash_builder m) (counter m) (left_set m) t.
  Definition set_counter (c : N) (m : map) : map :=
    CM (hash_builder m) c (left_set m) (right_set m).

  (* src/utils.rs:15-21 make_hasher with src/cycle_map.rs:1440-1444 Hash for MappingPair *)
  Definition make_hasher_l (s : S) : mapping_pair L -> N := fun p => hashL E s (value p).
  Definition make_hasher_r (s : S) : mapping_pair R -> N := fun p => hashR E s (value p).

  (* [self.counter += 1] *)
  Definition incr_counter : M map unit :=
    m <- getst ;;
    c <- unwrap (u64_incr (ovf E) (counter m)) ;;
    putst (set_counter c m).

  (* [self.left_set.remove_entry(..)] as a state change *)
  Definition left_remove_entry (h : N) (p : mapping_pair L -> bool)
      : M map (option (mapping_pair L)) :=
    m <- getst ;;
    match t_remove_entry (lo E) (left_set m) h p with
    | Some (e, t) => putst (set_left t m) ;;; ret (Some e)
    | None => ret None
    end.
  Definition right_remove_entry (h : N) (p : mapping_pair R -> bool)
      : M map (option (mapping_pair R)) :=
    m <- getst ;;
    match t_remove_entry (lo E) (right_set m) h p with
    | Some (e, t) => putst (set_right t m) ;;; ret (Some e)
    | None => ret None
    end.
  (* [self.left_set.insert(h, e, make_hasher(..))] *)
  Definition left_insert (h : N) (e : mapping_pair L) : M map unit :=
    m <- getst ;;
    putst (set_left (t_insert (lo E) (left_set m) h e (make_hasher_l (hash_builder m))) m).
  Definition right_insert (h : N) (e : mapping_pair R) : M map unit :=
    m <- getst ;;
    putst (set_right (t_insert (lo E) (right_set m) h e (make_hasher_r (hash_builder m))) m).

  (* src/cycle_map.rs:988-995, 1018-1025, 1116-1123 (new, with_capacity, default);
     ll, lr: unspecified initial layouts of the two tables *)
  Definition with_hasher (s : S) (ll lr : N) : map :=
    CM s 0 (t_new ll) (t_new lr).

  (* src/cycle_map.rs:198-209 *)
  Definition are_paired (m : map) (left : L) (right : R) : bool :=
    let l_hash := hashL E (hash_builder m) left in
    let r_hash := hashR E (hash_builder m) right in
    match t_get (lo E) (left_set m) l_hash (equivalent_key (eqL E) left),
          t_get (lo E) (right_set m) r_hash (equivalent_key (eqR E) right) with
    | Some l, Some r => (pid l =? pid r) && (l_hash =? phash r) && (r_hash =? phash l)
    | _, _ => false
    end.

  (* src/cycle_map.rs:222-225 *)
  Definition contains_left (m : map) (left : L) : bool :=
    let hash := hashL E (hash_builder m) left in
    match t_get (lo E) (left_set m) hash (equivalent_key (eqL E) left) with
    | Some _ => true | None => false end.

  (* src/cycle_map.rs:238-241 *)
  Definition contains_right (m : map) (right : R) : bool :=
    let hash := hashR E (hash_builder m) right in
    match t_get (lo E) (right_set m) hash (equivalent_key (eqR E) right) with
    | Some _ => true | None => false end.

  (* src/cycle_map.rs:274-283 *)
  Definition remove_via_left (item : L) : M map (option (L * R)) :=
    m <- getst ;;
    let l_hash := hashL E (hash_builder m) item in
    o <- left_remove_entry l_hash (equivalent_key (eqL E) item) ;;
    match o with
    | None => ret None
    | Some left_pairing =>
        ro <- right_remove_entry (phash left_pairing)
                (hash_and_id l_hash (pid left_pairing)) ;;
        right_pairing <- unwrap ro ;;
        ret (Some (value left_pairing, value right_pairing))
    end.

  (* src/cycle_map.rs:297-306 *)
  Definition remove_via_right (item : R) : M map (option (L * R)) :=
    m <- getst ;;
    let r_hash := hashR E (hash_builder m) item in
    o <- right_remove_entry r_hash (equivalent_key (eqR E) item) ;;
    match o with
    | None => ret None
    | Some right_pairing =>
        lo_ <- left_remove_entry (phash right_pairing)
                 (hash_and_id r_hash (pid right_pairing)) ;;
        left_pairing <- unwrap lo_ ;;
        ret (Some (value left_pairing, value right_pairing))
    end.

  (* src/cycle_map.rs:254-260 *)
  Definition remove (left : L) (right : R) : M map (option (L * R)) :=
    m <- getst ;;
    if are_paired m left right then remove_via_left left else ret None.

  (* src/cycle_map.rs:309-318 *)
  Definition remove_via_hashes_and_id (l_hash r_hash id : N) : M map (option (L * R)) :=
    o <- left_remove_entry l_hash (hash_and_id r_hash id) ;;
    match o with
    | None => ret None
    | Some left_pairing =>
        ro <- right_remove_entry r_hash (hash_and_id l_hash id) ;;
        right_pairing <- unwrap ro ;;
        ret (Some (value left_pairing, value right_pairing))
    end.

  (* src/cycle_map.rs:155-183 *)
  Definition insert (left : L) (right : R) : M map (insert_optional L R) :=
    opt_from_left <- remove_via_left left ;;
    opt_from_right <- remove_via_right right ;;
    let digest := op_from_pair (opt_from_left, opt_from_right) in
    m <- getst ;;
    let l_hash := hashL E (hash_builder m) left in
    let r_hash := hashR E (hash_builder m) right in
    let left_pairing := MP left r_hash (counter m) in
    let right_pairing := MP right l_hash (counter m) in
    incr_counter ;;;
    left_insert l_hash left_pairing ;;;
    right_insert r_hash right_pairing ;;;
    ret digest.

  (* src/cycle_map.rs:459-468 *)
  Definition swap_left_eq_check (old new : L) (new_hash : N) : M map (option (L * R)) :=
    m <- getst ;;
    match t_get (lo E) (left_set m) new_hash (equivalent_key (eqL E) new) with
    | None => ret None
    | Some _ => if negb (eqL E new old) then remove_via_left new else ret None
    end.

  (* src/cycle_map.rs:350-389 *)
  Definition swap_left (old new : L) : M map (optional_pair L (L * R)) :=
    m0 <- getst ;;
    let new_l_hash := hashL E (hash_builder m0) new in
    eq_opt <- swap_left_eq_check old new new_l_hash ;;
    m <- getst ;;
    let old_l_hash := hashL E (hash_builder m) old in
    match t_get (lo E) (left_set m) old_l_hash (equivalent_key (eqL E) old) with
    | None => ret Neither
    | Some l_pairing =>
        i <- unwrap (t_find (lo E) (right_set m) (phash l_pairing)
                       (hash_and_id old_l_hash (pid l_pairing))) ;;
        putst (set_right (t_modify (right_set m) i
                            (fun p => MP (value p) new_l_hash (pid p))) m) ;;;
        let new_left_pairing := MP new (phash l_pairing) (pid l_pairing) in
        o <- left_remove_entry old_l_hash (equivalent_key (eqL E) old) ;;
        old_pairing <- unwrap o ;;
        left_insert new_l_hash new_left_pairing ;;;
        ret (op_from_pair (Some (value old_pairing), eq_opt))
    end.

  (* src/cycle_map.rs:414-420 *)
  Definition swap_left_checked (old : L) (expected : R) (new : L)
      : M map (optional_pair L (L * R)) :=
    m <- getst ;;
    if negb (are_paired m old expected) then ret Neither else swap_left old new.

  (* src/cycle_map.rs:442-456 *)
  Definition swap_left_or_insert (old new : L) (to_insert : R)
      : M map (optional_pair L (L * R)) :=
    m <- getst ;;
    let old_l_hash := hashL E (hash_builder m) old in
    match t_get (lo E) (left_set m) old_l_hash (equivalent_key (eqL E) old) with
    | Some _ => swap_left old new
    | None => d <- insert new to_insert ;; ret (op_map_left fst d)
    end.

  (* src/cycle_map.rs:622-631 *)
  Definition swap_right_eq_check (old new : R) (new_hash : N) : M map (option (L * R)) :=
    m <- getst ;;
    match t_get (lo E) (right_set m) new_hash (equivalent_key (eqR E) new) with
    | None => ret None
    | Some _ => if negb (eqR E new old) then remove_via_right new else ret None
    end.

  (* src/cycle_map.rs:500-540 *)
  Definition swap_right (old new : R) : M map (optional_pair R (L * R)) :=
    m0 <- getst ;;
    let new_r_hash := hashR E (hash_builder m0) new in
    eq_opt <- swap_right_eq_check old new new_r_hash ;;
    m <- getst ;;
    let old_r_hash := hashR E (hash_builder m) old in
    match t_get (lo E) (right_set m) old_r_hash (equivalent_key (eqR E) old) with
    | None => ret Neither
    | Some r_pairing =>
        i <- unwrap (t_find (lo E) (left_set m) (phash r_pairing)
                       (hash_and_id old_r_hash (pid r_pairing))) ;;
        let new_r_hash := hashR E (hash_builder m) new in
        putst (set_left (t_modify (left_set m) i
                           (fun p => MP (value p) new_r_hash (pid p))) m) ;;;
        let new_right_pairing := MP new (phash r_pairing) (pid r_pairing) in
        o <- right_remove_entry old_r_hash (equivalent_key (eqR E) old) ;;
        old_pairing <- unwrap o ;;
        right_insert new_r_hash new_right_pairing ;;;
        ret (op_from_pair (Some (value old_pairing), eq_opt))
    end.

  (* src/cycle_map.rs:565-571 *)
  Definition swap_right_checked (old : R) (expected : L) (new : R)
      : M map (optional_pair R (L * R)) :=
    m <- getst ;;
    if negb (are_paired m expected old) then ret Neither else swap_right old new.

  (* src/cycle_map.rs:595-619 *)
  Definition swap_right_or_insert (old new : R) (to_insert : L)
      : M map (optional_pair R (L * R)) :=
    m <- getst ;;
    let old_r_hash := hashR E (hash_builder m) old in
    match t_get (lo E) (right_set m) old_r_hash (equivalent_key (eqR E) old) with
    | Some _ => swap_right old new
    | None =>
        d <- insert to_insert new ;;
        match d with
        | Neither => ret Neither
        | SomeRight pr => ret (SomeRight pr)
        | _ => panic                     (* unreachable!("There isn't a left item") *)
        end
    end.

  (* src/cycle_map.rs:643-657, 710-716; Q is the borrowed form of R with its hash and
     its PartialEq<R> *)
  Definition get_left_q {Q} (qhash : S -> Q -> N) (qeq : Q -> R -> bool) (m : map) (item : Q)
      : option L :=
    let r_hash := qhash (hash_builder m) item in
    match t_get (lo E) (right_set m) r_hash (equivalent_key qeq item) with
    | None => None
    | Some right_pairing =>
        match t_get (lo E) (left_set m) (phash right_pairing)
                (hash_and_id r_hash (pid right_pairing)) with
        | None => None
        | Some pairing => Some (value pairing)
        end
    end.
  (* src/cycle_map.rs:669-683, 701-707 *)
  Definition get_right_q {Q} (qhash : S -> Q -> N) (qeq : Q -> L -> bool) (m : map) (item : Q)
      : option R :=
    let l_hash := qhash (hash_builder m) item in
    match t_get (lo E) (left_set m) l_hash (equivalent_key qeq item) with
    | None => None
    | Some left_pairing =>
        match t_get (lo E) (right_set m) (phash left_pairing)
                (hash_and_id l_hash (pid left_pairing)) with
        | None => None
        | Some pairing => Some (value pairing)
        end
    end.
  (* the instances Q = R and Q = L *)
  Definition get_left (m : map) (item : R) : option L := get_left_q (hashR E) (eqR E) m item.
  Definition get_right (m : map) (item : L) : option R := get_right_q (hashL E) (eqL E) m item.

  (* src/cycle_map.rs:695-698 *)
  Definition get_left_inner (m : map) (item : L) : option (mapping_pair L) :=
    let hash := hashL E (hash_builder m) item in
    t_get (lo E) (left_set m) hash (equivalent_key (eqL E) item).

  (* src/cycle_map.rs:1060-1063, 1077-1079 *)
  Definition len (m : map) : nat := t_len (left_set m).
  Definition is_empty (m : map) : bool := Nat.eqb (len m) 0.

  (* src/cycle_map.rs:1094-1097 *)
  Definition clear : M map unit :=
    m <- getst ;;
    putst (set_left (t_clear (lo E) (left_set m)) m) ;;;
    m <- getst ;;
    putst (set_right (t_clear (lo E) (right_set m)) m).

  (* src/cycle_map.rs:1100-1114; item Clone is taken to return the same value
     (the other case is clone_with in CycleMapClone.v) *)
  Definition clone (m : map) : map :=
    CM (hash_builder m) (counter m) (left_set m) (right_set m).

  (* ---- iterators ---- *)

  (* src/cycle_map.rs:1185-1188: the buckets the RawIter has still to visit *)
  Definition iter_t := list (N * mapping_pair L).
  (* src/cycle_map.rs:730-735 *)
  Definition iter (m : map) : iter_t := slots (left_set m).
  (* src/cycle_map.rs:1218-1227 *)
  Definition iter_next (m : map) (it : iter_t) : outcome (option (L * R) * iter_t) :=
    match it with
    | [] => Done (None, [])
    | (_, l) :: rest =>
        match get_right m (value l) with
        | Some r => Done (Some (value l, r), rest)
        | None => Panicked
        end
    end.
  (* src/cycle_map.rs:1228-1230, 1239-1241 *)
  Definition iter_len (it : iter_t) : nat := length it.
  (* src/cycle_map.rs:1190-1197 *)
  Definition iter_clone (it : iter_t) : iter_t := it.

  (* src/cycle_map.rs:1253-1256, 749-754, 768-773, 1282-1294 *)
  Definition single_next {T} (it : list (N * mapping_pair T))
      : outcome (option T * list (N * mapping_pair T)) :=
    match it with
    | [] => Done (None, [])
    | (_, x) :: rest => Done (Some (value x), rest)
    end.
  Definition iter_left (m : map) : list (N * mapping_pair L) := slots (left_set m).
  Definition iter_right (m : map) : list (N * mapping_pair R) := slots (right_set m).
  Definition single_len {T} (it : list (N * mapping_pair T)) : nat := length it.

  (* a complete [for] loop over self.iter() *)
  Definition iter_all (m : map) : outcome (list (L * R)) :=
    collect (iter_next m) (length (iter m)) (iter m).

  (* src/cycle_map.rs:1142-1147; [all] stops at the first false, or panics *)
  Fixpoint all_paired (m other : map) (fuel : nat) (it : iter_t) : outcome bool :=
    match iter_next m it with
    | Panicked => Panicked
    | Done (None, _) => Done true
    | Done (Some (l, r), it') =>
        if are_paired other l r then
          match fuel with
          | O => Panicked           (* out of fuel: never reached, see iter_len *)
          | Datatypes.S fuel' => all_paired m other fuel' it'
          end
        else Done false
    end.
  Definition map_eq (m other : map) : outcome bool :=
    if negb (Nat.eqb (len m) (len other)) then Done false
    else all_paired m other (length (iter m)) (iter m).

  (* src/cycle_map.rs:1165-1169 *)
  Fixpoint extend (l : list (L * R)) : M map unit :=
    match l with
    | [] => ret tt
    | (a, b) :: t => insert a b ;;; extend t
    end.
  (* src/cycle_map.rs:1177-1181 *)
  Definition from_iter (s : S) (ll lr : N) (l : list (L * R)) : res map unit :=
    extend l (with_hasher s ll lr).

  (* ---- retain ---- src/cycle_map.rs:861-877.
     Closure: state X, verdict None = panic.  The for loop over self.iter() followed by
     the removal loop. *)
  Section Retain.
    Context {X : Type}.
    Variable f : X -> L -> R -> X * verdict.

    Fixpoint retain_scan (m : map) (fuel : nat) (it : iter_t) (x : X)
        : res X (list (N * N * N)) :=
      match iter_next m it with
      | Panicked => Panic x
      | Done (None, _) => Ret x []
      | Done (Some (lft, rgt), it') =>
          match f x lft rgt with
          | (x', None) => Panic x'
          | (x', Some keep) =>
              let step (to_drop : list (N * N * N)) :=
                match fuel with
                | O => Panic x'
                | Datatypes.S fuel' =>
                    match retain_scan m fuel' it' x' with
                    | Panic x'' => Panic x''
                    | Ret x'' l => Ret x'' (to_drop ++ l)
                    end
                end in
              if negb keep then
                let l_hash := hashL E (hash_builder m) lft in
                let r_hash := hashR E (hash_builder m) rgt in
                match get_left_inner m lft with
                | None => Panic x'
                | Some p => step [(l_hash, r_hash, pid p)]
                end
              else step []
          end
      end.

    Fixpoint drop_all (l : list (N * N * N)) : M map unit :=
      match l with
      | [] => ret tt
      | (l_hash, r_hash, id) :: t =>
          remove_via_hashes_and_id l_hash r_hash id ;;; drop_all t
      end.

    (* state: the map and the closure's state *)
    Definition retain (mx : map * X) : res (map * X) unit :=
      let (m, x) := mx in
      match retain_scan m (length (iter m)) (iter m) x with
      | Panic x' => Panic (m, x')
      | Ret x' to_drop =>
          match drop_all to_drop m with
          | Ret m' _ => Ret (m', x') tt
          | Panic m' => Panic (m', x')
          end
      end.
  End Retain.

  (* ---- drain ---- src/cycle_map.rs:1309-1312.  While the DrainIter lives: the buckets of
     left_set still to be yielded and the borrowed right table. *)
  Record drain_t := Drain {
    di_left : list (N * mapping_pair L);
    di_right : table (mapping_pair R)
  }.
  (* src/cycle_map.rs:796-802 *)
  Definition drain (m : map) : drain_t := Drain (slots (left_set m)) (right_set m).
  (* src/cycle_map.rs:1321-1328 *)
  Definition drain_next (d : drain_t) : res drain_t (option (L * R)) :=
    match di_left d with
    | [] => Ret d None
    | (_, lp) :: rest =>
        match t_remove_entry (lo E) (di_right d) (phash lp) (just_id (pid lp)) with
        | None => Panic (Drain rest (di_right d))
        | Some (rp, t) => Ret (Drain rest t) (Some (value lp, value rp))
        end
    end.
  (* src/cycle_map.rs:1330-1342 *)
  Definition drain_len (d : drain_t) : nat := length (di_left d).
  (* The map after the DrainIter is gone (dropped or leaked).  DrainIter has no Drop impl:
     dropping RawDrain empties the left table, the right table keeps what was not yielded.
     drain() itself has reset the counter (line 797). *)
  Definition drain_end (m : map) (d : drain_t) : map :=
    CM (hash_builder m) 0 (t_clear (lo E) (left_set m)) (di_right d).
  (* n calls of next *)
  Fixpoint drain_nexts (n : nat) (d : drain_t) : res drain_t (list (option (L * R))) :=
    match n with
    | O => Ret d []
    | Datatypes.S n' =>
        match drain_next d with
        | Panic d' => Panic d'
        | Ret d' a => match drain_nexts n' d' with
                      | Panic d'' => Panic d''
                      | Ret d'' l => Ret d'' (a :: l)
                      end
        end
    end.

  (* ---- drain_filter ---- src/cycle_map.rs:1404-1408.  [df_pos] is the RawIter: buckets at
     positions below it have been visited. *)
  Record df_inner := DF {
    df_left : table (mapping_pair L);
    df_pos : nat;
    df_right : table (mapping_pair R)
  }.
  Section DrainFilter.
    Context {X : Type}.
    Variable f : X -> L -> R -> X * verdict.

    (* src/cycle_map.rs:830-842 *)
    Definition drain_filter (m : map) : df_inner := DF (left_set m) 0 (right_set m).

    (* src/cycle_map.rs:1411-1430; state: the inner iterator and the closure state *)
    Fixpoint df_next_fuel (fuel : nat) (st : df_inner * X) : res (df_inner * X) (option (L * R)) :=
      let (d, x) := st in
      match t_entry (df_left d) (df_pos d) with
      | None => Ret st None
      | Some l_pairing =>
          let adv := DF (df_left d) (Datatypes.S (df_pos d)) (df_right d) in
          match t_find (lo E) (df_right d) (phash l_pairing) (just_id (pid l_pairing)) with
          | None => Panic (adv, x)
          | Some i =>
              match t_entry (df_right d) i with
              | None => Panic (adv, x)
              | Some rp =>
                  match f x (value l_pairing) (value rp) with
                  | (x', None) => Panic (adv, x')
                  | (x', Some true) =>
                      Ret (DF (t_remove_at (lo E) (df_left d) (df_pos d))
                              (df_pos d)
                              (t_remove_at (lo E) (df_right d) i), x')
                          (Some (value l_pairing, value rp))
                  | (x', Some false) =>
                      match fuel with
                      | O => Panic (adv, x')      (* out of fuel *)
                      | Datatypes.S fuel' => df_next_fuel fuel' (adv, x')
                      end
                  end
              end
          end
      end.
    Definition df_remaining (d : df_inner) : nat := (t_len (df_left d) - df_pos d)%nat.
    Definition df_next (st : df_inner * X) : res (df_inner * X) (option (L * R)) :=
      df_next_fuel (df_remaining (fst st)) st.

    (* n explicit calls of next by the user; a panic ends the session *)
    Fixpoint df_nexts (n : nat) (st : df_inner * X)
        : res (df_inner * X) (list (option (L * R))) :=
      match n with
      | O => Ret st []
      | Datatypes.S n' =>
          match df_next st with
          | Panic st' => Panic st'
          | Ret st' a => match df_nexts n' st' with
                         | Panic st'' => Panic st''
                         | Ret st'' l => Ret st'' (a :: l)
                         end
          end
      end.

    (* src/cycle_map.rs:1368-1374: Drop runs next until None *)
    Fixpoint df_drop_fuel (fuel : nat) (st : df_inner * X) : res (df_inner * X) unit :=
      match df_next st with
      | Panic st' => Panic st'
      | Ret st' None => Ret st' tt
      | Ret st' (Some _) =>
          match fuel with
          | O => Panic st'                        (* out of fuel *)
          | Datatypes.S fuel' => df_drop_fuel fuel' st'
          end
      end.
    Definition df_drop (st : df_inner * X) : res (df_inner * X) unit :=
      df_drop_fuel (df_remaining (fst st)) st.

    (* the map after the iterator is gone *)
    Definition df_end (m : map) (d : df_inner) : map :=
      CM (hash_builder m) (counter m) (df_left d) (df_right d).
  End DrainFilter.

  (* ---- capacity ---- *)
  (* src/cycle_map.rs:900-905, 941-946 *)
  Definition resize_both (z : sizing) : M map unit :=
    m <- getst ;;
    putst (set_left (t_resize (lo E) (left_set m) z (make_hasher_l (hash_builder m))) m) ;;;
    m <- getst ;;
    putst (set_right (t_resize (lo E) (right_set m) z (make_hasher_r (hash_builder m))) m).
  Definition shrink_to (min_capacity : N) : M map unit := resize_both (Shrink min_capacity).
  Definition reserve (additional : N) : M map unit := resize_both (Grow additional).
  (* src/cycle_map.rs:922-927 *)
  Definition shrink_to_fit : M map unit :=
    m <- getst ;;
    putst (set_left (t_resize (lo E) (left_set m) (Shrink (N.of_nat (len m)))
                       (make_hasher_l (hash_builder m))) m) ;;;
    m <- getst ;;
    putst (set_right (t_resize (lo E) (right_set m) (Shrink (N.of_nat (len m)))
                        (make_hasher_r (hash_builder m))) m).
  (* src/cycle_map.rs:960-966; true = Ok(()) *)
  Definition try_reserve (additional : N) : M map bool :=
    m <- getst ;;
    let (ok, t) := t_try_resize (lo E) (left_set m) additional (make_hasher_l (hash_builder m)) in
    putst (set_left t m) ;;;
    if ok then
      m <- getst ;;
      let (ok, t) := t_try_resize (lo E) (right_set m) additional
                       (make_hasher_r (hash_builder m)) in
      putst (set_right t m) ;;; ret ok
    else ret false.
  (* src/cycle_map.rs:1018-1026, 117-119 *)
  Definition with_capacity_and_hasher (n : N) (s : S) : map :=
    CM s 0 (t_with_capacity (lo E) n) (t_with_capacity (lo E) n).
  (* src/cycle_map.rs:1042-1045 *)
  Definition capacity (m : map) : N := t_capacity (lo E) (left_set m).
End CycleMap.
Arguments Drain {L R} _ _.
Arguments DF {L R} _ _ _.
