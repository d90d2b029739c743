(* src/group_map.rs again, with every call of user code (Hash, Eq) a possible panic; see
   Faults.v and CycleMapFault.v.  Same functions as in GroupMap.v, in the same order; [user]
   marks the calls of make_hash, [u_find], [u_get], [u_get_mut], [u_remove_entry] searches with
   equivalent_key_left and equivalent_key_right, [u_insert] table operations that may rehash.
   Searches by id and the HashSet<(u64, ID)> of a right item run no user code: they hash and
   compare integers, with a hasher of their own.  The iterators search by id only. *)
From Coq Require Import List NArith Lia Bool Permutation PeanoNat.
From Verif Require Import Closures Prelude RawTable GroupMap ListFacts TableFacts SoundTables
  GroupSpec GroupHistory Faults.
Import ListNotations.
Open Scope N_scope.

Section Fault.
  Context {L R S : Type}.
  Variable E : env L R S.
  Variable F : fault.
  Notation map := (gmap L R S).
  Notation FM A := (M (fuse * gmap L R S) A).

  (* src/utils.rs:4-12 make_hash *)
  Definition hash_l (m : map) (l : L) : M fuse N := user (hashL E (hash_builder m) l).
  Definition hash_r (m : map) (r : R) : M fuse N := user (hashR E (hash_builder m) r).
  (* searches with equivalent_key_left, equivalent_key_right *)
  Definition u_find_left (m : map) (h : N) (l : L) : M fuse (option (left_item L)) :=
    u_get (lo E) (left_set m) h (equivalent_key_left (eqL E) l).
  Definition u_find_right (m : map) (h : N) (r : R) : M fuse (option (right_item R)) :=
    u_get (lo E) (right_set m) h (equivalent_key_right (eqR E) r).
  (* RawTable::get_mut: the bucket and the entry in it *)
  Definition u_get_mut {A} (t : table A) (h : N) (p : A -> bool) : M fuse (option (nat * A)) :=
    o <- u_find (lo E) t h p ;;
    ret (match o with
         | Some i => match t_entry t i with Some e => Some (i, e) | None => None end
         | None => None
         end).
  Definition mut_left (m : map) (h : N) (l : L) : M fuse (option (nat * left_item L)) :=
    u_get_mut (left_set m) h (equivalent_key_left (eqL E) l).
  Definition mut_right (m : map) (h : N) (r : R) : M fuse (option (nat * right_item R)) :=
    u_get_mut (right_set m) h (equivalent_key_right (eqR E) r).
  Definition u_left_remove_entry (h : N) (l : L) : FM (option (left_item L)) :=
    o <- look (fun m => u_remove_entry (lo E) (left_set m) h (equivalent_key_left (eqL E) l)) ;;
    match o with
    | Some (e, t) => calmly (m <- getst ;; putst (set_left t m)) ;;; ret (Some e)
    | None => ret None
    end.
  Definition u_right_remove_entry (h : N) (r : R) : FM (option (right_item R)) :=
    o <- look (fun m => u_remove_entry (lo E) (right_set m) h (equivalent_key_right (eqR E) r)) ;;
    match o with
    | Some (e, t) => calmly (m <- getst ;; putst (set_right t m)) ;;; ret (Some e)
    | None => ret None
    end.
  (* insertions *)
  Definition on_left {A} (c : S -> table (left_item L) -> fuse -> res (fuse * table (left_item L)) A)
    : FM A :=
    fun wm => match c (hash_builder (snd wm)) (left_set (snd wm)) (fst wm) with
              | Ret (w, t) a => Ret (w, set_left t (snd wm)) a
              | Panic (w, t) => Panic (w, set_left t (snd wm))
              end.
  Definition on_right {A} (c : S -> table (right_item R) -> fuse -> res (fuse * table (right_item R)) A)
    : FM A :=
    fun wm => match c (hash_builder (snd wm)) (right_set (snd wm)) (fst wm) with
              | Ret (w, t) a => Ret (w, set_right t (snd wm)) a
              | Panic (w, t) => Panic (w, set_right t (snd wm))
              end.
  Definition u_left_insert (h : N) (e : left_item L) : FM unit :=
    on_left (fun s t => u_insert (lo E) F t h e (make_hasher_l E s)).
  Definition u_right_insert (h : N) (e : right_item R) : FM unit :=
    on_right (fun s t => u_insert (lo E) F t h e (make_hasher_r E s)).

  (* src/group_map.rs:605-612 *)
  Definition u_is_right_paired (m : map) (right : R) : M fuse bool :=
    r_hash <- hash_r m right ;;
    o <- u_find_right m r_hash right ;;
    ret (match o with Some r => negb (set_is_empty (r_pairs r)) | None => false end).
  (* src/group_map.rs:625-636 *)
  Definition u_are_paired (m : map) (left : L) (right : R) : M fuse bool :=
    lh <- hash_l m left ;;
    rh <- hash_r m right ;;
    opt_left <- u_find_left m lh left ;;
    opt_right <- u_find_right m rh right ;;
    ret (match opt_left, opt_right with
         | Some l, Some r => (l_hash l =? rh) && set_contains E (r_id r) (r_pairs r) (lh, l_id l)
         | _, _ => false
         end).
  (* src/group_map.rs:649-652, 667-672 *)
  Definition u_contains_left (m : map) (left : L) : M fuse bool :=
    hash <- hash_l m left ;; o <- u_find_left m hash left ;; ret (is_some o).
  Definition u_contains_right (m : map) (right : R) : M fuse bool :=
    hash <- hash_r m right ;; o <- u_find_right m hash right ;; ret (is_some o).

  (* src/group_map.rs:706-718 *)
  Definition u_remove_left (item : L) : FM (option L) :=
    lh <- look (fun m => hash_l m item) ;;
    o <- u_left_remove_entry lh item ;;
    match o with
    | None => ret None
    | Some left_item =>
        let p := (lh, l_id left_item) in
        calmly (m <- getst ;;
                b <- unwrap (t_get_mut E (right_set m) (l_hash left_item) (right_with_left_pair E p)) ;;
                right_assign (fst b) (pairs_remove E p)) ;;;
        ret (Some (l_value left_item))
    end.

  (* is l in the HashSet<L> being collected?  One comparison with each of its items until one
     is equal (hashbrown compares only items whose hash has the same top bits) *)
  Fixpoint u_seen (l : L) (seen : list L) : M fuse bool :=
    match seen with
    | [] => ret false
    | x :: t => b <- user (eqL E l x) ;; if b : bool then ret true else u_seen l t
    end.
  (* src/group_map.rs:738-749: the map closure run by collect removes the left items one by
     one; between two removals the HashSet<L> hashes the item (its hasher is not the map's)
     and compares it with those it holds.  collect reserves the room it needs beforehand *)
  Fixpoint u_remove_pairs (seen : list L) (ps : list (N * N)) : FM (list L) :=
    match ps with
    | [] => ret (rev seen)
    | (h, i) :: t =>
        o <- calmly (left_remove_entry E h (left_with_left_id i)) ;;
        e <- unwrap o ;;
        look (fun _ => user tt) ;;;
        b <- look (fun _ => u_seen (l_value e) seen) ;;
        u_remove_pairs (if b : bool then seen else l_value e :: seen) t
    end.
  (* src/group_map.rs:735-751 *)
  Definition u_remove_right (item : R) : FM (option (list L * R)) :=
    rh <- look (fun m => hash_r m item) ;;
    o <- u_right_remove_entry rh item ;;
    match o with
    | None => ret None
    | Some right_item =>
        ls <- u_remove_pairs [] (hs_elems (r_pairs right_item)) ;;
        ret (Some (ls, r_value right_item))
    end.
  (* src/group_map.rs:687-693 *)
  Definition u_remove (left : L) (right : R) : FM (option (list L * R)) :=
    b <- look (fun m => u_are_paired m left right) ;;
    if b : bool then u_remove_right right else ret None.

  (* src/group_map.rs:231-303 *)
  Definition u_insert_pair (left : L) (right : R) : FM unit :=
    lh <- look (fun m => hash_l m left) ;;
    rh <- look (fun m => hash_r m right) ;;
    opt_left <- look (fun m => mut_left m lh left) ;;
    opt_right <- look (fun m => mut_right m rh right) ;;
    lc <- look (fun m => ret (left_counter m)) ;;
    rc <- look (fun m => ret (right_counter m)) ;;
    match opt_left, opt_right with
    | None, None =>
        u_left_insert lh (LI left rh rc lc) ;;;
        u_right_insert rh (RI right (set_insert E rc (set_new rc) (lh, lc)) rc) ;;;
        calmly (incr_left E ;;; incr_right E)
    | Some (i, l), None =>
        let p := (lh, l_id l) in
        calmly (m <- getst ;;
                b <- unwrap (t_get_mut E (right_set m) (l_hash l) (right_with_left_pair E p)) ;;
                left_assign i (set_l_hash rh) ;;;
                left_assign i (set_l_rid rc) ;;;
                right_assign (fst b) (pairs_remove E p)) ;;;
        u_right_insert rh (RI right (set_insert E rc (set_new rc) p) rc) ;;;
        calmly (incr_right E)
    | None, Some (j, r) =>
        calmly (right_assign j (pairs_insert E (lh, lc))) ;;;
        u_left_insert lh (LI left rh (r_id r) lc) ;;;
        calmly (incr_left E)
    | Some (i, l), Some (j, r) =>
        let p := (lh, l_id l) in
        calmly (right_assign j (pairs_insert E p) ;;;
                m <- getst ;;
                b <- unwrap (t_get_mut E (right_set m) (l_hash l) (right_with_right_id (l_rid l))) ;;
                right_assign (fst b) (pairs_remove E p) ;;;
                left_assign i (set_l_hash rh) ;;;
                left_assign i (set_l_rid (r_id r)))
    end.

  (* src/group_map.rs:341-367 *)
  Definition u_insert_remove (left : L) (right : R) : FM (option L * option (list L * R)) :=
    opt_from_left <- u_remove_left left ;;
    opt_from_right <- u_remove_right right ;;
    lh <- look (fun m => hash_l m left) ;;
    rh <- look (fun m => hash_r m right) ;;
    lc <- look (fun m => ret (left_counter m)) ;;
    rc <- look (fun m => ret (right_counter m)) ;;
    calmly (incr_left E ;;; incr_right E) ;;;
    u_left_insert lh (LI left rh rc lc) ;;;
    u_right_insert rh (RI right (set_insert E rc (set_new rc) (lh, lc)) rc) ;;;
    ret (opt_from_left, opt_from_right).

  (* src/group_map.rs:385-407 *)
  Definition u_insert_left (left : L) (right : R) : FM (option L) :=
    rh <- look (fun m => hash_r m right) ;;
    opt_right <- look (fun m => mut_right m rh right) ;;
    match opt_right with
    | None => ret None
    | Some (j, r) =>
        lh <- look (fun m => hash_l m left) ;;
        lc <- look (fun m => ret (left_counter m)) ;;
        calmly (right_assign j (pairs_insert E (lh, lc))) ;;;
        digest <- u_remove_left left ;;
        calmly (incr_left E) ;;;
        u_left_insert lh (LI left rh (r_id r) lc) ;;;
        ret digest
    end.

  (* src/group_map.rs:434-449 *)
  Definition u_insert_right (right : R) : FM (option (list L * R)) :=
    digest <- u_remove_right right ;;
    rh <- look (fun m => hash_r m right) ;;
    rc <- look (fun m => ret (right_counter m)) ;;
    calmly (incr_right E) ;;;
    u_right_insert rh (RI right (set_new rc) rc) ;;;
    ret digest.

  (* src/group_map.rs:472-497 *)
  Definition u_swap_right (old new : R) : FM unit :=
    old_hash <- look (fun m => hash_r m old) ;;
    o <- look (fun m => mut_right m old_hash old) ;;
    match o with
    | None => u_insert_right new ;;; ret tt
    | Some (j, r) =>
        rc <- look (fun m => ret (right_counter m)) ;;
        let set := set_collect E rc (hs_elems (r_pairs r)) in
        calmly (right_assign j (set_pairs (t_clear (lo E) (r_pairs r)))) ;;;
        new_hash <- look (fun m => hash_r m new) ;;
        u_right_insert new_hash (RI new set rc) ;;;
        calmly (incr_right E ;;; rehash_pairs E new_hash (hs_elems set))
    end.
  (* src/group_map.rs:515-545 *)
  Definition u_swap_right_remove (old new : R) : FM (option R) :=
    old_hash <- look (fun m => hash_r m old) ;;
    o <- u_right_remove_entry old_hash old ;;
    match o with
    | None => u_insert_right new ;;; ret None
    | Some r =>
        rc <- look (fun m => ret (right_counter m)) ;;
        let set := set_collect E rc (hs_elems (r_pairs r)) in
        new_hash <- look (fun m => hash_r m new) ;;
        u_right_insert new_hash (RI new set rc) ;;;
        calmly (incr_right E ;;; rehash_pairs E new_hash (hs_elems set)) ;;;
        ret (Some (r_value r))
    end.

  (* src/group_map.rs:562-591; the last search runs Eq again *)
  Definition u_pair (left : L) (right : R) : FM bool :=
    lh <- look (fun m => hash_l m left) ;;
    rh <- look (fun m => hash_r m right) ;;
    opt_left <- look (fun m => mut_left m lh left) ;;
    opt_right <- look (fun m => u_find_right m rh right) ;;
    match opt_left, opt_right with
    | Some (i, l), Some r =>
        calmly (left_assign i (set_l_hash rh) ;;;
                left_assign i (set_l_rid (r_id r)) ;;;
                m <- getst ;;
                b <- unwrap (t_get_mut E (right_set m) (l_hash l) (right_with_right_id (l_rid l))) ;;
                right_assign (fst b) (pairs_remove E (lh, l_id l))) ;;;
        o <- look (fun m => mut_right m rh right) ;;
        b' <- unwrap o ;;
        calmly (right_assign (fst b') (pairs_insert E (lh, l_id l))) ;;;
        ret true
    | _, _ => ret false
    end.

  (* src/group_map.rs:812-826; Q = L *)
  Definition u_get_right (m : map) (item : L) : M fuse (option R) :=
    hash <- hash_l m item ;;
    o <- u_find_left m hash item ;;
    ret (match o with
         | None => None
         | Some l => option_map r_value
                       (t_get (lo E) (right_set m) (l_hash l) (right_with_right_id (l_rid l)))
         end).
  (* src/group_map.rs:787-799; Q = R; then the iterator is run to its end *)
  Definition u_get_left_all (m : map) (item : R) : M fuse (option (list L)) :=
    hash <- hash_r m item ;;
    o <- u_find_right m hash item ;;
    match o with
    | None => ret None
    | Some r => ls <- inner (pair_rest E m (hs_elems (r_pairs r))) ;; ret (Some ls)
    end.

  (* src/group_map.rs:1067-1075 *)
  Definition u_eq_item (other : map) (x : option L * R) : M fuse bool :=
    match fst x with
    | Some l => u_are_paired other l (snd x)
    | None => b <- u_is_right_paired other (snd x) ;; ret (negb b)
    end.
  Fixpoint u_all_items (m other : map) (fuel : nat) (it : @iter_t R) : M fuse bool :=
    x <- inner (iter_next E m it) ;;
    match x with
    | (None, _) => ret true
    | (Some y, it') =>
        b <- u_eq_item other y ;;
        if b : bool then
          match fuel with
          | O => panic
          | Datatypes.S fuel' => u_all_items m other fuel' it'
          end
        else ret false
    end.
  Definition u_map_eq (m other : map) : M fuse bool :=
    if negb (Nat.eqb (len_left m) (len_left other)) && negb (Nat.eqb (len_right m) (len_right other))
    then ret false
    else u_all_items m other (iter_bound (iter m)) (iter m).

  (* src/group_map.rs:1257-1265 *)
  Fixpoint u_extend (xs : list (option L * R)) : FM unit :=
    match xs with
    | [] => ret tt
    | (Some l, r) :: t => u_insert_pair l r ;;; u_extend t
    | (None, r) :: t => u_insert_right r ;;; u_extend t
    end.
  (* src/group_map.rs:1275-1279 *)
  Fixpoint u_extend_pairs (xs : list (L * R)) : FM unit :=
    match xs with
    | [] => ret tt
    | (l, r) :: t => u_insert_pair l r ;;; u_extend_pairs t
    end.

  (* src/group_map.rs:980-982, 1013-1015 *)
  Definition u_retain_paired_key (m : map) (p : L * R) : M fuse (N * N) :=
    lh <- hash_l m (fst p) ;;
    o <- u_find_left m lh (fst p) ;;
    e <- unwrap o ;;
    ret (lh, l_id e).
  Definition u_retain_unpaired_key (m : map) (r : R) : M fuse (N * N) :=
    rh <- hash_r m r ;;
    o <- u_find_right m rh r ;;
    e <- unwrap o ;;
    ret (rh, r_id e).
  (* the for loop of the two retain functions; their second loop runs no user code *)
  Section Retain.
    Context {X A I : Type}.
    Variable f : X -> A -> X * verdict.
    Variable next : I -> outcome (option A * I).
    Variable key : A -> M fuse (N * N).
    (* the outer Panic: user code or an unwrap; the inner one: the closure *)
    Fixpoint u_retain_scan (fuel : nat) (it : I) (x : X) : M fuse (res X (list (N * N))) :=
      o <- inner (next it) ;;
      match o with
      | (None, _) => ret (Ret x [])
      | (Some a, it') =>
          match f x a with
          | (x', None) => ret (Panic x')
          | (x', Some ans) =>
              d <- (if ans : bool then t <- key a ;; ret [t] else ret []) ;;
              match fuel with
              | O => panic
              | Datatypes.S fuel' =>
                  r <- u_retain_scan fuel' it' x' ;;
                  ret (match r with Ret x'' l => Ret x'' (d ++ l) | Panic x'' => Panic x'' end)
              end
          end
      end.
  End Retain.
  Definition u_retain_with {X} (scan : map -> M fuse (res X (list (N * N))))
      (drop_all : list (N * N) -> M map unit) : FM unit :=
    r <- look scan ;;
    match r with
    | Panic _ => panic
    | Ret _ to_drop => calmly (drop_all to_drop)
    end.
  (* src/group_map.rs:972-988 *)
  Definition u_retain_paired {X} (f : X -> L * R -> X * verdict) (x : X) : FM unit :=
    u_retain_with (fun m =>
      u_retain_scan f (paired_next E m) (u_retain_paired_key m) (length (iter_paired m)) (iter_paired m) x)
      (drop_lefts E).
  (* src/group_map.rs:1005-1021 *)
  Definition u_retain_unpaired {X} (f : X -> R -> X * verdict) (x : X) : FM unit :=
    u_retain_with (fun m =>
      u_retain_scan f unpaired_next (u_retain_unpaired_key m) (length (iter_unpaired m)) (iter_unpaired m) x)
      (drop_rights E).

  (* ---- histories ---- *)
  Definition u_via {A} (k : A -> out L R) (c : FM A) (m : map) (w : fuse) : map * out L R :=
    match c (w, m) with Ret (_, m') a => (m', k a) | Panic (_, m') => (m', OPanic) end.

  (* one call, user code panicking as the fuse w says; the calls not listed run no user code
     (the clones of the items made by clone() are taken to return) *)
  Definition u_step (m : map) (o : op L R) (w : fuse) : map * out L R :=
    match o with
    | Insert l r => u_via (fun _ => OUnit) (u_insert_pair l r) m w
    | InsertRemove l r => u_via OInsRem (u_insert_remove l r) m w
    | InsertLeft l r => u_via OL (u_insert_left l r) m w
    | InsertRight r => u_via OGroup (u_insert_right r) m w
    | SwapRight old new => u_via (fun _ => OUnit) (u_swap_right old new) m w
    | SwapRightRemove old new => u_via OR (u_swap_right_remove old new) m w
    | Pair l r => u_via OBool (u_pair l r) m w
    | Remove l r => u_via OGroup (u_remove l r) m w
    | RemoveLeft l => u_via OL (u_remove_left l) m w
    | RemoveRight r => u_via OGroup (u_remove_right r) m w
    | IsRightPaired r => u_via OBool (look (fun m => u_is_right_paired m r)) m w
    | ArePaired l r => u_via OBool (look (fun m => u_are_paired m l r)) m w
    | ContainsLeft l => u_via OBool (look (fun m => u_contains_left m l)) m w
    | ContainsRight r => u_via OBool (look (fun m => u_contains_right m r)) m w
    | GetRight l => u_via OR (look (fun m => u_get_right m l)) m w
    | GetLeftIter r => u_via OLsO (look (fun m => u_get_left_all m r)) m w
    | RetainPaired X f x => u_via (fun _ => OUnit) (u_retain_paired f x) m w
    | RetainUnpaired X f x => u_via (fun _ => OUnit) (u_retain_unpaired f x) m w
    | ExtendPairs xs => u_via (fun _ => OUnit) (u_extend_pairs xs) m w
    | Extend xs => u_via (fun _ => OUnit) (u_extend xs) m w
    | IterAll | IterPairedAll | IterUnpairedAll | IterLeftAll | IterRightAll | Clear | CloneSelf
    | LenLeft | LenRight | IsEmpty => step E m o
    end.
  Fixpoint u_run (m : map) (ops : list (op L R * fuse)) : map * list (out L R) :=
    match ops with
    | [] => (m, [])
    | (o, w) :: t => let (m', a) := u_step m o w in
                     let (m'', b) := u_run m' t in (m'', a :: b)
    end.
End Fault.
