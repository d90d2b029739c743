(* src/group_map.rs again, with user code (Hash, Eq) that does as it likes; see Wild.v.  Same
   functions as in GroupFault.v, in the same order; [w_hashL] and [w_hashR] are the calls of
   make_hash, [w_find], [w_get], [w_get_mut], [w_remove_entry] searches with equivalent_key_left
   and equivalent_key_right, [w_insert] table operations that may rehash.  Searches by id and
   the HashSet<(u64, ID)> of a right item run no user code. *)
From Coq Require Import List NArith Lia Bool Permutation PeanoNat.
From Verif Require Import Closures Prelude RawTable GroupMap ListFacts TableFacts
  GroupHistory Faults Wild.
Import ListNotations.
Open Scope N_scope.

Section Wild.
  Context {L R S W : Type}.
  Variable E : wenv L R S W.
  Notation B := (calm_env E).
  Notation map := (gmap L R S).
  Notation FM A := (M (W * gmap L R S) A).

  Definition w_inner {A} (o : outcome A) : M W A :=
    match o with Done a => ret a | Panicked => panic end.
  (* src/utils.rs:4-12 make_hash *)
  Definition hash_l (m : map) (l : L) : M W N := w_hashL E (hash_builder m) l.
  Definition hash_r (m : map) (r : R) : M W N := w_hashR E (hash_builder m) r.
  (* searches with equivalent_key_left, equivalent_key_right *)
  Definition w_find_left (m : map) (h : N) (l : L) : M W (option (left_item L)) :=
    w_get (w_lo E) (left_set m) h (fun e => w_eqL E (l_value e) l).
  Definition w_find_right (m : map) (h : N) (r : R) : M W (option (right_item R)) :=
    w_get (w_lo E) (right_set m) h (fun e => w_eqR E (r_value e) r).
  (* RawTable::get_mut: the bucket and the entry in it *)
  Definition w_get_mut {A} (t : table A) (h : N) (p : A -> M W bool) : M W (option (nat * A)) :=
    o <- w_find (w_lo E) t h p ;;
    ret (match o with
         | Some i => match t_entry t i with Some e => Some (i, e) | None => None end
         | None => None
         end).
  Definition mut_left (m : map) (h : N) (l : L) : M W (option (nat * left_item L)) :=
    w_get_mut (left_set m) h (fun e => w_eqL E (l_value e) l).
  Definition mut_right (m : map) (h : N) (r : R) : M W (option (nat * right_item R)) :=
    w_get_mut (right_set m) h (fun e => w_eqR E (r_value e) r).
  Definition w_left_remove_entry (h : N) (l : L) : FM (option (left_item L)) :=
    o <- w_look (fun m => w_remove_entry (w_lo E) (left_set m) h (fun e => w_eqL E (l_value e) l)) ;;
    match o with
    | Some (e, t) => w_calmly (m <- getst ;; putst (set_left t m)) ;;; ret (Some e)
    | None => ret None
    end.
  Definition w_right_remove_entry (h : N) (r : R) : FM (option (right_item R)) :=
    o <- w_look (fun m => w_remove_entry (w_lo E) (right_set m) h (fun e => w_eqR E (r_value e) r)) ;;
    match o with
    | Some (e, t) => w_calmly (m <- getst ;; putst (set_right t m)) ;;; ret (Some e)
    | None => ret None
    end.
  (* insertions *)
  Definition on_left {A} (c : S -> table (left_item L) -> W -> res (W * table (left_item L)) A)
    : FM A :=
    fun wm => match c (hash_builder (snd wm)) (left_set (snd wm)) (fst wm) with
              | Ret (w, t) a => Ret (w, set_left t (snd wm)) a
              | Panic (w, t) => Panic (w, set_left t (snd wm))
              end.
  Definition on_right {A} (c : S -> table (right_item R) -> W -> res (W * table (right_item R)) A)
    : FM A :=
    fun wm => match c (hash_builder (snd wm)) (right_set (snd wm)) (fst wm) with
              | Ret (w, t) a => Ret (w, set_right t (snd wm)) a
              | Panic (w, t) => Panic (w, set_right t (snd wm))
              end.
  Definition w_left_insert (h : N) (e : left_item L) : FM unit :=
    on_left (fun s t => w_insert (w_lo E) (w_fault E) t h e (fun e => w_hashL E s (l_value e))).
  Definition w_right_insert (h : N) (e : right_item R) : FM unit :=
    on_right (fun s t => w_insert (w_lo E) (w_fault E) t h e (fun e => w_hashR E s (r_value e))).

  (* src/group_map.rs:605-612 *)
  Definition w_is_right_paired (m : map) (right : R) : M W bool :=
    r_hash <- hash_r m right ;;
    o <- w_find_right m r_hash right ;;
    ret (match o with Some r => negb (set_is_empty (r_pairs r)) | None => false end).
  (* src/group_map.rs:625-636 *)
  Definition w_are_paired (m : map) (left : L) (right : R) : M W bool :=
    lh <- hash_l m left ;;
    rh <- hash_r m right ;;
    opt_left <- w_find_left m lh left ;;
    opt_right <- w_find_right m rh right ;;
    ret (match opt_left, opt_right with
         | Some l, Some r => (l_hash l =? rh) && set_contains B (r_id r) (r_pairs r) (lh, l_id l)
         | _, _ => false
         end).
  (* src/group_map.rs:649-652, 667-672 *)
  Definition w_contains_left (m : map) (left : L) : M W bool :=
    hash <- hash_l m left ;; o <- w_find_left m hash left ;; ret (is_some o).
  Definition w_contains_right (m : map) (right : R) : M W bool :=
    hash <- hash_r m right ;; o <- w_find_right m hash right ;; ret (is_some o).

  (* src/group_map.rs:706-718 *)
  Definition w_remove_left (item : L) : FM (option L) :=
    lh <- w_look (fun m => hash_l m item) ;;
    o <- w_left_remove_entry lh item ;;
    match o with
    | None => ret None
    | Some left_item =>
        let p := (lh, l_id left_item) in
        w_calmly (m <- getst ;;
                b <- unwrap (t_get_mut B (right_set m) (l_hash left_item) (right_with_left_pair B p)) ;;
                right_assign (fst b) (pairs_remove B p)) ;;;
        ret (Some (l_value left_item))
    end.

  (* is l in the HashSet<L> being collected?  One comparison with each of its items until one
     is equal (hashbrown compares only items whose hash has the same top bits) *)
  Fixpoint w_seen (l : L) (seen : list L) : M W bool :=
    match seen with
    | [] => ret false
    | x :: t => b <- w_eqL E l x ;; if b : bool then ret true else w_seen l t
    end.
  (* src/group_map.rs:738-749: the map closure run by collect removes the left items one by
     one; between two removals the HashSet<L> hashes the item (its hasher is not the map's)
     and compares it with those it holds.  collect reserves the room it needs beforehand.  The
     hash decides which items are compared; here all are, until one is equal: a comparison that
     hashbrown skips is one that user code answers with false and no effect *)
  Fixpoint w_remove_pairs (seen : list L) (ps : list (N * N)) : FM (list L) :=
    match ps with
    | [] => ret (rev seen)
    | (h, i) :: t =>
        o <- w_calmly (left_remove_entry B h (left_with_left_id i)) ;;
        e <- unwrap o ;;
        w_look (fun m => hash_l m (l_value e)) ;;;
        b <- w_look (fun _ => w_seen (l_value e) seen) ;;
        w_remove_pairs (if b : bool then seen else l_value e :: seen) t
    end.
  (* src/group_map.rs:735-751 *)
  Definition w_remove_right (item : R) : FM (option (list L * R)) :=
    rh <- w_look (fun m => hash_r m item) ;;
    o <- w_right_remove_entry rh item ;;
    match o with
    | None => ret None
    | Some right_item =>
        ls <- w_remove_pairs [] (hs_elems (r_pairs right_item)) ;;
        ret (Some (ls, r_value right_item))
    end.
  (* src/group_map.rs:687-693 *)
  Definition w_remove (left : L) (right : R) : FM (option (list L * R)) :=
    b <- w_look (fun m => w_are_paired m left right) ;;
    if b : bool then w_remove_right right else ret None.

  (* src/group_map.rs:231-303 *)
  Definition w_insert_pair (left : L) (right : R) : FM unit :=
    lh <- w_look (fun m => hash_l m left) ;;
    rh <- w_look (fun m => hash_r m right) ;;
    opt_left <- w_look (fun m => mut_left m lh left) ;;
    opt_right <- w_look (fun m => mut_right m rh right) ;;
    lc <- w_look (fun m => ret (left_counter m)) ;;
    rc <- w_look (fun m => ret (right_counter m)) ;;
    match opt_left, opt_right with
    | None, None =>
        w_left_insert lh (LI left rh rc lc) ;;;
        w_right_insert rh (RI right (set_insert B rc (set_new rc) (lh, lc)) rc) ;;;
        w_calmly (incr_left B ;;; incr_right B)
    | Some (i, l), None =>
        let p := (lh, l_id l) in
        w_calmly (m <- getst ;;
                b <- unwrap (t_get_mut B (right_set m) (l_hash l) (right_with_left_pair B p)) ;;
                left_assign i (set_l_hash rh) ;;;
                left_assign i (set_l_rid rc) ;;;
                right_assign (fst b) (pairs_remove B p)) ;;;
        w_right_insert rh (RI right (set_insert B rc (set_new rc) p) rc) ;;;
        w_calmly (incr_right B)
    | None, Some (j, r) =>
        w_calmly (right_assign j (pairs_insert B (lh, lc))) ;;;
        w_left_insert lh (LI left rh (r_id r) lc) ;;;
        w_calmly (incr_left B)
    | Some (i, l), Some (j, r) =>
        let p := (lh, l_id l) in
        w_calmly (right_assign j (pairs_insert B p) ;;;
                m <- getst ;;
                b <- unwrap (t_get_mut B (right_set m) (l_hash l) (right_with_right_id (l_rid l))) ;;
                right_assign (fst b) (pairs_remove B p) ;;;
                left_assign i (set_l_hash rh) ;;;
                left_assign i (set_l_rid (r_id r)))
    end.

  (* src/group_map.rs:341-367 *)
  Definition w_insert_remove (left : L) (right : R) : FM (option L * option (list L * R)) :=
    opt_from_left <- w_remove_left left ;;
    opt_from_right <- w_remove_right right ;;
    lh <- w_look (fun m => hash_l m left) ;;
    rh <- w_look (fun m => hash_r m right) ;;
    lc <- w_look (fun m => ret (left_counter m)) ;;
    rc <- w_look (fun m => ret (right_counter m)) ;;
    w_calmly (incr_left B ;;; incr_right B) ;;;
    w_left_insert lh (LI left rh rc lc) ;;;
    w_right_insert rh (RI right (set_insert B rc (set_new rc) (lh, lc)) rc) ;;;
    ret (opt_from_left, opt_from_right).

  (* src/group_map.rs:385-407 *)
  Definition w_insert_left (left : L) (right : R) : FM (option L) :=
    rh <- w_look (fun m => hash_r m right) ;;
    opt_right <- w_look (fun m => mut_right m rh right) ;;
    match opt_right with
    | None => ret None
    | Some (j, r) =>
        lh <- w_look (fun m => hash_l m left) ;;
        lc <- w_look (fun m => ret (left_counter m)) ;;
        w_calmly (right_assign j (pairs_insert B (lh, lc))) ;;;
        digest <- w_remove_left left ;;
        w_calmly (incr_left B) ;;;
        w_left_insert lh (LI left rh (r_id r) lc) ;;;
        ret digest
    end.

  (* src/group_map.rs:434-449 *)
  Definition w_insert_right (right : R) : FM (option (list L * R)) :=
    digest <- w_remove_right right ;;
    rh <- w_look (fun m => hash_r m right) ;;
    rc <- w_look (fun m => ret (right_counter m)) ;;
    w_calmly (incr_right B) ;;;
    w_right_insert rh (RI right (set_new rc) rc) ;;;
    ret digest.

  (* src/group_map.rs:472-497 *)
  Definition w_swap_right (old new : R) : FM unit :=
    old_hash <- w_look (fun m => hash_r m old) ;;
    o <- w_look (fun m => mut_right m old_hash old) ;;
    match o with
    | None => w_insert_right new ;;; ret tt
    | Some (j, r) =>
        rc <- w_look (fun m => ret (right_counter m)) ;;
        let set := set_collect B rc (hs_elems (r_pairs r)) in
        w_calmly (right_assign j (set_pairs (t_clear (w_lo E) (r_pairs r)))) ;;;
        new_hash <- w_look (fun m => hash_r m new) ;;
        w_right_insert new_hash (RI new set rc) ;;;
        w_calmly (incr_right B ;;; rehash_pairs B new_hash (hs_elems set))
    end.
  (* src/group_map.rs:515-545 *)
  Definition w_swap_right_remove (old new : R) : FM (option R) :=
    old_hash <- w_look (fun m => hash_r m old) ;;
    o <- w_right_remove_entry old_hash old ;;
    match o with
    | None => w_insert_right new ;;; ret None
    | Some r =>
        rc <- w_look (fun m => ret (right_counter m)) ;;
        let set := set_collect B rc (hs_elems (r_pairs r)) in
        new_hash <- w_look (fun m => hash_r m new) ;;
        w_right_insert new_hash (RI new set rc) ;;;
        w_calmly (incr_right B ;;; rehash_pairs B new_hash (hs_elems set)) ;;;
        ret (Some (r_value r))
    end.

  (* src/group_map.rs:562-591; the last search runs Eq again *)
  Definition w_pair (left : L) (right : R) : FM bool :=
    lh <- w_look (fun m => hash_l m left) ;;
    rh <- w_look (fun m => hash_r m right) ;;
    opt_left <- w_look (fun m => mut_left m lh left) ;;
    opt_right <- w_look (fun m => w_find_right m rh right) ;;
    match opt_left, opt_right with
    | Some (i, l), Some r =>
        w_calmly (left_assign i (set_l_hash rh) ;;;
                left_assign i (set_l_rid (r_id r)) ;;;
                m <- getst ;;
                b <- unwrap (t_get_mut B (right_set m) (l_hash l) (right_with_right_id (l_rid l))) ;;
                right_assign (fst b) (pairs_remove B (lh, l_id l))) ;;;
        o <- w_look (fun m => mut_right m rh right) ;;
        b' <- unwrap o ;;
        w_calmly (right_assign (fst b') (pairs_insert B (lh, l_id l))) ;;;
        ret true
    | _, _ => ret false
    end.

  (* src/group_map.rs:812-826; Q = L *)
  Definition w_get_right (m : map) (item : L) : M W (option R) :=
    hash <- hash_l m item ;;
    o <- w_find_left m hash item ;;
    ret (match o with
         | None => None
         | Some l => option_map r_value
                       (t_get (w_lo E) (right_set m) (l_hash l) (right_with_right_id (l_rid l)))
         end).
  (* src/group_map.rs:787-799; Q = R; then the iterator is run to its end *)
  Definition w_get_left_all (m : map) (item : R) : M W (option (list L)) :=
    hash <- hash_r m item ;;
    o <- w_find_right m hash item ;;
    match o with
    | None => ret None
    | Some r => ls <- w_inner (pair_rest B m (hs_elems (r_pairs r))) ;; ret (Some ls)
    end.

  (* src/group_map.rs:1067-1075 *)
  Definition w_eq_item (other : map) (x : option L * R) : M W bool :=
    match fst x with
    | Some l => w_are_paired other l (snd x)
    | None => b <- w_is_right_paired other (snd x) ;; ret (negb b)
    end.
  Fixpoint w_all_items (m other : map) (fuel : nat) (it : @iter_t R) : M W bool :=
    x <- w_inner (iter_next B m it) ;;
    match x with
    | (None, _) => ret true
    | (Some y, it') =>
        b <- w_eq_item other y ;;
        if b : bool then
          match fuel with
          | O => panic
          | Datatypes.S fuel' => w_all_items m other fuel' it'
          end
        else ret false
    end.
  Definition w_map_eq (m other : map) : M W bool :=
    if negb (Nat.eqb (len_left m) (len_left other)) && negb (Nat.eqb (len_right m) (len_right other))
    then ret false
    else w_all_items m other (iter_bound (iter m)) (iter m).

  (* src/group_map.rs:1257-1265 *)
  Fixpoint w_extend (xs : list (option L * R)) : FM unit :=
    match xs with
    | [] => ret tt
    | (Some l, r) :: t => w_insert_pair l r ;;; w_extend t
    | (None, r) :: t => w_insert_right r ;;; w_extend t
    end.
  (* src/group_map.rs:1275-1279 *)
  Fixpoint w_extend_pairs (xs : list (L * R)) : FM unit :=
    match xs with
    | [] => ret tt
    | (l, r) :: t => w_insert_pair l r ;;; w_extend_pairs t
    end.

  (* src/group_map.rs:980-982, 1013-1015 *)
  Definition w_retain_paired_key (m : map) (p : L * R) : M W (N * N) :=
    lh <- hash_l m (fst p) ;;
    o <- w_find_left m lh (fst p) ;;
    e <- unwrap o ;;
    ret (lh, l_id e).
  Definition w_retain_unpaired_key (m : map) (r : R) : M W (N * N) :=
    rh <- hash_r m r ;;
    o <- w_find_right m rh r ;;
    e <- unwrap o ;;
    ret (rh, r_id e).
  (* the for loop of the two retain functions; their second loop runs no user code *)
  Section Retain.
    Context {X A I : Type}.
    Variable f : X -> A -> X * verdict.
    Variable next : I -> outcome (option A * I).
    Variable key : A -> M W (N * N).
    (* the outer Panic: user code or an unwrap; the inner one: the closure *)
    Fixpoint w_retain_scan (fuel : nat) (it : I) (x : X) : M W (res X (list (N * N))) :=
      o <- w_inner (next it) ;;
      match o with
      | (None, _) => ret (Ret x [])
      | (Some a, it') =>
          match f x a with
          | (x', None) => ret (Panic x')
          | (x', Some ans) =>
              d <- (if ans : bool then t <- key a ;; ret [t] else ret []) ;;
              match fuel with
              | O => panic
              | Datatypes.S fuel' =>
                  r <- w_retain_scan fuel' it' x' ;;
                  ret (match r with Ret x'' l => Ret x'' (d ++ l) | Panic x'' => Panic x'' end)
              end
          end
      end.
  End Retain.
  Definition w_retain_with {X} (scan : map -> M W (res X (list (N * N))))
      (drop_all : list (N * N) -> M map unit) : FM unit :=
    r <- w_look scan ;;
    match r with
    | Panic _ => panic
    | Ret _ to_drop => w_calmly (drop_all to_drop)
    end.
  (* src/group_map.rs:972-988 *)
  Definition w_retain_paired {X} (f : X -> L * R -> X * verdict) (x : X) : FM unit :=
    w_retain_with (fun m =>
      w_retain_scan f (paired_next B m) (w_retain_paired_key m) (length (iter_paired m)) (iter_paired m) x)
      (drop_lefts B).
  (* src/group_map.rs:1005-1021 *)
  Definition w_retain_unpaired {X} (f : X -> R -> X * verdict) (x : X) : FM unit :=
    w_retain_with (fun m =>
      w_retain_scan f unpaired_next (w_retain_unpaired_key m) (length (iter_unpaired m)) (iter_unpaired m) x)
      (drop_rights B).

  (* ---- histories ---- *)
  Definition w_via {A} (k : A -> out L R) (c : FM A) (m : map) (w : W) : map * out L R :=
    match c (w, m) with Ret (_, m') a => (m', k a) | Panic (_, m') => (m', OPanic) end.

  (* one call; the calls not listed run no user code
     (the clones of the items made by clone() are taken to return) *)
  Definition w_step (m : map) (o : op L R) (w : W) : map * out L R :=
    match o with
    | Insert l r => w_via (fun _ => OUnit) (w_insert_pair l r) m w
    | InsertRemove l r => w_via OInsRem (w_insert_remove l r) m w
    | InsertLeft l r => w_via OL (w_insert_left l r) m w
    | InsertRight r => w_via OGroup (w_insert_right r) m w
    | SwapRight old new => w_via (fun _ => OUnit) (w_swap_right old new) m w
    | SwapRightRemove old new => w_via OR (w_swap_right_remove old new) m w
    | Pair l r => w_via OBool (w_pair l r) m w
    | Remove l r => w_via OGroup (w_remove l r) m w
    | RemoveLeft l => w_via OL (w_remove_left l) m w
    | RemoveRight r => w_via OGroup (w_remove_right r) m w
    | IsRightPaired r => w_via OBool (w_look (fun m => w_is_right_paired m r)) m w
    | ArePaired l r => w_via OBool (w_look (fun m => w_are_paired m l r)) m w
    | ContainsLeft l => w_via OBool (w_look (fun m => w_contains_left m l)) m w
    | ContainsRight r => w_via OBool (w_look (fun m => w_contains_right m r)) m w
    | GetRight l => w_via OR (w_look (fun m => w_get_right m l)) m w
    | GetLeftIter r => w_via OLsO (w_look (fun m => w_get_left_all m r)) m w
    | RetainPaired X f x => w_via (fun _ => OUnit) (w_retain_paired f x) m w
    | RetainUnpaired X f x => w_via (fun _ => OUnit) (w_retain_unpaired f x) m w
    | ExtendPairs xs => w_via (fun _ => OUnit) (w_extend_pairs xs) m w
    | Extend xs => w_via (fun _ => OUnit) (w_extend xs) m w
    | IterAll | IterPairedAll | IterUnpairedAll | IterLeftAll | IterRightAll | Clear | CloneSelf
    | LenLeft | LenRight | IsEmpty => step B m o
    end.
End Wild.

(* a history: every call finds user code and a world of its own; the calls with what they return *)
Fixpoint w_run {L R S W} (m : gmap L R S) (cs : list (wenv L R S W * W * op L R))
    : gmap L R S * list (op L R * out L R) :=
  match cs with
  | [] => (m, [])
  | (E, w, o) :: t => let (m', a) := w_step E m o w in
                      let (m'', b) := w_run m' t in (m'', (o, a) :: b)
  end.
