(* src/cycle_map.rs again, with every call of user code (Hash, Eq) a possible panic.
   Same functions as in CycleMap.v, in the same order; [user] marks the calls of make_hash and
   of ==, [u_find], [u_get], [u_remove_entry] searches with equivalent_key, [u_insert] and
   [u_resize] table operations that may rehash.  Searches with hash_and_id and just_id run no
   user code. *)
From Coq Require Import List NArith Lia Bool Permutation PeanoNat.
From Verif Require Import Closures Prelude RawTable Optionals CycleMap ListFacts TableFacts SoundTables
  CycleMapSpec CycleMapHistory CycleMapAny Faults.
Import ListNotations.
Open Scope N_scope.

Section Fault.
  Context {L R S : Type}.
  Variable E : env L R S.
  Variable F : fault.
  Notation map := (cmap L R S).
  Notation FM A := (M (fuse * cmap L R S) A).

  (* src/utils.rs:4-12 make_hash *)
  Definition hash_l (m : map) (l : L) : M fuse N := user (hashL E (hash_builder m) l).
  Definition hash_r (m : map) (r : R) : M fuse N := user (hashR E (hash_builder m) r).
  (* searches with equivalent_key *)
  Definition find_left (m : map) (h : N) (l : L) : M fuse (option (mapping_pair L)) :=
    u_get (lo E) (left_set m) h (equivalent_key (eqL E) l).
  Definition find_right (m : map) (h : N) (r : R) : M fuse (option (mapping_pair R)) :=
    u_get (lo E) (right_set m) h (equivalent_key (eqR E) r).
  Definition u_left_remove_entry (h : N) (l : L) : FM (option (mapping_pair L)) :=
    o <- look (fun m => u_remove_entry (lo E) (left_set m) h (equivalent_key (eqL E) l)) ;;
    match o with
    | Some (e, t) => calmly (m <- getst ;; putst (set_left t m)) ;;; ret (Some e)
    | None => ret None
    end.
  Definition u_right_remove_entry (h : N) (r : R) : FM (option (mapping_pair R)) :=
    o <- look (fun m => u_remove_entry (lo E) (right_set m) h (equivalent_key (eqR E) r)) ;;
    match o with
    | Some (e, t) => calmly (m <- getst ;; putst (set_right t m)) ;;; ret (Some e)
    | None => ret None
    end.
  (* insertions and changes of size *)
  Definition on_left {A} (c : S -> table (mapping_pair L) -> fuse -> res (fuse * table (mapping_pair L)) A)
    : FM A :=
    fun wm => match c (hash_builder (snd wm)) (left_set (snd wm)) (fst wm) with
              | Ret (w, t) a => Ret (w, set_left t (snd wm)) a
              | Panic (w, t) => Panic (w, set_left t (snd wm))
              end.
  Definition on_right {A} (c : S -> table (mapping_pair R) -> fuse -> res (fuse * table (mapping_pair R)) A)
    : FM A :=
    fun wm => match c (hash_builder (snd wm)) (right_set (snd wm)) (fst wm) with
              | Ret (w, t) a => Ret (w, set_right t (snd wm)) a
              | Panic (w, t) => Panic (w, set_right t (snd wm))
              end.
  Definition u_left_insert (h : N) (e : mapping_pair L) : FM unit :=
    on_left (fun s t => u_insert (lo E) F t h e (make_hasher_l E s)).
  Definition u_right_insert (h : N) (e : mapping_pair R) : FM unit :=
    on_right (fun s t => u_insert (lo E) F t h e (make_hasher_r E s)).

  (* src/cycle_map.rs:198-209 *)
  Definition u_are_paired (m : map) (left : L) (right : R) : M fuse bool :=
    l_hash <- hash_l m left ;;
    r_hash <- hash_r m right ;;
    opt_left <- find_left m l_hash left ;;
    opt_right <- find_right m r_hash right ;;
    ret (match opt_left, opt_right with
         | Some l, Some r => (pid l =? pid r) && (l_hash =? phash r) && (r_hash =? phash l)
         | _, _ => false
         end).
  (* src/cycle_map.rs:222-225, 238-241 *)
  Definition u_contains_left (m : map) (left : L) : M fuse bool :=
    hash <- hash_l m left ;;
    o <- find_left m hash left ;;
    ret (match o with Some _ => true | None => false end).
  Definition u_contains_right (m : map) (right : R) : M fuse bool :=
    hash <- hash_r m right ;;
    o <- find_right m hash right ;;
    ret (match o with Some _ => true | None => false end).

  (* src/cycle_map.rs:274-283, 297-306 *)
  Definition u_remove_via_left (item : L) : FM (option (L * R)) :=
    l_hash <- look (fun m => hash_l m item) ;;
    o <- u_left_remove_entry l_hash item ;;
    match o with
    | None => ret None
    | Some left_pairing =>
        ro <- calmly (right_remove_entry E (phash left_pairing) (hash_and_id l_hash (pid left_pairing))) ;;
        right_pairing <- unwrap ro ;;
        ret (Some (value left_pairing, value right_pairing))
    end.
  Definition u_remove_via_right (item : R) : FM (option (L * R)) :=
    r_hash <- look (fun m => hash_r m item) ;;
    o <- u_right_remove_entry r_hash item ;;
    match o with
    | None => ret None
    | Some right_pairing =>
        lo_ <- calmly (left_remove_entry E (phash right_pairing) (hash_and_id r_hash (pid right_pairing))) ;;
        left_pairing <- unwrap lo_ ;;
        ret (Some (value left_pairing, value right_pairing))
    end.
  (* src/cycle_map.rs:254-260 *)
  Definition u_remove (left : L) (right : R) : FM (option (L * R)) :=
    b <- look (fun m => u_are_paired m left right) ;;
    if b then u_remove_via_left left else ret None.

  (* src/cycle_map.rs:155-183 *)
  Definition u_insert_pair (left : L) (right : R) : FM (insert_optional L R) :=
    opt_from_left <- u_remove_via_left left ;;
    opt_from_right <- u_remove_via_right right ;;
    let digest := op_from_pair (opt_from_left, opt_from_right) in
    l_hash <- look (fun m => hash_l m left) ;;
    r_hash <- look (fun m => hash_r m right) ;;
    c <- look (fun m => ret (counter m)) ;;
    let left_pairing := MP left r_hash c in
    let right_pairing := MP right l_hash c in
    calmly (incr_counter E) ;;;
    u_left_insert l_hash left_pairing ;;;
    u_right_insert r_hash right_pairing ;;;
    ret digest.

  (* src/cycle_map.rs:459-468 *)
  Definition u_swap_left_eq_check (old new : L) (new_hash : N) : FM (option (L * R)) :=
    o <- look (fun m => find_left m new_hash new) ;;
    match o with
    | None => ret None
    | Some _ => b <- look (fun _ => user (negb (eqL E new old))) ;;
                if b then u_remove_via_left new else ret None
    end.
  (* src/cycle_map.rs:350-389 *)
  Definition u_swap_left (old new : L) : FM (optional_pair L (L * R)) :=
    new_l_hash <- look (fun m => hash_l m new) ;;
    eq_opt <- u_swap_left_eq_check old new new_l_hash ;;
    old_l_hash <- look (fun m => hash_l m old) ;;
    o <- look (fun m => find_left m old_l_hash old) ;;
    match o with
    | None => ret Neither
    | Some l_pairing =>
        calmly (m <- getst ;;
                i <- unwrap (t_find (lo E) (right_set m) (phash l_pairing)
                               (hash_and_id old_l_hash (pid l_pairing))) ;;
                putst (set_right (t_modify (right_set m) i
                                    (fun p => MP (value p) new_l_hash (pid p))) m)) ;;;
        let new_left_pairing := MP new (phash l_pairing) (pid l_pairing) in
        o <- u_left_remove_entry old_l_hash old ;;
        old_pairing <- unwrap o ;;
        u_left_insert new_l_hash new_left_pairing ;;;
        ret (op_from_pair (Some (value old_pairing), eq_opt))
    end.
  (* src/cycle_map.rs:414-420 *)
  Definition u_swap_left_checked (old : L) (expected : R) (new : L) : FM (optional_pair L (L * R)) :=
    b <- look (fun m => u_are_paired m old expected) ;;
    if negb b then ret Neither else u_swap_left old new.
  (* src/cycle_map.rs:442-456 *)
  Definition u_swap_left_or_insert (old new : L) (to_insert : R) : FM (optional_pair L (L * R)) :=
    old_l_hash <- look (fun m => hash_l m old) ;;
    o <- look (fun m => find_left m old_l_hash old) ;;
    match o with
    | Some _ => u_swap_left old new
    | None => d <- u_insert_pair new to_insert ;; ret (op_map_left fst d)
    end.

  (* src/cycle_map.rs:622-631 *)
  Definition u_swap_right_eq_check (old new : R) (new_hash : N) : FM (option (L * R)) :=
    o <- look (fun m => find_right m new_hash new) ;;
    match o with
    | None => ret None
    | Some _ => b <- look (fun _ => user (negb (eqR E new old))) ;;
                if b then u_remove_via_right new else ret None
    end.
  (* src/cycle_map.rs:500-540; the hash of new is taken twice, the second time with the left
     entry found but not yet changed *)
  Definition u_swap_right (old new : R) : FM (optional_pair R (L * R)) :=
    new_r_hash <- look (fun m => hash_r m new) ;;
    eq_opt <- u_swap_right_eq_check old new new_r_hash ;;
    old_r_hash <- look (fun m => hash_r m old) ;;
    o <- look (fun m => find_right m old_r_hash old) ;;
    match o with
    | None => ret Neither
    | Some r_pairing =>
        i <- calmly (m <- getst ;; unwrap (t_find (lo E) (left_set m) (phash r_pairing)
                                             (hash_and_id old_r_hash (pid r_pairing)))) ;;
        new_r_hash <- look (fun m => hash_r m new) ;;
        calmly (m <- getst ;;
                putst (set_left (t_modify (left_set m) i
                                   (fun p => MP (value p) new_r_hash (pid p))) m)) ;;;
        let new_right_pairing := MP new (phash r_pairing) (pid r_pairing) in
        o <- u_right_remove_entry old_r_hash old ;;
        old_pairing <- unwrap o ;;
        u_right_insert new_r_hash new_right_pairing ;;;
        ret (op_from_pair (Some (value old_pairing), eq_opt))
    end.
  (* src/cycle_map.rs:565-571 *)
  Definition u_swap_right_checked (old : R) (expected : L) (new : R) : FM (optional_pair R (L * R)) :=
    b <- look (fun m => u_are_paired m expected old) ;;
    if negb b then ret Neither else u_swap_right old new.
  (* src/cycle_map.rs:595-619 *)
  Definition u_swap_right_or_insert (old new : R) (to_insert : L) : FM (optional_pair R (L * R)) :=
    old_r_hash <- look (fun m => hash_r m old) ;;
    o <- look (fun m => find_right m old_r_hash old) ;;
    match o with
    | Some _ => u_swap_right old new
    | None =>
        d <- u_insert_pair to_insert new ;;
        match d with
        | Neither => ret Neither
        | SomeRight pr => ret (SomeRight pr)
        | _ => panic
        end
    end.

  (* src/cycle_map.rs:643-657, 669-683; Q = R and Q = L *)
  Definition u_get_left (m : map) (item : R) : M fuse (option L) :=
    r_hash <- hash_r m item ;;
    o <- find_right m r_hash item ;;
    ret (match o with
         | None => None
         | Some right_pairing =>
             match t_get (lo E) (left_set m) (phash right_pairing)
                     (hash_and_id r_hash (pid right_pairing)) with
             | None => None
             | Some pairing => Some (value pairing)
             end
         end).
  Definition u_get_right (m : map) (item : L) : M fuse (option R) :=
    l_hash <- hash_l m item ;;
    o <- find_left m l_hash item ;;
    ret (match o with
         | None => None
         | Some left_pairing =>
             match t_get (lo E) (right_set m) (phash left_pairing)
                     (hash_and_id l_hash (pid left_pairing)) with
             | None => None
             | Some pairing => Some (value pairing)
             end
         end).
  (* src/cycle_map.rs:695-698 *)
  Definition u_get_left_inner (m : map) (item : L) : M fuse (option (mapping_pair L)) :=
    hash <- hash_l m item ;; find_left m hash item.

  (* src/cycle_map.rs:1218-1227 *)
  Definition u_iter_next (m : map) (it : iter_t) : M fuse (option (L * R) * @iter_t L) :=
    match it with
    | [] => ret (None, [])
    | (_, l) :: rest =>
        o <- u_get_right m (value l) ;;
        r <- unwrap o ;;
        ret (Some (value l, r), rest)
    end.
  (* a complete for loop over self.iter() *)
  Fixpoint u_iter_rest (m : map) (fuel : nat) (it : @iter_t L) : M fuse (list (L * R)) :=
    x <- u_iter_next m it ;;
    match x with
    | (None, _) => ret []
    | (Some p, it') =>
        match fuel with
        | O => panic
        | Datatypes.S fuel' => l <- u_iter_rest m fuel' it' ;; ret (p :: l)
        end
    end.
  Definition u_iter_all (m : map) : M fuse (list (L * R)) := u_iter_rest m (length (iter m)) (iter m).
  (* src/cycle_map.rs:1142-1147 *)
  Fixpoint u_all_paired (m other : map) (fuel : nat) (it : @iter_t L) : M fuse bool :=
    x <- u_iter_next m it ;;
    match x with
    | (None, _) => ret true
    | (Some (l, r), it') =>
        b <- u_are_paired other l r ;;
        if b then
          match fuel with
          | O => panic
          | Datatypes.S fuel' => u_all_paired m other fuel' it'
          end
        else ret false
    end.
  Definition u_map_eq (m other : map) : M fuse bool :=
    if negb (Nat.eqb (len m) (len other)) then ret false
    else u_all_paired m other (length (iter m)) (iter m).

  (* src/cycle_map.rs:1165-1169 *)
  Fixpoint u_extend (l : list (L * R)) : FM unit :=
    match l with
    | [] => ret tt
    | (a, b) :: t => u_insert_pair a b ;;; u_extend t
    end.

  (* src/cycle_map.rs:861-877; the removals of the second loop search with hash_and_id *)
  Section Retain.
    Context {X : Type}.
    Variable f : X -> L -> R -> X * verdict.
    Fixpoint u_retain_scan (m : map) (fuel : nat) (it : @iter_t L) (x : X)
        : M fuse (res X (list (N * N * N))) :=
      o <- u_iter_next m it ;;
      match o with
      | (None, _) => ret (Ret x [])
      | (Some (lft, rgt), it') =>
          match f x lft rgt with
          | (x', None) => ret (Panic x')
          | (x', Some keep) =>
              d <- (if negb keep then
                      l_hash <- hash_l m lft ;;
                      r_hash <- hash_r m rgt ;;
                      p <- u_get_left_inner m lft ;;
                      p <- unwrap p ;;
                      ret [(l_hash, r_hash, pid p)]
                    else ret []) ;;
              match fuel with
              | O => panic
              | Datatypes.S fuel' =>
                  r <- u_retain_scan m fuel' it' x' ;;
                  ret (match r with Ret x'' l => Ret x'' (d ++ l) | Panic x'' => Panic x'' end)
              end
          end
      end.
    (* the outer Panic: user code or an unwrap; the inner one: the closure *)
    Definition u_retain (x : X) : FM unit :=
      r <- look (fun m => u_retain_scan m (length (iter m)) (iter m) x) ;;
      match r with
      | Panic _ => panic
      | Ret _ to_drop => calmly (drop_all E to_drop)
      end.
  End Retain.

  (* src/cycle_map.rs:900-905, 941-946, 922-927, 960-966 *)
  Definition u_resize_both (z : sizing) : FM unit :=
    on_left (fun s t => u_resize (lo E) F t z (make_hasher_l E s)) ;;;
    on_right (fun s t => u_resize (lo E) F t z (make_hasher_r E s)).
  Definition u_shrink_to_fit : FM unit :=
    n <- look (fun m => ret (len m)) ;;
    on_left (fun s t => u_resize (lo E) F t (Shrink (N.of_nat n)) (make_hasher_l E s)) ;;;
    n <- look (fun m => ret (len m)) ;;
    on_right (fun s t => u_resize (lo E) F t (Shrink (N.of_nat n)) (make_hasher_r E s)).
  Definition u_try_reserve (additional : N) : FM bool :=
    ok <- on_left (fun s t => u_try_resize (lo E) F t additional (make_hasher_l E s)) ;;
    if ok then on_right (fun s t => u_try_resize (lo E) F t additional (make_hasher_r E s))
    else ret false.

  (* ---- histories ---- *)
  Definition u_via {A} (k : A -> out L R) (c : FM A) (m : map) (w : fuse) : map * out L R :=
    match c (w, m) with Ret (_, m') a => (m', k a) | Panic (_, m') => (m', OPanic) end.

  (* one call, user code panicking as the fuse w says; the calls not listed run no user code *)
  Definition u_step (m : map) (o : op L R) (w : fuse) : map * out L R :=
    match o with
    | Insert l r => u_via OIns (u_insert_pair l r) m w
    | Remove l r => u_via OPair (u_remove l r) m w
    | RemoveViaLeft l => u_via OPair (u_remove_via_left l) m w
    | RemoveViaRight r => u_via OPair (u_remove_via_right r) m w
    | SwapLeft old new => u_via OSwapL (u_swap_left old new) m w
    | SwapLeftChecked old ex new => u_via OSwapL (u_swap_left_checked old ex new) m w
    | SwapLeftOrInsert old new ti => u_via OSwapL (u_swap_left_or_insert old new ti) m w
    | SwapRight old new => u_via OSwapR (u_swap_right old new) m w
    | SwapRightChecked old ex new => u_via OSwapR (u_swap_right_checked old ex new) m w
    | SwapRightOrInsert old new ti => u_via OSwapR (u_swap_right_or_insert old new ti) m w
    | ArePaired l r => u_via OBool (look (fun m => u_are_paired m l r)) m w
    | ContainsLeft l => u_via OBool (look (fun m => u_contains_left m l)) m w
    | ContainsRight r => u_via OBool (look (fun m => u_contains_right m r)) m w
    | GetLeft r => u_via OL (look (fun m => u_get_left m r)) m w
    | GetRight l => u_via OR (look (fun m => u_get_right m l)) m w
    | IterAll => u_via OPairs (look u_iter_all) m w
    | Extend xs => u_via (fun _ => OUnit) (u_extend xs) m w
    | Retain X f x => u_via (fun _ => OUnit) (u_retain f x) m w
    | ShrinkTo n => u_via (fun _ => OUnit) (u_resize_both (Shrink n)) m w
    | ShrinkToFit => u_via (fun _ => OUnit) u_shrink_to_fit m w
    | Reserve n => u_via (fun _ => OUnit) (u_resize_both (Grow n)) m w
    | TryReserve n => u_via OBool (u_try_reserve n) m w
    | Len | IsEmpty | IterLeftAll | IterRightAll | DrainAll | DrainFilter _ _ _ _ _ | Clear | CloneSelf
        => step E m o
    end.
  Definition u_xstep (m : map) (o : xop L R) (w : fuse) : map * out L R :=
    match o with
    | Call o => u_step m o w
    | DrainN n => xstep E m (DrainN n)
    end.
  Fixpoint u_run (m : map) (ops : list (op L R * fuse)) : map * list (out L R) :=
    match ops with
    | [] => (m, [])
    | (o, w) :: t => let (m', a) := u_step m o w in
                     let (m'', b) := u_run m' t in (m'', a :: b)
    end.
  Fixpoint u_xrun (m : map) (ops : list (xop L R * fuse)) : map * list (out L R) :=
    match ops with
    | [] => (m, [])
    | (o, w) :: t => let (m', a) := u_xstep m o w in
                     let (m'', b) := u_xrun m' t in (m'', a :: b)
    end.
End Fault.
