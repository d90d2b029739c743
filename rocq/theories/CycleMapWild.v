(* src/cycle_map.rs again, with user code (Hash, Eq) that does as it likes; see Wild.v.
   Same functions as in CycleMapFault.v, in the same order; [w_hashL] and [w_hashR] are the calls
   of make_hash, [w_find], [w_get], [w_remove_entry] searches with equivalent_key, [w_insert] and
   [w_resize] table operations that may rehash. *)
From Coq Require Import List NArith Lia Bool Permutation PeanoNat.
From Verif Require Import Closures Prelude RawTable Optionals CycleMap ListFacts TableFacts
  CycleMapHistory CycleMapAny Faults Wild.
Import ListNotations.
Open Scope N_scope.

Section Wild.
  Context {L R S W : Type}.
  Variable E : wenv L R S W.
  Notation B := (calm_env E).
  Notation map := (cmap L R S).
  Notation FM A := (M (W * cmap L R S) A).

  (* src/utils.rs:4-12 make_hash *)
  Definition hash_l (m : map) (l : L) : M W N := w_hashL E (hash_builder m) l.
  Definition hash_r (m : map) (r : R) : M W N := w_hashR E (hash_builder m) r.
  (* searches with equivalent_key *)
  Definition find_left (m : map) (h : N) (l : L) : M W (option (mapping_pair L)) :=
    w_get (w_lo E) (left_set m) h (fun e => w_eqL E l (value e)).
  Definition find_right (m : map) (h : N) (r : R) : M W (option (mapping_pair R)) :=
    w_get (w_lo E) (right_set m) h (fun e => w_eqR E r (value e)).
  Definition w_left_remove_entry (h : N) (l : L) : FM (option (mapping_pair L)) :=
    o <- w_look (fun m => w_remove_entry (w_lo E) (left_set m) h (fun e => w_eqL E l (value e))) ;;
    match o with
    | Some (e, t) => w_calmly (m <- getst ;; putst (set_left t m)) ;;; ret (Some e)
    | None => ret None
    end.
  Definition w_right_remove_entry (h : N) (r : R) : FM (option (mapping_pair R)) :=
    o <- w_look (fun m => w_remove_entry (w_lo E) (right_set m) h (fun e => w_eqR E r (value e))) ;;
    match o with
    | Some (e, t) => w_calmly (m <- getst ;; putst (set_right t m)) ;;; ret (Some e)
    | None => ret None
    end.
  (* insertions and changes of size *)
  Definition on_left {A} (c : S -> table (mapping_pair L) -> W -> res (W * table (mapping_pair L)) A)
    : FM A :=
    fun wm => match c (hash_builder (snd wm)) (left_set (snd wm)) (fst wm) with
              | Ret (w, t) a => Ret (w, set_left t (snd wm)) a
              | Panic (w, t) => Panic (w, set_left t (snd wm))
              end.
  Definition on_right {A} (c : S -> table (mapping_pair R) -> W -> res (W * table (mapping_pair R)) A)
    : FM A :=
    fun wm => match c (hash_builder (snd wm)) (right_set (snd wm)) (fst wm) with
              | Ret (w, t) a => Ret (w, set_right t (snd wm)) a
              | Panic (w, t) => Panic (w, set_right t (snd wm))
              end.
  Definition w_left_insert (h : N) (e : mapping_pair L) : FM unit :=
    on_left (fun s t => w_insert (w_lo E) (w_fault E) t h e (fun e => w_hashL E s (value e))).
  Definition w_right_insert (h : N) (e : mapping_pair R) : FM unit :=
    on_right (fun s t => w_insert (w_lo E) (w_fault E) t h e (fun e => w_hashR E s (value e))).

  (* src/cycle_map.rs:198-209 *)
  Definition w_are_paired (m : map) (left : L) (right : R) : M W bool :=
    l_hash <- hash_l m left ;;
    r_hash <- hash_r m right ;;
    opt_left <- find_left m l_hash left ;;
    opt_right <- find_right m r_hash right ;;
    ret (match opt_left, opt_right with
         | Some l, Some r => (pid l =? pid r) && (l_hash =? phash r) && (r_hash =? phash l)
         | _, _ => false
         end).
  (* src/cycle_map.rs:222-225, 238-241 *)
  Definition w_contains_left (m : map) (left : L) : M W bool :=
    hash <- hash_l m left ;;
    o <- find_left m hash left ;;
    ret (match o with Some _ => true | None => false end).
  Definition w_contains_right (m : map) (right : R) : M W bool :=
    hash <- hash_r m right ;;
    o <- find_right m hash right ;;
    ret (match o with Some _ => true | None => false end).

  (* src/cycle_map.rs:274-283, 297-306 *)
  Definition w_remove_via_left (item : L) : FM (option (L * R)) :=
    l_hash <- w_look (fun m => hash_l m item) ;;
    o <- w_left_remove_entry l_hash item ;;
    match o with
    | None => ret None
    | Some left_pairing =>
        ro <- w_calmly (right_remove_entry B (phash left_pairing) (hash_and_id l_hash (pid left_pairing))) ;;
        right_pairing <- unwrap ro ;;
        ret (Some (value left_pairing, value right_pairing))
    end.
  Definition w_remove_via_right (item : R) : FM (option (L * R)) :=
    r_hash <- w_look (fun m => hash_r m item) ;;
    o <- w_right_remove_entry r_hash item ;;
    match o with
    | None => ret None
    | Some right_pairing =>
        lo_ <- w_calmly (left_remove_entry B (phash right_pairing) (hash_and_id r_hash (pid right_pairing))) ;;
        left_pairing <- unwrap lo_ ;;
        ret (Some (value left_pairing, value right_pairing))
    end.
  (* src/cycle_map.rs:254-260 *)
  Definition w_remove (left : L) (right : R) : FM (option (L * R)) :=
    b <- w_look (fun m => w_are_paired m left right) ;;
    if b then w_remove_via_left left else ret None.

  (* src/cycle_map.rs:155-183 *)
  Definition w_insert_pair (left : L) (right : R) : FM (insert_optional L R) :=
    opt_from_left <- w_remove_via_left left ;;
    opt_from_right <- w_remove_via_right right ;;
    let digest := op_from_pair (opt_from_left, opt_from_right) in
    l_hash <- w_look (fun m => hash_l m left) ;;
    r_hash <- w_look (fun m => hash_r m right) ;;
    c <- w_look (fun m => ret (counter m)) ;;
    let left_pairing := MP left r_hash c in
    let right_pairing := MP right l_hash c in
    w_calmly (incr_counter B) ;;;
    w_left_insert l_hash left_pairing ;;;
    w_right_insert r_hash right_pairing ;;;
    ret digest.

  (* src/cycle_map.rs:459-468 *)
  Definition w_swap_left_eq_check (old new : L) (new_hash : N) : FM (option (L * R)) :=
    o <- w_look (fun m => find_left m new_hash new) ;;
    match o with
    | None => ret None
    | Some _ => b <- w_look (fun _ => w_neL E new old) ;;
                if b then w_remove_via_left new else ret None
    end.
  (* src/cycle_map.rs:350-389 *)
  Definition w_swap_left (old new : L) : FM (optional_pair L (L * R)) :=
    new_l_hash <- w_look (fun m => hash_l m new) ;;
    eq_opt <- w_swap_left_eq_check old new new_l_hash ;;
    old_l_hash <- w_look (fun m => hash_l m old) ;;
    o <- w_look (fun m => find_left m old_l_hash old) ;;
    match o with
    | None => ret Neither
    | Some l_pairing =>
        w_calmly (m <- getst ;;
                i <- unwrap (t_find (w_lo E) (right_set m) (phash l_pairing)
                               (hash_and_id old_l_hash (pid l_pairing))) ;;
                putst (set_right (t_modify (right_set m) i
                                    (fun p => MP (value p) new_l_hash (pid p))) m)) ;;;
        let new_left_pairing := MP new (phash l_pairing) (pid l_pairing) in
        o <- w_left_remove_entry old_l_hash old ;;
        old_pairing <- unwrap o ;;
        w_left_insert new_l_hash new_left_pairing ;;;
        ret (op_from_pair (Some (value old_pairing), eq_opt))
    end.
  (* src/cycle_map.rs:414-420 *)
  Definition w_swap_left_checked (old : L) (expected : R) (new : L) : FM (optional_pair L (L * R)) :=
    b <- w_look (fun m => w_are_paired m old expected) ;;
    if negb b then ret Neither else w_swap_left old new.
  (* src/cycle_map.rs:442-456 *)
  Definition w_swap_left_or_insert (old new : L) (to_insert : R) : FM (optional_pair L (L * R)) :=
    old_l_hash <- w_look (fun m => hash_l m old) ;;
    o <- w_look (fun m => find_left m old_l_hash old) ;;
    match o with
    | Some _ => w_swap_left old new
    | None => d <- w_insert_pair new to_insert ;; ret (op_map_left fst d)
    end.

  (* src/cycle_map.rs:622-631 *)
  Definition w_swap_right_eq_check (old new : R) (new_hash : N) : FM (option (L * R)) :=
    o <- w_look (fun m => find_right m new_hash new) ;;
    match o with
    | None => ret None
    | Some _ => b <- w_look (fun _ => w_neR E new old) ;;
                if b then w_remove_via_right new else ret None
    end.
  (* src/cycle_map.rs:500-540; the hash of new is taken twice, the second time with the left
     entry found but not yet changed *)
  Definition w_swap_right (old new : R) : FM (optional_pair R (L * R)) :=
    new_r_hash <- w_look (fun m => hash_r m new) ;;
    eq_opt <- w_swap_right_eq_check old new new_r_hash ;;
    old_r_hash <- w_look (fun m => hash_r m old) ;;
    o <- w_look (fun m => find_right m old_r_hash old) ;;
    match o with
    | None => ret Neither
    | Some r_pairing =>
        i <- w_calmly (m <- getst ;; unwrap (t_find (w_lo E) (left_set m) (phash r_pairing)
                                             (hash_and_id old_r_hash (pid r_pairing)))) ;;
        new_r_hash <- w_look (fun m => hash_r m new) ;;
        w_calmly (m <- getst ;;
                putst (set_left (t_modify (left_set m) i
                                   (fun p => MP (value p) new_r_hash (pid p))) m)) ;;;
        let new_right_pairing := MP new (phash r_pairing) (pid r_pairing) in
        o <- w_right_remove_entry old_r_hash old ;;
        old_pairing <- unwrap o ;;
        w_right_insert new_r_hash new_right_pairing ;;;
        ret (op_from_pair (Some (value old_pairing), eq_opt))
    end.
  (* src/cycle_map.rs:565-571 *)
  Definition w_swap_right_checked (old : R) (expected : L) (new : R) : FM (optional_pair R (L * R)) :=
    b <- w_look (fun m => w_are_paired m expected old) ;;
    if negb b then ret Neither else w_swap_right old new.
  (* src/cycle_map.rs:595-619 *)
  Definition w_swap_right_or_insert (old new : R) (to_insert : L) : FM (optional_pair R (L * R)) :=
    old_r_hash <- w_look (fun m => hash_r m old) ;;
    o <- w_look (fun m => find_right m old_r_hash old) ;;
    match o with
    | Some _ => w_swap_right old new
    | None =>
        d <- w_insert_pair to_insert new ;;
        match d with
        | Neither => ret Neither
        | SomeRight pr => ret (SomeRight pr)
        | _ => panic
        end
    end.

  (* src/cycle_map.rs:643-657, 669-683; Q = R and Q = L *)
  Definition w_get_left (m : map) (item : R) : M W (option L) :=
    r_hash <- hash_r m item ;;
    o <- find_right m r_hash item ;;
    ret (match o with
         | None => None
         | Some right_pairing =>
             match t_get (w_lo E) (left_set m) (phash right_pairing)
                     (hash_and_id r_hash (pid right_pairing)) with
             | None => None
             | Some pairing => Some (value pairing)
             end
         end).
  Definition w_get_right (m : map) (item : L) : M W (option R) :=
    l_hash <- hash_l m item ;;
    o <- find_left m l_hash item ;;
    ret (match o with
         | None => None
         | Some left_pairing =>
             match t_get (w_lo E) (right_set m) (phash left_pairing)
                     (hash_and_id l_hash (pid left_pairing)) with
             | None => None
             | Some pairing => Some (value pairing)
             end
         end).
  (* src/cycle_map.rs:695-698 *)
  Definition w_get_left_inner (m : map) (item : L) : M W (option (mapping_pair L)) :=
    hash <- hash_l m item ;; find_left m hash item.

  (* src/cycle_map.rs:1218-1227 *)
  Definition w_iter_next (m : map) (it : iter_t) : M W (option (L * R) * @iter_t L) :=
    match it with
    | [] => ret (None, [])
    | (_, l) :: rest =>
        o <- w_get_right m (value l) ;;
        r <- unwrap o ;;
        ret (Some (value l, r), rest)
    end.
  (* a complete for loop over self.iter() *)
  Fixpoint w_iter_rest (m : map) (fuel : nat) (it : @iter_t L) : M W (list (L * R)) :=
    x <- w_iter_next m it ;;
    match x with
    | (None, _) => ret []
    | (Some p, it') =>
        match fuel with
        | O => panic
        | Datatypes.S fuel' => l <- w_iter_rest m fuel' it' ;; ret (p :: l)
        end
    end.
  Definition w_iter_all (m : map) : M W (list (L * R)) := w_iter_rest m (length (iter m)) (iter m).
  (* src/cycle_map.rs:1142-1147 *)
  Fixpoint w_all_paired (m other : map) (fuel : nat) (it : @iter_t L) : M W bool :=
    x <- w_iter_next m it ;;
    match x with
    | (None, _) => ret true
    | (Some (l, r), it') =>
        b <- w_are_paired other l r ;;
        if b then
          match fuel with
          | O => panic
          | Datatypes.S fuel' => w_all_paired m other fuel' it'
          end
        else ret false
    end.
  Definition w_map_eq (m other : map) : M W bool :=
    if negb (Nat.eqb (len m) (len other)) then ret false
    else w_all_paired m other (length (iter m)) (iter m).

  (* src/cycle_map.rs:1165-1169 *)
  Fixpoint w_extend (l : list (L * R)) : FM unit :=
    match l with
    | [] => ret tt
    | (a, b) :: t => w_insert_pair a b ;;; w_extend t
    end.

  (* src/cycle_map.rs:861-877; the removals of the second loop search with hash_and_id *)
  Section Retain.
    Context {X : Type}.
    Variable f : X -> L -> R -> X * verdict.
    Fixpoint w_retain_scan (m : map) (fuel : nat) (it : @iter_t L) (x : X)
        : M W (res X (list (N * N * N))) :=
      o <- w_iter_next m it ;;
      match o with
      | (None, _) => ret (Ret x [])
      | (Some (lft, rgt), it') =>
          match f x lft rgt with
          | (x', None) => ret (Panic x')
          | (x', Some keep) =>
              d <- (if negb keep then
                      l_hash <- hash_l m lft ;;
                      r_hash <- hash_r m rgt ;;
                      p <- w_get_left_inner m lft ;;
                      p <- unwrap p ;;
                      ret [(l_hash, r_hash, pid p)]
                    else ret []) ;;
              match fuel with
              | O => panic
              | Datatypes.S fuel' =>
                  r <- w_retain_scan m fuel' it' x' ;;
                  ret (match r with Ret x'' l => Ret x'' (d ++ l) | Panic x'' => Panic x'' end)
              end
          end
      end.
    (* the outer Panic: user code or an unwrap; the inner one: the closure *)
    Definition w_retain (x : X) : FM unit :=
      r <- w_look (fun m => w_retain_scan m (length (iter m)) (iter m) x) ;;
      match r with
      | Panic _ => panic
      | Ret _ to_drop => w_calmly (drop_all B to_drop)
      end.
  End Retain.

  (* src/cycle_map.rs:900-905, 941-946, 922-927, 960-966 *)
  Definition w_resize_both (z : sizing) : FM unit :=
    on_left (fun s t => w_resize (w_lo E) (w_fault E) t z (fun e => w_hashL E s (value e))) ;;;
    on_right (fun s t => w_resize (w_lo E) (w_fault E) t z (fun e => w_hashR E s (value e))).
  Definition w_shrink_to_fit : FM unit :=
    n <- w_look (fun m => ret (len m)) ;;
    on_left (fun s t => w_resize (w_lo E) (w_fault E) t (Shrink (N.of_nat n)) (fun e => w_hashL E s (value e))) ;;;
    n <- w_look (fun m => ret (len m)) ;;
    on_right (fun s t => w_resize (w_lo E) (w_fault E) t (Shrink (N.of_nat n)) (fun e => w_hashR E s (value e))).
  Definition w_try_reserve (additional : N) : FM bool :=
    ok <- on_left (fun s t => w_try_resize (w_lo E) (w_fault E) t additional (fun e => w_hashL E s (value e))) ;;
    if ok then on_right (fun s t => w_try_resize (w_lo E) (w_fault E) t additional (fun e => w_hashR E s (value e)))
    else ret false.

  (* ---- histories ---- *)
  Definition w_via {A} (k : A -> out L R) (c : FM A) (m : map) (w : W) : map * out L R :=
    match c (w, m) with Ret (_, m') a => (m', k a) | Panic (_, m') => (m', OPanic) end.

  (* one call, starting with the world w; the calls not listed run no user code *)
  Definition w_step (m : map) (o : op L R) (w : W) : map * out L R :=
    match o with
    | Insert l r => w_via OIns (w_insert_pair l r) m w
    | Remove l r => w_via OPair (w_remove l r) m w
    | RemoveViaLeft l => w_via OPair (w_remove_via_left l) m w
    | RemoveViaRight r => w_via OPair (w_remove_via_right r) m w
    | SwapLeft old new => w_via OSwapL (w_swap_left old new) m w
    | SwapLeftChecked old ex new => w_via OSwapL (w_swap_left_checked old ex new) m w
    | SwapLeftOrInsert old new ti => w_via OSwapL (w_swap_left_or_insert old new ti) m w
    | SwapRight old new => w_via OSwapR (w_swap_right old new) m w
    | SwapRightChecked old ex new => w_via OSwapR (w_swap_right_checked old ex new) m w
    | SwapRightOrInsert old new ti => w_via OSwapR (w_swap_right_or_insert old new ti) m w
    | ArePaired l r => w_via OBool (w_look (fun m => w_are_paired m l r)) m w
    | ContainsLeft l => w_via OBool (w_look (fun m => w_contains_left m l)) m w
    | ContainsRight r => w_via OBool (w_look (fun m => w_contains_right m r)) m w
    | GetLeft r => w_via OL (w_look (fun m => w_get_left m r)) m w
    | GetRight l => w_via OR (w_look (fun m => w_get_right m l)) m w
    | IterAll => w_via OPairs (w_look w_iter_all) m w
    | Extend xs => w_via (fun _ => OUnit) (w_extend xs) m w
    | Retain X f x => w_via (fun _ => OUnit) (w_retain f x) m w
    | ShrinkTo n => w_via (fun _ => OUnit) (w_resize_both (Shrink n)) m w
    | ShrinkToFit => w_via (fun _ => OUnit) w_shrink_to_fit m w
    | Reserve n => w_via (fun _ => OUnit) (w_resize_both (Grow n)) m w
    | TryReserve n => w_via OBool (w_try_reserve n) m w
    | Len | IsEmpty | IterLeftAll | IterRightAll | DrainAll | DrainFilter _ _ _ _ _ | Clear | CloneSelf
        => step B m o
    end.
  Definition w_xstep (m : map) (o : xop L R) (w : W) : map * out L R :=
    match o with
    | Call o => w_step m o w
    | DrainN n => xstep B m (DrainN n)
    end.
End Wild.

(* a history: every call finds user code and a world of its own *)
Fixpoint w_xrun {L R S W} (m : cmap L R S) (cs : list (wenv L R S W * W * xop L R))
    : cmap L R S * list (out L R) :=
  match cs with
  | [] => (m, [])
  | (E, w, o) :: t => let (m', a) := w_xstep E m o w in
                      let (m'', b) := w_xrun m' t in (m'', a :: b)
  end.
