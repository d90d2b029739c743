(* GroupMap: collect() (C58). *)
From Coq Require Import List NArith Lia Bool Permutation.
From Verif Require Import Closures Prelude RawTable GroupMap GroupSpec GroupHistory GroupProofs GroupProofs2 GroupProofs3 GroupProofs4
  GroupProofs5 GroupProofs6 GroupHistoryProofs Concrete
  GroupProps GroupProps3.
Import ListNotations.
Open Scope N_scope.

(* after collect() a pair is there iff the last word about its items says so, and every right
   item given is there; partial as C58_extend_partial: for lists in which no insert repeats a pair *)
Theorem C58_collect_partial : forall {L R S} (E : env L R S), lawful E -> forall s ll lr xs, N.of_nat (length xs) < two64 ->
  guarded E (calm1 E) (with_hasher s ll lr) (map item_op xs) ->
  exists m rs ps, from_iter E s ll lr xs = Ret m tt /\
    (forall l r, are_paired E m l r = fold_left (last_word E l r) xs false) /\
    (forall r, contains_right E m r = existsb (fun x => eqR E r (snd x)) xs) /\
    holds E m rs ps /\ answers E m rs ps /\ follows E m ps.
Proof.
  intros L R S E OK s ll lr xs B G.
  assert (H : reachable E (N.of_nat (length xs) + 0) (with_hasher s ll lr)).
  { exists s, ll, lr, []. cbn [budget run fst]. split; [lia|]. split; [exact I|reflexivity]. }
  destruct (C58_extend_partial E OK xs 0 _ H G) as (m & ws & X & _ & _ & A & C & rs & ps & K).
  exists m, rs, ps. split; [exact X|]. split; [|split; [|exact K]].
  - intros l r. rewrite A, (are_paired_ok E OK _ _ _ _ _ _ l r (new_ok E s ll lr)). reflexivity.
  - intros r. rewrite C, (contains_right_ok E OK _ _ _ _ _ _ r (new_ok E s ll lr)). reflexivity.
Qed.
Theorem C58_collect_pairs_partial : forall {L R S} (E : env L R S), lawful E -> forall s ll lr xs, N.of_nat (length xs) < two64 ->
  guarded E (calm1 E) (with_hasher s ll lr) (map (fun x => Insert (fst x) (snd x)) xs) ->
  exists m rs ps, from_iter_pairs E s ll lr xs = Ret m tt /\
    (forall l r, are_paired E m l r =
      fold_left (fun b x => if eqL E (fst x) l then eqR E (snd x) r else b) xs false) /\
    (forall r, contains_right E m r = existsb (fun x => eqR E r (snd x)) xs) /\
    holds E m rs ps /\ answers E m rs ps /\ follows E m ps.
Proof.
  intros L R S E OK s ll lr xs B G.
  destruct (C58_collect_partial E OK s ll lr (map (fun p => (Some (fst p), snd p)) xs)) as (m & rs & ps & X & A & C & K).
  { rewrite map_length. exact B. }
  { rewrite map_map. exact G. }
  exists m, rs, ps. split; [rewrite <- X; apply (extend_pairs_extend E)|]. split; [|split; [|exact K]].
  - intros l r. rewrite A. generalize false. clear. induction xs as [|[a b] xs IH]; intros d; auto.
    cbn [map fold_left fst snd]. rewrite IH. reflexivity.
  - intros r. rewrite C. clear. induction xs as [|[a b] xs IH]; auto. cbn [map existsb fst snd]. rewrite IH. reflexivity.
Qed.

Definition ys58 : list (item * item) := [(it 1, it 20); (it 4, it 10); (it' 1, it' 10); (it 5, it 50)].
Example C58_collect_case :
  guarded env_spread (calm1 env_spread) (with_hasher 7 0 0) (map item_op xs58) /\
  guarded env_spread (calm1 env_spread) (with_hasher 7 0 0) (map (fun x => Insert (fst x) (snd x)) ys58) /\
  match from_iter env_spread 7 0 0 xs58, from_iter_pairs env_spread 7 0 0 ys58 with
  | Ret m _, Ret m' _ => iter_rest env_spread m (iter m) =
      Done [(Some (it 4), it 50); (Some (it 5), it 50); (None, it' 20); (Some (it' 1), it 10)] /\
      iter_rest env_spread m' (iter m') =
      Done [(Some (it 5), it 50); (Some (it 1), it 10); (Some (it 4), it 10); (None, it 20)]
  | _, _ => False
  end.
Proof.
  split; [unfold xs58; cbn [map item_op fst snd]; calm_now|]. split; [unfold ys58; cbn [map fst snd]; calm_now|].
  vm_compute. split; reflexivity.
Qed.

Print Assumptions C58_collect_partial.
Print Assumptions C58_collect_pairs_partial.
