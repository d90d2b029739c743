(* PartialCycleMap: collect() (C44). *)
From Coq Require Import List NArith Lia Bool Permutation.
From Verif Require Import Closures Prelude RawTable Optionals PartialCycleMap PartialSpec PartialHistory PartialProofs
  PartialProofs2 PartialProofs3 PartialProofs4 PartialProofs5 PartialProofs6 PartialProofs7 PartialProofs8
  PartialHistoryProofs Concrete PartialProps PartialProps2.
Import ListNotations.
Open Scope N_scope.

(* the map collected from a list behaves as its entries inserted one after the other *)
Theorem C44_collect : forall {L R S} (E : env L R S), lawful E -> forall s ll lr xs, N.of_nat (length xs) < two64 ->
  exists m, from_iter E s ll lr xs = Ret m tt /\
    behaves_as E 0 m (fold_left (s_insert_entry (eqL E) (eqR E)) xs []).
Proof.
  intros L R S E OK s ll lr xs B.
  destruct (extend_ok E OK xs s 0 (with_hasher s ll lr) [] (new_ok E s ll lr) B) as (m & c & X & C & H).
  exists m. split; [exact X|]. eapply (repr_behaves E OK); [exact H|lia].
Qed.
Theorem C44_collect_pairs : forall {L R S} (E : env L R S), lawful E -> forall s ll lr xs, N.of_nat (length xs) < two64 ->
  exists m, from_iter_pairs E s ll lr xs = Ret m tt /\
    behaves_as E 0 m (fold_left (fun P x => s_insert (eqL E) (eqR E) P (fst x) (snd x)) xs []).
Proof.
  intros L R S E OK s ll lr xs B.
  destruct (extend_pairs_ok E OK xs s 0 (with_hasher s ll lr) [] (new_ok E s ll lr) B) as (m & X & H).
  exists m. split; [exact X|]. eapply (repr_behaves E OK); [exact H|lia].
Qed.
Example C44_collect_case : exists m,
  from_iter_pairs env_collide 3 0 0 [(it 1, it 10); (it 2, it 20); (it' 1, it' 20); (it 4, it 40)] = Ret m tt /\
  contents env_collide m [SomeBoth (it' 1) (it' 20); SomeBoth (it 4) (it 40)].
Proof.
  eexists. split; [vm_compute; reflexivity|].
  exists [(it' 1, it' 20); (it 4, it 40)], []. vm_compute. repeat split; auto.
Qed.

Print Assumptions C44_collect.
Print Assumptions C44_collect_pairs.
