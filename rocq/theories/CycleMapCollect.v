(* CycleMap: collect() (C20). *)
From Coq Require Import List NArith Lia Bool.
From Verif Require Import Prelude RawTable Optionals CycleMap CycleMapSpec CycleMapHistory CycleMapProofs
  CycleMapProofs2 CycleMapProofs3 CycleMapHistoryProofs Concrete CycleMapProps CycleMapProps2 CycleMapProps3.
Import ListNotations.
Open Scope N_scope.

(* the map collected from a list behaves as the pairs of the list inserted one after the other *)
Theorem C20_collect : forall {L R S} (E : env L R S), lawful E -> forall s ll lr xs, N.of_nat (length xs) < two64 ->
  exists m, from_iter E s ll lr xs = Ret m tt /\
    behaves_as E 0 m (fold_left (fun P x => s_insert (eqL E) (eqR E) P (fst x) (snd x)) xs []).
Proof.
  intros L R S E OK s ll lr xs B.
  destruct (extend_ok E OK xs s 0 (with_hasher s ll lr) [] (new_ok E s ll lr) B) as (m & X & H).
  exists m. split; [exact X|]. eapply (repr_behaves E OK); [exact H|lia].
Qed.
Example C20_collect_case : exists m,
  from_iter env_collide 3 0 0 [(it 1, it 10); (it 2, it 20); (it' 1, it' 20); (it 4, it 40)] = Ret m tt /\
  contents env_collide m [(it' 1, it' 20); (it 4, it 40)].
Proof. eexists. vm_compute. split; reflexivity. Qed.

Print Assumptions C20_collect.
