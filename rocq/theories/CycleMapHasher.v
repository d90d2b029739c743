(* CycleMap: the hasher stays (property C148). *)
From Coq Require Import List NArith Lia Bool.
From Verif Require Import Closures Prelude RawTable Optionals CycleMap CycleMapHistory CycleMapAny
  Faults Wild CycleMapWild Concrete HasherKept.
Import ListNotations.
Open Scope N_scope.

Section Hasher.
  Context {L R S W : Type} (E : wenv L R S W) (hb : S).
  Notation map := (cmap L R S).
  Notation I := (fun m : map => hash_builder m = hb).
  Notation J := (@of_map W map I).

  Lemma on_left_leaves : forall A c, leaves J (@on_left L R S W A c).
  Proof.
    intros A c [w m] H. unfold on_left. cbn [fst snd] in *. destruct (c _ _ _) as [[w' t] a|[w' t]]; exact H.
  Qed.
  Lemma on_right_leaves : forall A c, leaves J (@on_right L R S W A c).
  Proof.
    intros A c [w m] H. unfold on_right. cbn [fst snd] in *. destruct (c _ _ _) as [[w' t] a|[w' t]]; exact H.
  Qed.
  Hint Resolve on_left_leaves on_right_leaves : lv.
  Lemma drop_all_leaves : forall l, leaves I (drop_all (calm_env E) l).
  Proof. induction l as [|[[a b] c] l IH]; cbn [drop_all]; lv. Qed.
  Hint Resolve drop_all_leaves : lv.
  Lemma extend_leaves : forall l, leaves J (w_extend E l).
  Proof. induction l as [|[a b] l IH]; cbn [w_extend]; lv. Qed.
  Hint Resolve extend_leaves : lv.

  Lemma via_leaves : forall A (k : A -> out L R) c m w, leaves J c -> I m -> I (fst (w_via k c m w)).
  Proof.
    intros A k c m w H X. unfold w_via. specialize (H (w, m) X). destruct (c (w, m)) as [[? ?] ?|[? ?]]; exact H.
  Qed.
  Lemma w_xstep_hasher : forall m o w, I m -> I (fst (w_xstep E m o w)).
  Proof.
    intros m o w H. destruct o as [o|n]; cbn [w_xstep xstep]; [|destruct (drain_nexts _ _ _); exact H].
    destruct o; cbn [w_step step];
      try (apply via_leaves; [solve [timeout 20 lv]|exact H]);
      try exact H;
      try (unfold seen; destruct (collect _ _ _); exact H).
    - match goal with |- context [fst (match ?c with _ => _ end)] => destruct c end; exact H.
    - repeat match goal with
        | |- context [fst (match ?c with Ret _ _ => _ | Panic _ => _ end)] => destruct c as [[? ?] ?|[? ?]]
        | |- context [fst (if ?b then _ else _)] => destruct b
        end; exact H.
  Qed.
End Hasher.

(* src/cycle_map.rs:1028-1030 *)
Definition hasher {L R S} (m : cmap L R S) : S := hash_builder m.

(* a map built with the hasher s: new/with_hasher/default, with_capacity..., collect() (which
   may have panicked on the way in other user code; here it returned) *)
Inductive built_with {L R S W} (s : S) : cmap L R S -> Prop :=
| b_new : forall ll lr, built_with s (with_hasher s ll lr)
| b_cap : forall (E : wenv L R S W) n, built_with s (with_capacity_and_hasher (calm_env E) n s)
| b_collect : forall (E : wenv L R S W) w ll lr xs w' m u,
    w_extend E xs (w, with_hasher s ll lr) = Ret (w', m) u -> built_with s m.

Lemma built_hasher : forall {L R S W} (s : S) (m : cmap L R S), @built_with L R S W s m -> hasher m = s.
Proof.
  intros L R S W s m [ll lr|E n|E w ll lr xs w' m' u H]; auto.
  assert (X := extend_leaves E s xs (w, with_hasher s ll lr) eq_refl). rewrite H in X. exact X.
Qed.
Theorem C148_hasher_kept : forall {L R S W} (s : S) (m : cmap L R S)
    (cs : list (wenv L R S W * W * xop L R)),
  @built_with L R S W s m -> hasher (fst (w_xrun m cs)) = s.
Proof.
  intros L R S W s m cs H. apply built_hasher in H. revert m H.
  induction cs as [|[[E w] o] cs IH]; intros m H; [exact H|]. cbn [w_xrun].
  assert (X := w_xstep_hasher E s m o w H). destruct (w_xstep E m o w) as [m' a]. cbn [fst] in X.
  specialize (IH m' X). destruct (w_xrun m' cs). exact IH.
Qed.

(* hash panics while the table grows, == panics in remove, drain is left early *)
Example C148_case :
  let cs := calls
    [([], Call (Insert 1 10)); ([None], Call (Reserve 100)); ([Some true; None], Call (Insert 4 40));
     ([], Call (Insert 3 20)); ([], DrainN 1); ([], Call Clear); ([], Call CloneSelf)]%N in
  @built_with N N N (list (option bool)) 3 (with_hasher 3 0 0)%N /\
  map (fun a => match a with OPanic => true | _ => false end) (snd (w_xrun (with_hasher 3 0 0)%N cs)) =
    [false; true; true; false; false; false; false] /\
  hasher (fst (w_xrun (with_hasher 3 0 0)%N cs)) = 3%N.
Proof. split; [constructor|vm_compute; auto]. Qed.

Print Assumptions C148_hasher_kept.
