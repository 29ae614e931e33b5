(** Vocabulary: training with several parameter groups. *)
From Coq Require Import Reals List Arith.
From Verif Require Import RVec OptimModel OptimDecaySpec.
Import ListNotations.

(** Parameters are numbered through all groups; the closure leaves gradient [G i] at number i. *)
Fixpoint assign_groups {S} (G : nat -> gradient) (i : nat) (pss : list (list (param S))) : list (list (param S)) :=
  match pss with
  | [] => []
  | ps :: pss => assign G i ps :: assign_groups G (i + length ps) pss
  end.
(** Training loops in which all groups have the same hyper-parameters [hs t] at step t; the
    gradients may depend on the values of all parameters. *)
Fixpoint sgd_groups (hs : nat -> sgd_hyper) (G : nat -> list vec -> nat -> gradient) (pss : list (list sgd_param)) (t : nat) : list sgd_group :=
  match t with
  | O => map (fun ps => {| hyp := hs O; steps := None; params := ps |}) pss
  | S t => let gs := sgd_groups hs G pss t in
           let qss := assign_groups (G t (map val (concat (map params gs)))) 0 (map params gs) in
           fst (sgd_step (map (fun x => {| hyp := hs t; steps := fst x; params := snd x |}) (combine (map steps gs) qss)))
  end.
Fixpoint adam_groups (hs : nat -> adam_hyper) (G : nat -> list vec -> nat -> gradient) (pss : list (list adam_param)) (t : nat) : list adam_group :=
  match t with
  | O => map (fun ps => {| a_hyp := hs O; a_params := ps |}) pss
  | S t => let gs := adam_groups hs G pss t in
           let qss := assign_groups (G t (map val (concat (map a_params gs)))) 0 (map a_params gs) in
           fst (adam_step (map (fun qs => {| a_hyp := hs t; a_params := qs |}) qss))
  end.
(** No gradient is sparse. *)
Definition no_sparse (G : nat -> list vec -> nat -> gradient) : Prop := forall t xs i, G t xs i <> Sparse.
Definition all_dense (G : nat -> list vec -> nat -> gradient) : Prop := forall t xs i, exists g, G t xs i = Dense g.
