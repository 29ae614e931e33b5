(** Vocabulary: training continued from a checkpoint. *)
From Coq Require Import Reals List Arith.
From Verif Require Import RVec OptimModel SparseModel CheckpointModel OptimDecaySpec GroupingSpec.
Import ListNotations.

(** A training loop on any optimizer: before step t the closure leaves gradient [G t values i]
    at parameter number i, and the user (a learning rate scheduler) may change the options
    of each group by [E t]; the loop ends at the first exception. *)
Fixpoint train_sgd (E : nat -> sgd_hyper -> sgd_hyper) (G : nat -> list vec -> nat -> gradient) (t n : nat) (o : list sgd_group) : list sgd_group * status :=
  match n with
  | O => (o, Ok)
  | S n =>
      let qss := assign_groups (G t (map val (concat (map params o)))) 0 (map params o) in
      match sgd_step (map (fun x => {| hyp := E t (hyp (fst x)); steps := steps (fst x); params := snd x |}) (combine o qss)) with
      | (o, Ok) => train_sgd E G (S t) n o
      | (o, s) => (o, s)
      end
  end.
Fixpoint train_adam (E : nat -> adam_hyper -> adam_hyper) (G : nat -> list vec -> nat -> gradient) (t n : nat) (o : list adam_group) : list adam_group * status :=
  match n with
  | O => (o, Ok)
  | S n =>
      let qss := assign_groups (G t (map val (concat (map a_params o)))) 0 (map a_params o) in
      match adam_step (map (fun x => {| a_hyp := E t (a_hyp (fst x)); a_params := snd x |}) (combine o qss)) with
      | (o, Ok) => train_adam E G (S t) n o
      | (o, s) => (o, s)
      end
  end.
(** The same for the sparse optimizers; gradients are sparse, dense (refused) or missing. *)
Fixpoint sassign {S} (G : nat -> sgradient) (i : nat) (ps : list (sparam S)) : list (sparam S) :=
  match ps with
  | [] => []
  | p :: ps => {| s_man := s_man p; s_val := s_val p; s_grad := G i; s_state := s_state p |} :: sassign G (Datatypes.S i) ps
  end.
Fixpoint sassign_groups {S} (G : nat -> sgradient) (i : nat) (pss : list (list (sparam S))) : list (list (sparam S)) :=
  match pss with
  | [] => []
  | ps :: pss => sassign G i ps :: sassign_groups G (i + length ps) pss
  end.
Fixpoint train_ssgd (E : nat -> sgd_hyper -> sgd_hyper) (G : nat -> list matrix -> nat -> sgradient) (t n : nat) (o : list ssgd_group) : list ssgd_group * status :=
  match n with
  | O => (o, Ok)
  | S n =>
      let qss := sassign_groups (G t (map s_val (concat (map s_params o)))) 0 (map s_params o) in
      match ssgd_step (map (fun x => {| s_hyp := E t (s_hyp (fst x)); s_steps := s_steps (fst x); s_params := snd x |}) (combine o qss)) with
      | (o, Ok) => train_ssgd E G (S t) n o
      | (o, s) => (o, s)
      end
  end.
Fixpoint train_sadam (E : nat -> adam_hyper -> adam_hyper) (G : nat -> list matrix -> nat -> sgradient) (t n : nat) (o : list sadam_group) : list sadam_group * status :=
  match n with
  | O => (o, Ok)
  | S n =>
      let qss := sassign_groups (G t (map s_val (concat (map sa_params o)))) 0 (map sa_params o) in
      match sadam_step (map (fun x => {| sa_hyp := E t (sa_hyp (fst x)); sa_params := snd x |}) (combine o qss)) with
      | (o, Ok) => train_sadam E G (S t) n o
      | (o, s) => (o, s)
      end
  end.
(** The optimizer [o'] of a new process, after loading the checkpoint of [o]; None: load raised. *)
Definition resume_sgd (o o' : list sgd_group) : option (list sgd_group) :=
  option_map sgd_groups_of (reload (groups_of_sgd o) (groups_of_sgd o')).
Definition resume_adam (o o' : list adam_group) : option (list adam_group) :=
  option_map adam_groups_of (reload (groups_of_adam o) (groups_of_adam o')).
Definition resume_ssgd (o o' : list ssgd_group) : option (list ssgd_group) :=
  option_map ssgd_groups_of (sreload (groups_of_ssgd o) (groups_of_ssgd o')).
Definition resume_sadam (o o' : list sadam_group) : option (list sadam_group) :=
  option_map sadam_groups_of (sreload (groups_of_sadam o) (groups_of_sadam o')).
