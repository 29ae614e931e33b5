(** Vocabulary for weight decay: training loops that differ in weight decay only. *)
From Coq Require Import Reals List Arith.
From Verif Require Import RVec OptimModel.
Import ListNotations.
Local Open Scope R_scope.

(** A training loop on one group.  At step t the closure computes from the values of all
    parameters the gradient of parameter i, [G t values i]; [hs t] are the hyper-parameters
    in force. *)
Fixpoint assign {S} (G : nat -> gradient) (i : nat) (ps : list (param S)) : list (param S) :=
  match ps with
  | [] => []
  | p :: ps => {| man := man p; val := val p; grad := G i; state := state p |} :: assign G (Datatypes.S i) ps
  end.
Fixpoint sgd_training (hs : nat -> sgd_hyper) (G : nat -> list vec -> nat -> gradient) (ps : list sgd_param) (t : nat) : sgd_group :=
  match t with
  | O => {| hyp := hs O; steps := None; params := ps |}
  | S t => let g := sgd_training hs G ps t in
           fst (sgd_step_group {| hyp := hs t; steps := steps g; params := assign (G t (map val (params g))) 0 (params g) |})
  end.
Fixpoint adam_training (hs : nat -> adam_hyper) (G : nat -> list vec -> nat -> gradient) (ps : list adam_param) (t : nat) : adam_group :=
  match t with
  | O => {| a_hyp := hs O; a_params := ps |}
  | S t => let g := adam_training hs G ps t in
           fst (adam_step_group {| a_hyp := hs t; a_params := assign (G t (map val (a_params g))) 0 (a_params g) |})
  end.
(** The same hyper-parameters with another weight decay. *)
Definition sgd_decay (a : R) (h : sgd_hyper) : sgd_hyper :=
  {| lr := lr h; momentum := momentum h; dampening := dampening h; weight_decay := a; nesterov := nesterov h; stabilize := stabilize h |}.
Definition adam_decay (a : R) (h : adam_hyper) : adam_hyper :=
  {| a_lr := a_lr h; beta1 := beta1 h; beta2 := beta2 h; eps := eps h; a_decay := a; amsgrad := amsgrad h; a_stabilize := a_stabilize h |}.
(** The Riemannian gradient does not see multiples of the point. *)
Definition radially_blind (M : manifold) (on : vec -> Prop) : Prop :=
  forall x g a, on x -> egrad2rgrad M x (vadd g (smul a x)) = egrad2rgrad M x g.
