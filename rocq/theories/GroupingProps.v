(** C140: how parameters are divided into groups does not matter. *)
From Coq Require Import Reals List.
From Verif Require Import RVec OptimModel OptimDecaySpec OptimInstances ProductOptimInst RotationInst GroupingSpec GroupingProofs.
Import ListNotations.
Local Open Scope R_scope.

(** RiemannianSGD: groups with the same hyper-parameters, any schedule, gradients that may be
    missing but not sparse: the parameters after t steps are those of training with one group. *)
Theorem C140_sgd : forall hs G, no_sparse G -> (forall t, stabilize (hs t) <> Some O) -> forall pss t,
  concat (map params (sgd_groups hs G pss t)) = params (sgd_training hs G (concat pss) t).
Proof. exact sgd_grouping. Qed.
Print Assumptions C140_sgd.

(** RiemannianAdam, where stabilisation of a group is triggered by any of its parameters: if
    every parameter has a gradient in every step. *)
Theorem C140_adam : forall hs G, all_dense G -> (forall t, a_stabilize (hs t) <> Some O /\ amsgrad (hs t) = amsgrad (hs O)) ->
  forall pss, Forall (Forall (fun p => state p = None)) pss -> forall t,
  concat (map a_params (adam_groups hs G pss t)) = a_params (adam_training hs G (concat pss) t).
Proof. exact adam_grouping. Qed.
Print Assumptions C140_adam.

(** Otherwise it may matter: a parameter without gradient is stabilised together with the
    parameters of its group. *)
Theorem C140_adam_missing_gradient_refuted : forall h : adam_hyper, a_stabilize h = Some 1%nat -> amsgrad h = false ->
  let G := fun (_ : nat) (xs : list vec) (i : nat) => match i with O => Dense (nth O xs vzero) | _ => NoGrad end in
  nth 1 (map val (a_params (adam_training (fun _ => h) G drifting 1))) vzero O = 3 / 5 /\
  nth 1 (map val (concat (map a_params (adam_groups (fun _ => h) G (map (fun p => [p]) drifting) 1)))) vzero O = 3.
Proof. exact adam_missing. Qed.
Print Assumptions C140_adam_missing_gradient_refuted.

Example C140_hypotheses : no_sparse twice /\ all_dense twice /\
  Forall (Forall (fun p : adam_param => state p = None)) [circle_and_disc; []; circle_and_disc].
Proof. repeat split; try (intros; discriminate); try (intros; eexists; reflexivity). repeat constructor. Qed.
