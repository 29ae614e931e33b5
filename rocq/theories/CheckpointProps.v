(** C144: training continued from a checkpoint is the same training. *)
From Coq Require Import Reals List.
From Verif Require Import RVec OptimModel SparseModel CheckpointModel OptimDecaySpec GroupingSpec CheckpointSpec CheckpointProofs CheckpointInst ProductOptimInst.
Import ListNotations.

(** RiemannianSGD: n steps, state_dict() to disk, a new process whose script builds the same
    groups (with any options, values and states) loads it and makes m+1 further steps: all
    parameters, buffers, options and exceptions are those of n+m+1 steps without interruption.
    Gradients may be anything the closure computes from the values; options may be changed by
    a scheduler. *)
Theorem C144_sgd : forall E G n m o o1 o', map (fun g => map man (params g)) o = map (fun g => map man (params g)) o' ->
  train_sgd E G 0 n o = (o1, Ok) ->
  exists r, resume_sgd o1 o' = Some r /\ map val (concat (map params r)) = map val (concat (map params o1)) /\
    train_sgd E G n (S m) r = train_sgd E G 0 (n + S m) o.
Proof. exact sgd_resumed. Qed.
Print Assumptions C144_sgd.
(** RiemannianAdam *)
Theorem C144_adam : forall E G n m o o1 o', map (fun g => map man (a_params g)) o = map (fun g => map man (a_params g)) o' ->
  train_adam E G 0 n o = (o1, Ok) ->
  exists r, resume_adam o1 o' = Some r /\ map val (concat (map a_params r)) = map val (concat (map a_params o1)) /\
    train_adam E G n (S m) r = train_adam E G 0 (n + S m) o.
Proof. exact adam_resumed. Qed.
Print Assumptions C144_adam.
(** SparseRiemannianSGD and SparseRiemannianAdam *)
Theorem C144_sparse_sgd : forall E G n m o o1 o', map (fun g => map s_man (s_params g)) o = map (fun g => map s_man (s_params g)) o' ->
  train_ssgd E G 0 n o = (o1, Ok) ->
  exists r, resume_ssgd o1 o' = Some r /\ map s_val (concat (map s_params r)) = map s_val (concat (map s_params o1)) /\
    train_ssgd E G n (S m) r = train_ssgd E G 0 (n + S m) o.
Proof. exact ssgd_resumed. Qed.
Print Assumptions C144_sparse_sgd.
Theorem C144_sparse_adam : forall E G n m o o1 o', map (fun g => map s_man (sa_params g)) o = map (fun g => map s_man (sa_params g)) o' ->
  train_sadam E G 0 n o = (o1, Ok) ->
  exists r, resume_sadam o1 o' = Some r /\ map s_val (concat (map sa_params r)) = map s_val (concat (map sa_params o1)) /\
    train_sadam E G n (S m) r = train_sadam E G 0 (n + S m) o.
Proof. exact sadam_resumed. Qed.
Print Assumptions C144_sparse_adam.
(** A checkpoint of groups of other sizes is refused. *)
Theorem C144_other_sizes : forall H S (o o' : list (H * list (param S))),
  map (fun g => length (snd g)) o <> map (fun g => length (snd g)) o' -> reload o o' = None.
Proof. exact (@reload_other). Qed.
Print Assumptions C144_other_sizes.
Theorem C144_other_sizes_sparse : forall H S (o o' : list (H * list (sparam S))),
  map (fun g => length (snd g)) o <> map (fun g => length (snd g)) o' -> sreload o o' = None.
Proof. exact (@sreload_other). Qed.
Print Assumptions C144_other_sizes_sparse.
(** Without sparse gradients (and with a period that is not 0) the first n steps do not raise. *)
Theorem C144_sgd_runs : forall E G, no_sparse G -> (forall t h, stabilize h <> Some O -> stabilize (E t h) <> Some O) ->
  forall n t o, Forall (fun g => stabilize (hyp g) <> Some O) o ->
  exists o1, train_sgd E G t n o = (o1, Ok) /\ Forall (fun g => stabilize (hyp g) <> Some O) o1.
Proof. exact train_sgd_runs. Qed.
Print Assumptions C144_sgd_runs.
Theorem C144_adam_runs : forall E G, no_sparse G ->
  (forall t h, a_stabilize h <> Some O /\ amsgrad h = false -> a_stabilize (E t h) <> Some O /\ amsgrad (E t h) = false) ->
  forall n t o, Forall (fun g => a_stabilize (a_hyp g) <> Some O /\ amsgrad (a_hyp g) = false) o ->
  exists o1, train_adam E G t n o = (o1, Ok) /\ Forall (fun g => a_stabilize (a_hyp g) <> Some O /\ amsgrad (a_hyp g) = false) o1.
Proof. exact train_adam_runs. Qed.
Print Assumptions C144_adam_runs.

(** A case: a circle and a disc in one group and a plain parameter in another, trained on
    |x|^2 for seven steps with stabilisation every third. *)
Example C144_sgd_case : forall h, stabilize h = Some 3%nat ->
  let o := map (fun ps => {| hyp := h; steps := None; params := ps |}) script in
  exists o1, train_sgd (fun _ h => h) twice 0 7 o = (o1, Ok).
Proof. exact sgd_case. Qed.
Example C144_adam_case : forall h, a_stabilize h = Some 3%nat -> amsgrad h = false ->
  let o := map (fun ps => {| a_hyp := h; a_params := ps |}) script in
  exists o1, train_adam (fun _ h => h) twice 0 7 o = (o1, Ok).
Proof. exact adam_case. Qed.
Example C144_sparse_sgd_case : forall h, stabilize h = Some 3%nat ->
  exists o1, train_ssgd (fun _ h => h) row_one 0 2 (map (fun ps => {| s_hyp := h; s_steps := None; s_params := ps |}) two_tables) = (o1, Ok).
Proof. exact ssgd_case. Qed.
Example C144_sparse_adam_case : forall h, a_stabilize h = Some 3%nat -> amsgrad h = false ->
  exists o1, train_sadam (fun _ h => h) row_one 0 2 (map (fun ps => {| sa_hyp := h; sa_params := ps |}) two_tables) = (o1, Ok).
Proof. exact sadam_case. Qed.
