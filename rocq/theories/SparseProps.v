(** Properties C58 and C59, and the sparse parts of C83: SparseRiemannianSGD and
    SparseRiemannianAdam.  [named e r]: row r appears in the sparse gradient e. *)
From Coq Require Import Reals List Bool Arith Lra.
From Verif Require Import RVec OptimModel OptimSpec SparseModel SparseSpec SparseProofs.
Import ListNotations.
Local Open Scope R_scope.

Example sparse_case : named [(3%nat, vconst 1); (3%nat, vconst 2)] 3 /\ ~ named [(3%nat, vconst 1)] 2.
Proof. split; [exists (vconst 1); left; reflexivity|intros [v [[=]|[]]]]. Qed.

(** ** C58: only the named rows move *)
(** In one step of the whole optimizer (any groups; also when it raises), rows not
    named keep their value and buffer, and no gradient is written to. *)
Theorem C58_sgd_only_named_rows : forall o, (forall g, In g o -> stabilize (s_hyp g) = None) ->
  Forall2 (fun g g' => Forall2 (fun p p' => forall r, ~ touched p r ->
      s_val p' r = s_val p r /\ (forall b, s_state p = Some b -> exists b', s_state p' = Some b' /\ b' r = b r) /\ s_grad p' = s_grad p)
    (s_params g) (s_params g')) o (fst (ssgd_step o)).
Proof. exact (ssgd_step_same). Qed.
Print Assumptions C58_sgd_only_named_rows.

Theorem C58_adam_only_named_rows : forall o, (forall g, In g o -> a_stabilize (sa_hyp g) = None) ->
  Forall2 (fun g g' => Forall2 (fun p p' => forall r, ~ touched p r ->
      s_val p' r = s_val p r /\
      (forall s, s_state p = Some s -> row_moments r (s_state p') = row_moments r (Some s)) /\ s_grad p' = s_grad p)
    (sa_params g) (sa_params g')) o (fst (sadam_step o)).
Proof. exact (sadam_step_same). Qed.
Print Assumptions C58_adam_only_named_rows.

(** Named rows are updated as the dense optimizer updates a parameter holding that row,
    given that row of the gradient (duplicated entries added up). *)
Theorem C58_sgd_as_dense : forall h p r e, s_grad p = SSparse e -> named e r ->
  sgd_row r (fst (ssgd_update h p)) = drop_grad (fst (sgd_update (no_decay h) (as_dense r e (sgd_row r p)))).
Proof. exact (ssgd_in). Qed.
Print Assumptions C58_sgd_as_dense.

Theorem C58_adam_as_dense : forall h p r e, s_grad p = SSparse e -> named e r -> amsgrad h = false ->
  adam_row r (fst (sadam_update h p)) = drop_grad (fst (adam_update (no_adecay h) (as_dense r e (adam_row r p)))).
Proof. exact (sadam_in). Qed.
Print Assumptions C58_adam_as_dense.

Theorem C58_duplicates_add : forall e r i,
  dense_row e r i = fold_right Rplus 0 (map (fun p => snd p i) (filter (fun p => (fst p =? r)%nat) e)).
Proof. exact (dense_is_sum). Qed.
Print Assumptions C58_duplicates_add.

(** Over any number of steps a row follows the dense optimizer fed with the gradients of
    the steps that name it: without momentum always, with momentum for rows named in
    the first step. *)
Theorem C58_rows_independent : forall hs es p0 r, s_state p0 = None ->
  (forall t, has_momentum (hs t) = false) \/ ((forall t, has_momentum (hs t) = true) /\ named (es O) r) ->
  forall t, drop_grad (row_run hs (seen_by r es) (sgd_row r p0) t) = sgd_row r (ssgd_run hs es p0 t).
Proof. exact (rows_independent). Qed.
Print Assumptions C58_rows_independent.

(** Not for rows named later: their buffer starts at zero, not at the gradient. *)
Theorem C58_late_rows_refuted :
  ~ forall hs es p0 r, s_state p0 = None -> (forall t, has_momentum (hs t) = true) ->
    forall t, s_val (ssgd_run hs es p0 t) r = val (row_run hs (seen_by r es) (sgd_row r p0) t).
Proof. exact (late_refuted). Qed.
Print Assumptions C58_late_rows_refuted.

(** Dense gradients are refused: a step that returns has met none, and one that meets a
    dense gradient first raises RuntimeError. *)
Theorem C58_sgd_dense_refused : forall o, snd (ssgd_step o) = Ok -> forall g p, In g o -> In p (s_params g) -> s_grad p <> SDense.
Proof. exact (ssgd_dense). Qed.
Print Assumptions C58_sgd_dense_refused.
Theorem C58_adam_dense_refused : forall o, snd (sadam_step o) = Ok -> forall g p, In g o -> In p (sa_params g) -> s_grad p <> SDense.
Proof. exact (sadam_dense). Qed.
Print Assumptions C58_adam_dense_refused.
Theorem C58_sgd_dense_error : forall g p ps o, s_params g = p :: ps -> s_grad p = SDense -> snd (ssgd_step (g :: o)) = RaisedRuntimeError.
Proof. exact (ssgd_first_dense). Qed.
Print Assumptions C58_sgd_dense_error.
Theorem C58_adam_dense_error : forall g p ps o, sa_params g = p :: ps -> s_grad p = SDense -> snd (sadam_step (g :: o)) = RaisedRuntimeError.
Proof. exact (sadam_first_dense). Qed.
Print Assumptions C58_adam_dense_error.

(** ** C59: the stored maximum of sparse AMSGrad *)
(** What is stored: the bias-corrected square root of the maximum. *)
Theorem C59_stored_value : forall h p r e s mx i, s_grad p = SSparse e -> named e r -> amsgrad h = true ->
  s_state p = Some s -> s_max s = Some mx ->
  exists s' mx', s_state (fst (sadam_update h p)) = Some s' /\ s_max s' = Some mx' /\
    mx' r i = sqrt (Rmax (mx r i) (s_sq s' r i) / (1 - beta2 h ^ S (s_count s))).
Proof. exact (sadam_max). Qed.
Print Assumptions C59_stored_value.

Theorem C59_running_maximum_refuted :
  ~ forall hs es p0 t s mx r i, s_state p0 = None -> (forall t, amsgrad (hs t) = true) ->
    s_state (sadam_run hs es p0 t) = Some s -> s_max s = Some mx -> s_sq s r i <= mx r i.
Proof. exact (ams_refuted). Qed.
Print Assumptions C59_running_maximum_refuted.

