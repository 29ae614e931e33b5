(** Properties C95 and C96: what the sparse optimizers keep invariant over any history of
    steps and edits, and when they stabilise. *)
From Coq Require Import Reals List Bool Arith Lra.
From Verif Require Import RVec OptimModel OptimSpec OptimInstances SparseModel SparseSpec SparseProofs SparseProofs2 SparseInst.
From Verif Require SphereSpec.
Import ListNotations.
Local Open Scope R_scope.

(** ** C95: every row of a sparse-gradient parameter stays on its manifold *)
Theorem C95_sgd_no_momentum : forall (on : manifold -> vec -> Prop) (tan : manifold -> vec -> vec -> Prop) o o',
  let welcome (p : ssgd_param) := lawful (s_manifold p) (on (s_manifold p)) (tan (s_manifold p)) /\ rows_on on p in
  ssgd_history welcome (ssgd_all (fun h _ => momentum h <= 0)) o o' ->
  ssgd_all (fun _ p => welcome p /\ s_state p = None) o ->
  ssgd_all (fun _ p => rows_on on p) o'.
Proof. exact (fun on tan o o' H A g p Ig Ip => proj2 (proj1 (ssgd_plain on tan o o' H A g p Ig Ip))). Qed.
Print Assumptions C95_sgd_no_momentum.

(** With momentum, when the rows of the first gradient are tangent and momentum is not
    switched off while a buffer exists: rows stay on, buffer rows stay tangent. *)
Theorem C95_sgd_momentum : forall (on : manifold -> vec -> Prop) (tan : manifold -> vec -> vec -> Prop) o o',
  let law (p : ssgd_param) := lawful (s_manifold p) (on (s_manifold p)) (tan (s_manifold p)) in
  let good (p : ssgd_param) := rows_on on p /\ forall b, s_state p = Some b -> forall r, tan (s_manifold p) (s_val p r) (b r) in
  ssgd_history (fun p => law p /\ rows_on on p)
    (ssgd_all (fun h p =>
      (forall e r, s_grad p = SSparse e -> named e r -> has_momentum h = true -> s_state p = None -> tan (s_manifold p) (s_val p r) (dense_row e r)) /\
      (s_state p <> None -> has_momentum h = true))) o o' ->
  ssgd_all (fun _ p => law p /\ good p) o -> ssgd_all (fun _ p => law p /\ good p) o'.
Proof. exact (ssgd_good). Qed.
Print Assumptions C95_sgd_momentum.

(** With no condition on gradients or hyperparameters, when the retraction reaches the
    manifold from any direction (hyperboloid, ball). *)
Theorem C95_sgd_absorbing : forall (on : manifold -> vec -> Prop) o o',
  let welcome (p : ssgd_param) := absorbing (s_manifold p) (on (s_manifold p)) /\ rows_on on p in
  ssgd_history welcome (fun _ => True) o o' -> ssgd_all (fun _ => welcome) o -> ssgd_all (fun _ => welcome) o'.
Proof. exact (ssgd_absorbing). Qed.
Print Assumptions C95_sgd_absorbing.

Theorem C95_adam_absorbing : forall (on : manifold -> vec -> Prop) o o',
  let welcome (p : sadam_param) := absorbing (s_manifold p) (on (s_manifold p)) /\ rows_on on p in
  sadam_history welcome (fun _ => True) o o' -> sadam_all (fun _ => welcome) o -> sadam_all (fun _ => welcome) o'.
Proof. exact (sadam_absorbing). Qed.
Print Assumptions C95_adam_absorbing.

(** Sparse Adam: first moments stay tangent, second moments and their maxima nonnegative. *)
Theorem C95_adam : forall (on : manifold -> vec -> Prop) (tan : manifold -> vec -> vec -> Prop) (blk : manifold -> nat -> nat -> Prop) o o',
  let law (p : sadam_param) := lawful (s_manifold p) (on (s_manifold p)) (tan (s_manifold p)) /\
    blocked (s_manifold p) (on (s_manifold p)) (tan (s_manifold p)) (blk (s_manifold p)) in
  sadam_history (fun p => law p /\ rows_on on p)
    (sadam_all (fun h _ => 0 <= beta1 h < 1 /\ 0 <= beta2 h < 1 /\ 0 < eps h)) o o' ->
  sadam_all (fun _ p => law p /\ rows_on on p /\ s_state p = None) o ->
  sadam_all (fun _ p => rows_on on p /\ forall s, s_state p = Some s -> forall r,
    tan (s_manifold p) (s_val p r) (s_avg s r) /\ (forall i, 0 <= s_sq s r i) /\
    (forall mx, s_max s = Some mx -> forall i, 0 <= mx r i)) o'.
Proof. exact (sadam_from_fresh). Qed.
Print Assumptions C95_adam.

(** A case: an embedding table whose rows are unit vectors, optimized by sparse Adam. *)
Example C95_case : let on (_ : manifold) := SphereSpec.on_sphere 2 None in let tan (_ : manifold) := SphereSpec.tangent 2 None in
  let law (p : sadam_param) := lawful (s_manifold p) (on (s_manifold p)) (tan (s_manifold p)) /\
    blocked (s_manifold p) (on (s_manifold p)) (tan (s_manifold p)) (fun _ _ => True) in
  sadam_all (fun _ p => law p /\ rows_on on p /\ s_state p = None) table_opt /\
  sadam_history (fun p => law p /\ rows_on on p) (sadam_all (fun h _ => 0 <= beta1 h < 1 /\ 0 <= beta2 h < 1 /\ 0 < eps h)) table_opt (fst (sadam_step table_opt)).
Proof. exact (table_case). Qed.

(** ** C96: stabilisation of sparse optimizers *)
(** SGD: after step number t of the group (counted from 1) the parameters are projected
    exactly when the period divides t; whatever is edited in between, counters aside. *)
Theorem C96_sgd_period : forall edit g t N, (forall t g, s_steps (edit t g) = s_steps g) -> s_steps g = None ->
  let cur := edit t (sgroup_run edit g t) in Forall (fun p => s_grad p <> SDense) (s_params cur) -> stabilize (s_hyp cur) = Some (S N) ->
  s_params (sgroup_run edit g (S t)) =
    map (fun p => let q := fst (ssgd_update (s_hyp cur) p) in
      if (S t mod S N =? 0)%nat then ssgd_stabilize (s_hyp cur) q else q) (s_params cur).
Proof. exact (srun_period). Qed.
Print Assumptions C96_sgd_period.

(** Every row is projected to the manifold, every buffer row to the tangent space there. *)
Theorem C96_sgd_rows : forall h p M, s_man p = Some M -> forall r, s_val (ssgd_stabilize h p) r = projx M (s_val p r) /\
  forall b, has_momentum h = true -> s_state p = Some b ->
    row_of r (s_state (ssgd_stabilize h p)) = Some (proju M (projx M (s_val p r)) (b r)).
Proof. exact (sstabilized). Qed.
Print Assumptions C96_sgd_rows.

Theorem C96_sgd_plain_untouched : forall h p, s_man p = None -> ssgd_stabilize h p = p.
Proof. exact (splain_untouched). Qed.
Print Assumptions C96_sgd_plain_untouched.

Theorem C96_adam_rows : forall p M s, s_man p = Some M -> s_state p = Some s -> forall r, s_val (sadam_stabilize p) r = projx M (s_val p r) /\
  row_moments r (s_state (sadam_stabilize p)) = Some (proju M (projx M (s_val p r)) (s_avg s r), s_sq s r, option_map (fun m => m r) (s_max s)).
Proof. exact (sastabilized). Qed.
Print Assumptions C96_adam_rows.

(** Adam: a group is projected when the period divides the step count of some parameter
    that had a gradient in this step. *)
Theorem C96_adam_when : forall g ps N, a_stabilize (sa_hyp g) = Some (S N) -> sloop (sadam_visit (sa_hyp g)) (sa_params g) = (ps, Ok) ->
  sadam_step_group g = ({| sa_hyp := sa_hyp g; sa_params := map (fun p =>
    if existsb (fun q => match s_grad q, s_state q with SSparse _, Some s => s_count s mod S N =? 0 | _, _ => false end)%nat ps
    then sadam_stabilize p else p) ps |}, Ok).
Proof. exact (sadam_stab_exact). Qed.
Print Assumptions C96_adam_when.

Example C96_case : s_man drift = Some (sphere 2) /\ Forall (fun p => s_grad p <> SDense) [drift] /\ s_val (ssgd_stabilize h_on drift) 5%nat 0%nat = 1.
Proof. exact (drift_case). Qed.

