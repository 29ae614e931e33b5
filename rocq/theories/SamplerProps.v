(** Properties of the samplers.  Meanings: SamplerSpec; concrete cases: SamplerInstances. *)
From Coq Require Import Reals List Bool Arith.
From Verif Require Import RVec OptimModel OptimSpec SamplerModel SamplerSpec SamplerProofs SamplerProofs2 SamplerProofs3 SamplerProofs4 SamplerProofs5 SamplerInstances SamplerExtra.
From Verif Require StereoSpec.
Import ListNotations.
Local Open Scope R_scope.

(** * C65: one RHMC step is a Metropolis test of its proposal *)
(** [t] is the proposal (a draw of -1 never rejects).  Whatever u is drawn, the step keeps
    the proposal when u is below min(1, exp(H(start) - H(proposal))) and restores the old
    values exactly otherwise. *)
Theorem C65_decision : forall closure lim zs u s t,
  steady closure -> one_each zs s -> rhmc_step closure lim zs (-1) s = (t, SOk) ->
  let rho := Rmin 1 (exp ((- log_density closure s + momenta old_r t) - (- log_density closure t + momenta mom t))) in
  exists s', rhmc_step closure lim zs u s = (s', SOk) /\
    (u < rho -> s' = t) /\
    (rho <= u -> values s' = values s) /\
    log_probs s' = log_probs s ++ [log_density closure s'] /\
    (burnin s = true -> steps s' = steps s /\ n_rejected s' = n_rejected s /\ acceptance_probs s' = acceptance_probs s) /\
    (burnin s = false -> steps s' = S (steps s) /\ acceptance_probs s' = acceptance_probs s ++ [rho] /\
                         n_rejected s' = if Rle_dec rho u then S (n_rejected s) else n_rejected s).
Proof. exact (decision). Qed.
Print Assumptions C65_decision.

Example C65_case : steady normal /\ one_each [fun _ => 1] (fresh_at 0 1 false) /\
  exists t, rhmc_step normal 709 [fun _ => 1] (9 / 10) (fresh_at 0 1 false) = (t, SOk) /\ values t = [fun _ => 0].
Proof. exact (conj (single_steady gauss score) (conj eq_refl reject_case)). Qed.

(** After a rejection the stored momentum is the one drawn at the start, too. *)
Theorem C65_rejected_momentum : forall closure lim zs u s t s',
  steady closure -> one_each zs s -> rhmc_step closure lim zs (-1) s = (t, SOk) ->
  Rmin 1 (exp ((- log_density closure s + momenta old_r t) - (- log_density closure t + momenta mom t))) <= u ->
  rhmc_step closure lim zs u s = (s', SOk) ->
  forall p h, In p (params s') -> v_grad p <> None -> v_hmc p = Some h -> v_val p = old_p h /\ mom h = old_r h.
Proof. exact (rejected). Qed.
Print Assumptions C65_rejected_momentum.

(** [steady] is needed: for every number of leapfrog steps there is a run where a
    parameter's first gradient appears in the middle of the step, and the step raises
    KeyError with the other parameters already moved and nothing recorded. *)
Theorem C65_late_gradient_refuted : exists closure zs s, forall n, (1 <= n)%nat -> n_steps (s n) = n /\ one_each zs (s n) /\
  exists t, rhmc_step closure 709 zs (1 / 2) (s n) = (t, SRaise SKeyError) /\ values t <> values (s n) /\ steps t = O /\ log_probs t = [].
Proof. exact (late_witness). Qed.
Print Assumptions C65_late_gradient_refuted.

(** Every parameter either had no gradient and is untouched, or remembers the value it
    started from and the momentum drawn for it. *)
Theorem C65_remembered : forall closure lim zs u s s' st,
  steady closure -> one_each zs s -> rhmc_step closure lim zs u s = (s', st) ->
  forall i p z p', nth_error (params s) i = Some p -> nth_error zs i = Some z -> nth_error (params s') i = Some p' ->
  v_man p' = v_man p /\ v_size p' = v_size p /\ v_eps p' = v_eps p /\
  ((v_grad p' = None /\ p' = p) \/
   exists h, v_hmc p' = Some h /\ old_p h = v_val p /\ old_r h = egrad2rgrad (s_manifold p) (v_val p) z).
Proof. exact (remembered). Qed.
Print Assumptions C65_remembered.

(** Counters over every history: any closures, any edits of parameters and burnin, and
    steps that raise. *)
Theorem C65_counters : forall lim s a b c, rhmc_run lim s a b c ->
  length (log_probs s) = a /\ steps s = b /\ n_rejected s = c /\ (c <= b <= a)%nat /\
  length (acceptance_probs s) = b /\ Forall (fun rho => 0 < rho <= 1) (acceptance_probs s) /\ 0 <= rejection_rate s <= 1.
Proof. exact (counters). Qed.
Print Assumptions C65_counters.

Example C65_run_case : exists s c, rhmc_run 709 s 1 1 c /\ values s = [fun _ => 0].
Proof. exact (run_case). Qed.

(** n_steps leapfrog steps cost n_steps + 1 evaluations; n_steps = 0 still takes one. *)
Theorem C65_evaluations : forall closure lim zs u s s',
  steady closure -> one_each zs s -> rhmc_step closure lim zs u s = (s', SOk) -> evals s' = (evals s + Nat.max 2 (S (n_steps s)))%nat.
Proof. exact (evaluations). Qed.
Print Assumptions C65_evaluations.

(** A large drop of the energy raises OverflowError after the parameters have moved: a
    standard normal started at 2000. *)
Theorem C65_overflow_refuted : exists closure zs s t, steady closure /\ one_each zs s /\
  rhmc_step closure 710 zs (1 / 2) s = (t, SRaise SOverflow) /\ values t <> values s /\ steps t = steps s /\ log_probs t = log_probs s.
Proof. exact (overflow_witness). Qed.
Print Assumptions C65_overflow_refuted.

(** * C66: the proposal is not time reversible *)
(** One plain parameter, one leapfrog step: restarting from the proposal with the momentum
    reversed ends e^2/2 times the gradient at the proposal away from the start. *)
Theorem C66_there_and_back : forall f g lim z s p t q h w,
  one_param s p -> (n_steps s <= 1)%nat ->
  rhmc_step (single f g) lim [z] (-1) s = (t, SOk) -> params t = [q] -> v_hmc q = Some h ->
  rhmc_step (single f g) lim [vopp (mom h)] (-1) t = (w, SOk) ->
  values w = [fun i => v_val p i + v_eps p ^ 2 / 2 * g (v_val q) i].
Proof. exact (there_and_back). Qed.
Print Assumptions C66_there_and_back.

Theorem C66_returns_iff : forall f g lim z s p t q h w,
  one_param s p -> (n_steps s <= 1)%nat -> v_eps p <> 0 ->
  rhmc_step (single f g) lim [z] (-1) s = (t, SOk) -> params t = [q] -> v_hmc q = Some h ->
  rhmc_step (single f g) lim [vopp (mom h)] (-1) t = (w, SOk) ->
  (values w = values s <-> forall i, g (v_val q) i = 0).
Proof. exact (returns_iff). Qed.
Print Assumptions C66_returns_iff.

Theorem C66_refuted : exists f g z s p t q h w,
  one_param s p /\ n_steps s = 1%nat /\ v_eps p = 1 /\
  rhmc_step (single f g) 709 [z] (-1) s = (t, SOk) /\ params t = [q] /\ v_hmc q = Some h /\
  rhmc_step (single f g) 709 [vopp (mom h)] (-1) t = (w, SOk) /\ values w <> values s.
Proof. exact (not_reversible_witness). Qed.
Print Assumptions C66_refuted.

(** * C90: samples stay on the manifold *)
Theorem C90_rhmc : forall on tan closure lim zs u s s' st,
  steady closure -> one_each zs s -> lawfuls on tan s -> settled on s ->
  rhmc_step closure lim zs u s = (s', st) -> settled on s' /\ same_manifolds s s'.
Proof. exact (rhmc_settled). Qed.
Print Assumptions C90_rhmc.

Theorem C90_rsgld : forall on tan closure zs s s' st,
  lawfuls on tan s -> settled on s -> rsgld_step closure zs s = (s', st) -> settled on s' /\ same_manifolds s s'.
Proof. exact (rsgld_settled). Qed.
Print Assumptions C90_rsgld.

(** SGRHMC draws velocities that are not tangent, so the retraction must reach the
    manifold from every direction. *)
Theorem C90_sgrhmc : forall on closure zs zss s s' st,
  absorbings on s -> settled on s -> sgrhmc_step closure zs zss s = (s', st) -> settled on s' /\ same_manifolds s s'.
Proof. exact (sgrhmc_settled). Qed.
Print Assumptions C90_sgrhmc.

Theorem C90_stabilize : forall on tan s, lawfuls on tan s -> settled on s ->
  settled on (put_params (map rhmc_stabilize (params s)) s) /\ settled on (put_params (map sgrhmc_stabilize (params s)) s) /\
  settled on (put_params (map rsgld_stabilize (params s)) s).
Proof. exact (stabilized). Qed.
Print Assumptions C90_stabilize.

(** The stored states are carried along: remembered points stay on the manifold and
    velocities become tangent at the projected point. *)
Theorem C90_stabilize_states : forall on tan s, lawfuls on tan s -> settled on s ->
  (forall p h, In p (params s) -> v_hmc p = Some h -> on (v_man p) (old_p h)) ->
  (forall q h, In q (map rhmc_stabilize (params s)) -> v_man q <> None -> v_hmc q = Some h -> on (v_man q) (old_p h)) /\
  (forall q w, In q (map sgrhmc_stabilize (params s)) -> v_man q <> None -> v_vel q = Some w -> tan (v_man q) (v_val q) w).
Proof. exact (stabilized_states). Qed.
Print Assumptions C90_stabilize_states.

Theorem C90_stabilize_projects : forall p m, v_man p = Some m ->
  v_val (rhmc_stabilize p) = projx m (v_val p) /\ v_val (sgrhmc_stabilize p) = projx m (v_val p) /\ v_val (rsgld_stabilize p) = projx m (v_val p) /\
  (forall w, v_vel p = Some w -> v_vel (sgrhmc_stabilize p) = Some (proju m (projx m (v_val p)) w)).
Proof. exact (stabilized_values). Qed.
Print Assumptions C90_stabilize_projects.

(** A sampler can be built exactly when no parameter lives on a manifold whose retraction
    is not reversible; plain parameters never matter. *)
Theorem C90_constructor : forall l,
  (constructor l = SOk <-> ~ In (Some false) l) /\ (constructor l <> SOk -> constructor l = SRaise SValueError).
Proof. exact (constructed). Qed.
Print Assumptions C90_constructor.

Example C90_constructor_case : constructor [None; Some true] = SOk /\ constructor [Some true; Some false; None] = SRaise SValueError.
Proof. exact (conj eq_refl eq_refl). Qed.

Example C90_case : lawfuls ball_on (fun _ _ _ => True) ball_sampler /\ absorbings ball_on ball_sampler /\ settled ball_on ball_sampler.
Proof. exact (ball_sampler_ok). Qed.

(** * C91: the recorded log densities *)
(** RHMC records the density of the sample it leaves, burn-in or not. *)
Theorem C91_rhmc : forall closure lim zs u s s',
  steady closure -> one_each zs s -> rhmc_step closure lim zs u s = (s', SOk) -> log_probs s' = log_probs s ++ [log_density closure s'].
Proof. exact (recorded). Qed.
Print Assumptions C91_rhmc.

(** RSGLD records, outside burn-in, the density of the sample it started from. *)
Theorem C91_rsgld : forall closure zs s s', rsgld_step closure zs s = (s', SOk) ->
  evals s' = S (evals s) /\ n_rejected s' = n_rejected s /\
  steps s' = (if burnin s then steps s else S (steps s)) /\
  log_probs s' = (if burnin s then log_probs s else log_probs s ++ [log_density closure s]).
Proof. exact (rsgld_log). Qed.
Print Assumptions C91_rsgld.

Theorem C91_rsgld_refuted : exists closure zs s s', burnin s = false /\ rsgld_step closure zs s = (s', SOk) /\
  log_probs s' <> log_probs s ++ [log_density closure s'].
Proof. exact (rsgld_old_witness). Qed.
Print Assumptions C91_rsgld_refuted.

Theorem C91_sgrhmc_refuted : exists closure zs zss s s', burnin s = false /\ length zss = S (n_steps s) /\ sgrhmc_step closure zs zss s = (s', SOk) /\
  log_probs s' <> log_probs s ++ [log_density closure s'].
Proof. exact (sgrhmc_old_witness). Qed.
Print Assumptions C91_sgrhmc_refuted.

(** * C92: on plain parameters the samplers are the textbook recursions *)
Theorem C92_sgld : forall closure grad, full closure grad -> forall zss s,
  Forall plain (params s) -> Forall cleared (params s) -> Forall (fun p => 0 <= v_eps p) (params s) ->
  Forall (fun zs => length zs = length (params s)) zss ->
  exists s', rsgld_steps closure zss s = (s', SOk) /\ values s' = sgld grad (map v_eps (params s)) (values s) zss.
Proof. exact (rsgld_is_sgld). Qed.
Print Assumptions C92_sgld.

(** SGRHMC: the gradient is taken before the move, and the density recorded is the one
    before the last move. *)
Theorem C92_sghmc : forall closure grad zs zss s, full closure grad ->
  Forall plain (params s) -> Forall cleared (params s) -> Forall (fun p => 0 <= v_alpha p * v_eps p) (params s) ->
  one_each zs s -> Forall (fun zs => one_each zs s) zss -> zss <> [] ->
  let es := map (fun p => (v_eps p, v_alpha p)) (params s) in
  let start := combine (values s) (velocities es zs) in
  exists s', sgrhmc_step closure zs zss s = (s', SOk) /\
    values s' = map fst (sghmc grad es start zss) /\
    evals s' = (length zss + evals s)%nat /\
    (burnin s = true -> log_probs s' = log_probs s /\ steps s' = steps s) /\
    (burnin s = false -> log_probs s' = log_probs s ++ [fst (closure (map fst (sghmc grad es start (removelast zss))))] /\ steps s' = S (steps s)).
Proof. exact (sgrhmc_is_sghmc). Qed.
Print Assumptions C92_sghmc.

Example C92_case : full normals scores /\ exists s', sgrhmc_step normals [fun _ => 1] [[fun _ => 0]; [fun _ => 0]] (fresh_at 0 1 false) = (s', SOk) /\
  values s' = [fun _ => 19 / 10] /\ log_probs s' = [- (1 / 2)].
Proof. exact (conj normals_full sgrhmc_old). Qed.

