(** Properties C54-C57, C60, C83, C84: RiemannianSGD and RiemannianAdam.
    [sgd_history new ok o o']: o' is reached from o by any interleaving of steps
    (taken when [ok] holds), changes of gradients and hyper-parameters, and added
    groups whose parameters satisfy [new]; steps that raise are included. *)
From Coq Require Import Reals List Bool Arith Lra.
From Verif Require Import RVec OptimModel OptimSpec OptimProofs OptimProofs2 OptimProofs3 OptimInstances.
From Verif Require SphereSpec SphereModel LorentzSpec StereoSpec.
Import ListNotations.
Local Open Scope R_scope.

(** The manifolds of the library satisfy the hypotheses below. *)
Example sphere_case : forall n, lawful (sphere n) (SphereSpec.on_sphere n None) (SphereSpec.tangent n None) /\
  projecting (sphere n) (SphereSpec.on_sphere n None) (SphereSpec.tangent n None) /\
  blocked (sphere n) (SphereSpec.on_sphere n None) (SphereSpec.tangent n None) (fun _ _ => True).
Proof. exact (fun n => conj (sphere_lawful n) (conj (sphere_projecting n) (sphere_blocked n))). Qed.
Example ball_case : forall n k, k < 0 -> lawful (ball n k) (StereoSpec.safe n k) (fun _ _ => True) /\
  absorbing (ball n k) (StereoSpec.safe n k) /\ blocked (ball n k) (StereoSpec.safe n k) (fun _ _ => True) (fun _ _ => True).
Proof. exact (fun n k K => conj (ball_lawful n k K) (conj (ball_absorbing n k K) (ball_blocked n k))). Qed.
Example lorentz_case : forall d k, 0 < k -> absorbing (lorentz d k) (LorentzSpec.on_hyperboloid d k).
Proof. exact lorentz_absorbing. Qed.
Example euclidean_case : lawful euclidean (fun _ => True) (fun _ _ => True) /\ absorbing euclidean (fun _ => True) /\
  blocked euclidean (fun _ => True) (fun _ _ => True) (fun i j => i = j).
Proof. exact (conj euclidean_lawful (conj euclidean_absorbing euclidean_blocked)). Qed.
Example north_case : SphereSpec.on_sphere 2 None north /\ SphereSpec.tangent 2 None north east.
Proof. exact (conj north_on east_tangent). Qed.

(** ** C54: parameters stay on their manifolds *)
(** Without momentum: any gradients, learning rates, weight decay and stabilisation. *)
Theorem C54_no_momentum : forall (on : manifold -> vec -> Prop) (tan : manifold -> vec -> vec -> Prop) o o',
  let welcome p := lawful (manifold_of p) (on (manifold_of p)) (tan (manifold_of p)) /\ on (manifold_of p) (val p) in
  sgd_history welcome (sgd_all (fun h _ => momentum h <= 0)) o o' ->
  sgd_all (fun _ p => welcome p /\ fresh p) o ->
  sgd_all (fun _ p => on (manifold_of p) (val p)) o'.
Proof. exact (fun on tan o o' H A g p Ig Ip => proj2 (proj1 (sgd_plain on tan o o' H A g p Ig Ip))). Qed.
Print Assumptions C54_no_momentum.

(** With momentum, when the first gradient seen is tangent and momentum is not switched
    off while a buffer exists: parameters stay on, buffers stay tangent. *)
Theorem C54_momentum : forall (on : manifold -> vec -> Prop) (tan : manifold -> vec -> vec -> Prop) o o',
  let law p := lawful (manifold_of p) (on (manifold_of p)) (tan (manifold_of p)) in
  let good p := on (manifold_of p) (val p) /\ forall b, state p = Some b -> tan (manifold_of p) (val p) b in
  sgd_history (fun p => law p /\ on (manifold_of p) (val p))
    (sgd_all (fun h p => (forall g, grad p = Dense g -> has_momentum h = true -> state p = None -> tan (manifold_of p) (val p) g) /\
                         (state p <> None -> has_momentum h = true))) o o' ->
  sgd_all (fun _ p => law p /\ good p) o -> sgd_all (fun _ p => law p /\ good p) o'.
Proof. exact (sgd_good). Qed.
Print Assumptions C54_momentum.

(** Where the retraction reaches the manifold from every vector (Poincare ball,
    Lorentz), no restriction at all. *)
Theorem C54_absorbing : forall (on : manifold -> vec -> Prop) o o',
  let welcome (p : sgd_param) := absorbing (manifold_of p) (on (manifold_of p)) /\ on (manifold_of p) (val p) in
  sgd_history welcome (fun _ => True) o o' -> sgd_all (fun _ => welcome) o -> sgd_all (fun _ => welcome) o'.
Proof. exact (sgd_absorbing). Qed.
Print Assumptions C54_absorbing.

Theorem C54_no_gradient : forall h p, grad p = NoGrad -> sgd_update h p = (p, Ok).
Proof. exact (no_grad_update). Qed.
Print Assumptions C54_no_gradient.

(** A sparse gradient raises; parameters before it have been updated, those after not. *)
Theorem C54_sparse_gradient_raises : forall h before p after,
  Forall (fun q => grad q <> Sparse) before -> grad p = Sparse ->
  loop (sgd_update h) (before ++ p :: after) = (map (fun q => fst (sgd_update h q)) before ++ p :: after, RaisedRuntimeError).
Proof. exact (sparse_midway). Qed.
Print Assumptions C54_sparse_gradient_raises.

(** ** C55: comparison with torch.optim.SGD on plain parameters *)
Theorem C55_no_momentum : forall hs gs x0, (forall t, momentum (hs t) = 0) -> forall t,
  sgd_values (sgd_train hs gs x0 t) = [fst (ref_sgd_train hs gs x0 t)].
Proof. exact (fun hs gs x0 Z t => eq_trans (train_values hs gs x0 t) (f_equal (fun s => [fst s]) (no_momentum hs gs x0 Z t))). Qed.
Print Assumptions C55_no_momentum.

(** With momentum m and dampening d: the distance to SGD after t steps is exactly
    lr * (m - d) * (1 + m + ... + m^(t-1)) * (first gradient). *)
Theorem C55_momentum_gap : forall (h : nat -> sgd_hyper) m damp (g : nat -> vec) x0,
  (forall t, momentum (h t) = m) -> (forall t, dampening (h t) = damp) -> (forall t, weight_decay (h t) = 0) ->
  (forall t, nesterov (h t) = false) -> 0 < m -> forall l, (forall t, lr (h t) = l) -> forall t, exists x,
  sgd_values (sgd_train h (fun t _ => Some (g t)) x0 t) = [x] /\
  forall i, x i = fst (ref_sgd_train h (fun t _ => Some (g t)) x0 t) i - l * (m - damp) * Rsum t (fun s => m ^ s) * g O i.
Proof. exact (fun h m damp g x0 H1 H2 H3 H4 H5 l H6 t => ex_intro _ _ (conj (train_values h _ x0 t) (momentum_points h m damp g x0 H1 H2 H3 H4 H5 l H6 t))). Qed.
Print Assumptions C55_momentum_gap.

Theorem C55_momentum_refuted :
  ~ forall hs gs x0 t, sgd_values (sgd_train hs gs x0 t) = [fst (ref_sgd_train hs gs x0 t)].
Proof. exact (fun H => momentum_refuted H). Qed.
Print Assumptions C55_momentum_refuted.

(** ** C56: directions are tangent *)
Theorem C56_direction : forall (on : manifold -> vec -> Prop) (tan : manifold -> vec -> vec -> Prop) h p g,
  lawful (manifold_of p) (on (manifold_of p)) (tan (manifold_of p)) ->
  on (manifold_of p) (val p) -> (forall b, state p = Some b -> tan (manifold_of p) (val p) b) ->
  (has_momentum h = true -> state p = None -> tan (manifold_of p) (val p) g) ->
  tan (manifold_of p) (val p) (sgd_direction h (manifold_of p) (val p) g (state p)).
Proof. exact (fun on tan h p g L X B F => direction_tan on tan p h g L (conj X B) F). Qed.
Print Assumptions C56_direction.

(** Once a momentum step has been taken (whatever its gradient) the next direction is
    tangent, for manifolds that transport by projecting. *)
Theorem C56_from_second_step : forall (on : manifold -> vec -> Prop) (tan : manifold -> vec -> vec -> Prop) h p g h' g',
  lawful (manifold_of p) (on (manifold_of p)) (tan (manifold_of p)) ->
  projecting (manifold_of p) (on (manifold_of p)) (tan (manifold_of p)) ->
  grad p = Dense g -> has_momentum h = true ->
  let q := fst (sgd_update h p) in on (manifold_of p) (val q) ->
  tan (manifold_of p) (val q) (sgd_direction h' (manifold_of p) (val q) g' (state q)).
Proof. exact (next_direction). Qed.
Print Assumptions C56_from_second_step.

Theorem C56_first_step_refuted :
  ~ forall n h x g, SphereSpec.on_sphere n None x -> SphereSpec.tangent n None x (sgd_direction h (sphere n) x g None).
Proof. exact (fun H => jump_not_tangent (H 2%nat h_jump north north north_on)). Qed.
Print Assumptions C56_first_step_refuted.

(** The consequence: at a critical point of the loss (zero Riemannian gradient) the
    first momentum step moves to the antipode. *)
Theorem C56_critical_point_moves_refuted :
  SphereSpec.on_sphere 2 None (val at_north) /\ (forall i, egrad2rgrad (sphere 2) north north i = 0) /\
  grad at_north = Dense north /\ val (fst (sgd_update h_jump at_north)) O = -1.
Proof. exact (conj north_on (conj north_grad (conj eq_refl jump))). Qed.
Print Assumptions C56_critical_point_moves_refuted.

(** Switching momentum off and on again reuses a buffer that was not transported. *)
Theorem C56_stale_buffer_refuted :
  SphereSpec.on_sphere 2 None (val with_buffer) /\ (forall b, state with_buffer = Some b -> SphereSpec.tangent 2 None (val with_buffer) b) /\
  let q := fst (sgd_update h_off with_buffer) in
  ~ SphereSpec.tangent 2 None (val q) (sgd_direction h_on (sphere 2) (val q) vzero (state q)).
Proof. exact (conj north_on (conj with_buffer_tangent stale)). Qed.
Print Assumptions C56_stale_buffer_refuted.

(** ** C57: RiemannianAdam *)
(** Along every history with betas in [0,1) and eps > 0: parameters on their manifolds,
    first moments tangent, second moments and AMSGrad maxima nonnegative. *)
Theorem C57_invariant : forall (on : manifold -> vec -> Prop) (tan : manifold -> vec -> vec -> Prop) (blk : manifold -> nat -> nat -> Prop) o o',
  let law p := lawful (manifold_of p) (on (manifold_of p)) (tan (manifold_of p)) /\
               blocked (manifold_of p) (on (manifold_of p)) (tan (manifold_of p)) (blk (manifold_of p)) in
  adam_history (fun p => law p /\ on (manifold_of p) (val p))
    (adam_all (fun h _ => 0 <= beta1 h < 1 /\ 0 <= beta2 h < 1 /\ 0 < eps h)) o o' ->
  adam_all (fun _ p => law p /\ on (manifold_of p) (val p) /\ fresh p) o ->
  adam_all (fun _ p => on (manifold_of p) (val p) /\ forall s, state p = Some s ->
    tan (manifold_of p) (val p) (exp_avg s) /\ (forall i, 0 <= exp_avg_sq s i) /\
    (forall mx, max_exp_avg_sq s = Some mx -> forall i, 0 <= mx i)) o'.
Proof. exact (adam_from_fresh). Qed.
Print Assumptions C57_invariant.

(** In any such state the step is defined and its direction tangent. *)
Theorem C57_step_defined : forall (on : manifold -> vec -> Prop) (tan : manifold -> vec -> vec -> Prop) (blk : manifold -> nat -> nat -> Prop) h p g,
  0 <= beta1 h < 1 /\ 0 <= beta2 h < 1 /\ 0 < eps h ->
  lawful (manifold_of p) (on (manifold_of p)) (tan (manifold_of p)) ->
  blocked (manifold_of p) (on (manifold_of p)) (tan (manifold_of p)) (blk (manifold_of p)) ->
  on (manifold_of p) (val p) ->
  (forall s, state p = Some s -> tan (manifold_of p) (val p) (exp_avg s) /\
    (forall i, 0 <= exp_avg_sq s i) /\ (forall i j, blk (manifold_of p) i j -> exp_avg_sq s i = exp_avg_sq s j) /\
    (forall mx, max_exp_avg_sq s = Some mx -> (forall i, 0 <= mx i) /\ (forall i j, blk (manifold_of p) i j -> mx i = mx j))) ->
  let s := adam_init h (state p) in
  let r := egrad2rgrad (manifold_of p) (val p) (vadd g (smul (a_decay h) (val p))) in
  let m := first_moment h (exp_avg s) r in
  let v := second_moment h (exp_avg_sq s) (component_inner (manifold_of p) (val p) r) in
  let n := S (count s) in
  (0 < bias_correction (beta1 h) n <= 1) /\ (0 < bias_correction (beta2 h) n <= 1) /\
  (forall i, 0 <= v i) /\ (forall i, eps h <= denominator h n v i) /\ tan (manifold_of p) (val p) (adam_direction h n m v) /\
  forall mx, max_exp_avg_sq s = Some mx ->
    (forall i, eps h <= denominator h n (vmax mx v) i) /\ tan (manifold_of p) (val p) (adam_direction h n m (vmax mx v)).
Proof. exact (fun on tan blk h p g V L B X S => adam_step_direction on tan blk h p g V (conj L B) (conj X S)). Qed.
Print Assumptions C57_step_defined.

Theorem C57_counts_gradients : forall h p q, adam_update h p = (q, Ok) ->
  match grad p with
  | Dense _ => exists s, state q = Some s /\ count s = S (match state p with Some s => count s | None => O end)
  | _ => state q = state p
  end.
Proof. exact (adam_counts). Qed.
Print Assumptions C57_counts_gradients.

(** The stored maximum is the running maximum of the second moments, so it never
    decreases. *)
Theorem C57_amsgrad_running_maximum : forall hs gs p0, (forall t, amsgrad (hs t) = true) -> fresh p0 -> forall t i,
  (forall u, (1 <= u <= t)%nat -> second_of (adam_run hs gs p0 u) i <= maximum_of (adam_run hs gs p0 t) i) /\
  (maximum_of (adam_run hs gs p0 t) i = 0 \/
   exists u, (1 <= u <= t)%nat /\ maximum_of (adam_run hs gs p0 t) i = second_of (adam_run hs gs p0 u) i) /\
  (maximum_of (adam_run hs gs p0 t) i <= maximum_of (adam_run hs gs p0 (S t)) i).
Proof. exact (ams_running). Qed.
Print Assumptions C57_amsgrad_running_maximum.

(** Turning amsgrad on for a parameter that has already been stepped raises. *)
Theorem C57_amsgrad_late_refuted : forall h p g s, amsgrad h = true -> state p = Some s -> max_exp_avg_sq s = None ->
  snd (adam_update h (set_grad (Dense g) p)) = RaisedKeyError.
Proof. exact (ams_late). Qed.
Print Assumptions C57_amsgrad_late_refuted.

(** ** C60: stabilisation *)
(** [group_run edit g t]: a group after t steps, edited in any way that keeps its step
    counter before each of them. *)
Theorem C60_period : forall edit g t N, (forall t g, steps (edit t g) = steps g) -> steps g = None ->
  let cur := edit t (group_run edit g t) in
  Forall (fun p => grad p <> Sparse) (params cur) -> stabilize (hyp cur) = Some (S N) ->
  params (group_run edit g (S t)) =
    map (fun p => let q := fst (sgd_update (hyp cur) p) in if (S t mod S N =? 0)%nat then sgd_stabilize (hyp cur) q else q) (params cur).
Proof. exact (run_period). Qed.
Print Assumptions C60_period.

Theorem C60_never : forall edit g t, let cur := edit t (group_run edit g t) in
  Forall (fun p => grad p <> Sparse) (params cur) -> stabilize (hyp cur) = None ->
  params (group_run edit g (S t)) = map (fun p => fst (sgd_update (hyp cur) p)) (params cur).
Proof. exact (run_never). Qed.
Print Assumptions C60_never.

(** Stabilising replaces a manifold parameter by its projection (with or without
    gradient) and its buffer by the projection at the new point. *)
Theorem C60_projected : forall h p M, man p = Some M -> val (sgd_stabilize h p) = projx M (val p) /\
  forall b, has_momentum h = true -> state p = Some b -> state (sgd_stabilize h p) = Some (proju M (projx M (val p)) b).
Proof. exact (stabilized). Qed.
Print Assumptions C60_projected.

Theorem C60_plain_untouched : forall h p, man p = None -> sgd_stabilize h p = p.
Proof. exact (plain_stabilize). Qed.
Print Assumptions C60_plain_untouched.

Theorem C60_zero_raises_refuted : forall g, Forall (fun p => grad p <> Sparse) (params g) -> stabilize (hyp g) = Some O ->
  snd (sgd_step_group g) = RaisedZeroDivisionError.
Proof. exact (stabilize_zero). Qed.
Print Assumptions C60_zero_raises_refuted.

(** Adam: the whole group is stabilised exactly when some parameter that has a gradient
    has seen a multiple of N gradients. *)
Theorem C60_adam : forall g ps N, a_stabilize (a_hyp g) = Some (S N) -> loop (adam_visit (a_hyp g)) (a_params g) = (ps, Ok) ->
  adam_step_group g = ({| a_hyp := a_hyp g; a_params := map (fun p =>
    if existsb (fun q => match grad q, state q with Dense _, Some s => count s mod S N =? 0 | _, _ => false end)%nat ps
    then adam_stabilize p else p) ps |}, Ok).
Proof. exact (adam_stab_exact). Qed.
Print Assumptions C60_adam.

(** ** C83: a step writes into p.grad *)
Theorem C83_sgd_grad_contents : forall h p g, grad p = Dense g -> grad (fst (sgd_update h p)) =
  Dense (if has_momentum h && nesterov h && egrad_same (manifold_of p) then sgd_direction h (manifold_of p) (val p) g (state p)
         else egrad_arg (manifold_of p) (val p) (decayed h (val p) g)).
Proof. exact (grad_after). Qed.
Print Assumptions C83_sgd_grad_contents.

Theorem C83_kept_without_decay : forall h p g, grad p = Dense g -> weight_decay h = 0 ->
  egrad_arg (manifold_of p) (val p) g = g -> nesterov h = false -> grad (fst (sgd_update h p)) = Dense g.
Proof. exact (decay_kept). Qed.
Print Assumptions C83_kept_without_decay.

Theorem C83_weight_decay_refuted : ~ forall h p, grad (fst (sgd_update h p)) = grad p.
Proof. exact (fun H => const_ne 1 0 R1_neq_R0 (eq_trans (eq_sym decay_changes) (H h_decay (plain (fun _ => 2) None (Dense (fun _ => 0)))))). Qed.
Print Assumptions C83_weight_decay_refuted.

(** Stepping twice on one gradient applies weight decay twice in the second step. *)
Theorem C83_decay_accumulates : forall h x g, momentum h = 0 ->
  let p1 := fst (sgd_update h (plain x None (Dense g))) in
  let p2 := fst (sgd_update h p1) in
  forall i, val p2 i = val p1 i - lr h * (g i + weight_decay h * x i + weight_decay h * val p1 i).
Proof. exact (two_steps_accumulate). Qed.
Print Assumptions C83_decay_accumulates.

(** ** C84: RiemannianAdam on plain parameters is torch.optim.Adam *)
Theorem C84_adam : forall hs ams, (forall t, 0 <= beta2 (hs t) < 1) -> (forall t, amsgrad (hs t) = ams) -> forall gs x0 t,
  adam_values (adam_train hs gs x0 t) = [r_x (ref_adam_train hs gs x0 t)].
Proof. exact (fun hs ams V A gs x0 t => eq_trans (atrain_values hs gs x0 t) (f_equal (fun x => [x]) (proj1 (adam_same hs ams V A gs x0 t)))). Qed.
Print Assumptions C84_adam.

