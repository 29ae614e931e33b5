(** Properties C61-C64, C86-C89: RiemannianLineSearch.
    [closure] is any function of the parameter values returning the loss and the
    gradients; a [method] is any finite interaction with phi and derphi. *)
From Coq Require Import Reals List Bool Arith Lra.
From Verif Require Import RVec LineSearchModel LineSearchSpec LineSearchProofs LineSearchProofs2 LineSearchProofs3
  LineSearchProofs4 LineSearchProofs5 LineSearchInstances.
Import ListNotations.
Local Open Scope R_scope.

(** A closure with all gradients, an optimizer with a direction and an inner product as
    the theorems below require. *)
Example square_case : all_gradients square /\ directed (ps (aimed 0 1)) /\ dict (aimed 0 1) = [] /\
  Forall (agrees dot1) (ps (aimed 0 1)) /\ definite (l_euclidean dot1).
Proof. exact (conj square_total (conj (aimed_directed 0 1) (conj eq_refl (conj (aimed_agrees 0 1) dot1_definite)))). Qed.

(** ** C61: trial evaluations *)
Theorem C61_unchanged : forall dot_all closure cd, all_gradients closure -> forall qs o,
  directed (ps o) -> dict o = [] -> allowed cd qs ->
  exists vs o', ask_all dot_all closure cd qs o = (LOk vs, o') /\
    map l_val (ps o') = map l_val (ps o) /\ map s_dir (ps o') = map s_dir (ps o) /\ map l_man (ps o') = map l_man (ps o).
Proof. exact (trials_unchanged). Qed.
Print Assumptions C61_unchanged.

(** Every phi(a) is f(R_x(a * eta)), and the closure is called at exactly the points of
    the distinct steps asked for, once each. *)
Theorem C61_values : forall dot_all closure cd, all_gradients closure -> forall qs o vs o',
  directed (ps o) -> dict o = [] -> cd = false \/ Forall (agrees dot_all) (ps o) ->
  ask_all dot_all closure cd qs o = (LOk vs, o') -> allowed cd qs ->
  Forall2 (fun q v => forall a, q = QPhi a -> v = objective dot_all closure (ps o) a) qs vs /\
  calls o' = calls o ++ map (fun a => map (reach dot_all a) (ps o)) (distinct [] (map step_of qs)).
Proof. exact (trials_values). Qed.
Print Assumptions C61_values.

(** The state a method starts from satisfies these hypotheses, whatever the history. *)
Theorem C61_start : forall dot_all closure cg, all_gradients closure -> forall recompute o phi0 s o1,
  init_loss dot_all closure cg recompute o = (LOk (phi0, s), o1) ->
  directed (ps o1) /\ dict o1 = [] /\ map l_val (ps o1) = map l_val (ps o).
Proof. exact (fun d c g T rc o f s o1 H => match init_ok d c g T rc o f s o1 H with
    conj B (conj D (conj _ (conj _ (conj _ (conj _ (conj _ (conj E _))))))) => conj D (conj E (base_val _ _ B)) end). Qed.
Print Assumptions C61_start.

(** ** C62: the derivative *)
(** derphi answers for the step evaluated last, not for the one asked. *)
Theorem C62_exact : forall dot_all closure cd, all_gradients closure -> forall qs o vs o1 a,
  directed (ps o) -> dict o = [] -> Forall (agrees dot_all) (ps o) -> cd = true ->
  ask_all dot_all closure cd qs o = (LOk vs, o1) ->
  exists o2, derphi dot_all closure cd a o1 =
    (LOk (derivative dot_all closure (ps o) (last (distinct [] (map step_of qs ++ [a])) a)), o2).
Proof. exact (slope_latest). Qed.
Print Assumptions C62_exact.

Theorem C62_new_step : forall dot_all closure cd, all_gradients closure -> forall qs o vs o1 a,
  directed (ps o) -> dict o = [] -> Forall (agrees dot_all) (ps o) -> cd = true ->
  ask_all dot_all closure cd qs o = (LOk vs, o1) -> ~ In a (map step_of qs) ->
  exists o2, derphi dot_all closure cd a o1 = (LOk (derivative dot_all closure (ps o) a), o2).
Proof. exact (slope_fresh). Qed.
Print Assumptions C62_new_step.

(** phi(1), phi(2), derphi(1) on x^2 along x = 0 + a: 4 instead of 2. *)
Theorem C62_refuted : exists vs o1 o2, ask_all dot1 square true [QPhi 1; QPhi 2] (aimed 0 1) = (LOk vs, o1) /\
  (exists v, derphi dot1 square true 1 o1 = (LOk v, o2) /\ v = 4) /\
  derivative dot1 square (ps (aimed 0 1)) 1 = 2.
Proof. exact (slope_stale). Qed.
Print Assumptions C62_refuted.

(** ** C63: the loss of the accepted point *)
(** Methods that answer the step they evaluated last (Armijo, Wolfe): the returned and
    stored loss is the closure at the new parameters; without a step nothing moves. *)
Theorem C63_last : forall dot_all closure cd tg td cg fallback stab, all_gradients closure ->
  forall meth, (forall phi0 s a b c, ends_on (fun _ _ => True) [] None (meth phi0 s a b c)) ->
  forall recompute o r o', Forall (fun p => l_requires p = true) (ps o) ->
  step dot_all closure cd tg td cg fallback stab meth false recompute false o = (LOk r, o') ->
  (forall a, last_size o' = Some a -> r = Some (fst (closure (map l_val (ps o')))) /\ prev_loss o' = r) /\
  (last_size o' = None -> map l_val (ps o') = map l_val (ps o) /\ r = prev_loss o /\ prev_loss o' = r).
Proof. exact (fun d c cd tg td cg f st T meth Hm => step_loss d c cd tg td cg f st T meth (fun _ _ _ _ => True) Hm). Qed.
Print Assumptions C63_last.

(** The new parameters are R_x(a * eta) for the recorded direction. *)
Theorem C63_point : forall dot_all closure cd tg td cg fallback stab, all_gradients closure ->
  forall meth, (forall phi0 s a b c, ends_on (fun _ _ => True) [] None (meth phi0 s a b c)) ->
  forall recompute o r o' a, Forall (fun p => l_requires p = true) (ps o) ->
  cd = false \/ Forall2 (fun p q => agrees dot_all (set_val (l_val p) q)) (ps o) (ps o') ->
  step dot_all closure cd tg td cg fallback stab meth false recompute false o = (LOk r, o') -> last_size o' = Some a ->
  Forall2 (fun p q => l_val q = reach dot_all a (set_val (l_val p) q)) (ps o) (ps o').
Proof. exact (fun d c cd tg td cg f st T meth Hm => step_point d c cd tg td cg f st T meth (fun _ _ _ _ => True) Hm). Qed.
Print Assumptions C63_point.

(** Methods that answer any step they evaluated. *)
Theorem C63_tried : forall dot_all closure cd tg td cg fallback stab, all_gradients closure ->
  forall meth force recompute o r o' a, (forall phi0 s a b c, answers_asked [] (meth phi0 s a b c)) ->
  Forall (fun p => l_requires p = true) (ps o) ->
  cd = false \/ Forall2 (fun p q => agrees dot_all (set_val (l_val p) q)) (ps o) (ps o') ->
  step dot_all closure cd tg td cg fallback stab meth force recompute false o = (LOk r, o') -> last_size o' = Some a ->
  r = Some (fst (closure (map l_val (ps o')))) /\ prev_loss o' = r /\
  Forall2 (fun p q => l_val q = reach dot_all a (set_val (l_val p) q)) (ps o) (ps o').
Proof. exact (step_tried). Qed.
Print Assumptions C63_tried.

(** A step that was not evaluated: the parameters are right, the loss is that of a second
    step of the same size from the new parameters. *)
Theorem C63_untried : forall dot_all closure cd tg td cg fallback stab, all_gradients closure ->
  forall a force recompute o r o', last_try o <> Some a -> Forall (fun p => l_requires p = true) (ps o) ->
  cd = false \/ Forall (agrees dot_all) (ps o') ->
  step dot_all closure cd tg td cg fallback stab (fun _ _ _ _ _ => Answer (Some a)) force recompute false o = (LOk r, o') ->
  r = Some (objective dot_all closure (ps o') a) /\
  Forall2 (fun p q => l_val q = reach dot_all a (set_val (l_val p) q)) (ps o) (ps o').
Proof. exact (step_untried). Qed.
Print Assumptions C63_untried.

Theorem C63_untried_refuted : exists o' v, step dot1 square false false false (cg_constant 0) 1 None
    (fun _ _ _ _ _ => Answer (Some (1 / 4))) false false false start = (LOk (Some v), o') /\
  v = 0 /\ fst (square (map l_val (ps o'))) = 1 / 4.
Proof. exact (untried). Qed.
Print Assumptions C63_untried_refuted.

Example accepted_case : exists o' v, step dot1 square true false false (cg_constant 0) 1 None (try_once (1 / 4)) false false false start =
    (LOk (Some v), o') /\ v = 1 / 4 /\ fst (square (map l_val (ps o'))) = 1 / 4 /\ last_size o' = Some (1 / 4).
Proof. exact (accepted). Qed.

(** ** C64: descent *)
(** Whatever the scale parameter [cg]: the slope handed to the method is the inner
    product of the recorded gradient and direction at the old parameters, it is not
    positive, and it vanishes only with the gradient. *)
Theorem C64_descent : forall dot_all closure cd tg td cg fallback stab, all_gradients closure ->
  forall meth force recompute no_step o r o', Forall (fun p => definite (man_of dot_all p)) (ps o) ->
  step dot_all closure cd tg td cg fallback stab meth force recompute no_step o = (LOk r, o') ->
  exists s, old_derphi0 o' = Some s /\ s <= 0 /\
    s = total (zip_with (fun x p => l_inner (man_of dot_all p) x (grad_of p) (dir_of p)) (map l_val (ps o)) (ps o')) /\
    (s = 0 -> Forall (fun t => t = 0)
       (zip_with (fun x p => l_inner (man_of dot_all p) x (grad_of p) (grad_of p)) (map l_val (ps o)) (ps o'))).
Proof. exact (step_descends). Qed.
Print Assumptions C64_descent.

(** ** C86: reused gradients *)
(** In any run every step starts from the true loss and the true Riemannian gradients of
    its parameters, although the closure is usually not called again. *)
Theorem C86_true_gradients : forall dot_all closure cd tg td cg fallback stab, all_gradients closure ->
  forall meth, (forall phi0 s a b c, ends_on (fun _ _ => True) [] None (meth phi0 s a b c)) -> evaluates meth ->
  forall l o recompute r o', Forall (fun p => l_requires p = true) l ->
  runs (fun rc => step dot_all closure cd tg td cg fallback stab meth false rc false) (new_opt l) o ->
  step dot_all closure cd tg td cg fallback stab meth false recompute false o = (LOk r, o') ->
  old_phi0 o' = Some (fst (closure (map l_val (ps o)))) /\ map s_grad (ps o') = gradients dot_all closure (ps o).
Proof. exact (fun d c cd tg td cg f st T meth Hm He => runs_new d c cd tg td cg f st T meth (fun _ _ _ _ => True) Hm He). Qed.
Print Assumptions C86_true_gradients.

(** Not so after no_step=True, ... *)
Theorem C86_no_step_refuted : exists r1 o1 r2 o2,
  step dot1 square true false false (cg_constant 0) 1 None (try_once (1 / 4)) false false true start = (LOk r1, o1) /\
  step dot1 square true false false (cg_constant 0) 1 None (try_once (1 / 4)) false false false o1 = (LOk r2, o2) /\
  fst (square (map l_val (ps o1))) = 1 /\ exists v, old_phi0 o2 = Some v /\ v = 1 / 4.
Proof. exact (no_step_stale). Qed.
Print Assumptions C86_no_step_refuted.

(** ... nor for a method that answers without evaluating ... *)
Theorem C86_custom_refuted : exists r1 o1 r2 o2,
  step dot1 square true false false (cg_constant 0) 1 None (fixed (1 / 4)) false false false start = (LOk r1, o1) /\
  step dot1 square true false false (cg_constant 0) 1 None (fixed (1 / 4)) false false false o1 = (LOk r2, o2) /\
  fst (square (map l_val (ps o1))) = 1 / 4 /\ exists v, old_phi0 o2 = Some v /\ v = 0.
Proof. exact (fixed_stale). Qed.
Print Assumptions C86_custom_refuted.

(** ... and a method that gives up without evaluating makes the next step raise. *)
Theorem C86_unevaluated_refuted : exists r1 o1,
  step dot1 square true false false (cg_constant 0) 1 None (fun _ _ _ _ _ => Answer None) false false false start = (LOk r1, o1) /\
  fst (step dot1 square true false false (cg_constant 0) 1 None (fun _ _ _ _ _ => Answer None) false false false o1) = LRaise KeyErr.
Proof. exact (unevaluated_key). Qed.
Print Assumptions C86_unevaluated_refuted.

Example try_once_case : (forall phi0 s b c d, ends_on (sufficient (1 / 10000) phi0 s) [] None (try_once (1 / 4) phi0 s b c d)) /\ evaluates (try_once (1 / 4)).
Proof. exact (conj (try_once_sufficient (1 / 4) ltac:(lra)) (try_once_evaluates (1 / 4))). Qed.

(** ** C87: decrease *)
Theorem C87_monotone : forall dot_all closure cd tg td cg fallback stab, all_gradients closure ->
  forall c1 meth l o o', 0 <= c1 ->
  (forall phi0 s a b c, ends_on (sufficient c1 phi0 s) [] None (meth phi0 s a b c)) -> evaluates meth ->
  Forall (fun p => l_requires p = true) l -> Forall (fun p => definite (man_of dot_all p)) l ->
  let one := fun rc => step dot_all closure cd tg td cg fallback stab meth false rc false in
  runs one (new_opt l) o -> runs one o o' ->
  fst (closure (map l_val (ps o'))) <= fst (closure (map l_val (ps o))).
Proof. exact (runs_decrease). Qed.
Print Assumptions C87_monotone.

(** armijo_backtracking is such a method if scipy's scalar_search_armijo only answers the
    last step it evaluated, with sufficient decrease. *)
Theorem C87_armijo : forall scalar c1 amin amax, (forall b, amax = Some b -> 0 < b) ->
  (forall phi0 derphi0 alpha0, 0 < alpha0 -> ends_on (sufficient c1 (Some phi0) derphi0) [] None (scalar phi0 derphi0 c1 alpha0 amin)) ->
  forall phi0 s a b c, ends_on (sufficient c1 phi0 s) [] None (armijo_backtracking scalar c1 amin amax phi0 s a b c).
Proof. exact (armijo_sufficient). Qed.
Print Assumptions C87_armijo.

(** Its first trial step is positive and at most amax. *)
Theorem C87_first_trial : forall phi0 derphi0 old amax, (forall b, amax = Some b -> 0 < b) ->
  0 < armijo_alpha0 phi0 derphi0 old amax /\ (forall b, amax = Some b -> armijo_alpha0 phi0 derphi0 old amax <= b).
Proof. exact (alpha0_positive). Qed.
Print Assumptions C87_first_trial.

(** ** C88: stabilisation *)
(** A step at which stabilisation is due never returns if some manifold parameter
    requires grad. *)
Theorem C88_refuted : forall dot_all closure cd tg td cg fallback stab, all_gradients closure ->
  forall meth force recompute no_step o r o' N, stab = Some N -> (S (count o) mod N)%nat = 0%nat ->
  (exists p, In p (ps o) /\ l_man p <> None /\ l_requires p = true) ->
  step dot_all closure cd tg td cg fallback stab meth force recompute no_step o <> (LOk r, o').
Proof. exact (stabilize_raises). Qed.
Print Assumptions C88_refuted.

Theorem C88_count : forall dot_all closure cd tg td cg fallback stab, all_gradients closure ->
  forall meth force recompute no_step o r o',
  step dot_all closure cd tg td cg fallback stab meth force recompute no_step o = (LOk r, o') -> count o' = S (count o).
Proof. exact (step_count). Qed.
Print Assumptions C88_count.

Example stabilize_case : exists p, In p [new_param (Some (l_euclidean dot1)) (const 1) true] /\ l_man p <> None /\ l_requires p = true.
Proof. exact (ex_intro _ _ (conj (or_introl eq_refl) (conj (fun E => eq_ind (Some (l_euclidean dot1)) (fun x => match x with Some _ => True | None => False end) I None E) eq_refl))). Qed.

(** ** C89: the transported direction *)
(** When the direction is transported (compute_derphi or transport_search_direction) the
    step after one that found a step size computes its direction without error. *)
Theorem C89_transported : forall dot_all closure cd tg td cg fallback stab, all_gradients closure ->
  forall meth force recompute o r o', cd = true \/ td = true ->
  step dot_all closure cd tg td cg fallback stab meth force recompute false o = (LOk r, o') -> last_size o' <> None ->
  exists phi0 s o1, init_loss dot_all closure cg true o' = (LOk (phi0, s), o1).
Proof. exact (next_starts). Qed.
Print Assumptions C89_transported.

(** cg_method="constant" with a nonzero scale and line_search_method="armijo": the
    constructor turns both off, and the second step always raises. *)
Theorem C89_constant_refuted : forall dot_all closure cd tg td fallback stab c t d alpha, all_gradients closure ->
  settings Armijo Constant c t d = LOk (cd, tg, td) -> alpha <> 0 ->
  forall meth force recompute no_step l r o1 meth' force' recompute' no_step',
  l <> [] -> Forall (fun p => s_transported p = None) l ->
  step dot_all closure cd tg td (cg_constant alpha) fallback stab meth force recompute no_step (new_opt l) = (LOk r, o1) ->
  fst (step dot_all closure cd tg td (cg_constant alpha) fallback stab meth' force' recompute' no_step' o1) = LRaise KeyErr.
Proof. exact (constant_armijo). Qed.
Print Assumptions C89_constant_refuted.

(** Fletcher-Reeves with Armijo: the step after a first failed search raises. *)
Theorem C89_fletcher_reeves_refuted : exists r1 o1,
  settings Armijo FletcherReeves true false true = LOk (false, false, true) /\
  step dot1 square false false true (cg_fletcher_reeves dot1) 1 None try_fail false false false start = (LOk r1, o1) /\
  fst (step dot1 square false false true (cg_fletcher_reeves dot1) 1 None try_fail false false false o1) = LRaise KeyErr.
Proof. exact (match fr_key with ex_intro _ r (ex_intro _ o (conj A B)) => ex_intro _ r (ex_intro _ o (conj eq_refl (conj A B))) end). Qed.
Print Assumptions C89_fletcher_reeves_refuted.

