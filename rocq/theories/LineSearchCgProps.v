(** Property C115: the search directions of RiemannianLineSearch. *)
From Coq Require Import Reals List Bool Arith.
From Verif Require Import RVec LineSearchModel LineSearchSpec LineSearchCgSpec LineSearchInstances LineSearchCg LineSearchCgInst.
Import ListNotations.
Local Open Scope R_scope.

(** ** C115: conjugate gradient directions *)
(** The first step goes down the gradient. *)
Theorem C115_first : forall dot_all closure cd tg td cg fallback stab, all_gradients closure ->
  forall meth force recompute no_step l r o', Forall (fun p => s_dir p = None) l ->
  step dot_all closure cd tg td cg fallback stab meth force recompute no_step (new_opt l) = (LOk r, o') ->
  map at_d (observed dot_all (new_opt l) o') = steepest (observed dot_all (new_opt l) o').
Proof. exact (first_dirs). Qed.
Print Assumptions C115_first.

(** After a step of size [a] from o to o1, the step from o1 to o2 uses the directions of
    scale beta, for the constant scale ... *)
Theorem C115_constant : forall dot_all closure cd tg td fallback stab, all_gradients closure ->
  forall meth, (forall phi0 s a b c, ends_on (fun _ _ => True) [] None (meth phi0 s a b c)) ->
  forall recompute o r o1 a, Forall (fun p => l_requires p = true) (ps o) -> forall alpha,
  step dot_all closure cd tg td (cg_constant alpha) fallback stab meth false recompute false o = (LOk r, o1) -> last_size o1 = Some a ->
  td = true \/ cd = true /\ Forall2 (fun p q => agrees dot_all (set_val (l_val p) q)) (ps o) (ps o1) ->
  forall meth' force' recompute' no_step' r' o2,
  step dot_all closure cd tg td (cg_constant alpha) fallback stab meth' force' recompute' no_step' o1 = (LOk r', o2) ->
  follows alpha a (observed dot_all o o1) (observed dot_all o1 o2).
Proof. exact (fun d c cd tg td f st T meth Hm rc o r o1 a Rq alpha H1 L Ag m' f' rc' ns' r' o2 H2 =>
  second_constant d c cd tg td (cg_constant alpha) f st T meth (fun _ _ _ _ => True) Hm rc o r o1 a Rq H1 L Ag m' f' rc' ns' r' o2 H2 alpha eq_refl). Qed.
Print Assumptions C115_constant.

(** ... for Fletcher-Reeves, whose denominator is the old gradients at the new points ... *)
Theorem C115_fletcher_reeves : forall dot_all closure cd tg td fallback stab, all_gradients closure ->
  forall meth, (forall phi0 s a b c, ends_on (fun _ _ => True) [] None (meth phi0 s a b c)) ->
  forall recompute o r o1 a, Forall (fun p => l_requires p = true) (ps o) -> let cg := cg_fletcher_reeves dot_all in
  step dot_all closure cd tg td cg fallback stab meth false recompute false o = (LOk r, o1) -> last_size o1 = Some a ->
  td = true \/ cd = true /\ Forall2 (fun p q => agrees dot_all (set_val (l_val p) q)) (ps o) (ps o1) ->
  forall meth' force' recompute' no_step' r' o2,
  step dot_all closure cd tg td cg fallback stab meth' force' recompute' no_step' o1 = (LOk r', o2) ->
  let prev := observed dot_all o o1 in let cur := observed dot_all o1 o2 in
  exists beta, is_ratio beta (norm2 cur) (norm2_moved prev cur) /\ follows beta a prev cur.
Proof. exact (fun d c cd tg td f st T meth Hm rc o r o1 a Rq H1 L Ag m' f' rc' ns' r' o2 H2 =>
  second_fletcher_reeves d c cd tg td (cg_fletcher_reeves d) f st T meth (fun _ _ _ _ => True) Hm rc o r o1 a Rq H1 L Ag m' f' rc' ns' r' o2 H2 eq_refl). Qed.
Print Assumptions C115_fletcher_reeves.

(** ... and for Polak-Ribiere, with the settings the constructor chooses for it. *)
Theorem C115_polak_ribiere : forall dot_all closure cd tg td fallback stab ls c t d, all_gradients closure ->
  settings ls PolakRibiere c t d = LOk (cd, tg, td) ->
  forall meth, (forall phi0 s a b c, ends_on (fun _ _ => True) [] None (meth phi0 s a b c)) ->
  forall recompute o r o1 a, Forall (fun p => l_requires p = true) (ps o) -> let cg := cg_polak_ribiere dot_all in
  step dot_all closure cd tg td cg fallback stab meth false recompute false o = (LOk r, o1) -> last_size o1 = Some a ->
  td = true \/ cd = true /\ Forall2 (fun p q => agrees dot_all (set_val (l_val p) q)) (ps o) (ps o1) ->
  forall meth' force' recompute' no_step' r' o2,
  step dot_all closure cd tg td cg fallback stab meth' force' recompute' no_step' o1 = (LOk r', o2) ->
  let prev := observed dot_all o o1 in let cur := observed dot_all o1 o2 in
  exists beta, is_ratio beta (change a prev cur) (norm2_moved prev cur) /\ follows beta a prev cur.
Proof. exact (fun dt cl cd tg td f st ls c t d T S meth Hm rc o r o1 a Rq H1 L Ag m' f' rc' ns' r' o2 H2 =>
  second_polak_ribiere dt cl cd tg td (cg_polak_ribiere dt) f st T meth (fun _ _ _ _ => True) Hm rc o r o1 a Rq H1 L Ag m' f' rc' ns' r' o2 H2
    (settings_polak ls c t d cd tg td S) eq_refl). Qed.
Print Assumptions C115_polak_ribiere.

(** With a metric that is the same at every point the denominator is the documented
    < grad f(x), grad f(x) >_x. *)
Theorem C115_documented : forall dot_all closure cd tg td cg fallback stab, all_gradients closure ->
  forall meth, (forall phi0 s a b c, ends_on (fun _ _ => True) [] None (meth phi0 s a b c)) ->
  forall recompute o r o1 a, Forall (fun p => l_requires p = true) (ps o) ->
  step dot_all closure cd tg td cg fallback stab meth false recompute false o = (LOk r, o1) -> last_size o1 = Some a ->
  td = true \/ cd = true /\ Forall2 (fun p q => agrees dot_all (set_val (l_val p) q)) (ps o) (ps o1) ->
  forall meth' force' recompute' no_step' r' o2,
  step dot_all closure cd tg td cg fallback stab meth' force' recompute' no_step' o1 = (LOk r', o2) ->
  let prev := observed dot_all o o1 in let cur := observed dot_all o1 o2 in
  Forall (fun s => uniform (at_man s)) prev -> norm2_moved prev cur = norm2 prev.
Proof. exact (fun d c cd tg td cg f st T meth Hm => moved_uniform d c cd tg td cg f st T meth (fun _ _ _ _ => True) Hm). Qed.
Print Assumptions C115_documented.

(** Not otherwise: with cg_method="fr" on 1x1 SPD matrices, minimising x from x = 1 with
    unit steps, the second direction is not the one of the documented scale. *)
Theorem C115_documented_refuted : exists r1 o1 r2 o2,
  settings Armijo FletcherReeves true false true = LOk (false, false, true) /\
  step dot1 linear false false true (cg_fletcher_reeves dot1) 1 None unit_step false false false positive = (LOk r1, o1) /\
  step dot1 linear false false true (cg_fletcher_reeves dot1) 1 None unit_step false false false o1 = (LOk r2, o2) /\
  forall beta, is_ratio beta (norm2 (observed dot1 o1 o2)) (norm2 (observed dot1 positive o1)) ->
    ~ follows beta 1 (observed dot1 positive o1) (observed dot1 o1 o2).
Proof. exact (match positive_scale with ex_intro _ r (ex_intro _ o2 (conj A B)) =>
  ex_intro _ _ (ex_intro _ _ (ex_intro _ r (ex_intro _ o2 (conj eq_refl (conj positive_first (conj A B)))))) end). Qed.
Print Assumptions C115_documented_refuted.

Example two_steps_case : all_gradients linear /\ (forall phi0 s a b c, ends_on (fun _ _ => True) [] None (unit_step phi0 s a b c)) /\
  Forall (fun p => l_requires p = true) (ps positive) /\ one_step unit_step positive = (LOk (Some (1 / 2)), halfway) /\
  exists r o2, one_step unit_step halfway = (LOk r, o2).
Proof. exact (positive_case). Qed.
Example uniform_case : uniform (l_euclidean dot1).
Proof. exact (euclidean_uniform). Qed.
