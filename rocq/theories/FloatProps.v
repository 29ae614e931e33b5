(** C126-C129: floating-point behaviour of the guarded functions.

    Everything here is about IEEE 754 numbers of either dtype; [log], [tanh] and [acos] are any
    functions that meet the contracts of FloatSpec (FloatInst has some). *)
From Coq Require Import ZArith Reals List Bool.
From Flocq Require Import Core IEEE754.BinarySingleNaN.
From Verif Require Import FloatModel FloatSpec FloatMain FloatInst.
Import ListNotations.
Open Scope R_scope.

(** * C126: guards exclude NaN and infinity *)
Theorem C126_artanh : forall log, log_ok log -> forall d (x : float d), not_nan x ->
  finite (artanh log x) /\ Rabs (val (artanh log x)) <= 25.
Proof. exact q_artanh. Qed.
Print Assumptions C126_artanh.

Theorem C126_artanh_odd : forall log, log_ok log -> forall d (x : float d), finite x ->
  val (artanh log (opp x)) = - val (artanh log x) /\ (0 <= val x -> 0 <= val (artanh log x)).
Proof. exact q_artanh_odd. Qed.
Print Assumptions C126_artanh_odd.

Theorem C126_tan_k : forall tanh, tanh_ok tanh -> forall d (x k : float d), not_nan x -> finite k -> val k < 0 ->
  finite (tan_k tanh x k) /\ Rabs (val (tan_k tanh x k)) * sqrt (- val k) <= 1 + / 1000000.
Proof. exact q_tan_k. Qed.
Print Assumptions C126_tan_k.

(** The distance is computed from the norm of a difference, which may have overflowed. *)
Theorem C126_dist : forall log, log_ok log -> forall d (norm k : float d),
  norm = infinity \/ finite norm /\ 0 <= val norm -> finite k ->
  finite (stereo_dist log norm k) /\ 0 <= val (stereo_dist log norm k).
Proof. exact q_dist. Qed.
Print Assumptions C126_dist.

Theorem C126_guarded_div : forall d (num denom : float d), finite num -> not_nan denom ->
  not_nan (guarded_div num denom).
Proof. exact q_guarded_div. Qed.
Print Assumptions C126_guarded_div.

Theorem C126_sphere_dist : forall acos, acos_ok acos -> forall d (inner : float d), not_nan inner ->
  finite (sphere_dist acos inner) /\ 0 < val (sphere_dist acos inner).
Proof. exact q_sphere_dist. Qed.
Print Assumptions C126_sphere_dist.

(** The guards do not distort ordinary arguments. *)
Theorem C126_artanh_accuracy : forall log, log_ok log -> forall d (x : float d),
  finite x -> Rabs (val x) <= 1 - / 1000000 ->
  Rabs (val (artanh log x) - atanh (val x)) <= Rabs (atanh (val x)) / 1000 + / 1000000.
Proof. exact q_artanh_acc. Qed.
Print Assumptions C126_artanh_accuracy.

Theorem C126_tan_k_accuracy : forall tanh, tanh_ok tanh -> forall d (x k : float d),
  finite x -> moderate k -> val k < 0 -> Rabs (val x) <= 1000000 ->
  Rabs (val (tan_k tanh x k) * sqrt (- val k) - Rtrigo_def.tanh (val x * sqrt (- val k))) <= / 200.
Proof. exact q_tan_k_acc. Qed.
Print Assumptions C126_tan_k_accuracy.

Theorem C126_dist_accuracy : forall log, log_ok log -> forall d (norm k : float d),
  finite norm -> moderate k -> val k < 0 -> Rabs (val norm) * sqrt (- val k) <= 9 / 10 ->
  Rabs (val (artan_k log norm k) * sqrt (- val k) - atanh (val norm * sqrt (- val k))) <= / 200 /\
  Rabs (val (stereo_dist log norm k) * sqrt (- val k) - 2 * atanh (val norm * sqrt (- val k))) <= / 90.
Proof. exact q_dist_acc. Qed.
Print Assumptions C126_dist_accuracy.

Theorem C126_guarded_div_exact : forall d (num denom : float d), finite num -> finite denom ->
  / 999999900000000 <= val denom -> Rabs (val num / val denom) <= bpow radix2 (emax d - 1) ->
  val (guarded_div num denom) =
  round radix2 (FLT_exp (3 - emax d - prec d) (prec d)) ZnearestE (val num / val denom).
Proof. exact q_guarded_div_acc. Qed.
Print Assumptions C126_guarded_div_exact.

Theorem C126_sphere_dist_accuracy : forall acos, acos_ok acos -> forall d (inner : float d),
  finite inner -> Rabs (val inner) <= 999 / 1000 ->
  Rabs (val (sphere_dist acos inner) - Ratan.acos (val inner)) <= Ratan.acos (val inner) / 1024.
Proof. exact q_sphere_dist_acc. Qed.
Print Assumptions C126_sphere_dist_accuracy.

(** A NaN is not hidden. *)
Theorem C126_nan : forall log tanh acos d (k : float d), (forall d, log d B754_nan = B754_nan) ->
  (forall d, tanh d B754_nan = B754_nan) -> (forall d, acos d B754_nan = B754_nan) ->
  artanh log (B754_nan : float d) = B754_nan /\ tan_k tanh B754_nan k = B754_nan /\
  stereo_dist log B754_nan k = B754_nan /\ sphere_dist acos (B754_nan : float d) = B754_nan.
Proof. exact q_nan. Qed.
Print Assumptions C126_nan.

Example C126_hypotheses : log_ok log_r /\ tanh_ok tanh_r /\ acos_ok acos_r /\
  not_nan (infinity : float float32) /\ moderate (of_Z (-1) : float float32) /\ val (of_Z (-1) : float float32) < 0.
Proof. exact (conj log_r_ok (conj tanh_r_ok (conj acos_r_ok (conj eq_refl minus_one_ok)))). Qed.

(** * C127: project puts every row strictly inside the ball *)
Theorem C127_project : forall d (x : list (float d)) (n k : float d),
  Forall finite x -> (Z.of_nat (length x) <= 2 ^ 64)%Z -> norm_ok x n ->
  finite k -> val k < 0 -> in_ball k (project x n k).
Proof. exact q_project. Qed.
Print Assumptions C127_project.

(** Rows inside the ball up to the margin are not moved. *)
Theorem C127_inside : forall d (x : list (float d)) (n k : float d),
  finite n -> moderate k -> val k < 0 -> val n * sqrt (- val k) <= 1 - margin d -> project x n k = x.
Proof. exact q_inside. Qed.
Print Assumptions C127_inside.

(** Rows outside keep their direction and are put next to the boundary: the result times the
    root of the curvature is the unit vector of the row. *)
Theorem C127_outside : forall d (x : list (float d)) (n k : float d),
  Forall finite x -> finite n -> moderate k -> val k < 0 ->
  1 < val n * sqrt (- val k) -> Forall (fun xi => Rabs (val xi) <= 2 * val n) x ->
  Forall2 (fun xi yi => Rabs (val yi * sqrt (- val k) - val xi / val n) <= / 80) x (project x n k).
Proof. exact q_outside. Qed.
Print Assumptions C127_outside.

Example C127_hypotheses : Forall finite row34 /\ (Z.of_nat (length row34) <= 2 ^ 64)%Z /\
  norm_ok row34 (of_Z 5) /\ norm_ok row34 infinity /\ finite (of_Z (-1) : float float32) /\
  val (of_Z (-1) : float float32) < 0 /\ ~ norm row34 < / sqrt (- val (of_Z (-1) : float float32)).
Proof. exact row34_ok. Qed.

(** * C128: the inverse hyperbolic sine *)
Theorem C128_positive : forall log, log_ok log -> forall d (x : float d),
  finite x -> 0 <= val x <= bpow radix2 (emax d / 2 - 1) ->
  finite (arsinh log x) /\ 0 <= val (arsinh log x) /\
  Rabs (val (arsinh log x) - arcsinh (val x)) <= arcsinh (val x) / 1024 + / 1000000.
Proof. exact q_arsinh_positive. Qed.
Print Assumptions C128_positive.

(** For large negative numbers the sum cancels: the result does not depend on x. *)
Theorem C128_negative : forall log, log_ok log -> forall d (x : float d),
  finite x -> - bpow radix2 (emax d / 2 - 1) <= val x <= - large d ->
  arsinh log x = log d (cast e15) /\ val (arsinh log x) <= -32.
Proof. exact q_arsinh_negative. Qed.
Print Assumptions C128_negative.

(** arsin_k, the last step of signed plane distances, is constant there. *)
Theorem C128_arsin_k : forall log, log_ok log -> forall d (x y k : float d),
  finite x -> finite y -> moderate k -> val k < 0 ->
  Rabs (val x) <= 1000000 -> Rabs (val y) <= 1000000 ->
  val x * sqrt (- val k) <= - (large d * (1001 / 1000)) ->
  val y * sqrt (- val k) <= - (large d * (1001 / 1000)) -> arsin_k log x k = arsin_k log y k.
Proof. exact q_arsin_k. Qed.
Print Assumptions C128_arsin_k.

Theorem C128_odd_refuted : forall log, log_ok log -> forall d, exists x : float d,
  finite x /\ finite (arsinh log x) /\ finite (arsinh log (opp x)) /\
  val (arsinh log x) + val (arsinh log (opp x)) <= -9.
Proof. exact q_arsinh_odd. Qed.
Print Assumptions C128_odd_refuted.

Theorem C128_overflow : forall log, log_ok log -> forall d (x : float d),
  finite x -> bpow radix2 (emax d / 2) <= Rabs (val x) -> arsinh log x = infinity.
Proof. exact q_arsinh_overflow. Qed.
Print Assumptions C128_overflow.

(** * C129: Lorentz distances *)
Theorem C129_nonneg : forall log, log_ok log -> forall d (x : float d),
  finite x -> 1 <= val x <= bpow radix2 100 -> finite (arcosh log x) /\ 0 <= val (arcosh log x).
Proof. exact q_arcosh. Qed.
Print Assumptions C129_nonneg.

Theorem C129_accuracy : forall log, log_ok log -> forall d (x : float d),
  finite x -> 1 <= val x <= bpow radix2 100 ->
  Rabs (val (arcosh log x) - acosh (val x)) <= acosh (val x) / 1000 + / 1000000.
Proof. exact q_arcosh_acc. Qed.
Print Assumptions C129_accuracy.

(** An argument that overflowed gives an infinite distance. *)
Theorem C129_overflow : forall log, log_ok log -> forall d, arcosh log (infinity : float d) = infinity.
Proof. exact (fun log H d => proj1 (q_arcosh_inf log H d)). Qed.
Print Assumptions C129_overflow.

(** A point far from the origin has a negative distance to itself. *)
Theorem C129_self_dist : forall log, log_ok log -> forall d (x0 x1 : float d),
  finite x1 -> large d <= Rabs (val x1) <= bpow radix2 (emax d / 2 - 1) ->
  let p := lorentz_project (x0, x1) (of_Z 1) in
  finite (lorentz_dist log p p (of_Z 1)) /\ val (lorentz_dist log p p (of_Z 1)) <= -15.
Proof. exact q_lorentz. Qed.
Print Assumptions C129_self_dist.

Theorem C129_dist_nonneg_refuted : forall log, log_ok log -> forall d, exists x : float d * float d,
  finite (fst x) /\ finite (snd x) /\ x = lorentz_project x (of_Z 1) /\
  val (lorentz_dist log x x (of_Z 1)) < 0.
Proof. exact q_lorentz_refuted. Qed.
Print Assumptions C129_dist_nonneg_refuted.
