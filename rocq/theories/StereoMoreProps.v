(** Properties C97-C99: Moebius subtraction and coaddition, the antipode, and the series
    used for curvatures within 1e-8 of zero.  Conventions as in StereoProps.v. *)
From Coq Require Import Reals Lra List.
From Verif Require Import RVec StereoModel StereoSpec StereoTrig StereoProofs StereoProofs4
  StereoPlaneInst StereoCo StereoCoInst StereoTaylor StereoAntipode.
Local Open Scope R_scope.

(** ** C97: coaddition *)
(** Its closed form; [regular] says that a Moebius denominator is above the clamp. *)
Theorem C97_value : forall n k x y, regular n k x (vopp y) -> regular n k x (gyration n k x (vopp y) y) ->
  mobius_coadd n k x y =
    vdiv (vadd (smul (1 + k * dot n y y) x) (smul (1 + k * dot n x x) y)) (1 - k ^ 2 * dot n x x * dot n y y).
Proof. exact (coadd_value). Qed.
Print Assumptions C97_value.

Theorem C97_commutative : forall n k x y, regular n k x (vopp y) -> regular n k x (gyration n k x (vopp y) y) ->
  regular n k y (gyration n k y (vopp x) x) -> mobius_coadd n k x y = mobius_coadd n k y x.
Proof. exact (coadd_comm). Qed.
Print Assumptions C97_commutative.

(** Right cancellation: subtraction undoes coaddition, cosubtraction undoes addition. *)
Theorem C97_sub_undoes_coadd : forall n k x y, regular n k x (vopp y) -> regular n k x (gyration n k x (vopp y) y) ->
  regular n k (mobius_coadd n k x y) (vopp y) -> mobius_sub n k (mobius_coadd n k x y) y = x.
Proof. exact (sub_co). Qed.
Print Assumptions C97_sub_undoes_coadd.

Theorem C97_cosub_undoes_add : forall n k x y, regular n k x y -> regular n k (mobius_add n k x y) y ->
  regular n k (mobius_add n k x y) (gyration n k (mobius_add n k x y) y (vopp y)) ->
  mobius_cosub n k (mobius_add n k x y) y = x.
Proof. exact (co_cancel). Qed.
Print Assumptions C97_cosub_undoes_add.

(** On the ball, between projected points, no denominator needs a hypothesis. *)
Theorem C97_ball : forall n k, k < 0 -> forall x y, safe n k x -> safe n k y ->
  mobius_coadd n k x y = mobius_coadd n k y x /\ in_domain n k (mobius_coadd n k x y) /\
  mobius_sub n k (mobius_coadd n k x y) y = x /\ mobius_cosub n k (mobius_add n k x y) y = x /\
  mobius_sub n k x x = vzero.
Proof. exact (fun n k K x y X Y => let D := safe_in_domain n k x K X in
    conj (ball_coadd_comm n k K x y X Y) (conj (ball_coadd_domain n k K x y D Y) (conj (ball_sub_co n k K x y D Y)
      (conj (ball_co_cancel n k K x y D Y) (ball_sub_self n k x X))))). Qed.
Print Assumptions C97_ball.

Example C97_case : safe 2 (-1) (v2 (1/2) 0) /\ safe 2 (-1) (v2 0 (1/2)) /\ in_domain 2 (-1) (v2 (1/2) 0).
Proof. exact (co_case). Qed.

(** The docstring of mobius_coadd claims associativity. *)
Theorem C97_associativity_refuted :
  ~ forall x y z, safe 2 (-1) x -> safe 2 (-1) y -> safe 2 (-1) z ->
    same 2 (mobius_coadd 2 (-1) (mobius_coadd 2 (-1) x y) z) (mobius_coadd 2 (-1) x (mobius_coadd 2 (-1) y z)).
Proof. exact (co_not_assoc). Qed.
Print Assumptions C97_associativity_refuted.

(** ... and writes the closed form with denominator 1 + k^2 |x|^2 |y|^2. *)
Theorem C97_documented_formula_refuted :
  ~ forall x y, safe 2 (-1) x -> safe 2 (-1) y ->
    same 2 (mobius_coadd 2 (-1) x y)
      (vdiv (vadd (smul (1 + -1 * dot 2 y y) x) (smul (1 + -1 * dot 2 x x) y)) (1 + (-1) ^ 2 * dot 2 x x * dot 2 y y)).
Proof. exact (co_documented). Qed.
Print Assumptions C97_documented_formula_refuted.

(** ** C98: the antipode *)
(** k > 1e-8: the geometric antipode -x / (k |x|^2) up to the distance of math.pi to pi. *)
Theorem C98_close : forall n e k x, 0 <= e -> e8 < k -> e15 <= nrm n x ->
  2 * sqrt (k + e) <= k * nrm n x * (8 * 10 ^ 15) ->
  nrm n (vsub (antipode n e k x) (smul (- / (k * nrm n x ^ 2)) x)) <=
    (1 + k * nrm n x ^ 2) / (k * nrm n x) * / (k * nrm n x * (8 * 10 ^ 15) / sqrt (k + e) - 1).
Proof. exact (antipode_close). Qed.
Print Assumptions C98_close.

Example C98_case : e15 <= nrm 1 (pt (1 / 2)) /\ 2 * sqrt (1 + e15) <= 1 * nrm 1 (pt (1 / 2)) * (8 * 10 ^ 15).
Proof. exact (antipode_half_case). Qed.

Theorem C98_nonpositive : forall n e k x, k <= 0 -> antipode n e k x = vopp x.
Proof. exact (antipode_flat). Qed.
Print Assumptions C98_nonpositive.

(** The origin (whose antipode is the point at infinity) is returned unchanged. *)
Theorem C98_origin : forall n e k, antipode n e k vzero = vzero.
Proof. exact (antipode_origin). Qed.
Print Assumptions C98_origin.

(** Not at distance pi / sqrt k, because the Moebius denominator of dist is clamped. *)
Theorem C98_distance_refuted : ~ forall n x, e15 <= nrm n x -> 2 <= dist n e15 1 x (antipode n e15 1 x).
Proof. exact (fun H => Rlt_not_le _ _ antipode_dist (H 1%nat (pt (1 / 2)) (proj1 antipode_half_hyps))). Qed.
Print Assumptions C98_distance_refuted.

(** For 0 < k <= 1e-8 the series stands in for tan(pi / 2): at k = 1e-8, x = 10^4 the
    antipode is -10^4, the value returned lies beyond -15000. *)
Theorem C98_small_curvature_refuted : smul (- / (e8 * nrm 1 (pt 10000) ^ 2)) (pt 10000) 0%nat = - 10000 /\
  antipode 1 e15 e8 (pt 10000) 0%nat < - 15000.
Proof. exact (conj antipode_small_true antipode_small). Qed.
Print Assumptions C98_small_curvature_refuted.

(** The formula in the docstring, (1 + k|x|^2) / (2k|x|^2) * (-x), is another point. *)
Theorem C98_documented_formula_refuted :
  ~ forall n x, e15 <= nrm n x -> forall i, (i < n)%nat ->
    Rabs (antipode n e15 1 x i - smul ((1 + 1 * nrm n x ^ 2) / (2 * 1 * nrm n x ^ 2)) (vopp x) i) <= 1 / 2.
Proof. exact (fun H => Rlt_not_le _ _ antipode_documented (H 1%nat (pt 2) antipode_two 0%nat (le_n 1))). Qed.
Print Assumptions C98_documented_formula_refuted.

(** ** C99: curvatures within 1e-8 of zero *)
Theorem C99_artan : forall e k x, 0 < k <= e8 ->
  Rabs (artan_k_at e x k - atan (sqrt k * x) / sqrt k) <= 1 / 5 * (k ^ 2 * Rabs x ^ 5).
Proof. exact (artan_accurate). Qed.
Print Assumptions C99_artan.

Theorem C99_tan : forall e k x, 0 < k <= e8 -> sqrt k * Rabs x <= 1 / 2 ->
  Rabs (tan_k_at e x k - tan (sqrt k * x) / sqrt k) <= 1 / 5 * (k ^ 2 * Rabs x ^ 5).
Proof. exact (tan_accurate). Qed.
Print Assumptions C99_tan.

Theorem C99_sin : forall e k x, 0 < k <= e8 ->
  Rabs (sin_k_at e x k - sin (sqrt k * x) / sqrt k) <= 1 / 6227020800 * (k ^ 6 * Rabs x ^ 13).
Proof. exact (sin_accurate). Qed.
Print Assumptions C99_sin.

Theorem C99_arsin : forall e k x, 0 < k <= e8 -> sqrt k * Rabs x <= 1 / 2 ->
  Rabs (arsin_k_at e x k - asin (sqrt k * x) / sqrt k) <= 2 / 13 * (k ^ 6 * Rabs x ^ 13).
Proof. exact (arsin_accurate). Qed.
Print Assumptions C99_arsin.

Theorem C99_zero : forall e x, artan_k_at e x 0 = x /\ tan_k_at e x 0 = x /\ sin_k_at e x 0 = x /\ arsin_k_at e x 0 = x.
Proof. exact (at_zero). Qed.
Print Assumptions C99_zero.

Example C99_case : 0 < e8 <= e8 /\ sqrt e8 * Rabs 5000 <= 1 / 2.
Proof. exact (taylor_case). Qed.

(** For -1e-8 <= k < 0 the series is that of |k|: every value lies strictly on the other
    side of x from the hyperbolic function it replaces. *)
Theorem C99_negative_wrong_side : forall e k x, - e8 <= k < 0 -> 0 < x ->
  tanh (sqrt (- k) * x) / sqrt (- k) < x < tan_k_at e x k /\
  (sqrt (- k) * x < 1 -> artan_k_at e x k < x < atanh (sqrt (- k) * x) / sqrt (- k)) /\
  sin_k_at e x k < x < sinh (sqrt (- k) * x) / sqrt (- k) /\
  arcsinh (sqrt (- k) * x) / sqrt (- k) < x < arsin_k_at e x k.
Proof. exact (fun e k x K X => conj (tan_negative e k x K X) (conj (artan_negative e k x K X) (conj (sin_negative e k x K X) (arsin_negative e k x K X)))). Qed.
Print Assumptions C99_negative_wrong_side.

Theorem C99_negative_refuted :
  ~ forall e k x, - e8 <= k < 0 -> 0 <= x -> Rabs (tan_k_at e x k - tanh (sqrt (- k) * x) / sqrt (- k)) <= 1 / 5 * (k ^ 2 * Rabs x ^ 5).
Proof. exact (negative_refuted). Qed.
Print Assumptions C99_negative_refuted.

