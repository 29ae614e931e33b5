(** Properties C29-C31, C78 and the SPD part of C32: over every real closed field F,
    all sizes, every diagonalisation [eigh] may return, and every exp/log/matrix_exp
    meeting the contracts of SpdSpec. *)
From mathcomp Require Import all_ssreflect all_algebra.
From Verif Require Import SpdModel SpdSpec SpdProofs SpdProofs2 SpdProofs3 RStruct.
Import GRing.Theory Num.Theory.
Local Open Scope ring_scope.
Set Implicit Arguments. Unset Strict Implicit. Unset Printing Implicit Defensive.

(** The contracts are met: a diagonalisation exists for every matrix, the real exp and
    ln qualify, and a matrix exponential exists for any scalar one. *)
Example contracts_eigh : forall F : rcfType, eigh_ok (some_eigh (F := F)).
Proof. exact (some_eigh_ok). Qed.

Example contracts_real : explog (F := R_rcfType) Rtrigo_def.exp Rpower.ln /\
  matrix_exp_ok (F := R_rcfType) Rtrigo_def.exp (some_mexp Rtrigo_def.exp).
Proof. exact (conj R_explog (some_mexp_ok (F := R_rcfType) Rtrigo_def.exp)). Qed.

(** ** C29: retraction and projection *)
Theorem C29_retr_spd : forall (F : rcfType) n (x u : 'M[F]_n), pos_def x -> symmetric u -> pos_def (retr x u).
Proof. exact (retr_pos). Qed.
Print Assumptions C29_retr_spd.

Theorem C29_retr_second_order : forall (F : rcfType) n (x u : 'M[F]_n), pos_def x -> symmetric u ->
  retr x u = x + u + 2%:R^-1 *: (u *m invmx x *m u).
Proof. exact (retr_formula). Qed.
Print Assumptions C29_retr_second_order.

Example C29_retr_case : forall F : rcfType, pos_def (1%:M : 'M[F]_2) /\ symmetric (ones2 F) /\
  retr 1%:M (ones2 F) = \matrix_(i, j) (if i == j then 3%:R else 2%:R).
Proof. exact (fun F => conj (one_pos F 2) (conj (ones_symmetric F) (retr_case F))). Qed.

Theorem C29_proju_symmetric : forall (F : rcfType) n (x u : 'M[F]_n),
  symmetric (proju x u) /\ (symmetric u -> proju x u = u).
Proof. exact (fun F n x u => conj (sym_symmetric u) (fun H => sym_id H)). Qed.
Print Assumptions C29_proju_symmetric.

Theorem C29_projx_semidefinite : forall (F : rcfType) eigh, eigh_ok eigh -> forall n (x : 'M[F]_n),
  pos_semidef (projx eigh x).
Proof. exact (projx_semi). Qed.
Print Assumptions C29_projx_semidefinite.

Theorem C29_projx_spd : forall (F : rcfType) eigh, eigh_ok eigh -> forall n (x : 'M[F]_n),
  2%:R^-1 *: (x^T + x) \in unitmx -> pos_def (projx eigh x).
Proof. exact (projx_pos). Qed.
Print Assumptions C29_projx_spd.

Theorem C29_projx_fixes : forall (F : rcfType) eigh, eigh_ok eigh -> forall n (x : 'M[F]_n),
  pos_def x -> projx eigh x = x.
Proof. exact (projx_fix). Qed.
Print Assumptions C29_projx_fixes.

(** projx does not always land on the manifold. *)
Theorem C29_projx_refuted : forall (F : rcfType) eigh, eigh_ok eigh -> forall n,
  projx eigh (0 : 'M[F]_n.+1) = 0 /\ ~ pos_def (0 : 'M[F]_n.+1).
Proof. exact (fun F eigh E n => conj (projx_zero E n.+1) (@zero_not_pos F n)). Qed.
Print Assumptions C29_projx_refuted.

Theorem C29_random_origin : forall (F : rcfType) eigh exp log, eigh_ok eigh -> explog exp log -> forall n,
  (forall draw : 'M[F]_n, pos_def (random eigh exp draw)) /\ pos_def (origin F n).
Proof. exact (fun F eigh exp log E L n => conj (random_pos E L (n := n)) (origin_pos F n)). Qed.
Print Assumptions C29_random_origin.

(** ** C30: metric and gradient *)
Theorem C30_symmetric : forall (F : rcfType) n (x u v : 'M[F]_n), inner x u v = inner x v u.
Proof. exact (inner_sym). Qed.
Print Assumptions C30_symmetric.

Theorem C30_linear : forall (F : rcfType) n (x : 'M[F]_n) k u v w,
  inner x (k *: u + v) w = k * inner x u w + inner x v w.
Proof. exact (inner_lin). Qed.
Print Assumptions C30_linear.

Theorem C30_positive : forall (F : rcfType) n (x u : 'M[F]_n),
  pos_def x -> symmetric u -> u <> 0 -> 0 < inner x u u.
Proof. exact (inner_pos). Qed.
Print Assumptions C30_positive.

Theorem C30_congruence : forall (F : rcfType) n (x a u v : 'M[F]_n), x \in unitmx -> a \in unitmx ->
  inner (a *m x *m a^T) (a *m u *m a^T) (a *m v *m a^T) = inner x u v.
Proof. exact (inner_congr). Qed.
Print Assumptions C30_congruence.

Theorem C30_gradient : forall (F : rcfType) n (x g v : 'M[F]_n), pos_def x -> symmetric v ->
  inner x (egrad2rgrad x g) v = fro g v.
Proof. exact (rgrad_gradient). Qed.
Print Assumptions C30_gradient.

Theorem C30_gradient_tangent : forall (F : rcfType) n (x g : 'M[F]_n), symmetric (egrad2rgrad x g).
Proof. exact (rgrad_tangent). Qed.
Print Assumptions C30_gradient_tangent.

Example C30_case : forall (F : rcfType) (a b : F), 0 < a -> 0 < b -> pos_def (a *: 1%:M + b *: ones2 F).
Proof. exact (diag_case). Qed.

(** ** C31: exponential, logarithm, transport *)
Theorem C31_expmap_spd : forall (F : rcfType) eigh exp log mexp, eigh_ok eigh -> explog exp log ->
  matrix_exp_ok exp mexp -> forall n (x u : 'M[F]_n),
  pos_def x -> symmetric u -> pos_def (expmap eigh mexp x u).
Proof. exact (fun F eigh exp log mexp E L M n x u => @expmap_pos F eigh E exp log mexp L M n x u). Qed.
Print Assumptions C31_expmap_spd.

Theorem C31_logmap_tangent : forall (F : rcfType) eigh log, eigh_ok eigh -> forall n (x y : 'M[F]_n),
  pos_def x -> symmetric y -> symmetric (logmap eigh log x y).
Proof. exact (fun F eigh log E n x y => @logmap_tangent F eigh E log n x y). Qed.
Print Assumptions C31_logmap_tangent.

Theorem C31_log_exp : forall (F : rcfType) eigh exp log mexp, eigh_ok eigh -> explog exp log ->
  matrix_exp_ok exp mexp -> forall n (x u : 'M[F]_n),
  pos_def x -> symmetric u -> logmap eigh log x (expmap eigh mexp x u) = u.
Proof. exact (fun F eigh exp log mexp E L M n x u => @logmap_expmap F eigh E exp log mexp L M n x u). Qed.
Print Assumptions C31_log_exp.

Theorem C31_exp_log : forall (F : rcfType) eigh exp log mexp, eigh_ok eigh -> explog exp log ->
  matrix_exp_ok exp mexp -> forall n (x y : 'M[F]_n),
  pos_def x -> pos_def y -> expmap eigh mexp x (logmap eigh log x y) = y.
Proof. exact (fun F eigh exp log mexp E L M n x u => @expmap_logmap F eigh E exp log mexp L M n x u). Qed.
Print Assumptions C31_exp_log.

Theorem C31_transp_tangent : forall (F : rcfType) eigh exp log mexp, eigh_ok eigh -> explog exp log ->
  matrix_exp_ok exp mexp -> forall n (x y v : 'M[F]_n),
  pos_def x -> pos_def y -> symmetric v -> symmetric (transp eigh mexp log x y v).
Proof. exact (fun F eigh exp log mexp E L M n x y v => @transp_tangent F eigh E exp log mexp L M n x y v). Qed.
Print Assumptions C31_transp_tangent.

Theorem C31_transp_isometry : forall (F : rcfType) eigh exp log mexp, eigh_ok eigh -> explog exp log ->
  matrix_exp_ok exp mexp -> forall n (x y v w : 'M[F]_n),
  pos_def x -> pos_def y -> symmetric v -> symmetric w ->
  inner y (transp eigh mexp log x y v) (transp eigh mexp log x y w) = inner x v w.
Proof. exact (fun F eigh exp log mexp E L M n x y v w => @transp_isometry F eigh E exp log mexp L M n x y v w). Qed.
Print Assumptions C31_transp_isometry.

(** Transport carries the direction to y into minus the direction back to x. *)
Theorem C31_transp_velocity : forall (F : rcfType) eigh exp log mexp, eigh_ok eigh -> explog exp log ->
  matrix_exp_ok exp mexp -> forall n (x y : 'M[F]_n), pos_def x -> pos_def y ->
  transp eigh mexp log x y (logmap eigh log x y) = - logmap eigh log y x.
Proof. exact (fun F eigh exp log mexp E L M n x y => @transp_velocity F eigh E exp log mexp L M n x y). Qed.
Print Assumptions C31_transp_velocity.

(** The result does not depend on the diagonalisation chosen. *)
Theorem C31_well_defined : forall (F : rcfType) eigh1 eigh2 log, eigh_ok eigh1 -> eigh_ok eigh2 ->
  forall n (x y : 'M[F]_n), pos_def x -> symmetric y ->
  logmap eigh1 log x y = logmap eigh2 log x y.
Proof. exact (fun F eigh1 eigh2 log E1 E2 n x y => @logmap_unique F log eigh1 eigh2 E1 E2 n x y). Qed.
Print Assumptions C31_well_defined.

(** ** C32 (SPD): membership checks *)
Theorem C32_spd_zero_tolerance : forall (F : rcfType) eigh, eigh_ok eigh -> forall n (x : 'M[F]_n),
  check_point eigh 0 0 x <-> pos_def x.
Proof. exact (check_exact). Qed.
Print Assumptions C32_spd_zero_tolerance.

Theorem C32_spd_accepts : forall (F : rcfType) eigh, eigh_ok eigh -> forall n atol rtol (x : 'M[F]_n),
  0 <= atol -> 0 <= rtol -> pos_def x -> check_point eigh atol rtol x.
Proof. exact (check_complete). Qed.
Print Assumptions C32_spd_accepts.

(** Exactly what is accepted. *)
Theorem C32_spd_tolerance : forall (F : rcfType) eigh, eigh_ok eigh -> forall n atol rtol (x : 'M[F]_n),
  check_point eigh atol rtol x <->
  (forall i j, `|x i j - x j i| <= atol + rtol * `|x j i|) /\ pos_def (upper x + atol%:M).
Proof. exact (check_pointE). Qed.
Print Assumptions C32_spd_tolerance.

(** With any positive tolerance the zero matrix, and negative definite matrices, pass. *)
Theorem C32_spd_singular_refuted : forall (F : rcfType) eigh, eigh_ok eigh -> forall n atol rtol,
  0 < atol -> 0 <= rtol -> check_point eigh atol rtol (0 : 'M[F]_n.+1) /\ ~ pos_def (0 : 'M[F]_n.+1).
Proof. exact (fun F eigh E n atol rtol A R => conj (check_singular E n.+1 A R) (@zero_not_pos F n)). Qed.
Print Assumptions C32_spd_singular_refuted.

Theorem C32_spd_negative_refuted : forall (F : rcfType) eigh, eigh_ok eigh -> forall n t atol rtol,
  0 < t -> t < atol -> 0 <= rtol -> check_point eigh atol rtol (- t%:M : 'M[F]_n).
Proof. exact (check_negative). Qed.
Print Assumptions C32_spd_negative_refuted.

Theorem C32_spd_vector : forall (F : rcfType) n (x u : 'M[F]_n), check_vector 0 0 x u <-> symmetric u.
Proof. exact (check_vectorE). Qed.
Print Assumptions C32_spd_vector.

(** ** C78: distances *)
Theorem C78_aim_length : forall (F : rcfType) eigh log, eigh_ok eigh -> forall n (x y : 'M[F]_n),
  pos_def x -> symmetric y ->
  dist eigh log AIM x y ^+ 2 = inner x (logmap eigh log x y) (logmap eigh log x y).
Proof. exact (fun F eigh log E n x y => @dist_logmap F eigh E log n x y). Qed.
Print Assumptions C78_aim_length.

Theorem C78_aim_expmap : forall (F : rcfType) eigh exp log mexp, eigh_ok eigh -> explog exp log ->
  matrix_exp_ok exp mexp -> forall n (x u : 'M[F]_n), pos_def x -> symmetric u ->
  dist eigh log AIM x (expmap eigh mexp x u) = Num.sqrt (inner x u u).
Proof. exact (fun F eigh exp log mexp E L M n x u => @dist_expmap F eigh E exp log mexp L M n x u). Qed.
Print Assumptions C78_aim_expmap.

Theorem C78_aim_symmetric : forall (F : rcfType) eigh exp log, eigh_ok eigh -> explog exp log ->
  forall n (x y : 'M[F]_n), pos_def x -> pos_def y -> dist eigh log AIM x y = dist eigh log AIM y x.
Proof. exact (fun F eigh exp log E L n x y => @dist_sym F eigh E exp log L n x y). Qed.
Print Assumptions C78_aim_symmetric.

Theorem C78_aim_zero : forall (F : rcfType) eigh exp log mexp, eigh_ok eigh -> explog exp log ->
  matrix_exp_ok exp mexp -> forall n (x y : 'M[F]_n), pos_def x -> pos_def y ->
  (dist eigh log AIM x y = 0 <-> x = y).
Proof. exact (fun F eigh exp log mexp E L M n x y => @dist_zero F eigh E exp log mexp L M n x y). Qed.
Print Assumptions C78_aim_zero.

Theorem C78_aim_congruence : forall (F : rcfType) eigh log, eigh_ok eigh -> forall n (x y a : 'M[F]_n),
  a \in unitmx -> pos_def x -> pos_def y ->
  dist eigh log AIM (a *m x *m a^T) (a *m y *m a^T) = dist eigh log AIM x y.
Proof. exact (fun F eigh log E n x y a => @dist_congr F eigh E log n x y a). Qed.
Print Assumptions C78_aim_congruence.

Theorem C78_lem_metric : forall (F : rcfType) eigh exp log mexp, eigh_ok eigh -> explog exp log ->
  matrix_exp_ok exp mexp -> forall n (x y z : 'M[F]_n), pos_def x -> pos_def y ->
  (dist eigh log LEM x y = 0 <-> x = y) /\ dist eigh log LEM x y = dist eigh log LEM y x /\
  dist eigh log LEM x z <= dist eigh log LEM x y + dist eigh log LEM y z.
Proof. exact (fun F eigh exp log mexp E L M n x y z X Y =>
    conj (@lem_zero F eigh E exp log mexp L M n x y X Y) (conj (lem_sym eigh log x y) (lem_triangle eigh log x y z))). Qed.
Print Assumptions C78_lem_metric.

Theorem C78_stein_divergence : forall (F : rcfType) eigh exp log, explog exp log ->
  forall n (x y : 'M[F]_n), pos_def x -> pos_def y ->
  0 <= dist eigh log SM x y /\ (dist eigh log SM x y = 0 <-> x = y) /\
  dist eigh log SM x y = dist eigh log SM y x.
Proof. exact (fun F eigh exp log L n x y X Y => conj (stein_ge0 L X Y) (conj (stein_zero L X Y) (stein_sym log x y))). Qed.
Print Assumptions C78_stein_divergence.

(** but it is not a distance: the triangle inequality fails for every ratio q <> 1. *)
Theorem C78_stein_triangle_refuted : forall (F : rcfType) eigh exp log, explog exp log ->
  forall q : F, 0 < q -> q <> 1 -> exists x y z : 'M[F]_1, pos_def x /\ pos_def y /\ pos_def z /\
  dist eigh log SM x y + dist eigh log SM y z < dist eigh log SM x z.
Proof. exact (fun F eigh exp log L => @stein_no_triangle F exp log L). Qed.
Print Assumptions C78_stein_triangle_refuted.

