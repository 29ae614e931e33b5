(** Vocabulary for the floating-point properties (FloatProps). *)
From Coq Require Import ZArith Reals List Bool.
From Flocq Require Import Core IEEE754.BinarySingleNaN.
From Verif Require Import FloatModel.
Open Scope R_scope.

(** The real number a finite float stands for. *)
Definition val {d} (x : float d) : R := B2R x.
Definition finite {d} (x : float d) : Prop := is_finite x = true.
Definition not_nan {d} (x : float d) : Prop := is_nan x = false.
Definition infinity {d} : float d := B754_infinity false.

(** Contracts of the elementary functions: finite on their domain, with at least ten correct
    bits (those of torch have more). *)
Definition log_ok (log : forall d, float d -> float d) : Prop :=
  (forall d (x : float d), finite x -> 0 < val x ->
     finite (log d x) /\ Rabs (val (log d x) - ln (val x)) <= Rabs (ln (val x)) / 1024)
  /\ forall d, log d infinity = infinity.
Definition tanh_ok (tanh : forall d, float d -> float d) : Prop :=
  forall d (x : float d), finite x ->
    finite (tanh d x) /\ Rabs (val (tanh d x)) <= 1 /\
    Rabs (val (tanh d x) - Rtrigo_def.tanh (val x)) <= / 1024.
Definition acos_ok (acos : forall d, float d -> float d) : Prop :=
  forall d (x : float d), finite x -> -1 < val x < 1 ->
    finite (acos d x) /\ Rabs (val (acos d x) - Ratan.acos (val x)) <= Ratan.acos (val x) / 1024.

Definition atanh (x : R) : R := (ln (1 + x) - ln (1 - x)) / 2.
Definition acosh (x : R) : R := ln (x + sqrt (x * x - 1)).

(** The norm of a row, and what torch.norm may return for it: infinity if the sum of squares
    overflows; otherwise a value with a small relative error, as long as the norm is at least
    1e-15 (squares may underflow below). *)
Definition norm {d} (x : list (float d)) : R :=
  sqrt (fold_right (fun xi s => val xi * val xi + s) 0 x).
Definition accuracy (d : dtype) : R := match d with float32 => / 1024 | float64 => / 262144 end.
Definition norm_ok {d} (x : list (float d)) (n : float d) : Prop :=
  n = infinity \/
  finite n /\ Rabs (val n - norm x) <= accuracy d * Rmax (norm x) (/ 1000000000000000).

(** Points of the ball of curvature k < 0 are strictly inside its boundary. *)
Definition in_ball {d} (k : float d) (x : list (float d)) : Prop :=
  Forall finite x /\ norm x < / sqrt (- val k).

(** Magnitudes beyond which 1 + x^2 is x^2. *)
Definition large (d : dtype) : R := match d with float32 => 8192 | float64 => 268435456 end.

(** Curvatures that are neither tiny nor huge, and the radius of their ball. *)
Definition moderate {d} (k : float d) : Prop := finite k /\ / 1000000 <= Rabs (val k) <= 1000000.
(** How far from the boundary, relative to the radius, project may put or move a point. *)
Definition margin (d : dtype) : R := match d with float32 => / 200 | float64 => / 50000 end.
