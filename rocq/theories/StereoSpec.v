(** Vocabulary for the stereographic properties, independent of the model's
    helper functions. *)
From Coq Require Import Reals.
From Verif Require Import RVec.
Local Open Scope R_scope.

(** x and y agree on their [n] entries. *)
Definition same (n : nat) (x y : vec) : Prop := forall i, (i < n)%nat -> x i = y i.

(** The domain of the kappa-stereographic model: the open ball of radius
    1/sqrt(-k) for k < 0, everything for k >= 0. *)
Definition in_domain (n : nat) (k : R) (x : vec) : Prop := 0 < 1 + k * dot n x x.

(** For k < 0: within the radius the library projects to in float64,
    (1 - 1e-5)/sqrt(-k). *)
Definition safe (n : nat) (k : R) (x : vec) : Prop :=
  sqrt (- k) * nrm n x <= 1 - / 10 ^ 5.

(** The Möbius denominator 1 - 2k<x,y> + k^2|x|^2|y|^2 is not below the 1e-15
    floor the library clamps it to. *)
Definition regular (n : nat) (k : R) (x y : vec) : Prop :=
  / 10 ^ 15 <= 1 - 2 * k * dot n x y + k ^ 2 * dot n x x * dot n y y.

(** Curvatures the library treats by closed formulas (k = 0 or |k| > 1e-8);
    other curvatures go through a truncated Taylor series. *)
Definition closed_form (k : R) : Prop := k = 0 \/ k < - / 10 ^ 8 \/ / 10 ^ 8 < k.

(** The square root of |k| as computed, sqrt(|k| + e); the library has e = 1e-15. *)
Definition rt (e k : R) : R := sqrt (Rabs k + e).

(** A gyro-norm [a] (length of (-x)+y) that artanh does not clamp:
    a * sqrt|k| <= 1 - 1e-7 when k < 0; no condition otherwise. *)
Definition length_ok (e k a : R) : Prop := k < 0 -> a * rt e k <= 1 - / 10 ^ 7.

(** Half-angle [b] that tan_k maps injectively: below artanh(1 - 1e-7) = 8.4 (k < 0),
    below pi/2 (k > 0), after multiplication by sqrt|k|. *)
Definition angle_ok (e k b : R) : Prop :=
  (k < 0 -> b * rt e k <= (ln (2 - / 10 ^ 7) - ln (/ 10 ^ 7)) / 2) /\
  (0 < k -> b * rt e k < PI / 2).

(** A length the library's norm floor 1e-15 leaves alone. *)
Definition norm_ok (n : nat) (u : vec) : Prop := / 10 ^ 15 <= nrm n u \/ nrm n u = 0.
