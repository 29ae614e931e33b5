(** Vocabulary for StereoExtraProps.v, independent of the model's functions. *)
From Coq Require Import Reals List.
From Verif Require Import RVec.
Import ListNotations.
Local Open Scope R_scope.

(** product of a (p, q) and a (q, n) matrix, multiples of the identity, diagonal matrices *)
Definition mat_mul (q : nat) (A B : nat -> vec) : nat -> vec := fun i j => Rsum q (fun l => A i l * B l j).
Definition mat_scalar (r : R) : nat -> vec := fun i j => if Nat.eqb i j then r else 0.
Definition mat_diag (w : vec) : nat -> vec := fun i j => if Nat.eqb i j then w i else 0.
Definition apply_mat (n : nat) (A : nat -> vec) (x : vec) : vec := fun i => dot n (A i) x.
(** [A] preserves inner products of rows of size n *)
Definition orthogonal (n : nat) (A : nat -> vec) : Prop :=
  forall u v, dot n (apply_mat n A u) (apply_mat n A v) = dot n u v.

(** a function on rows that reads only the first n entries and yields n entries *)
Definition on_rows (n : nat) (f : vec -> vec) : Prop :=
  forall x y, (forall i, (i < n)%nat -> x i = y i) -> forall i, (i < n)%nat -> f x i = f y i.

(** every vector a chain of functions goes through *)
Fixpoint stages (u : vec) (fns : list (vec -> vec)) : list vec :=
  match fns with [] => [] | f :: fns => f u :: stages (f u) fns end.

(** sums over lists of weighted points *)
Definition wsum (l : list (R * vec)) : R := fold_right (fun p s => fst p + s) 0 l.
Definition wvsum (l : list (R * vec)) : vec := fold_right (fun p s => vadd (smul (fst p) (snd p)) s) vzero l.
Definition scale_weights (c : R) (l : list (R * vec)) : list (R * vec) := map (fun p => (c * fst p, snd p)) l.
Definition map_points (f : vec -> vec) (l : list (R * vec)) : list (R * vec) := map (fun p => (fst p, f (snd p))) l.
Definition positive_weights (l : list (R * vec)) : Prop := l <> [] /\ forall p, In p l -> 0 < fst p.
(** x is so far from the boundary of the ball of curvature k < 0 that artanh does not
    clamp the norm of x + x (Moebius addition): sqrt(-k)|x (+) x| <= 1 - 1e-7 *)
Definition well_inside (n : nat) (k : R) (x : vec) : Prop :=
  2 * sqrt (- k) * nrm n x <= (1 - / 10 ^ 7) * (1 - k * dot n x x) /\ 0 < 1 + k * dot n x x.
(** the same with the square root as the library computes it, sqrt(-k + e) *)
Definition well_inside_at (n : nat) (e k : R) (x : vec) : Prop :=
  2 * sqrt (- k + e) * nrm n x <= (1 - / 10 ^ 7) * (1 - k * dot n x x) /\ 0 < 1 + k * dot n x x.
(** a negative weight of x replaced by a positive one of -x *)
Definition flip (p : R * vec) : R * vec := (Rabs (fst p), if Rlt_dec (fst p) 0 then vopp (snd p) else snd p).
(** conformal factor 2/(1 + k|x|^2) without the library's clamp *)
Definition conformal (n : nat) (k : R) (x : vec) : R := 2 / (1 + k * dot n x x).
(** weighted mean of the points in Klein coordinates: sum w g x / sum w (g - 1), g the conformal factor *)
Definition klein_mean (n : nat) (k : R) (l : list (R * vec)) : vec :=
  vdiv (wvsum (map (fun p => (fst p * conformal n k (snd p), snd p)) l))
       (wsum (map (fun p => (fst p * (conformal n k (snd p) - 1), snd p)) l)).
(** the sum over the points of w * |z - x|^2 / ((1 + k|z|^2)(1 + k|x|^2)); for k < 0 this is the sum of
    w * sinh(sqrt(-k) d(z, x) / 2)^2 / (-k), with d the hyperbolic distance *)
Definition spread (n : nat) (k : R) (l : list (R * vec)) (z : vec) : R :=
  wsum (map (fun p => (fst p * (dot n (vsub z (snd p)) (vsub z (snd p)) / ((1 + k * dot n z z) * (1 + k * dot n (snd p) (snd p)))), snd p)) l).
