(** Vocabulary: curves of matrices and geodesics. *)
From Coq Require Import Reals.
From mathcomp Require Import all_ssreflect all_algebra.
From Verif Require Import RStruct StiefelSpec SpdSpec.
Import GRing.Theory.
Local Open Scope ring_scope.
Set Implicit Arguments. Unset Strict Implicit. Unset Printing Implicit Defensive.

Section Spec.
  Variables n p : nat.
  (** v is the derivative of the curve c, entry by entry, at every time. *)
  Definition velocity (c v : R -> 'M[R]_(n, p)) : Prop :=
    forall t i j, derivable_pt_lim (fun s => c s i j) t (v t i j).
  (** A geodesic of the Stiefel manifold with the Euclidean metric, starting at x with
      velocity u: it stays on the manifold and its acceleration is perpendicular to the
      tangent space. *)
  Definition stiefel_geodesic (x u : 'M[R]_(n, p)) (c v : R -> 'M[R]_(n, p)) : Prop :=
    c 0 = x /\ v 0 = u /\ velocity c v /\ (forall t, on_stiefel (F := R_realFieldType) (c t)) /\
    exists a, velocity v a /\
      forall t w, tangent (F := R_realFieldType) (c t) w -> pairing (F := R_realFieldType) (a t) w = 0.
End Spec.
(** A geodesic of the symmetric positive definite matrices with the affine-invariant
    metric tr(x^-1 u x^-1 v), whose geodesic equation is c'' = c' c^-1 c'. *)
Definition spd_geodesic n (x u : 'M[R]_n) (c v : R -> 'M[R]_n) : Prop :=
  c 0 = x /\ v 0 = u /\ velocity c v /\ (forall t, pos_def (F := R_rcfType) (c t)) /\
  velocity v (fun t => v t *m invmx (c t) *m v t).
