(** Vocabulary for descent on the matrix manifolds. *)
From mathcomp Require Import all_ssreflect all_algebra.
From Verif Require Import StiefelSpec.
Import GRing.Theory Num.Theory.
Local Open Scope ring_scope.
Set Implicit Arguments. Unset Strict Implicit. Unset Printing Implicit Defensive.

Section Spec.
  Variable F : realFieldType.
  (** g is the (Frechet) gradient of f at x for the entrywise pairing:
      f (x + h) - f x - <g, h> is o(|h|), with both sides squared. *)
  Definition differentiable n p (f : 'M[F]_(n, p) -> F) (x g : 'M[F]_(n, p)) : Prop :=
    forall eps, 0 < eps -> exists2 del, 0 < del & forall h, pairing h h < del ->
      (f (x + h) - f x - pairing g h) ^+ 2 <= eps * pairing h h.
  (** Every small enough step t > 0 along c lowers f below its value at x. *)
  Definition decreases n p (f : 'M[F]_(n, p) -> F) (x : 'M[F]_(n, p)) (c : F -> 'M[F]_(n, p)) : Prop :=
    exists2 t0, 0 < t0 & forall t, 0 < t -> t < t0 -> f (c t) < f x.
  (** A scalar exponential with its second order expansion at 0. *)
  Definition second_order (exp : F -> F) : Prop :=
    exists C, forall y, `|y| <= 1 -> `|exp y - 1 - y| <= C * y ^+ 2.
End Spec.
