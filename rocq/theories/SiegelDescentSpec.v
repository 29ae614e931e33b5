(** Vocabulary for descent on the Siegel spaces. *)
From mathcomp Require Import all_ssreflect all_algebra.
From mathcomp.real_closed Require Import complex.
From Verif Require Import SiegelSpec.
Import GRing.Theory Num.Theory.
Local Open Scope ring_scope.
Local Open Scope complex_scope.
Set Implicit Arguments. Unset Strict Implicit. Unset Printing Implicit Defensive.

Section Spec.
  Variable F : rcfType.
  Notation C := F[i].
  (** Sum of the squared real and imaginary parts. *)
  Definition sqlen n (h : 'M[C]_n) : F := \sum_i \sum_j (complex.Re (h i j) ^+ 2 + complex.Im (h i j) ^+ 2).
  (** g is the gradient at z of the real function f of a complex matrix:
      f (z + h) - f z - Re <g, h> is o(|h|), with both sides squared. *)
  Definition c_differentiable n (f : 'M[C]_n -> F) (z g : 'M[C]_n) : Prop :=
    forall eps, 0 < eps -> exists2 del, 0 < del & forall h, sqlen h < del ->
      (f (z + h) - f z - complex.Re (pairing g h)) ^+ 2 <= eps * sqlen h.
  (** Every small enough step t > 0 along c lowers (raises) f from its value at z. *)
  Definition c_decreases n (f : 'M[C]_n -> F) (z : 'M[C]_n) (c : F -> 'M[C]_n) : Prop :=
    exists2 t0, 0 < t0 & forall t, 0 < t -> t < t0 -> f (c t) < f z.
  Definition c_increases n (f : 'M[C]_n -> F) (z : 'M[C]_n) (c : F -> 'M[C]_n) : Prop :=
    exists2 t0, 0 < t0 & forall t, 0 < t -> t < t0 -> f z < f (c t).
End Spec.
