(** Vocabulary for the Birkhoff polytope properties. *)
From mathcomp Require Import all_ssreflect all_algebra.
Import GRing.Theory Num.Theory.
Local Open Scope ring_scope.
Set Implicit Arguments. Unset Strict Implicit. Unset Printing Implicit Defensive.

Section Spec.
  Variable F : realFieldType.
  Definition positive n (x : 'M[F]_n) : Prop := forall i j, 0 < x i j.
  Definition nonnegative n (x : 'M[F]_n) : Prop := forall i j, 0 <= x i j.
  Definition unit_sums n (x : 'M[F]_n) : Prop := (forall i, \sum_j x i j = 1) /\ (forall j, \sum_i x i j = 1).
  (** A point of the polytope. *)
  Definition doubly_stochastic n (x : 'M[F]_n) : Prop := nonnegative x /\ unit_sums x.
  (** A point of the manifold (the interior). *)
  Definition interior n (x : 'M[F]_n) : Prop := positive x /\ unit_sums x.
  Definition tangent n (u : 'M[F]_n) : Prop := (forall i, \sum_j u i j = 0) /\ (forall j, \sum_i u i j = 0).
  (** The differential of a function with Euclidean gradient g, along v. *)
  Definition pairing n (g v : 'M[F]_n) : F := \sum_i \sum_j g i j * v i j.
  (** The multiplicative update x * exp(u / x). *)
  Definition mult_step (exp : F -> F) n (x u : 'M[F]_n) : 'M[F]_n := \matrix_(i, j) (x i j * exp (u i j / x i j)).
End Spec.
