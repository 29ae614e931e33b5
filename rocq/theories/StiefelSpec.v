(** Vocabulary for the Stiefel properties. *)
From mathcomp Require Import all_ssreflect all_algebra.
Import GRing.Theory Num.Theory.
Local Open Scope ring_scope.
Set Implicit Arguments. Unset Strict Implicit. Unset Printing Implicit Defensive.

Section Spec.
  Variable F : realFieldType.
  (** Orthonormal columns. *)
  Definition on_stiefel n p (x : 'M[F]_(n, p)) : Prop := x^T *m x = 1%:M.
  (** Tangent at x: x^T u + u^T x = 0. *)
  Definition tangent n p (x u : 'M[F]_(n, p)) : Prop := x^T *m u + u^T *m x = 0.
  (** Frobenius pairing and squared length. *)
  Definition pairing n p (a b : 'M[F]_(n, p)) : F := \tr (a^T *m b).
  (** Canonical metric tr(u^T (1 - x x^T / 2) v). *)
  Definition canonical n p (x u v : 'M[F]_(n, p)) : F := \tr (u^T *m (1%:M - 2%:R^-1 *: (x *m x^T)) *m v).
  Definition upper_triangular p (r : 'M[F]_p) : Prop := forall i j : 'I_p, (j < i)%N -> r i j = 0.
  (** Contract of a (reduced) QR factorisation of m. *)
  Definition qr_of n p (m q : 'M[F]_(n, p)) (r : 'M[F]_p) : Prop :=
    m = q *m r /\ q^T *m q = 1%:M /\ upper_triangular r.
  (** Contract of a reduced SVD of an n x p matrix with p <= n. *)
  Definition svd_of n p (m U : 'M[F]_(n, p)) (s : 'rV[F]_p) (V : 'M[F]_p) : Prop :=
    m = U *m diag_mx s *m V /\ U^T *m U = 1%:M /\ V *m V^T = 1%:M /\ (forall j, 0 <= s ord0 j).
  (** What is used of the matrix exponential. *)
  Record exponential (expm : forall m, 'M[F]_m -> 'M[F]_m) : Prop := {
    exp_opp : forall m (a : 'M[F]_m), expm m (- a) *m expm m a = 1%:M;
    exp_tr : forall m (a : 'M[F]_m), expm m a^T = (expm m a)^T;
    exp_intertwines : forall m (a b x : 'M[F]_m), a *m x = x *m b -> expm m a *m x = x *m expm m b }.
End Spec.
