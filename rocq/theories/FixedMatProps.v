(** Property theorems C145 for the matrix manifolds. *)
From Coq Require Import Reals.
From mathcomp Require Import all_ssreflect all_algebra.
From Verif Require Import RStruct RExp StiefelModel StiefelSpec SpdModel SpdSpec MatSymModel MatSymProofs3 MatDescentInst FixedMatSpec FixedMat.
Local Open Scope ring_scope.
Set Implicit Arguments. Unset Strict Implicit. Unset Printing Implicit Defensive.

Theorem C145_canonical_stiefel : forall (F : realFieldType) n p (x : 'M[F]_(n, p)), stays (canonical_ops F n p) x.
Proof. exact canonical_stays. Qed.
Print Assumptions C145_canonical_stiefel.
Theorem C145_euclidean_stiefel : forall (F : realFieldType) n p qr (x : 'M[F]_(n, p)), (forall m, qr_of m (qr m).1 (qr m).2) ->
  on_stiefel x -> stays (euclidean_ops qr) x.
Proof. exact euclidean_stays. Qed.
Print Assumptions C145_euclidean_stiefel.
Theorem C145_exact_stiefel : forall n p (x : 'M[R]_(n, p)), on_stiefel (F := R_realFieldType) x ->
  stays (exact_ops (F := R_realFieldType) n p rexpm) x.
Proof. exact exact_stays. Qed.
Print Assumptions C145_exact_stiefel.
Theorem C145_spd : forall (F : rcfType) n eigh mexp log (x : 'M[F]_n), pos_def x -> stays (spd_ops n eigh mexp log) x.
Proof. exact spd_stays. Qed.
Print Assumptions C145_spd.
(** Cases: at (1, 0) the gradient (1, 0) is not zero but critical; at the identity a skew
    gradient is. *)
Example C145_stiefel_case : forall F : rcfType, on_stiefel (e0 F) /\ e0 F <> 0 /\ canonical_proju (e0 F) (e0 F) = 0 /\ euclidean_proju (e0 F) (e0 F) = 0.
Proof. exact critical_case. Qed.
Example C145_spd_case : forall F : rcfType, pos_def (1%:M : 'M[F]_2) /\ exists g : 'M[F]_2, g <> 0 /\ egrad2rgrad 1%:M g = 0.
Proof. exact critical_spd_case. Qed.
