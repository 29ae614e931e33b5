(** C134 on matrices: what weight decay does on each manifold. *)
From mathcomp Require Import all_ssreflect all_algebra.
From Verif Require Import StiefelModel StiefelSpec SpdSpec MatDecayProofs.
From Verif Require SpdModel.
Import GRing.Theory Num.Theory.
Local Open Scope ring_scope.
Set Implicit Arguments. Unset Strict Implicit. Unset Printing Implicit Defensive.

(** The Riemannian gradients of both Stiefel manifolds do not see multiples of the point ... *)
Theorem C134_canonical_stiefel : forall (F : realFieldType) n p (x g : 'M[F]_(n, p)) a, on_stiefel x ->
  canonical_proju x (g + a *: x) = canonical_proju x g.
Proof. exact canonical_blind. Qed.
Print Assumptions C134_canonical_stiefel.

Theorem C134_euclidean_stiefel : forall (F : realFieldType) n p (x g : 'M[F]_(n, p)) a, on_stiefel x ->
  euclidean_proju x (g + a *: x) = euclidean_proju x g.
Proof. exact euclidean_blind. Qed.
Print Assumptions C134_euclidean_stiefel.

(** ... that of the SPD matrices gains a multiple of the cube of the point. *)
Theorem C134_spd : forall (F : rcfType) n (x g : 'M[F]_n) a, pos_def x ->
  SpdModel.egrad2rgrad x (g + a *: x) = SpdModel.egrad2rgrad x g + a *: (x *m x *m x).
Proof. exact spd_decay. Qed.
Print Assumptions C134_spd.

(** A case: the identity. *)
Example C134_identity_on_stiefel : forall (F : realFieldType) n, on_stiefel (1%:M : 'M[F]_n).
Proof. exact identity_on. Qed.
