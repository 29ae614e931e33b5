(** Property C135 for the matrix manifolds: an optimizer step with a small learning rate
    decreases the loss. *)
From Coq Require Import Reals.
From mathcomp Require Import all_ssreflect all_algebra.
From Verif Require Import RStruct RExp StiefelModel StiefelSpec SpdProofs3 SpdModel SpdSpec MatSymModel MatDescentSpec MatDescentInst MatSymProofs3 MatStepSpec MatStepProofs.
Import GRing.Theory Num.Theory.
Local Open Scope ring_scope.
Set Implicit Arguments. Unset Strict Implicit. Unset Printing Implicit Defensive.

Theorem C135_canonical_stiefel : forall (F : realFieldType) n p f (x g : 'M[F]_(n, p)),
  on_stiefel x -> differentiable f x g -> canonical_proju x g <> 0 -> small_steps_decrease (canonical_ops F n p) f x g.
Proof. exact (both_canonical). Qed.
Print Assumptions C135_canonical_stiefel.
Theorem C135_euclidean_stiefel : forall (F : realFieldType) n p qr f (x g : 'M[F]_(n, p)), (forall m, qr_of m (qr m).1 (qr m).2) ->
  on_stiefel x -> differentiable f x g -> euclidean_proju x g <> 0 -> small_steps_decrease (euclidean_ops qr) f x g.
Proof. exact (both_euclidean). Qed.
Print Assumptions C135_euclidean_stiefel.
Theorem C135_exact_stiefel : forall n p f (x g : 'M[R]_(n, p)), on_stiefel (F := R_realFieldType) x ->
  differentiable (F := R_realFieldType) f x g -> euclidean_proju (F := R_realFieldType) x g <> 0 ->
  small_steps_decrease (exact_ops (F := R_realFieldType) n p rexpm) f x g.
Proof. exact (both_exact). Qed.
Print Assumptions C135_exact_stiefel.
Theorem C135_spd : forall (F : rcfType) n eigh mexp log f (x g : 'M[F]_n), pos_def x -> differentiable f x g ->
  egrad2rgrad x g <> 0 -> small_steps_decrease (spd_ops n eigh mexp log) f x g.
Proof. exact (both_spd). Qed.
Print Assumptions C135_spd.
(** Cases: linear losses at (1, 0) and at the identity. *)
Example C135_stiefel_case : forall F : rcfType,
  on_stiefel (e0 F) /\ differentiable (pairing (e1 F)) (e0 F) (e1 F) /\
  canonical_proju (e0 F) (e1 F) <> 0 /\ euclidean_proju (e0 F) (e1 F) <> 0.
Proof. exact (fun F => let '(conj a (conj b (conj c (conj d _)))) := stiefel_case F in conj a (conj b (conj c d))). Qed.
Example C135_spd_case : forall F : rcfType,
  pos_def (1%:M : 'M[F]_2) /\ differentiable (pairing (ones2 F)) 1%:M (ones2 F) /\ egrad2rgrad 1%:M (ones2 F) <> 0.
Proof. exact spd_case. Qed.
Example C135_qr_case : forall F : rcfType, exists qr, forall m : 'M[F]_(2, 1), qr_of m (qr m).1 (qr m).2.
Proof. exact (fun F => qr_function F (isT : (1 <= 2)%N)). Qed.
