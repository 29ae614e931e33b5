(** Vocabulary for Sinkhorn on a batch. *)
From mathcomp Require Import all_ssreflect all_algebra.
From Verif Require NdModel StereoNdSpec.
From Verif Require Import BirkhoffModel MatNdModel.
Set Implicit Arguments. Unset Strict Implicit. Unset Printing Implicit Defensive.

(** [k] is the first pass at which [ok] holds, but at most [m]. *)
Definition stops (m : nat) (ok : nat -> Prop) (k : nat) : Prop :=
  (k <= m)%N /\ ((k < m)%N -> ok k) /\ (forall j, (j < k)%N -> ~ ok j).

Section Spec.
  Variable F : realFieldType.
  (** The two scalings of one matrix after [k] passes, and the matrix they give. *)
  Definition scales_after (eps : F) n (x : 'M[F]_n) (k : nat) : scales F n := iter k (rescale eps x) (start eps x).
  Definition scaled (eps : F) n (x : 'M[F]_n) (k : nat) : 'M[F]_n := apply_scales x (scales_after eps x k).
  (** Every matrix of the batch is settled after [k] passes. *)
  Definition all_settled (eps tol : F) (b : seq nat) n (x : index -> 'M[F]_n) (k : nat) : Prop :=
    forall ix, StereoNdSpec.inside b ix -> settled tol (x ix) (scales_after eps (x ix) k).
End Spec.
