(** Vocabulary for the sphere properties, independent of the model. *)
From Coq Require Import Reals.
From Verif Require Import RVec StereoSpec.
Local Open Scope R_scope.

(** A linear subspace of R^n: everything, or the range of a symmetric
    idempotent matrix M (M_{ji} M_{ik} summed over i is M_{jk}). *)
Definition applym (n : nat) (M : nat -> nat -> R) (x : vec) : vec :=
  fun j => Rsum n (fun i => M j i * x i).
Definition orthogonal_projector (n : nat) (M : nat -> nat -> R) : Prop :=
  (forall i j, (i < n)%nat -> (j < n)%nat -> M i j = M j i) /\
  (forall i j, (i < n)%nat -> (j < n)%nat -> Rsum n (fun k => M i k * M k j) = M i j).
Definition valid_subspace (n : nat) (P : option (nat -> nat -> R)) : Prop :=
  match P with Some M => orthogonal_projector n M | None => True end.
Definition in_subspace (n : nat) (P : option (nat -> nat -> R)) (x : vec) : Prop :=
  match P with Some M => same n (applym n M x) x | None => True end.

(** A point of the (sub)sphere and a tangent vector at it. *)
Definition on_sphere (n : nat) P (x : vec) : Prop := dot n x x = 1 /\ in_subspace n P x.
Definition tangent (n : nat) P (x u : vec) : Prop := dot n x u = 0 /\ in_subspace n P u.

(** The n x K matrix Q has orthonormal columns. *)
Definition orthonormal (n K : nat) (Q : nat -> nat -> R) : Prop :=
  forall a b, (a < K)%nat -> (b < K)%nat ->
    Rsum n (fun i => Q i a * Q i b) = if Nat.eqb a b then 1 else 0.
(** x is a combination of the K columns of A; x is orthogonal to all of them. *)
Definition in_span (n K : nat) (A : nat -> nat -> R) (x : vec) : Prop :=
  exists c : nat -> R, forall i, (i < n)%nat -> x i = Rsum K (fun a => A i a * c a).
Definition orthogonal_to (n K : nat) (A : nat -> nat -> R) (x : vec) : Prop :=
  forall a, (a < K)%nat -> Rsum n (fun i => A i a * x i) = 0.
(** Contract of the reduced QR factorisation: A = Q R, Q with orthonormal columns. *)
Definition qr_of (n K : nat) (A Q R : nat -> nat -> R) : Prop :=
  orthonormal n K Q /\
  forall i a, (i < n)%nat -> (a < K)%nat -> A i a = Rsum K (fun b => Q i b * R b a).
