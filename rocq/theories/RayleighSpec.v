(** Vocabulary: minimising the quadratic loss x -> <x, m x> on the sphere. *)
From Coq Require Import Reals List.
From Verif Require Import RVec OptimModel CheckpointSpec.
Import ListNotations.
Local Open Scope R_scope.

(** Training the single parameter p, whose gradient at x is g x, for n steps does not
    raise and ends with the value y. *)
Definition gradient_run (h : sgd_hyper) (s : option nat) (g : vec -> vec) (p : sgd_param) (t n : nat) (y : vec) : Prop :=
  exists o', train_sgd (fun _ h => h) (fun _ vs _ => Dense (g (hd vzero vs))) t n [{| hyp := h; steps := s; params := [p] |}] = (o', Ok) /\
    map val (concat (map params o')) = [y].
(** m x *)
Definition mat_vec (d : nat) (m : nat -> nat -> R) (x : vec) : vec := fun i => Rsum d (fun k => m i k * x k).
(** the gradient of <x, m x> *)
Definition quad_grad (d : nat) (m : nat -> nat -> R) (x : vec) : vec := smul 2 (mat_vec d m x).
(** v 0, ..., v (d-1) are an orthonormal basis of eigenvectors of the symmetric matrix m,
    with eigenvalues b: inner products are computed from the coordinates <v i, x>. *)
Record eigenbasis (d : nat) (m : nat -> nat -> R) (v : nat -> vec) (b : nat -> R) : Prop := {
  e_sym : forall i k, (i < d)%nat -> (k < d)%nat -> m i k = m k i;
  e_vec : forall i k, (i < d)%nat -> (k < d)%nat -> mat_vec d m (v i) k = b i * v i k;
  e_unit : forall i k, (i < d)%nat -> (k < d)%nat -> dot d (v i) (v k) = if Nat.eqb i k then 1 else 0;
  e_basis : forall x y, dot d x y = Rsum d (fun i => dot d (v i) x * dot d (v i) y) }.
(** b j is the smallest eigenvalue: the others are larger by at least gap and at most
    spread. *)
Definition isolated (d : nat) (b : nat -> R) (j : nat) (gap spread : R) : Prop :=
  (j < d)%nat /\ 0 < gap <= spread /\ forall i, (i < d)%nat -> i <> j -> b j + gap <= b i <= b j + spread.
(** v j or - v j, the one on the side of x *)
Definition nearer (d : nat) (v x : vec) : vec := if Rle_dec 0 (dot d v x) then v else vopp v.
(** The factor by which the tangent of the angle shrinks in each step *)
Definition shrink (l gap spread : R) : R := 1 - 2 * l * gap / (1 + 2 * l * spread).
(** The tangent of the angle between x and the line through v *)
Definition tangent_of_angle (d : nat) (v x : vec) : R := sqrt (1 - dot d v x ^ 2) / Rabs (dot d v x).
