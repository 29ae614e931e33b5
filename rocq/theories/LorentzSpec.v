(** Vocabulary for the Lorentz properties, independent of the model. *)
From Coq Require Import Reals.
From Verif Require Import RVec.
Local Open Scope R_scope.

(** Minkowski form in d space dimensions; a vector's coordinate 0 is time. *)
Definition minkowski (d : nat) (u v : vec) : R := Rsum d (fun i => u (S i) * v (S i)) - u O * v O.
(** Upper sheet of the hyperboloid of radius sqrt k. *)
Definition on_hyperboloid (d : nat) (k : R) (x : vec) : Prop := minkowski d x x = - k /\ 0 < x O.
Definition tangent (d : nat) (x u : vec) : Prop := minkowski d x u = 0.
(** Euclidean differential of a function with gradient g, along v (d+1 coordinates). *)
Definition pairing (d : nat) (g v : vec) : R := dot (S d) g v.
(** Hyperbolic angle between two points: x, y span a geodesic of length sqrt k * angle. *)
Definition hyp_cos (d : nat) (k : R) (x y : vec) : R := - minkowski d x y / k.
(** The clamps of arcosh (1e-15) and norm (1e-8) are inactive between x and y. *)
Definition apart (d : nat) (k : R) (x y : vec) : Prop :=
  / 10 ^ 15 <= hyp_cos d k x y ^ 2 - 1 /\ / 10 ^ 8 <= k * (hyp_cos d k x y ^ 2 - 1).
