(** Vocabulary: isometries of the hyperboloid. *)
From Coq Require Import Reals List.
From Verif Require Import RVec OptimModel OptimInstances LorentzSpec.
Import ListNotations.
Local Open Scope R_scope.

(** A Lorentz transformation that keeps the direction of time: a linear map that preserves the
    Minkowski form and takes the upper sheet to itself. *)
Record isometry (d : nat) (k : R) (T : vec -> vec) : Prop := {
  iso_add : forall u v, T (vadd u v) = vadd (T u) (T v);
  iso_smul : forall a u, T (smul a u) = smul a (T u);
  iso_form : forall u v, minkowski d (T u) (T v) = minkowski d u v;
  iso_sheet : forall x, on_hyperboloid d k x -> 0 < T x O
}.
(** The boost along the first space axis with rapidity a. *)
Definition boost (a : R) (x : vec) : vec := fun i => match i with
  | O => cosh a * x O + sinh a * x 1%nat | 1%nat => sinh a * x O + cosh a * x 1%nat | _ => x i end.

(** The Euclidean gradient of the loss x -> f (T^-1 x) at T x, given the one of f at x. *)
Definition reversed (g : vec) : vec := fun i => match i with O => - g O | S j => g (S j) end.
Definition carried (T : vec -> vec) (g : vec) : vec := reversed (T (reversed g)).
Definition carried_gradient (T : vec -> vec) (g : gradient) : gradient := match g with Dense g => Dense (carried T g) | g => g end.
(** The same parameter seen through T. *)
Definition seen {S} (T : vec -> vec) (p : param S) : param S := {| man := man p; val := T (val p); grad := grad p; state := state p |}.
(** The step with learning rate lr is at least 1e-4 long, or there is none. *)
Definition long_step (d : nat) (k : R) (h : sgd_hyper) (x : vec) (g : gradient) : Prop :=
  match g with
  | Dense g => let u := smul (- lr h) (egrad2rgrad (lorentz d k) x g) in / 10 ^ 8 <= minkowski d u u
  | _ => True
  end.
