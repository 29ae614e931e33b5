(** Vocabulary: a loss of several parameters and its differential. *)
From Coq Require Import Reals List.
From Coquelicot Require Import Coquelicot.
From Verif Require Import RVec OptimModel StereoSpec.
Import ListNotations.
Local Open Scope R_scope.

(** Parameter by parameter: x + h, the sum of the lengths of the displacements h, and the sum
    of the products <g, h>; parameter number i has as many entries as [ns] says. *)
Fixpoint displaced (xs hs : list vec) : list vec :=
  match xs, hs with x :: xs, h :: hs => vadd x h :: displaced xs hs | _, _ => [] end.
Fixpoint lengths (ns : list nat) (hs : list vec) : R :=
  match ns, hs with n :: ns, h :: hs => nrm n h + lengths ns hs | _, _ => 0 end.
Fixpoint products (ns : list nat) (gs hs : list vec) : R :=
  match ns, gs, hs with n :: ns, g :: gs, h :: hs => dot n g h + products ns gs hs | _, _, _ => 0 end.
(** The loss has gradients [gs] at [xs]. *)
Definition jointly_differentiable (L : list vec -> R) (ns : list nat) (xs gs : list vec) : Prop :=
  forall eps, 0 < eps -> exists del, 0 < del /\ forall hs, length hs = length xs -> lengths ns hs < del ->
    Rabs (L (displaced xs hs) - L xs - products ns gs hs) <= eps * lengths ns hs.
(** A parameter without gradient is one the loss does not depend on. *)
Definition grad_of {S} (p : param S) : vec := match grad p with Dense g => g | _ => vzero end.
(** The hyper-parameters with another learning rate. *)
Definition sgd_rate (t : R) (h : sgd_hyper) : sgd_hyper :=
  {| lr := t; momentum := momentum h; dampening := dampening h; weight_decay := weight_decay h; nesterov := nesterov h; stabilize := stabilize h |}.
Definition adam_rate (t : R) (h : adam_hyper) : adam_hyper :=
  {| a_lr := t; beta1 := beta1 h; beta2 := beta2 h; eps := eps h; a_decay := a_decay h; amsgrad := amsgrad h; a_stabilize := a_stabilize h |}.

(** What descent asks of a manifold at the point x with Euclidean gradient g, r being the
    Riemannian gradient: for d = r, or r rescaled block by block with positive factors, the
    curve retr(x, -t d) starts at x with velocity -d, and d has a positive product with g
    unless r = 0. *)
Definition rescaled (blk : nat -> nat -> Prop) (r d : vec) : Prop :=
  exists s, (forall i, 0 < s i) /\ (forall i j, blk i j -> s i = s j) /\ d = vmul s r.
Record descent_at (n : nat) (M : manifold) (blk : nat -> nat -> Prop) (x g : vec) : Prop := {
  starts_here : forall d, rescaled blk (egrad2rgrad M x g) d -> same n (retr M x (smul (- 0) d)) x;
  has_velocity : forall d, rescaled blk (egrad2rgrad M x g) d -> forall i, (i < n)%nat ->
    is_derive (fun t => retr M x (smul (- t) d) i) 0 (- d i);
  has_slope : forall d, rescaled blk (egrad2rgrad M x g) d ->
    0 <= dot n g d /\ (0 < nrm n (egrad2rgrad M x g) -> 0 < dot n g d);
  moves_alike : forall u v, fst (retr_transp M x u v) = retr M x u;
  inner_nonneg : forall i, 0 <= component_inner M x (egrad2rgrad M x g) i;
  inner_blocks : forall i j, blk i j -> component_inner M x (egrad2rgrad M x g) i = component_inner M x (egrad2rgrad M x g) j
}.
(** Every parameter is ready (its manifold permitting, or it has no gradient), and for at
    least one the Riemannian gradient is not zero. *)
Definition ready {S} (n : nat) (p : param S) : Prop :=
  grad p <> Sparse /\ forall g, grad p = Dense g -> exists blk, descent_at n (manifold_of p) blk (val p) g.
Definition some_gradient {S} (ns : list nat) (ps : list (param S)) : Prop :=
  Exists (fun np => exists g, grad (snd np) = Dense g /\ 0 < nrm (fst np) (egrad2rgrad (manifold_of (snd np)) (val (snd np)) g)) (combine ns ps).
