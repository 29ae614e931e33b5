(** A matrix manifold as the optimizers of OptimModel.v see it: tensors are rows of
    entries, a matrix is its entries in row-major order. *)
From mathcomp Require Import all_ssreflect all_algebra.
From Coq Require Import Reals.
From Verif Require Import RVec RStruct MatSymModel.
From Verif Require OptimModel.
Import GRing.Theory.
Local Open Scope ring_scope.
Set Implicit Arguments. Unset Strict Implicit. Unset Printing Implicit Defensive.

Section Flat.
  Variables n p : nat.
  (** the memory layout of a contiguous n x p tensor; positions past the end are 0 *)
  Definition flat (m : 'M[R]_(n, p)) : vec := fun i => if insub i is Some k then mxvec m ord0 k else 0.
  Definition unflat (v : vec) : 'M[R]_(n, p) := vec_mx (\row_(k < n * p) v k).
  (** egrad2rgrad of these manifolds makes a new tensor ([egrad_arg], [egrad_same]: nothing
      is written to p.grad); component_inner has one value, broadcast; [px], [pu] are projx
      and proju, which are called for stabilisation only. *)
  Definition flat_manifold (o : ops R_realFieldType n p) (px : 'M[R]_(n, p) -> 'M[R]_(n, p))
    (pu : 'M[R]_(n, p) -> 'M[R]_(n, p) -> 'M[R]_(n, p)) : OptimModel.manifold := {|
    OptimModel.egrad2rgrad := fun x u => flat (o_egrad2rgrad o (unflat x) (unflat u));
    OptimModel.egrad_arg := fun x u => u;
    OptimModel.egrad_same := false;
    OptimModel.retr := fun x u => flat (o_retr o (unflat x) (unflat u));
    OptimModel.retr_transp := fun x u v =>
      let: (y, w) := o_retr_transp o (unflat x) (unflat u) (unflat v) in (flat y, flat w);
    OptimModel.component_inner := fun x u => OptimModel.vconst (o_inner o (unflat x) (unflat u) (unflat u));
    OptimModel.projx := fun x => flat (px (unflat x));
    OptimModel.proju := fun x u => flat (pu (unflat x) (unflat u)) |}.
  (** The options under their names in OptimModel.v, with stabilize=None. *)
  Definition sgd_options (h : sgd R_realFieldType) : OptimModel.sgd_hyper := {|
    OptimModel.lr := s_lr h; OptimModel.momentum := s_momentum h; OptimModel.dampening := s_dampening h;
    OptimModel.weight_decay := s_decay h; OptimModel.nesterov := s_nesterov h; OptimModel.stabilize := None |}.
  Definition adam_options (h : adam R_realFieldType) : OptimModel.adam_hyper := {|
    OptimModel.a_lr := a_lr h; OptimModel.beta1 := a_b1 h; OptimModel.beta2 := a_b2 h; OptimModel.eps := a_eps h;
    OptimModel.a_decay := a_decay h; OptimModel.amsgrad := a_amsgrad h; OptimModel.a_stabilize := None |}.
End Flat.
