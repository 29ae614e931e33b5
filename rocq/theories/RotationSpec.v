(** Vocabulary: rotations of rows, and what it means that they do not matter. *)
From Coq Require Import Reals List.
From Verif Require Import RVec OptimModel.
From Verif Require LorentzModel.
Import ListNotations.
Local Open Scope R_scope.

(** A linear map of rows with n entries that preserves dot products: rotations, reflections,
    permutations of the entries. *)
Record rotation (n : nat) (T : vec -> vec) : Prop := {
  turn_add : forall u v, T (vadd u v) = vadd (T u) (T v);
  turn_smul : forall a u, T (smul a u) = smul a (T u);
  turn_dot : forall u v, dot n (T u) (T v) = dot n u v
}.
(** A rotation of the space coordinates of the hyperboloid model. *)
Definition spatial (T : vec -> vec) (x : vec) : vec := LorentzModel.cat (x O) (T (LorentzModel.tl x)).

(** The parameter with value, gradient and momentum turned.  Of Adam's state the first moment
    is a vector; the second moments are left alone. *)
Definition turn_gradient (T : vec -> vec) (g : gradient) : gradient := match g with Dense g => Dense (T g) | g => g end.
Definition turned (T : vec -> vec) (p : param vec) : param vec :=
  {| man := man p; val := T (val p); grad := turn_gradient T (grad p); state := option_map T (state p) |}.
Definition turned_state (T : vec -> vec) (s : adam_state) : adam_state :=
  {| count := count s; exp_avg := T (exp_avg s); exp_avg_sq := exp_avg_sq s; max_exp_avg_sq := max_exp_avg_sq s |}.
Definition a_turned (T : vec -> vec) (p : param adam_state) : param adam_state :=
  {| man := man p; val := T (val p); grad := turn_gradient T (grad p); state := option_map (turned_state T) (state p) |}.
(** One rotation for each parameter. *)
Fixpoint each_turned {A} (turn : (vec -> vec) -> A -> A) (Ts : list (vec -> vec)) (xs : list A) : list A :=
  match Ts, xs with T :: Ts, x :: xs => turn T x :: each_turned turn Ts xs | _, _ => [] end.
Definition turned_values : list (vec -> vec) -> list vec -> list vec := each_turned (fun T x => T x).
(** The second oracle computes the gradients of the loss in turned coordinates. *)
Definition turned_oracle (Ts : list (vec -> vec)) (G G' : nat -> list vec -> nat -> gradient) : Prop :=
  forall t xs i, (i < length Ts)%nat -> G' t (turned_values Ts xs) i = turn_gradient (nth i Ts (fun x => x)) (G t xs i).

(** The manifold looks the same after turning. *)
Record equivariant (T : vec -> vec) (M : manifold) : Prop := {
  eq_add : forall u v, T (vadd u v) = vadd (T u) (T v);
  eq_smul : forall a u, T (smul a u) = smul a (T u);
  eq_gradient : forall x g, egrad2rgrad M (T x) (T g) = T (egrad2rgrad M x g);
  eq_argument : forall x g, egrad_arg M (T x) (T g) = T (egrad_arg M x g);
  eq_retr : forall x u, retr M (T x) (T u) = T (retr M x u);
  eq_retr_transp : forall x u v, retr_transp M (T x) (T u) (T v) = (T (fst (retr_transp M x u v)), T (snd (retr_transp M x u v)));
  eq_projx : forall x, projx M (T x) = T (projx M x);
  eq_proju : forall x u, proju M (T x) (T u) = T (proju M x u)
}.
(** component_inner is one number that does not change under T. *)
Definition invariant_length (T : vec -> vec) (M : manifold) : Prop :=
  forall x u, exists c, component_inner M x u = vconst c /\ component_inner M (T x) (T u) = vconst c.
(** Adam has not started, or its second moments are single numbers. *)
Definition single_moments (p : adam_param) : Prop :=
  match state p with
  | None => True
  | Some s => exists a, exp_avg_sq s = vconst a /\ match max_exp_avg_sq s with Some m => exists b, m = vconst b | None => True end
  end.
