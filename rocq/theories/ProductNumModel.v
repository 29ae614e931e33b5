(** Model of the numeric parts of geoopt/manifolds/product.py: inner, dist2,
    dist, and of StereographicProductManifold's own formulas. *)
From Coq Require Import List Bool Arith Reals.
From Verif Require Import BaseModel ProductModel RVec.
From Verif Require StereoModel.
Import ListNotations.
Local Open Scope R_scope.

Definition lsum (l : list R) : R := fold_right Rplus 0 l.

(** [t.reshape(( *t.shape[:tbd], -1)).sum(-1)]: product.py:166 (view) and 329-331. *)
Definition flatten_sum (tbd : nat) (t : tensor R) : outcome (tensor R) :=
  let batch := firstn tbd (t_shape t) in
  if Nat.eqb (size batch) 0 then RaisesOther
  else Returns (mk batch
         (map lsum (rows (size batch) (List.length (t_data t) / size batch) (t_data t)))).

(** [a + b] for equal shapes (the broadcasting of unequal ones is not modelled). *)
Definition add_tensor (a b : tensor R) : outcome (tensor R) :=
  if list_eq_dec Nat.eq_dec (t_shape a) (t_shape b)
  then Returns (mk (t_shape a) (map (fun '(p, q) => p + q) (combine (t_data a) (t_data b))))
  else RaisesOther.
(** Python's [sum(products)], i.e. 0 + p0 + p1 + ... *)
Fixpoint sum_tensors (acc : tensor R) (l : list (tensor R)) : outcome (tensor R) :=
  match l with
  | [] => Returns acc
  | t :: rest => bind (add_tensor acc t) (fun a => sum_tensors a rest)
  end.
Definition py_sum (l : list (tensor R)) : outcome (tensor R) :=
  match l with [] => RaisesOther | t :: rest => sum_tensors t rest end.

(** [torch.unsqueeze(result, -1)] *)
Definition unsqueeze_if (keepdim : bool) (t : tensor R) : tensor R :=
  if keepdim then reshape t (t_shape t ++ [1%nat]) else t.

(** inner 150-171 (args = [x; u] or [x; u; v]) and dist2 322-336 (args = [x; y]);
    [fs] are the components' inner/dist2 with keepdim=True. *)
Definition sum_components (shapes : list (list nat))
           (fs : list (list (tensor R) -> outcome (tensor R)))
           (args : list (tensor R)) (keepdim : bool) : outcome (tensor R) :=
  let tbd := target_batch_dim (map (dim R) args) in
  bind (apply_parts R shapes fs args) (fun rs =>
  bind (traverse (flatten_sum tbd) rs) (fun ps =>
  bind (py_sum ps) (fun r => Returns (unsqueeze_if keepdim r)))).

(** dist 338-339: [dist2.clamp_min_(1e-15) ** 0.5], entrywise. *)
Definition dist_of_dist2 (d2 : R) : R := sqrt (StereoModel.clamp_min StereoModel.e15 d2).
Definition dist (shapes : list (list nat)) (fs : list (list (tensor R) -> outcome (tensor R)))
           (x y : tensor R) (keepdim : bool) : outcome (tensor R) :=
  bind (sum_components shapes fs [x; y] keepdim) (fun t =>
    Returns (mk (t_shape t) (map dist_of_dist2 (t_data t)))).

(** One batch element of StereographicProductManifold with [m] components of
    dimensions [n i] and curvatures [k i]: a point is the list of its component
    vectors (the parts of take_submanifold_value). *)
Section Stereo.
  Variable e : R.                 (* the eps inside sabs, utils.py *)
  Variable m : nat.
  Variable n : nat -> nat.
  Variable k : nat -> R.
  Definition point := nat -> vec.

  (** dist2plane 467-491 *)
  Definition dist2plane (signed scaled : bool) (x p a : point) : R :=
    sqrt (Rsum m (fun i => StereoModel.dist2plane (n i) e (k i) signed scaled (x i) (a i) (p i) ^ 2)).
  (** dist0 675-683 *)
  Definition dist0 (x : point) : R :=
    sqrt (Rsum m (fun i => StereoModel.dist0 (n i) e (k i) (x i) ^ 2)).
  (** the product distance on one batch element (dist2 322-336 of the components'
      dist**2, clamped as in line 339) *)
  Definition sdist (x y : point) : R :=
    dist_of_dist2 (Rsum m (fun i => StereoModel.dist (n i) e (k i) (x i) (y i) ^ 2)).
  (** geodesic_unit 659-673 with project=False *)
  Definition geodesic_unit (t : R) (x u : point) : point :=
    fun i => StereoModel.geodesic_unit (n i) e (k i) t (x i) (u i).
  (** norm: base.py:681 of inner *)
  Definition norm (x u : point) : R :=
    sqrt (Rsum m (fun i => StereoModel.inner (n i) (k i) (x i) (u i) (u i))).
  (** stereographic/manifold.py:496-498 wrapped_normal with the components' std as a
      vector, before the ManifoldTensor wrapping; [project] as in Stereographic.expmap. *)
  Definition component_wrapped_normal (proj : R -> vec -> vec) (ni : nat) (ki : R)
             (mean std noise : vec) : vec :=
    let v := fun j => noise j * std j in
    proj ki (StereoModel.expmap ni e ki mean (vdiv v (StereoModel.lambda_x ni ki mean))).
  (** wrapped_normal 615-641 with a Python int/float std (line 627-628):
      [torch.zeros(...) * std] *)
  Definition wrapped_normal_scalar (proj : nat -> R -> vec -> vec) (mean noise : point) (std : R) : point :=
    fun i => component_wrapped_normal (proj (n i)) (n i) (k i) (mean i) (fun _ => 0 * std) (noise i).
End Stereo.

(** _mobius_2_manifold_args 529-545 (mobius_add, mobius_coadd, mobius_sub,
    mobius_cosub): the component results are flattened to [( *batch, -1)] and then
    handed to pack_point, which checks their trailing shape. *)
Definition mobius_2_args (shapes : list (list nat)) (fs : list (list (tensor R) -> outcome (tensor R)))
           (x y : tensor R) : outcome (tensor R) :=
  let tbd := target_batch_dim (map (dim R) [x; y]) in
  bind (apply_parts R shapes fs [x; y]) (fun rs =>
  bind (traverse (flatten_result R tbd) rs) (pack_point R shapes)).
