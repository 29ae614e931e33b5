(** Model of geoopt/manifolds/sphere.py for one row of size [n].  [P] is the
    optional projector buffer (one n x n matrix; batches of projectors are
    independent copies), [eps] the entry of EPS (line 10) for the dtype.
    Floats are reals; a division by zero (nan in torch) never occurs under the
    hypotheses of the theorems. *)
From Coq Require Import Reals List Bool.
From Verif Require Import RVec.
From Verif Require StereoModel.
Import ListNotations.
Local Open Scope R_scope.

Definition mat := nat -> nat -> R.

(** sphere.py:10. *)
Definition EPS32 : R := / 10 ^ 4.
Definition EPS64 : R := / 10 ^ 7.

(** torch.allclose(a, b, atol, rtol) on vectors of size n. *)
Definition close (atol rtol a b : R) : bool :=
  if Rle_dec (Rabs (a - b)) (atol + rtol * Rabs b) then true else false.
Definition allclose (n : nat) (atol rtol : R) (a b : vec) : bool :=
  forallb (fun i => close atol rtol (a i) (b i)) (seq 0 n).

(** sphere.py:164-168 _configure_manifold_complement: [Q] is the factor returned
    by linalg.qr, with [K] columns. *)
Definition projector_complement (K : nat) (Q : mat) : mat :=
  fun i j => - Rsum K (fun c => Q i c * Q j c) + (if Nat.eqb i j then 1 else 0).
(** sphere.py:170-172 _configure_manifold_intersection. *)
Definition projector_intersection (K : nat) (Q : mat) : mat :=
  fun i j => Rsum K (fun c => Q i c * Q j c).

Section Sphere.
  Variable n : nat.
  Variable P : option mat.
  Variable eps : R.

  (** sphere.py:177-181 _project_on_subspace: x @ P^T. *)
  Definition project_on_subspace (x : vec) : vec :=
    match P with
    | Some M => fun j => Rsum n (fun i => x i * M j i)
    | None => x
    end.
  (** sphere.py:117-124 inner (one row; the expand only copies the value). *)
  Definition inner (x u v : vec) : R := dot n u v.
  (** sphere.py:126-128 projx. *)
  Definition projx (x : vec) : vec :=
    let x := project_on_subspace x in vdiv x (nrm n x).
  (** sphere.py:130-132 proju; 162 egrad2rgrad = proju. *)
  Definition proju (x u : vec) : vec :=
    let u := vsub u (smul (dot n x u) x) in project_on_subspace u.
  Definition egrad2rgrad := proju.
  (** sphere.py:134-139 expmap; SphereExact.retr (242). *)
  Definition expmap (x u : vec) : vec :=
    let norm_u := nrm n u in
    let ex := vadd (smul (cos norm_u) x) (vdiv (smul (sin norm_u) u) norm_u) in
    let retr := projx (vadd x u) in
    if Rlt_dec eps norm_u then ex else retr.
  (** sphere.py:141-142 retr (class Sphere). *)
  Definition retr (x u : vec) : vec := projx (vadd x u).
  (** sphere.py:144-145 transp. *)
  Definition transp (x y v : vec) : vec := proju y v.
  (** sphere.py:156-160 dist. *)
  Definition dist (x y : vec) : R :=
    acos (StereoModel.clamp (-1 + eps) (1 - eps) (inner x x y)).
  (** sphere.py:147-154 logmap. *)
  Definition logmap (x y : vec) : vec :=
    let u := proju x (vsub y x) in
    let d := dist x y in
    if Rlt_dec eps d
    then vdiv (smul d u) (StereoModel.clamp_min eps (nrm n u))
    else u.
  (** sphere.py:183-221 random_uniform: [draw] is the normal sample. *)
  Definition random_uniform (draw : vec) : vec := projx draw.

  (** sphere.py:91-106 _check_point_on_manifold. *)
  Definition check_point (atol rtol : R) (x : vec) : bool :=
    if close atol rtol (nrm n x) 1
    then allclose n atol rtol (project_on_subspace x) x
    else false.
  (** sphere.py:108-115 _check_vector_on_tangent. *)
  Definition check_vector (atol rtol : R) (x u : vec) : bool :=
    close atol rtol (inner x x u) 0.
End Sphere.

(** ** Shapes: sphere.py:67-89 _check_shape on top of base.py:738-768.
    Shapes are lists of sizes; [pshape] is the shape of the projector. *)
Inductive reason := TooFewDims | BatchDims | SpanMismatch | IsolatedPoints.
(** base.py:754-768 with ndim = 1. *)
Definition base_check_shape (shape : list nat) : bool * option reason :=
  if Nat.leb 1 (length shape) then (true, None) else (false, Some TooFewDims).
Definition check_shape (pshape : option (list nat)) (shape : list nat) : bool * option reason :=
  let '(ok, why) := base_check_shape shape in
  match pshape with
  | Some ps =>
      if ok then
        (* line 72: ok = len(shape) < projector.dim() - 1 *)
        let ok := Nat.ltb (length shape) (length ps - 1) in
        let why := if ok then why else Some BatchDims in
        (* line 77: ok = shape[-1] == projector.shape[-2] *)
        let ok := Nat.eqb (last shape 0%nat) (last (removelast ps) 0%nat) in
        let why := if ok then why else Some SpanMismatch in
        (ok, why)
      else (ok, why)
  | None =>
      if ok then
        let ok := negb (Nat.eqb (last shape 0%nat) 1) in
        (ok, if ok then why else Some IsolatedPoints)
      else (ok, why)
  end.
