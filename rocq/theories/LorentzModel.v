(** Model of geoopt/manifolds/lorentz: math.py and the Lorentz class, on one point
    along the last axis.  A vector has a time coordinate 0 and d space coordinates
    1..d; [k] is the (positive) curvature parameter. *)
From Coq Require Import Reals List ZArith.
From Verif Require Import RVec StereoModel.
Local Open Scope R_scope.

Section Math.
  Variables (d : nat) (k : R).
  (** [x.narrow(dim, 1, dn)] *)
  Definition tl (x : vec) : vec := fun i => x (S i).
  (** [torch.cat((a, b), dim)] of a time coordinate and space coordinates *)
  Definition cat (a : R) (b : vec) : vec := fun i => match i with O => a | S j => b j end.

  (** math.py:5-8 *)
  Definition arcosh (x : R) : R :=
    let z := sqrt (clamp_min e15 (x ^ 2 - 1)) in ln (x + z).
  (** 38-48; both branches compute the same number *)
  Definition inner (u v : vec) : R :=
    let uv := fun i => u i * v i in - uv O + Rsum d (tl uv).
  (** 75-79 *)
  Definition inner0 (v : vec) : R := - v O * sqrt k.
  (** 112-114, 143-145 *)
  Definition dist (x y : vec) : R := let a := - inner x y in sqrt k * arcosh (a / k).
  Definition dist0 (x : vec) : R := let a := - inner0 x in sqrt k * arcosh (a / k).
  (** 174-181 *)
  Definition project (x : vec) : vec := cat (sqrt (k + nrm d (tl x) ^ 2)) (tl x).
  (** 209-220: the d first coordinates are the direction, the last is the radius *)
  Definition project_polar (x : vec) : vec :=
    let r := x d in
    cat (cosh (r / sqrt k)) (smul (sqrt k * sinh (r / sqrt k)) x).
  (** 251-252: v.addcmul(a, b) is v + a * b *)
  Definition project_u (x v : vec) : vec := vadd v (smul (inner x v) (vdiv x k)).
  (** 281-282 *)
  Definition norm (u : vec) : R := sqrt (clamp_min e8 (inner u u)).
  (** 314-320 *)
  Definition expmap (x u : vec) : vec :=
    let nomin := norm u in
    vadd (smul (cosh (nomin / sqrt k)) x) (vdiv (smul (sqrt k * sinh (nomin / sqrt k)) u) nomin).
  (** 345-351 *)
  Definition expmap0 (u : vec) : vec :=
    let nomin := norm u in
    let l_v := cosh (nomin / sqrt k) * sqrt k in
    let r_v := vdiv (smul (sqrt k * sinh (nomin / sqrt k)) u) nomin in
    cat (l_v + r_v O) (tl r_v).
  (** 393-397 *)
  Definition logmap (x y : vec) : vec :=
    let dist_ := dist x y in
    let nomin := vadd y (smul (1 / k * inner x y) x) in
    let denom := norm nomin in vdiv (smul dist_ nomin) denom.
  (** 422-428 *)
  Definition logmap0 (y : vec) : vec :=
    let dist_ := dist0 y in
    let nomin_ := 1 / k * inner0 y * sqrt k in
    let nomin := cat (nomin_ + y O) (tl y) in
    let denom := norm nomin in vdiv (smul dist_ nomin) denom.
  (** 453-461 *)
  Definition logmap0back (x : vec) : vec :=
    let dist_ := dist0 x in
    let nomin_ := smul (1 / k * inner0 x) x in
    let nomin := cat (nomin_ O + sqrt k) (tl nomin_) in
    let denom := norm nomin in vdiv (smul dist_ nomin) denom.
  (** 492-495: [grad.narrow(-1, 0, 1).mul_(-1)] writes into the caller's tensor.
      Returns the new contents of that tensor, then the result. *)
  Definition flip (g : vec) : vec := fun i => match i with O => g O * -1 | S _ => g i end.
  Definition egrad2rgrad (x grad : vec) : vec * vec :=
    let grad := flip grad in (grad, vadd grad (smul (inner x grad) (vdiv x k))).
  (** 524-529 *)
  Definition parallel_transport (x y v : vec) : vec :=
    let lmap := logmap x y in
    let nom := inner lmap v in
    let denom := dist x y ^ 2 in
    vsub v (smul (nom / denom) (vadd lmap (logmap y x))).
  (** 556-561 *)
  Definition parallel_transport0 (y v : vec) : vec :=
    let lmap := logmap0 y in
    let nom := inner lmap v in
    let denom := dist0 y ^ 2 in
    vsub v (smul (nom / denom) (vadd lmap (logmap0back y))).
  (** 590-595 *)
  Definition parallel_transport0back (x v : vec) : vec :=
    let lmap := logmap0back x in
    let nom := inner lmap v in
    let denom := dist0 x ^ 2 in
    vsub v (smul (nom / denom) (vadd lmap (logmap0 x))).
  (** 626-630 *)
  Definition geodesic_unit (t : R) (x u : vec) : vec :=
    vadd (smul (cosh (t / sqrt k)) x) (smul (sqrt k * sinh (t / sqrt k)) u).
  (** 633-656, for a matrix of points (rank 2); other ranks: [narrowed_axes] *)
  Definition lorentz_to_poincare (x : vec) : vec := vdiv (tl x) (x O + sqrt k).
  (** 659-687 *)
  Definition poincare_to_lorentz (eps : R) (p : vec) : vec :=
    let s := dot d p p in vdiv (smul (sqrt k) (cat (1 + s) (smul 2 p))) (1 - s + eps).
End Math.

(** lorentz/__init__.py *)
Section Class.
  Variables (d : nat) (k : R).
  (** 44-57; [torch.allclose(a, b)] is |a - b| <= atol + rtol * |b| *)
  Definition check_point (atol rtol : R) (x : vec) : Prop :=
    let sq := fun i => x i ^ 2 in
    let quad_form := - sq O + Rsum d (tl sq) in
    Rabs (quad_form - - k) <= atol + rtol * Rabs (- k).
  (** 59-68 *)
  Definition check_vector (atol rtol : R) (x u : vec) : Prop :=
    Rabs (inner d u x - 0) <= atol + rtol * Rabs 0.
  (** 92-101 (247: retr = expmap), with norm_tan and project as given *)
  Definition l_expmap (norm_tan proj : bool) (x u : vec) : vec :=
    let u := if norm_tan then project_u d k x u else u in
    let res := expmap d k x u in
    if proj then project d k res else res.
  (** 103-109 *)
  Definition l_expmap0 (proj : bool) (u : vec) : vec :=
    let res := expmap0 d k u in if proj then project d k res else res.
  (** 158-162 *)
  Definition transp_follow_expmap (proj : bool) (x u v : vec) : vec :=
    let y := l_expmap true proj x u in parallel_transport d k x y v.
  (** 164-172 *)
  Definition l_geodesic_unit (proj : bool) (t : R) (x u : vec) : vec :=
    let res := geodesic_unit k t x u in if proj then project d k res else res.
  (** 174-214, from the standard normal draw; dtype and device guards not modelled *)
  Definition random_normal (mean std : R) (draw : vec) : vec :=
    let tens := fun i => draw i * std + mean in
    let tens := vdiv tens (nrm (S d) tens) in
    l_expmap0 true tens.
  (** 216-245 *)
  Definition origin : vec := fun i => match i with O => sqrt k | S _ => 0 end.
End Class.

(** ** Axes, for lorentz_to_poincare on a tensor of any rank.
    A dimension argument -rank <= dim < rank names an axis; others raise IndexError. *)
Definition axis (rank : nat) (dim : Z) : option nat :=
  if ((0 <=? dim) && (dim <? Z.of_nat rank))%Z%bool then Some (Z.to_nat dim)
  else if ((- Z.of_nat rank <=? dim) && (dim <? 0))%Z%bool then Some (Z.to_nat (dim + Z.of_nat rank))
  else None.
(** 655-656: the space part is taken along dim, the time part along -dim *)
Definition narrowed_axes (rank : nat) (dim : Z) : option nat * option nat :=
  (axis rank dim, axis rank (- dim)).
