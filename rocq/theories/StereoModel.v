(** Model of geoopt/manifolds/stereographic/math.py for one row (last axis, any
    size [n]) and one curvature [k].  Torch floats are reals; clamps and the
    constants are the code's.  [dim] is always the last axis; batch axes are
    independent copies (the tensor-wide branches of tan_k & co are modelled
    separately in StereoBatchModel.v). *)
From Coq Require Import Reals Lra.
From Verif Require Import RVec.
Local Open Scope R_scope.

(** 1e-15, the default of [sabs] (utils.py:56) and of the clamps in math.py. *)
Definition e15 : R := / 10 ^ 15.
(** 1e-7, 1e-8, 1e-10. *)
Definition e7 : R := / 10 ^ 7.
Definition e8 : R := / 10 ^ 8.
Definition e10 : R := / 10 ^ 10.

(** [x.clamp_min(m)], [x.clamp_max(m)], [x.clamp(lo, hi)]. *)
Definition clamp_min (m x : R) : R := Rmax x m.
Definition clamp_max (m x : R) : R := Rmin x m.
Definition clamp (lo hi x : R) : R := Rmin (Rmax x lo) hi.

(** [torch.sign]. *)
Definition torch_sign (x : R) : R :=
  if Rlt_dec x 0 then -1 else if Rlt_dec 0 x then 1 else 0.
(** utils.py:50-52 sign, 55-57 sabs, 60-63 clamp_abs. *)
Definition sign (x : R) : R := torch_sign (torch_sign x + 1 / 2).
Definition sabs (eps x : R) : R := Rabs x + eps.
Definition clamp_abs (eps x : R) : R := sign x * sabs eps x.

(** math.py:29-31 tanh, 34-37 artanh, 40-42 arsinh, 45-48 abs_zero_grad. *)
Definition tanh_c (x : R) : R := tanh (clamp (-15) 15 x).
Definition artanh_c (x : R) : R :=
  let x := clamp (-1 + e7) (1 - e7) x in (ln (1 + x) - ln (1 - x)) * (1 / 2).
Definition arsinh_c (x : R) : R := ln (clamp_min e15 (x + sqrt (1 + x ^ 2))).
Definition abs_zero_grad (x : R) : R := x * sign x.

(** math.py:51-180: the Taylor expansions, orders 1 and -1 (= 5) as used. *)
Definition tan_k_zero_taylor1 (x k : R) : R :=
  let k := abs_zero_grad k in x + 1 / 3 * k * x ^ 3.
Definition artan_k_zero_taylor1 (x k : R) : R :=
  let k := abs_zero_grad k in x - 1 / 3 * k * x ^ 3.
Definition arsin_k_zero_taylor1 (x k : R) : R :=
  let k := abs_zero_grad k in x + k * x ^ 3 / 6.
Definition arsin_k_zero_taylor5 (x k : R) : R :=
  let k := abs_zero_grad k in
  x + k * x ^ 3 / 6 + 3 / 40 * k ^ 2 * x ^ 5 + 5 / 112 * k ^ 3 * x ^ 7
  + 35 / 1152 * k ^ 4 * x ^ 9 + 63 / 2816 * k ^ 5 * x ^ 11.
Definition sin_k_zero_taylor1 (x k : R) : R :=
  let k := abs_zero_grad k in x - k * x ^ 3 / 6.
Definition sin_k_zero_taylor5 (x k : R) : R :=
  let k := abs_zero_grad k in
  x - k * x ^ 3 / 6 + k ^ 2 * x ^ 5 / 120 - k ^ 3 * x ^ 7 / 5040
  + k ^ 4 * x ^ 9 / 362880 - k ^ 5 * x ^ 11 / 39916800.

(** [k.isclose(0)]: |k| <= 1e-8 (atol) + rtol * 0. *)
Definition k_zero (k : R) : {Rabs k <= e8} + {~ Rabs k <= e8} := Rle_dec (Rabs k) e8.
(** [sabs(k).sqrt()]; [e] is the eps argument of sabs, 1e-15 in every call. *)
Definition k_sqrt (e k : R) : R := sqrt (sabs e k).

(** math.py:183-204, one curvature. *)
Definition tan_k_at (e x k : R) : R :=
  if k_zero k then tan_k_zero_taylor1 x k
  else let s := k_sqrt e k in
       let scaled_x := x * s in
       if Rlt_dec k 0 then / s * tanh_c scaled_x
       else / s * tan (clamp_max (10 ^ 38) scaled_x).

(** math.py:207-228, one curvature. *)
Definition artan_k_at (e x k : R) : R :=
  if k_zero k then artan_k_zero_taylor1 x k
  else let s := k_sqrt e k in
       let scaled_x := x * s in
       if Rlt_dec k 0 then / s * artanh_c scaled_x
       else / s * atan scaled_x.

(** math.py:231-256, one curvature (tensor of curvatures all of one sign). *)
Definition arsin_k_at (e x k : R) : R :=
  if k_zero k then arsin_k_zero_taylor5 x k
  else let s := k_sqrt e k in
       let scaled_x := x * s in
       if Rlt_dec k 0 then / s * arsinh_c scaled_x
       else / s * asin scaled_x.

(** math.py:259-280, one curvature. *)
Definition sin_k_at (e x k : R) : R :=
  if k_zero k then sin_k_zero_taylor5 x k
  else let s := k_sqrt e k in
       let scaled_x := x * s in
       if Rlt_dec k 0 then / s * sinh scaled_x
       else / s * sin scaled_x.

Section Row.
  (** size of the row; [e] is the eps of [sabs] (1e-15 in the code). *)
  Variable n : nat.
  Variable e : R.
  Implicit Types x y u v w a p : vec.

  Definition tan_k := tan_k_at e.
  Definition artan_k := artan_k_at e.
  Definition arsin_k := arsin_k_at e.

  (** math.py:306-318 _project; [eps] is 4e-3 (float32) or 1e-5 (otherwise). *)
  Definition maxnorm (eps k : R) : R :=
    if Rlt_dec k 0 then (1 - eps) / sqrt (sabs e k) else 10 ^ 15.
  Definition project (eps k : R) x : vec :=
    let norm := clamp_min e15 (nrm n x) in
    if Rlt_dec (maxnorm eps k) norm then smul (maxnorm eps k) (vdiv x norm) else x.

  (** math.py:347-349 _lambda_x. *)
  Definition lambda_x (k : R) x : R := 2 / clamp_min e15 (1 + k * dot n x x).

  (** math.py:385-396 _inner (values; for the shape see StereoBatchModel). *)
  Definition inner (k : R) x u v : R := lambda_x k x ^ 2 * dot n u v.

  (** math.py:428-438 _norm. *)
  Definition norm (k : R) x u : R := lambda_x k x * nrm n u.

  (** math.py:502-521 _mobius_add. *)
  Definition mobius_den (k : R) x y : R :=
    1 - 2 * k * dot n x y + k ^ 2 * dot n x x * dot n y y.
  Definition mobius_num (k : R) x y : vec :=
    vadd (smul (1 - 2 * k * dot n x y - k * dot n y y) x)
         (smul (1 + k * dot n x x) y).
  Definition mobius_add (k : R) x y : vec :=
    vdiv (mobius_num k x y) (clamp_min e15 (mobius_den k x y)).

  (** math.py:554-555 _mobius_sub. *)
  Definition mobius_sub (k : R) x y : vec := mobius_add k x (vopp y).

  (** math.py:622-641 _gyration. *)
  Definition gyr_den (k : R) u v : R :=
    1 - 2 * k * dot n u v + k ^ 2 * dot n u u * dot n v v.
  Definition gyration (k : R) u v w : vec :=
    let u2 := dot n u u in let v2 := dot n v v in
    let uv := dot n u v in let uw := dot n u w in let vw := dot n v w in
    let K2 := k ^ 2 in
    let a := - K2 * uw * v2 - k * vw + 2 * K2 * uv * vw in
    let b := - K2 * vw * u2 + k * uw in
    vadd w (vdiv (smul 2 (vadd (smul a u) (smul b v))) (clamp_min e15 (gyr_den k u v))).

  (** math.py:696-705 _mobius_coadd, 738-740 _mobius_cosub. *)
  Definition mobius_coadd (k : R) x y : vec := mobius_add k x (gyration k x (vopp y) y).
  Definition mobius_cosub (k : R) x y : vec := mobius_coadd k x (vopp y).

  (** math.py:813-819 _mobius_scalar_mul. *)
  Definition mobius_scalar_mul (k r : R) x : vec :=
    let x_norm := clamp_min e15 (nrm n x) in
    smul (tan_k (r * artan_k x_norm k) k) (vdiv x x_norm).

  (** math.py:853-863 _dist, 889-891 _dist0. *)
  Definition dist (k : R) x y : R := 2 * artan_k (nrm n (mobius_add k (vopp x) y)) k.
  Definition dist0 (k : R) x : R := 2 * artan_k (nrm n x) k.

  (** math.py:957-965 _geodesic. *)
  Definition geodesic (k t : R) x y : vec :=
    mobius_add k x (mobius_scalar_mul k t (mobius_add k (vopp x) y)).

  (** math.py:1012-1018 _expmap. *)
  Definition expmap (k : R) x u : vec :=
    let u_norm := clamp_min e15 (nrm n u) in
    let lam := lambda_x k x in
    mobius_add k x (smul (tan_k (lam / 2 * u_norm) k) (vdiv u u_norm)).

  (** math.py:1048-1052 _expmap0. *)
  Definition expmap0 (k : R) u : vec :=
    let u_norm := clamp_min e15 (nrm n u) in
    smul (tan_k u_norm k) (vdiv u u_norm).

  (** math.py:1090-1101 _geodesic_unit. *)
  Definition geodesic_unit (k t : R) x u : vec :=
    let u_norm := clamp_min e15 (nrm n u) in
    mobius_add k x (smul (tan_k (t / 2) k) (vdiv u u_norm)).

  (** math.py:1141-1146 _logmap. *)
  Definition logmap (k : R) x y : vec :=
    let sub := mobius_add k (vopp x) y in
    let sub_norm := clamp_min e15 (nrm n sub) in
    let lam := lambda_x k x in
    smul (2 * artan_k sub_norm k) (vdiv sub (lam * sub_norm)).

  (** math.py:1183-1186 _logmap0. *)
  Definition logmap0 (k : R) y : vec :=
    let y_norm := clamp_min e15 (nrm n y) in
    smul (artan_k y_norm k) (vdiv y y_norm).

  (** math.py:1560-1582 _dist2plane (argument order of the inner function:
      x, a, p). *)
  Definition dist2plane (k : R) (signed scaled : bool) x a p : R :=
    let diff := mobius_add k (vopp p) x in
    let diff_norm2 := clamp_min e15 (dot n diff diff) in
    let sc_diff_a := if signed then dot n diff a else Rabs (dot n diff a) in
    let a_norm := nrm n a in
    let num := 2 * sc_diff_a in
    let denom := clamp_abs e15 ((1 + k * diff_norm2) * a_norm) in
    let distance := arsin_k (num / denom) k in
    if scaled then distance * a_norm else distance.

  (** math.py:1654-1662 _parallel_transport. *)
  Definition parallel_transport (k : R) x y u : vec :=
    vdiv (smul (lambda_x k x) (gyration k y (vopp x) u)) (lambda_x k y).
  (** math.py:1691-1695, 1725-1729. *)
  Definition parallel_transport0 (k : R) y v : vec :=
    smul (clamp_min e15 (1 + k * dot n y y)) v.
  Definition parallel_transport0back (k : R) x v : vec :=
    vdiv v (clamp_min e15 (1 + k * dot n x x)).

  (** math.py:1759-1761 _egrad2rgrad. *)
  Definition egrad2rgrad (k : R) x g : vec := vdiv g (lambda_x k x ^ 2).

  (** math.py:1785-1790 _sproj: the input row has size n+1, its last entry is
      the height; 1814-1821 _inv_sproj: the output row has size n+1. *)
  Definition sproj (k : R) (z : vec) : vec :=
    let inv_r := sqrt (sabs e k) in
    smul (1 / (1 + inv_r * z n)) z.
  Definition inv_sproj (k : R) x : vec :=
    let inv_r := sqrt (sabs e k) in
    let lam_x := lambda_x k x in
    fun i => if Nat.ltb i n then lam_x * x i else 1 / inv_r * (lam_x - 1).

  (** math.py:1855-1866 _antipode, one curvature. *)
  Definition antipode (k : R) x : vec :=
    if Rle_dec k 0 then vopp x
    else let v := vdiv x (clamp_min e15 (nrm n x)) in
         geodesic_unit k (3141592653589793 / 10 ^ 15 * / sqrt (sabs e k)) x v.
End Row.
