(** Floating-point versions of the numerically guarded functions of
    geoopt/manifolds/stereographic/math.py, geoopt/manifolds/lorentz/math.py,
    geoopt/manifolds/sphere.py and geoopt/utils.py.

    The other models compute with exact real numbers; here an entry of a tensor is an
    IEEE 754 number of the dtype of the tensor (with signed zeros, infinities and one NaN;
    Flocq's BinarySingleNaN), and every torch operation is rounded to nearest even. *)
From Coq Require Import ZArith Reals List Bool.
From Flocq Require Import Core IEEE754.BinarySingleNaN.
Import ListNotations.
Open Scope Z_scope.

Inductive dtype := float32 | float64.
Definition prec (d : dtype) : Z := match d with float32 => 24 | float64 => 53 end.
Definition emax (d : dtype) : Z := match d with float32 => 128 | float64 => 1024 end.
Definition float (d : dtype) : Set := binary_float (prec d) (emax d).
#[global] Instance prec_pos d : Prec_gt_0 (prec d).
Proof. now destruct d. Qed.
#[global] Instance prec_emax d : Prec_lt_emax (prec d) (emax d).
Proof. now destruct d. Qed.

Section Ops.
  Context {d : dtype}.
  Definition add (x y : float d) : float d := Bplus mode_NE x y.
  Definition sub (x y : float d) : float d := Bminus mode_NE x y.
  Definition mul (x y : float d) : float d := Bmult mode_NE x y.
  Definition div (x y : float d) : float d := Bdiv mode_NE x y.
  Definition sqr (x : float d) : float d := mul x x.
  Definition fsqrt (x : float d) : float d := Bsqrt mode_NE x.
  Definition opp (x : float d) : float d := Bopp x.
  Definition fabs (x : float d) : float d := Babs x.
  Definition lt (x y : float d) : bool := Bltb x y.
  Definition of_Z (n : Z) : float d := binary_normalize (prec d) (emax d) _ _ mode_NE n 0 false.
  (** [x.clamp_min(lo)], [x.clamp_max(hi)], [x.clamp(lo, hi)]: a NaN stays NaN *)
  Definition clamp_min (x lo : float d) : float d := if lt x lo then lo else x.
  Definition clamp_max (x hi : float d) : float d := if lt hi x then hi else x.
  Definition clamp (x lo hi : float d) : float d := clamp_max (clamp_min x lo) hi.
  Definition where_ (c : bool) (x y : float d) : float d := if c then x else y.
End Ops.

(** A Python literal n/m is the double nearest to it (for n, m exact doubles). *)
Definition literal (n m : Z) : float float64 := div (of_Z n) (of_Z m).
(** [x.to(dtype)], and a Python number in an operation with a tensor of that dtype *)
Definition cast {d d'} (x : float d) : float d' :=
  match x with
  | B754_zero s => B754_zero s
  | B754_infinity s => B754_infinity s
  | B754_nan => B754_nan
  | B754_finite s m e _ => binary_normalize (prec d') (emax d') _ _ mode_NE (cond_Zopp s (Zpos m)) e s
  end.
Definition e7 := literal 1 10000000.
Definition e15 := literal 1 1000000000000000.

(** utils.py:55-57 sabs *)
Definition sabs {d} (x : float d) : float d := add (fabs x) (cast e15).
(** sphere.py:10 EPS *)
Definition sphere_eps (d : dtype) : float float64 :=
  match d with float32 => literal 1 10000 | float64 => literal 1 10000000 end.

Section Math.
  (** Elementary functions of torch, applied to every entry (contracts in FloatSpec). *)
  Variables log tanh acos : forall d, float d -> float d.
  Arguments log {d}. Arguments tanh {d}. Arguments acos {d}.

  (** * stereographic/math.py *)
  (** 29-31 *)
  Definition tanh_ {d} (x : float d) : float d := tanh (clamp x (of_Z (-15)) (of_Z 15)).
  (** 36, 251: [x.clamp(-1 + 1e-7, 1 - 1e-7)]; the bounds are doubles *)
  Definition clamp_unit {d} (x : float d) : float d :=
    clamp x (cast (add (of_Z (-1)) e7)) (cast (sub (of_Z 1) e7)).
  (** 34-37 *)
  Definition artanh {d} (x : float d) : float d :=
    let x := clamp_unit x in
    mul (sub (log (add (of_Z 1) x)) (log (sub (of_Z 1) x))) (cast (literal 1 2)).
  (** 40-42 *)
  Definition arsinh {d} (x : float d) : float d :=
    log (clamp_min (add x (fsqrt (add (of_Z 1) (sqr x)))) (cast e15)).
  (** 182-203 tan_k, 205-227 artan_k, 229-256 arsin_k for a single curvature that is negative
      and not close to zero ([k_sqrt.reciprocal()] is 1 / k_sqrt) *)
  Definition k_sqrt {d} (k : float d) : float d := fsqrt (sabs k).
  Definition recip {d} (x : float d) : float d := div (of_Z 1) x.
  Definition tan_k {d} (x k : float d) : float d := mul (recip (k_sqrt k)) (tanh_ (mul x (k_sqrt k))).
  Definition artan_k {d} (x k : float d) : float d := mul (recip (k_sqrt k)) (artanh (mul x (k_sqrt k))).
  Definition arsin_k {d} (x k : float d) : float d := mul (recip (k_sqrt k)) (arsinh (mul x (k_sqrt k))).
  (** 854-863 dist, from the computed norm of [_mobius_add(-x, y)] *)
  Definition stereo_dist {d} (norm k : float d) : float d := mul (of_Z 2) (artan_k norm k).

  (** 306-319 _project on a row, with the computed norm of the row and the default [eps]
      (312: every dtype but float32); [number / tensor] is [tensor.reciprocal() * number] and
      [** 0.5] a square root. *)
  Definition default_eps (d : dtype) : float float64 :=
    match d with float32 => literal 4 1000 | float64 => literal 1 100000 end.
  Definition maxnorm {d} (k : float d) : float d :=
    where_ (lt k (of_Z 0))
           (mul (recip (k_sqrt k)) (cast (sub (of_Z 1) (default_eps d))))
           (cast (of_Z 1000000000000000 : float float64)).
  Definition project {d} (x : list (float d)) (norm k : float d) : list (float d) :=
    let maxnorm := maxnorm k in
    let norm := clamp_min norm (cast e15) in
    let cond := lt maxnorm norm in
    map (fun xi => where_ cond (mul (div xi norm) maxnorm) xi) x.

  (** 519-521 (also 641, 1695, ...): [num / denom.clamp_min(1e-15)] *)
  Definition guarded_div {d} (num denom : float d) : float d := div num (clamp_min denom (cast e15)).

  (** * sphere.py:156-160 dist, from the computed inner product *)
  Definition sphere_arg {d} (inner : float d) : float d :=
    clamp inner (cast (add (of_Z (-1)) (sphere_eps d))) (cast (sub (of_Z 1) (sphere_eps d))).
  Definition sphere_dist {d} (inner : float d) : float d := acos (sphere_arg inner).

  (** * lorentz/math.py, for points (x0, x1) of the hyperboloid with two entries, whose sums
      and norms have one term *)
  (** 5-8; [x + z] is computed in double *)
  Definition arcosh {d} (x : float d) : float d :=
    let xd : float float64 := cast x in
    let z := fsqrt (clamp_min (sub (sqr xd) (of_Z 1)) e15) in
    cast (log (add xd z)).
  (** 37-50 *)
  Definition inner2 {d} (u v : float d * float d) : float d :=
    add (opp (mul (fst u) (fst v))) (mul (snd u) (snd v)).
  (** 112-114 *)
  Definition lorentz_dist {d} (x y : float d * float d) (k : float d) : float d :=
    mul (fsqrt k) (arcosh (div (opp (inner2 x y)) k)).
  (** 174-181: [torch.norm(x.narrow(dim, 1, dn))] of one entry *)
  Definition norm1 {d} (x : float d) : float d := fabs x.
  Definition lorentz_project {d} (x : float d * float d) (k : float d) : float d * float d :=
    (fsqrt (add k (sqr (norm1 (snd x)))), snd x).
End Math.
