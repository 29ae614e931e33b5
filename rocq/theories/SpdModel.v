(** Model of geoopt/manifolds/symmetric_positive_definite.py and the matrix functions
    of geoopt/linalg/batch_linalg.py it uses, on one n x n matrix, over any real
    closed field (which has square roots). *)
From mathcomp Require Import all_ssreflect all_algebra.
From Verif Require Import StiefelModel.
Import GRing.Theory Num.Theory.
Local Open Scope ring_scope.
Set Implicit Arguments. Unset Strict Implicit. Unset Printing Implicit Defensive.

Section Spd.
  Variable F : rcfType.
  Implicit Types n : nat.
  (** External calls: [torch.linalg.eigh(x, "U")] returns eigenvalues and eigenvectors,
      [torch.matrix_exp], and the scalar [torch.exp], [torch.log]. *)
  Variable eigh : forall n, 'M[F]_n -> 'rV[F]_n * 'M[F]_n.
  Variable matrix_exp : forall n, 'M[F]_n -> 'M[F]_n.
  Variables exp log : F -> F.

  (** batch_linalg.py:70-98 sym_funcm(x, f); caching and scripting have no effect on
      the value. *)
  Definition sym_funcm (f : F -> F) n (x : 'M[F]_n) : 'M[F]_n :=
    let: (e, v) := eigh x in v *m diag_mx (map_mx f e) *m v^T.
  (** batch_linalg.py:101-118 *)
  Definition sym_expm n (x : 'M[F]_n) : 'M[F]_n := matrix_exp x.
  (** batch_linalg.py:121-134 *)
  Definition sym_logm n (x : 'M[F]_n) : 'M[F]_n := sym_funcm log x.
  (** batch_linalg.py:137-150 *)
  Definition sym_sqrtm n (x : 'M[F]_n) : 'M[F]_n := sym_funcm Num.sqrt x.
  (** batch_linalg.py:153-170: torch.matrix_power(x, -1), which raises when x is
      singular. *)
  Definition sym_invm n (x : 'M[F]_n) : 'M[F]_n := invmx x.
  (** batch_linalg.py:173-186: torch.pow(t, -0.5); for t > 0 the reciprocal of the
      square root (other t give inf or nan and are not used). *)
  Definition pow_mhalf (t : F) : F := (Num.sqrt t)^-1.
  Definition sym_inv_sqrtm1 n (x : 'M[F]_n) : 'M[F]_n := sym_funcm pow_mhalf x.
  (** batch_linalg.py:189-209 *)
  Definition sym_inv_sqrtm2 n (x : 'M[F]_n) : 'M[F]_n * 'M[F]_n :=
    let: (e, v) := eigh x in
    let sqrt_e := map_mx Num.sqrt e in
    let inv_sqrt_e := map_mx GRing.inv sqrt_e in
    (v *m diag_mx inv_sqrt_e *m v^T, v *m diag_mx sqrt_e *m v^T).
  (** [torch.norm(a, dim=[-1, -2])] *)
  Definition norm n (a : 'M[F]_n) : F := Num.sqrt (frob a a).

  (** symmetric_positive_definite.py:87-92 *)
  Definition affine_invariant n (x y : 'M[F]_n) : F :=
    let inv_sqrt_x := sym_inv_sqrtm1 x in norm (sym_logm (inv_sqrt_x *m y *m inv_sqrt_x)).
  (** 108-114 *)
  Definition log_det n (x : 'M[F]_n) : F := log (\det x).
  Definition stein n (x y : 'M[F]_n) : F :=
    log_det (2%:R^-1 *: (x + y)) - 2%:R^-1 * log_det (x *m y).
  (** 129-133 *)
  Definition log_euclidean n (x y : 'M[F]_n) : F := norm (sym_logm x - sym_logm y).
  (** 14-17 SPDMetric, 165-169 and 198 dist *)
  Inductive metric := AIM | SM | LEM.
  Definition dist (m : metric) n (x y : 'M[F]_n) : F :=
    match m with AIM => affine_invariant x y | SM => stein x y | LEM => log_euclidean x y end.

  (** [torch.allclose(a, b, atol, rtol)] *)
  Definition mx_allclose n (atol rtol : F) (a b : 'M[F]_n) : bool :=
    [forall i, forall j, `|a i j - b i j| <= atol + rtol * `|b i j|].
  (** 135-145 *)
  Definition check_point n (atol rtol : F) (x : 'M[F]_n) : bool :=
    if ~~ mx_allclose atol rtol x x^T then false
    else let: (e, _) := eigh x in [forall i, - atol < e ord0 i].
  (** 147-153 *)
  Definition check_vector n (atol rtol : F) (x u : 'M[F]_n) : bool := mx_allclose atol rtol u u^T.

  (** 155-157 *)
  Definition projx n (x : 'M[F]_n) : 'M[F]_n := sym_funcm Num.norm (sym x).
  (** 159-160 *)
  Definition proju n (x u : 'M[F]_n) : 'M[F]_n := sym u.
  (** 162-163 *)
  Definition egrad2rgrad n (x u : 'M[F]_n) : 'M[F]_n := x *m proju x u *m x^T.
  (** 200-237 (keepdim only adds dimensions of size one) *)
  Definition inner n (x u v : 'M[F]_n) : F :=
    let inv_x := sym_invm x in \tr (inv_x *m u *m inv_x *m v).
  (** 239-241 *)
  Definition retr n (x u : 'M[F]_n) : 'M[F]_n :=
    let inv_x := sym_invm x in sym (x + u + (2%:R^-1 *: u) *m inv_x *m u).
  (** 243-245 *)
  Definition expmap n (x u : 'M[F]_n) : 'M[F]_n :=
    let: (inv_sqrt_x, sqrt_x) := sym_inv_sqrtm2 x in
    sqrt_x *m sym_expm (inv_sqrt_x *m u *m inv_sqrt_x) *m sqrt_x.
  (** 247-249 *)
  Definition logmap n (x u : 'M[F]_n) : 'M[F]_n :=
    let: (inv_sqrt_x, sqrt_x) := sym_inv_sqrtm2 x in
    sqrt_x *m sym_logm (inv_sqrt_x *m u *m inv_sqrt_x) *m sqrt_x.
  (** 254-263 *)
  Definition transp n (x y v : 'M[F]_n) : 'M[F]_n :=
    let: (inv_sqrt_x, sqrt_x) := sym_inv_sqrtm2 x in
    let exp_x_y := sym_expm (2%:R^-1 *: sym_logm (inv_sqrt_x *m y *m inv_sqrt_x)) in
    sqrt_x *m exp_x_y *m sym (inv_sqrt_x *m v *m inv_sqrt_x) *m exp_x_y *m sqrt_x.
  (** 265-269, from the draw *)
  Definition random n (draw : 'M[F]_n) : 'M[F]_n :=
    let tens := 2%:R^-1 *: draw in let tens := sym tens in sym_funcm exp tens.
  (** 271-278, for size (n, n) *)
  Definition origin n : 'M[F]_n := diag_mx (const_mx 1).
End Spd.
