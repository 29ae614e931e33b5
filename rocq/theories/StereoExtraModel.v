(** Model of the rest of geoopt/manifolds/stereographic: matrix and pointwise products,
    function application and midpoints of math.py on rows and lists of rows, and the
    classes of manifold.py (one row, one curvature [k], [dim] the last axis). *)
From Coq Require Import Reals List Bool ZArith.
From Verif Require Import RVec StereoModel NdModel.
Import ListNotations.
Local Open Scope R_scope.

(** A matrix is the function from row number to row. *)
Definition mat := nat -> vec.
Definition matvec (n : nat) (m : mat) (x : vec) : vec := fun i => dot n (m i) x.
(** [t.prod(dim=dim, dtype=torch.bool)] of the entries below [n] *)
Fixpoint all_below (n : nat) (f : nat -> bool) : bool :=
  match n with O => true | S n => all_below n f && f n end.
Definition is_zero (a : R) : bool := if Req_EM_T a 0 then true else false.
(** [a.isclose(zero)] for a zero tensor: |a| <= 1e-8 *)
Definition close_to_zero (a : R) : bool := if Rle_dec (Rabs a) e8 then true else false.
(** [sum(reducedim)] over a list of rows *)
Definition total {A} (f : A -> R) (l : list A) : R := fold_right (fun a s => f a + s) 0 l.
Definition vtotal {A} (f : A -> vec) (l : list A) : vec := fun i => total (fun a => f a i) l.

Section Extra.
  Variable n : nat.
  Variable e : R.   (* the eps of sabs, see StereoModel *)

  (** math.py:1224-1239 _mobius_matvec, m of shape (p, n) *)
  Definition mobius_matvec (p : nat) (k : R) (m : mat) (x : vec) : vec :=
    let x_norm := clamp_min e15 (nrm n x) in
    let mx := matvec n m x in
    let mx_norm := clamp_min e15 (nrm p mx) in
    let res_c := smul (tan_k e (mx_norm / x_norm * artan_k e x_norm k) k) (vdiv mx mx_norm) in
    if all_below p (fun i => is_zero (mx i)) then vzero else res_c.

  (** math.py:1276-1287 _mobius_pointwise_mul *)
  Definition mobius_pointwise_mul (k : R) (w x : vec) : vec :=
    let x_norm := clamp_min e15 (nrm n x) in
    let wx := fun i => w i * x i in
    let wx_norm := clamp_min e15 (nrm n wx) in
    let res_c := smul (tan_k e (wx_norm / x_norm * artan_k e x_norm k) k) (vdiv wx wx_norm) in
    if all_below n (fun i => close_to_zero (wx i)) then vzero else res_c.

  (** math.py:1337-1345 mobius_fn_apply_chain, 1382-1385 mobius_fn_apply; the functions map
      rows of size n to rows of size n, extra arguments are part of them *)
  Definition mobius_fn_apply_chain (k : R) (x : vec) (fns : list (vec -> vec)) : vec :=
    match fns with
    | [] => x
    | _ =>
        let ex := logmap0 n e k x in
        let ex := fold_left (fun ex fn => fn ex) fns ex in
        expmap0 n e k ex
    end.
  Definition mobius_fn_apply (k : R) (fn : vec -> vec) (x : vec) : vec :=
    let ex := logmap0 n e k x in
    let ex := fn ex in
    expmap0 n e k ex.
  (** math.py:1405-1414 mobiusify *)
  Definition mobiusify (k : R) (fn : vec -> vec) : vec -> vec := fun x => mobius_fn_apply k fn x.

  (** math.py:1948-1998 _weighted_midpoint over all rows: a list of weights, already
      broadcast, and rows.  [d] is the 1e-10 of line 1974; with weights=None every
      weight is 1. *)
  Definition weighted_midpoint (d k : R) (lincomb posweight : bool) (l : list (R * vec)) : vec :=
    let entries := map (fun '(w, x) => (lambda_x n k x, w, x)) l in
    let entries :=
      if posweight && existsb (fun '(g, w, x) => if Rlt_dec w 0 then true else false) entries
      then map (fun '(g, w, x) => (g, Rabs w, if Rlt_dec w 0 then antipode n e k x else x)) entries
      else entries in
    let denominator := total (fun '(g, w, x) => (g - 1) * w) entries in
    let nominator := vtotal (fun '(g, w, x) => smul (g * w) x) entries in
    let two_mean := vdiv nominator (clamp_abs d denominator) in
    let a_mean := mobius_scalar_mul n e k (1 / 2) two_mean in
    let a_mean :=
      if Rlt_dec 0 k then
        let b_mean := antipode n e k a_mean in
        let a_dist := total (fun '(g, w, x) => dist n e k a_mean x) entries in
        let b_dist := total (fun '(g, w, x) => dist n e k b_mean x) entries in
        if Rlt_dec b_dist a_dist then b_mean else a_mean
      else a_mean in
    if lincomb then
      let alpha := total (fun '(g, w, x) => w) entries in
      mobius_scalar_mul n e k alpha a_mean
    else a_mean.

  (** ** manifold.py, class Stereographic; [eps] is the constant of project's dtype *)
  Variables (eps k : R).
  (** 112-114 *)
  Definition radius : R := / sqrt (Rabs k).
  (** 157-158, 152-155 *)
  Definition projx (x : vec) : vec := project n e eps k x.
  Definition retr (x u : vec) : vec := project n e eps k (vadd x u).
  (** 182-189 and the other methods of the same form: [project] is a keyword argument *)
  Definition maybe_project (proj : bool) (x : vec) : vec := if proj then project n e eps k x else x.
  Definition m_expmap (proj : bool) (x u : vec) : vec := maybe_project proj (expmap n e k x u).
  Definition m_expmap0 (proj : bool) (u : vec) : vec := maybe_project proj (expmap0 n e k u).
  Definition m_mobius_add (proj : bool) (x y : vec) : vec := maybe_project proj (mobius_add n k x y).
  Definition m_scalar_mul (proj : bool) (r : R) (x : vec) : vec := maybe_project proj (mobius_scalar_mul n e k r x).
  Definition m_pointwise_mul (proj : bool) (w x : vec) : vec := maybe_project proj (mobius_pointwise_mul k w x).
  Definition m_geodesic_unit (proj : bool) (t : R) (x u : vec) : vec := maybe_project proj (geodesic_unit n e k t x u).
  Definition m_fn_apply (proj : bool) (fn : vec -> vec) (x : vec) : vec := maybe_project proj (mobius_fn_apply k fn x).
  Definition m_fn_apply_chain (proj : bool) (x : vec) (fns : list (vec -> vec)) : vec :=
    maybe_project proj (mobius_fn_apply_chain k x fns).
  Definition m_weighted_midpoint (proj lincomb posweight : bool) (l : list (R * vec)) : vec :=
    maybe_project proj (weighted_midpoint e10 k lincomb posweight l).
  (** 244-269 and 289-296; the result of mobius_matvec has the p entries of m's rows *)
  Definition m_mobius_sub (proj : bool) (x y : vec) : vec := maybe_project proj (mobius_sub n k x y).
  Definition m_mobius_coadd (proj : bool) (x y : vec) : vec := maybe_project proj (mobius_coadd n k x y).
  Definition m_mobius_cosub (proj : bool) (x y : vec) : vec := maybe_project proj (mobius_cosub n k x y).
  Definition m_matvec (proj : bool) (p : nat) (m : mat) (x : vec) : vec :=
    let res := mobius_matvec p k m x in if proj then project p e eps k res else res.
  (** 298-301: never projected *)
  Definition m_geodesic (t : R) (x y : vec) : vec := geodesic n e k t x y.
  (** 194-195, 203-226 *)
  Definition m_transp (x y v : vec) : vec := parallel_transport n k x y v.
  Definition m_expmap_transp (proj : bool) (x u v : vec) : vec * vec :=
    let y := m_expmap proj x u in (y, m_transp x y v).
  Definition m_retr_transp (x u v : vec) : vec * vec := let y := retr x u in (y, m_transp x y v).
  (** 197-201 transp_follow_retr, 203-213 transp_follow_expmap *)
  Definition m_transp_follow_retr (x u v : vec) : vec := let y := retr x u in m_transp x y v.
  Definition m_transp_follow_expmap (proj : bool) (x u v : vec) : vec := let y := m_expmap proj x u in m_transp x y v.
  (** 574-577, the class attributes of StereographicExact *)
  Definition exact_retr (proj : bool) (x u : vec) : vec := m_expmap proj x u.
  Definition exact_retr_transp (proj : bool) (x u v : vec) : vec * vec := m_expmap_transp proj x u v.
  Definition exact_transp_follow_retr (proj : bool) (x u v : vec) : vec := m_transp_follow_expmap proj x u v.
  (** 123-132, torch.allclose on one row *)
  Definition check_point (atol rtol : R) (x : vec) : bool :=
    let px := project n e eps k x in
    all_below n (fun i => if Rle_dec (Rabs (x i - px i)) (atol + rtol * Rabs (px i)) then true else false).
  (** 441-448, from the draw of torch.randn *)
  Definition random_normal (mean std : R) (draw : vec) : vec :=
    let tens := fun i => draw i * std / sqrt (INR n) + mean in
    m_expmap0 true tens.
  (** 496-498 *)
  Definition wrapped_normal (mean : vec) (std : R) (draw : vec) : vec :=
    let v := smul std draw in
    m_expmap true mean (vdiv v (lambda_x n k mean)).
End Extra.

(** torch.nn.functional.softplus with its defaults beta=1, threshold=20 *)
Definition softplus (x : R) : R := if Rlt_dec 20 x then x else ln (1 + exp x).
(** manifold.py:607-611 and 650-654: [k.exp_().sub_(1).log_()] for c > 0 (log of a
    number that is not positive is not modelled) *)
Definition inverse_softplus (c : R) : R := ln (exp c - 1).
(** 599-605, 646-648 *)
Definition ball_c (isp_c : R) : R := softplus isp_c.
Definition ball_k (isp_c : R) : R := - ball_c isp_c.
Definition sphere_k (isp_k : R) : R := softplus isp_k.

(** * dim: math.py:1224-1239 with m of two axes and any tensor x *)
(** [torch.tensordot(x, m, ([dim], [1]))]: the axes of x without [dim], then the rows of m *)
Definition tensordot (x m : nd) (dim : Z) : option nd :=
  match rsh m, axis dim (length (rsh x)) with
  | [c; r], Some a =>
      if (nth a (rsh x) 0 =? c)%nat
      then Some {| rsh := r :: drop_axis a (rsh x);
                   at_ := fun ix => Rsum c (fun j =>
                     read x (ins (fun b => ix (S b)) a j) *
                     read m (fun b => match b with O => j | _ => ix 0%nat end)) |}
      else None
  | _, _ => None
  end.
(** the branch of a two-dimensional m; (mx == 0).prod(dim) is read from the norm, which
    vanishes exactly when all entries do *)
Definition mobius_matvec_nd (e k : R) (m x : nd) (dim : Z) : option nd :=
  let* xn := norm_ dim true x in
  let x_norm := lift1 (clamp_min e15) xn in
  let* mx := tensordot x m dim in
  let* mn := norm_ dim true mx in
  let mx_norm := lift1 (clamp_min e15) mn in
  let* ratio := lift2 Rdiv mx_norm x_norm in
  let* arg := lift2 Rmult ratio (lift1 (fun a => artan_k e a k) x_norm) in
  let* unit := lift2 Rdiv mx mx_norm in
  let* res_c := lift2 Rmult (lift1 (fun a => tan_k e a k) arg) unit in
  lift2 (fun z r => if Req_EM_T z 0 then 0 else r) mn res_c.
