(** The functions of geoopt/manifolds/lorentz/math.py, and the methods of the Lorentz class
    that take [dim], on tensors of any shape (tensors of NdModel; [None] is a raised error).
    [k] is a 0-dimensional tensor; scalar arithmetic between two tensor operations is
    fused. *)
From Coq Require Import Reals List ZArith Bool Arith.
From Verif Require Import RVec UtilsModel StereoModel NdModel StereoNdModel.
From Verif Require LorentzModel.
Import ListNotations.

Section Math.
  Variable k : R.
  Local Open Scope R_scope.

  (** [t.narrow(dim, 0, 1)] and [t.narrow(dim, 1, t.size(dim) - 1)] *)
  Definition time_ (dim : Z) (t : nd) : option nd := narrow dim 0 1 t.
  Definition space_ (dim : Z) (dn : Z) (t : nd) : option nd := narrow dim 1 dn t.
  (** [u.size(dim) - 1] *)
  Definition dn_ (dim : Z) (t : nd) : option Z := let* m := size_ dim t in Some (Z.of_nat m - 1)%Z.
  (** [v.addcmul(a, b)] *)
  Definition addcmul (v a b : nd) : option nd := let* ab := lift2 Rmult a b in lift2 Rplus v ab.

  (** math.py:38-48 *)
  Definition linner_nd (u v : nd) (keepdim : bool) (dim : Z) : option nd :=
    let* d := dn_ dim u in
    let* uv := lift2 Rmult u v in
    let* t := time_ dim uv in
    let* s := space_ dim d uv in
    if keepdim then
      let* c := cat2 dim (lift1 Ropp t) s in sum_ dim true c
    else
      let* t := sum_ dim false t in
      let* s := sum_ dim false s in
      lift2 (fun t s => - t + s) t s.
  (** 75-79 *)
  Definition linner0_nd (v : nd) (keepdim : bool) (dim : Z) : option nd :=
    let* t := time_ dim v in
    let res := lift1 (fun t => - t * sqrt k) t in
    if keepdim then Some res else squeeze_nd dim res.
  (** 112-114 *)
  Definition ldist_nd (x y : nd) (keepdim : bool) (dim : Z) : option nd :=
    let* i := linner_nd x y keepdim dim in
    Some (lift1 (fun i => sqrt k * LorentzModel.arcosh (- i / k)) i).
  (** 143-145 *)
  Definition ldist0_nd (x : nd) (keepdim : bool) (dim : Z) : option nd :=
    let* i := linner0_nd x keepdim dim in
    Some (lift1 (fun i => sqrt k * LorentzModel.arcosh (- i / k)) i).
  (** 174-181 *)
  Definition lproject_nd (x : nd) (dim : Z) : option nd :=
    let* dn := dn_ dim x in
    let* s := space_ dim dn x in
    let* q := norm_ dim false s in
    let* left_ := unsqueeze dim (lift1 (fun q => sqrt (k + q ^ 2)) q) in
    let* right_ := space_ dim dn x in
    cat2 dim left_ right_.
  (** 209-220 *)
  Definition lproject_polar_nd (x : nd) (dim : Z) : option nd :=
    let* dn := dn_ dim x in
    let* d := narrow dim 0 dn x in
    let* r := narrow dim (-1) 1 x in
    let* p := lift2 Rmult (lift1 (fun r => sqrt k * sinh (r / sqrt k)) r) d in
    cat2 dim (lift1 (fun r => cosh (r / sqrt k)) r) p.
  (** 251-252 *)
  Definition lproject_u_nd (x v : nd) (dim : Z) : option nd :=
    let* i := linner_nd x v true dim in addcmul v i (lift1 (fun x => x / k) x).
  (** 281-282: [_inner(u, u, keepdim=keepdim)], [dim] is not passed on *)
  Definition lnorm_nd (u : nd) (keepdim : bool) (dim : Z) : option nd :=
    let* i := linner_nd u u keepdim (-1) in Some (lift1 (fun i => sqrt (clamp_min e8 i)) i).
  (** 314-320 *)
  Definition lexpmap_nd (x u : nd) (dim : Z) : option nd :=
    let* nomin := lnorm_nd u true dim in
    let* l := lift2 Rmult (lift1 (fun m => cosh (m / sqrt k)) nomin) x in
    let* s := lift2 Rmult (lift1 (fun m => sqrt k * sinh (m / sqrt k)) nomin) u in
    let* r := lift2 Rdiv s nomin in
    lift2 Rplus l r.
  (** 345-351 *)
  Definition lexpmap0_nd (u : nd) (dim : Z) : option nd :=
    let* nomin := lnorm_nd u true dim in
    let l_v := lift1 (fun m => cosh (m / sqrt k) * sqrt k) nomin in
    let* s := lift2 Rmult (lift1 (fun m => sqrt k * sinh (m / sqrt k)) nomin) u in
    let* r_v := lift2 Rdiv s nomin in
    let* dn := dn_ dim r_v in
    let* t := time_ dim r_v in
    let* h := lift2 Rplus l_v t in
    let* w := space_ dim dn r_v in
    cat2 dim h w.
  (** 393-397: [_inner(x, y, keepdim=True)] and [_norm] along the last axis *)
  Definition llogmap_nd (x y : nd) (dim : Z) : option nd :=
    let* dist_ := ldist_nd x y true dim in
    let* i := linner_nd x y true (-1) in
    let* ix := lift2 Rmult (lift1 (fun i => 1 / k * i) i) x in
    let* nomin := lift2 Rplus y ix in
    let* denom := lnorm_nd nomin true (-1) in
    let* p := lift2 Rmult dist_ nomin in
    lift2 Rdiv p denom.
  (** 422-428 *)
  Definition llogmap0_nd (y : nd) (dim : Z) : option nd :=
    let* dist_ := ldist0_nd y true dim in
    let* i := linner0_nd y true (-1) in
    let nomin_ := lift1 (fun i => 1 / k * i * sqrt k) i in
    let* dn := dn_ dim y in
    let* t := time_ dim y in
    let* h := lift2 Rplus nomin_ t in
    let* w := space_ dim dn y in
    let* nomin := cat2 dim h w in
    let* denom := lnorm_nd nomin true (-1) in
    let* p := lift2 Rmult dist_ nomin in
    lift2 Rdiv p denom.
  (** 453-461 *)
  Definition llogmap0back_nd (x : nd) (dim : Z) : option nd :=
    let* dist_ := ldist0_nd x true dim in
    let* i := linner0_nd x true (-1) in
    let* nomin_ := lift2 Rmult (lift1 (fun i => 1 / k * i) i) x in
    let* dn := dn_ dim nomin_ in
    let* t := time_ dim nomin_ in
    let* w := space_ dim dn nomin_ in
    let* nomin := cat2 dim (lift1 (fun t => t + sqrt k) t) w in
    let* denom := lnorm_nd nomin true (-1) in
    let* p := lift2 Rmult dist_ nomin in
    lift2 Rdiv p denom.
  (** [grad.narrow(-1, 0, 1).mul_(-1)]: the contents of [grad] afterwards.  Simplified: the
      entries of [grad] do not share memory (torch raises for an expanded tensor). *)
  Definition flip_nd (grad : nd) : option nd :=
    let* _ := narrow (-1) 0 1 grad in
    Some {| rsh := rsh grad;
            at_ := fun ix => if ix 0%nat =? 0 then read grad ix * -1 else read grad ix |}.
  (** 492-495: the new contents of the caller's [grad], then the result *)
  Definition legrad2rgrad_nd (x grad : nd) (dim : Z) : option (nd * nd) :=
    let* grad := flip_nd grad in
    let* i := linner_nd x grad true dim in
    let* res := addcmul grad i (lift1 (fun x => x / k) x) in
    Some (grad, res).
  (** 524-529 *)
  Definition ltransport_nd (x y v : nd) (dim : Z) : option nd :=
    let* lmap := llogmap_nd x y dim in
    let* nom := linner_nd lmap v true (-1) in
    let* denom := ldist_nd x y true dim in
    let* back := llogmap_nd y x dim in
    let* c := lift2 (fun nom dist => nom / dist ^ 2) nom denom in
    let* s := lift2 Rplus lmap back in
    let* p := lift2 Rmult c s in
    lift2 Rminus v p.
  (** 556-561 *)
  Definition ltransport0_nd (y v : nd) (dim : Z) : option nd :=
    let* lmap := llogmap0_nd y dim in
    let* nom := linner_nd lmap v true (-1) in
    let* denom := ldist0_nd y true dim in
    let* back := llogmap0back_nd y dim in
    let* c := lift2 (fun nom dist => nom / dist ^ 2) nom denom in
    let* s := lift2 Rplus lmap back in
    let* p := lift2 Rmult c s in
    lift2 Rminus v p.
  (** 590-595 *)
  Definition ltransport0back_nd (x v : nd) (dim : Z) : option nd :=
    let* lmap := llogmap0back_nd x dim in
    let* nom := linner_nd lmap v true (-1) in
    let* denom := ldist0_nd x true dim in
    let* back := llogmap0_nd x dim in
    let* c := lift2 (fun nom dist => nom / dist ^ 2) nom denom in
    let* s := lift2 Rplus lmap back in
    let* p := lift2 Rmult c s in
    lift2 Rminus v p.
  (** 626-630 *)
  Definition lgeodesic_unit_nd (t x u : nd) : option nd :=
    let* l := lift2 Rmult (lift1 (fun t => cosh (t / sqrt k)) t) x in
    let* r := lift2 Rmult (lift1 (fun t => sqrt k * sinh (t / sqrt k)) t) u in
    lift2 Rplus l r.
  (** 655-656: the time part is taken along [-dim] *)
  Definition to_poincare_nd (x : nd) (dim : Z) : option nd :=
    let* dn := dn_ dim x in
    let* s := space_ dim dn x in
    let* t := narrow (- dim) 0 1 x in
    lift2 Rdiv s (lift1 (fun t => t + sqrt k) t).
  (** 681-687 *)
  Definition to_lorentz_nd (eps : R) (x : nd) (dim : Z) : option nd :=
    let* s := sum_ dim true (lift1 (fun x => x * x) x) in
    let* c := cat2 dim (lift1 (fun s => 1 + s) s) (lift1 (fun x => 2 * x) x) in
    lift2 Rdiv (lift1 (fun c => sqrt k * c) c) (lift1 (fun s => 1 - s + eps) s).
End Math.

(** every position of a tensor of shape [s] *)
Definition entries (s : list nat) : list index := grid (combine (seq 0 (length s)) s) (fun _ => 0).

(** lorentz/__init__.py *)
Section Class.
  Variable k : R.
  (** 44-57: [torch.allclose] of the quadratic forms of all rows with [-k] *)
  Definition check_point_nd (atol rtol : R) (x : nd) (dim : Z) : option bool :=
    let* dn := dn_ dim x in
    let x := lift1 (fun v => v ^ 2)%R x in
    let* t := time_ dim x in
    let* s := space_ dim dn x in
    let* s := sum_ dim true s in
    let* quad_form := lift2 (fun t s => - t + s)%R t s in
    Some (forallb (fun ix => if Rle_dec (Rabs (read quad_form ix - - k)) (atol + rtol * Rabs (- k))
                             then true else false) (entries (rsh quad_form))).
  (** 59-68; [torch.allclose] with [torch.zeros(1)] *)
  Definition check_vector_nd (atol rtol : R) (x u : nd) (dim : Z) : option bool :=
    let* i := linner_nd u x false dim in
    Some (forallb (fun ix => if Rle_dec (Rabs (read i ix - 0)) (atol + rtol * Rabs 0)
                             then true else false) (entries (rsh i))).
  (** 92-101 (247: retr = expmap) *)
  Definition m_lexpmap_nd (norm_tan proj : bool) (x u : nd) (dim : Z) : option nd :=
    let* u := if norm_tan then lproject_u_nd k x u dim else Some u in
    let* res := lexpmap_nd k x u dim in
    if proj then lproject_nd k res dim else Some res.
  (** 103-109 *)
  Definition m_lexpmap0_nd (proj : bool) (u : nd) (dim : Z) : option nd :=
    let* res := lexpmap0_nd k u dim in if proj then lproject_nd k res dim else Some res.
  (** 118-133 *)
  Definition m_linner_nd (x u : nd) (v : option nd) (keepdim : bool) (dim : Z) : option nd :=
    linner_nd u (match v with None => u | Some v => v end) keepdim dim.
  (** 158-162 *)
  Definition m_transp_follow_nd (proj : bool) (x u v : nd) (dim : Z) : option nd :=
    let* y := m_lexpmap_nd true proj x u dim in ltransport_nd k x y v dim.
  (** 164-172 *)
  Definition m_lgeodesic_unit_nd (proj : bool) (t x u : nd) (dim : Z) : option nd :=
    let* res := lgeodesic_unit_nd k t x u in if proj then lproject_nd k res dim else Some res.
End Class.
