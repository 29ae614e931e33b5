(** The methods of geoopt/manifolds/sphere.py on tensors of any shape (tensors of NdModel;
    [None] is a raised error).  [P] is the projector buffer, a tensor of shape
    (..., n, n), or [None] when there is none; [eps] is the entry of EPS (line 10).  Scalar
    arithmetic between two tensor operations is fused. *)
From Coq Require Import Reals List ZArith Bool Arith.
From Verif Require Import RVec StereoModel NdModel StereoNdModel LorentzNdModel.
From Verif Require SphereModel.
Import ListNotations.

(** [t.transpose(-1, -2)] *)
Definition swap01 (ix : index) : index := fun b => match b with 0 => ix 1 | 1 => ix 0 | _ => ix b end.
Definition transpose_nd (t : nd) : option nd :=
  match rsh t with
  | c :: r :: bs => Some {| rsh := r :: c :: bs; at_ := fun ix => read t (swap01 ix) |}
  | _ => None
  end.
(** [x @ m] for a tensor [m] with at least two axes: a vector [x] gives one product for each
    matrix of [m]; otherwise the axes before the last two broadcast.  Simplified: [m] with
    fewer than two axes (never the case here) is [None]. *)
Definition matmul_nd (x m : nd) : option nd :=
  match rsh x, rsh m with
  | [k], c :: k' :: bs =>
      if k =? k' then
        Some {| rsh := c :: bs;
                at_ := fun ix => Rsum k (fun j => read x (upd ix 0 j) * read m (ins ix 1 j))%R |}
      else None
  | k :: r :: bs1, c :: k' :: bs2 =>
      if k =? k' then
        let* bs := bshape bs1 bs2 in
        Some {| rsh := c :: r :: bs;
                at_ := fun ix => Rsum k (fun j => read x (upd ix 0 j) * read m (upd ix 1 j))%R |}
      else None
  | _, _ => None
  end.
(** [t.expand(shape)] *)
Definition expand_nd (t : nd) (s : list nat) : option nd :=
  let* s' := bshape (rsh t) s in
  if list_eq_dec Nat.eq_dec s' s then Some {| rsh := s; at_ := fun ix => read t ix |} else None.
(** [torch.allclose(a, b, atol, rtol)]: all entries of the broadcast tensors *)
Definition allclose_nd (atol rtol : R) (a b : nd) : option bool :=
  let* s := bshape (rsh a) (rsh b) in
  Some (forallb (fun ix => SphereModel.close atol rtol (read a ix) (read b ix)) (entries s)).
(** [norm.new((1,)).fill_(v)] and [inner.new_zeros((1,))] *)
Definition fill1 (v : R) : nd := {| rsh := [1]; at_ := fun _ => v |}.

Section Sphere.
  Variable P : option nd.
  Variable eps : R.
  Local Open Scope R_scope.

  (** 177-181 _project_on_subspace *)
  Definition subspace_nd (x : nd) : option nd :=
    match P with
    | Some p => let* pt := transpose_nd p in matmul_nd x pt
    | None => Some x
    end.
  (** 117-124 inner; [broadcast_shapes] (utils.py) of [x.shape[:-1] + (1,) * keepdim] and the
      shape of the sum. *)
  Definition sinner_nd (x u : nd) (v : option nd) (keepdim : bool) : option nd :=
    let v := match v with None => u | Some v => v end in
    let* uv := lift2 Rmult u v in
    let* i := sum_ (-1) keepdim uv in
    let* target := bshape ((if keepdim then [1%nat] else []) ++ tl (rsh x)) (rsh i) in
    expand_nd i target.
  (** 126-128 projx *)
  Definition sprojx_nd (x : nd) : option nd :=
    let* x := subspace_nd x in
    let* q := norm_ (-1) true x in
    lift2 Rdiv x q.
  (** 130-132 proju (162: egrad2rgrad = proju) *)
  Definition sproju_nd (x u : nd) : option nd :=
    let* xu := lift2 Rmult x u in
    let* s := sum_ (-1) true xu in
    let* sx := lift2 Rmult s x in
    let* u := lift2 Rminus u sx in
    subspace_nd u.
  (** 134-139 expmap (SphereExact: 242 retr = expmap) *)
  Definition sexpmap_nd (x u : nd) : option nd :=
    let* norm_u := norm_ (-1) true u in
    let* a := lift2 Rmult x (lift1 cos norm_u) in
    let* b := lift2 Rmult u (lift1 sin norm_u) in
    let* b := lift2 Rdiv b norm_u in
    let* ex := lift2 Rplus a b in
    let* xu := lift2 Rplus x u in
    let* retr := sprojx_nd xu in
    lift3 (fun norm_u ex retr => if Rlt_dec eps norm_u then ex else retr) norm_u ex retr.
  (** 141-142 retr *)
  Definition sretr_nd (x u : nd) : option nd :=
    let* xu := lift2 Rplus x u in sprojx_nd xu.
  (** 144-145 transp *)
  Definition stransp_nd (x y v : nd) : option nd := sproju_nd y v.
  (** 156-160 dist *)
  Definition sdist_nd (x y : nd) (keepdim : bool) : option nd :=
    let* i := sinner_nd x x (Some y) keepdim in
    Some (lift1 (fun i => acos (clamp (-1 + eps) (1 - eps) i)) i).
  (** 147-154 logmap *)
  Definition slogmap_nd (x y : nd) : option nd :=
    let* yx := lift2 Rminus y x in
    let* u := sproju_nd x yx in
    let* dist := sdist_nd x y true in
    let* ud := lift2 Rmult u dist in
    let* q := norm_ (-1) true u in
    let* w := lift2 Rdiv ud (lift1 (clamp_min eps) q) in
    lift3 (fun dist w u => if Rlt_dec eps dist then w else u) dist w u.
  (** 91-106 _check_point_on_manifold *)
  Definition scheck_point_nd (atol rtol : R) (x : nd) : option bool :=
    let* q := norm_ (-1) false x in
    let* ok := allclose_nd atol rtol q (fill1 1) in
    if ok then
      let* px := subspace_nd x in allclose_nd atol rtol px x
    else Some false.
  (** 108-115 _check_vector_on_tangent *)
  Definition scheck_vector_nd (atol rtol : R) (x u : nd) : option bool :=
    let* i := sinner_nd x x (Some u) true in
    allclose_nd atol rtol i (fill1 0).
End Sphere.
