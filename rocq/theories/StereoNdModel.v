(** The functions of geoopt/manifolds/stereographic/math.py on tensors of any shape with
    their [dim] and [keepdim] arguments (tensors of NdModel, [None] is a raised error).
    The curvature is a 0-dimensional tensor, so that the tensor-wide branches of tan_k and
    artan_k are those of one curvature; scalar arithmetic between two tensor operations is
    fused.  _mobius_add and _dist2plane are in NdModel, _mobius_matvec in StereoExtraModel. *)
From Coq Require Import Reals List ZArith Bool Arith.
From Verif Require Import RVec UtilsModel StereoModel StereoExtraModel NdModel.
Import ListNotations.

(** [t.size(dim)] *)
Definition size_ (dim : Z) (t : nd) : option nat :=
  match axis dim (length (rsh t)) with
  | None => None
  | Some a => Some (nth a (rsh t) 0)
  end.

(** [t.narrow(dim, start, len)]; a negative start counts from the end *)
Definition narrow (dim start len : Z) (t : nd) : option nd :=
  match axis dim (length (rsh t)) with
  | None => None
  | Some a =>
      let n := Z.of_nat (nth a (rsh t) 0) in
      (let start := if start <? 0 then start + n else start in
       if (0 <=? start) && (start <=? n) && (0 <=? len) && (start + len <=? n)
       then Some {| rsh := set_axis a (Z.to_nat len) (rsh t);
                    at_ := fun ix => read t (upd ix a (Z.to_nat start + ix a)) |}
       else None)%Z
  end.

(** [torch.cat((t, u), dim=dim)]: equal shapes except along [dim].  Simplified: torch also
    skips empty tensors of one axis. *)
Definition cat2 (dim : Z) (t u : nd) : option nd :=
  match axis dim (length (rsh t)) with
  | None => None
  | Some a =>
      if list_eq_dec Nat.eq_dec (set_axis a 0 (rsh t)) (set_axis a 0 (rsh u)) then
        let n := nth a (rsh t) 0 in
        let m := nth a (rsh u) 0 in
        Some {| rsh := set_axis a (n + m) (rsh t);
                at_ := fun ix => if ix a <? n then read t ix else read u (upd ix a (ix a - n)) |}
      else None
  end.

(** [(t.isclose(zero)).prod(dim=dim, keepdim=True, dtype=torch.bool)], as 1 or 0 *)
Definition all_close (dim : Z) (t : nd) : option nd :=
  match axis dim (length (rsh t)) with
  | None => None
  | Some a =>
      let n := nth a (rsh t) 0 in
      Some {| rsh := set_axis a 1 (rsh t);
              at_ := fun ix => if all_below n (fun j => close_to_zero (read t (upd ix a j)))
                               then 1%R else 0%R |}
  end.

(** pointwise operation of three tensors, as in [torch.where(cond, p, x)] *)
Definition lift3 (f : R -> R -> R -> R) (x y z : nd) : option nd :=
  match bshape (rsh x) (rsh y) with
  | None => None
  | Some s =>
      match bshape s (rsh z) with
      | None => None
      | Some s => Some {| rsh := s; at_ := fun ix => f (read x ix) (read y ix) (read z ix) |}
      end
  end.

(** [t.sum(dims, keepdim=True)]: one axis after the other.  A list naming an axis twice
    raises; an empty list reduces every axis (torch's convention). *)
Fixpoint axes_of (r : nat) (dims : list Z) : option (list nat) :=
  match dims with
  | [] => Some []
  | d :: dims =>
      match axis d r, axes_of r dims with Some a, Some l => Some (a :: l) | _, _ => None end
  end.
Fixpoint distinct (l : list nat) : bool :=
  match l with [] => true | a :: l => negb (existsb (Nat.eqb a) l) && distinct l end.
Fixpoint sum_each (dims : list Z) (t : nd) : option nd :=
  match dims with [] => Some t | d :: dims => let* t := sum_ d true t in sum_each dims t end.
Definition sum_list (dims : list Z) (t : nd) : option nd :=
  match dims with
  | [] => sum_each (list_range (length (rsh t))) t
  | _ => let* l := axes_of (length (rsh t)) dims in
         if distinct l then sum_each dims t else None
  end.

(** [t.squeeze(d)] and utils.py:93-100 drop_dims on tensors *)
Definition squeeze_nd (d : Z) (t : nd) : option nd :=
  match rsh t with
  | [] => if ((d =? 0) || (d =? -1))%Z then Some t else None
  | _ => let* a := axis d (length (rsh t)) in
         if nth a (rsh t) 0 =? 1
         then Some {| rsh := drop_axis a (rsh t); at_ := fun ix => read t (ins ix a 0) |}
         else Some t
  end.
Fixpoint drop_dims_nd (seen : Z) (dims : list Z) (t : nd) : option nd :=
  match dims with
  | [] => Some t
  | d :: dims => let* t := squeeze_nd (d - seen) t in drop_dims_nd (seen + 1) dims t
  end.

(** [l.pop(i)] of a Python list: what remains *)
Definition pop (i : Z) (l : list Z) : option (list Z) :=
  match axis i (length l) with
  | None => None
  | Some a => let p := length l - 1 - a in Some (firstn p l ++ skipn (S p) l)
  end.

(** every entry of a tensor, and [weights.lt(0).any()] *)
Fixpoint grid (l : list (nat * nat)) (ix : index) : list index :=
  match l with
  | [] => [ix]
  | (a, n) :: l => flat_map (fun j => grid l (upd ix a j)) (seq 0 n)
  end.
Definition any_negative (t : nd) : bool :=
  existsb (fun ix => if Rlt_dec (read t ix) 0 then true else false)
    (grid (combine (seq 0 (length (rsh t))) (rsh t)) (fun _ => 0)).
Definition scalar_nd (v : R) : nd := {| rsh := []; at_ := fun _ => v |}.

Section Stereo.
  Variable e : R.                    (* the eps of sabs, see StereoModel *)
  Local Open Scope R_scope.
  Definition pow2 (x : nd) : nd := lift1 (fun v => v ^ 2) x.
  Definition neg (x : nd) : nd := lift1 Ropp x.

  (** math.py:306-319 _project; [eps] is 4e-3 or 1e-5 *)
  Definition project_nd (eps k : R) (x : nd) (dim : Z) : option nd :=
    let mx := maxnorm e eps k in
    let* nr := norm_ dim true x in
    let norm := lift1 (clamp_min e15) nr in
    let* q := lift2 Rdiv x norm in
    let projected := lift1 (fun v => v * mx) q in
    lift3 (fun norm p v => if Rlt_dec mx norm then p else v) norm projected x.

  (** math.py:347-349 _lambda_x *)
  Definition lambda_x_nd (k : R) (x : nd) (keepdim : bool) (dim : Z) : option nd :=
    let* s := sum_ dim keepdim (pow2 x) in
    Some (lift1 (fun v => 2 / clamp_min e15 (1 + k * v)) s).

  (** math.py:385-396 _inner: the conformal factor always keeps the axis *)
  Definition inner_nd (k : R) (x u v : nd) (keepdim : bool) (dim : Z) : option nd :=
    let* lam := lambda_x_nd k x true dim in
    let* uv := lift2 Rmult u v in
    let* s := sum_ dim keepdim uv in
    lift2 Rmult (lift1 (fun l => l ^ 2) lam) s.

  (** math.py:428-438 _norm *)
  Definition norm_nd (k : R) (x u : nd) (keepdim : bool) (dim : Z) : option nd :=
    let* lam := lambda_x_nd k x keepdim dim in
    let* s := norm_ dim keepdim u in
    lift2 Rmult lam s.

  (** math.py:554-555 _mobius_sub *)
  Definition mobius_sub_nd (k : R) (x y : nd) (dim : Z) : option nd :=
    mobius_add_nd k x (neg y) dim.

  (** math.py:622-641 _gyration *)
  Definition gyration_nd (k : R) (u v w : nd) (dim : Z) : option nd :=
    let* u2 := sum_ dim true (pow2 u) in
    let* v2 := sum_ dim true (pow2 v) in
    let* puv := lift2 Rmult u v in
    let* uv := sum_ dim true puv in
    let* puw := lift2 Rmult u w in
    let* uw := sum_ dim true puw in
    let* pvw := lift2 Rmult v w in
    let* vw := sum_ dim true pvw in
    let K2 := k ^ 2 in
    let* a1 := lift2 (fun uw v2 => - K2 * uw * v2) uw v2 in
    let* a2 := lift2 (fun a1 vw => a1 - k * vw) a1 vw in
    let* a3 := lift2 (fun uv vw => 2 * K2 * uv * vw) uv vw in
    let* a := lift2 Rplus a2 a3 in
    let* b1 := lift2 (fun vw u2 => - K2 * vw * u2) vw u2 in
    let* b := lift2 (fun b1 uw => b1 + k * uw) b1 uw in
    let* d1 := lift2 (fun u2 v2 => K2 * u2 * v2) u2 v2 in
    let* d := lift2 (fun uv d1 => 1 - 2 * k * uv + d1) uv d1 in
    let* au := lift2 Rmult a u in
    let* bv := lift2 Rmult b v in
    let* ab := lift2 Rplus au bv in
    let* q := lift2 (fun ab d => 2 * ab / clamp_min e15 d) ab d in
    lift2 Rplus w q.

  (** math.py:696-705 _mobius_coadd, 738-740 _mobius_cosub *)
  Definition mobius_coadd_nd (k : R) (x y : nd) (dim : Z) : option nd :=
    let* g := gyration_nd k x (neg y) y dim in
    mobius_add_nd k x g dim.
  Definition mobius_cosub_nd (k : R) (x y : nd) (dim : Z) : option nd :=
    mobius_coadd_nd k x (neg y) dim.

  (** math.py:813-819 _mobius_scalar_mul; [r] is a tensor *)
  Definition mobius_scalar_mul_nd (k : R) (r x : nd) (dim : Z) : option nd :=
    let* nr := norm_ dim true x in
    let x_norm := lift1 (clamp_min e15) nr in
    let* ra := lift2 (fun r nx => r * artan_k e nx k) r x_norm in
    let* q := lift2 Rdiv x x_norm in
    lift2 Rmult (lift1 (fun v => tan_k e v k) ra) q.

  (** math.py:853-863 _dist, 889-891 _dist0 *)
  Definition dist_nd (k : R) (x y : nd) (keepdim : bool) (dim : Z) : option nd :=
    let* d := mobius_add_nd k (neg x) y dim in
    let* nr := norm_ dim keepdim d in
    Some (lift1 (fun v => 2 * artan_k e v k) nr).
  Definition dist0_nd (k : R) (x : nd) (keepdim : bool) (dim : Z) : option nd :=
    let* nr := norm_ dim keepdim x in
    Some (lift1 (fun v => 2 * artan_k e v k) nr).

  (** math.py:957-965 _geodesic *)
  Definition geodesic_nd (k : R) (t x y : nd) (dim : Z) : option nd :=
    let* v := mobius_add_nd k (neg x) y dim in
    let* tv := mobius_scalar_mul_nd k t v dim in
    mobius_add_nd k x tv dim.

  (** math.py:1012-1018 _expmap, 1048-1052 _expmap0 *)
  Definition expmap_nd (k : R) (x u : nd) (dim : Z) : option nd :=
    let* nr := norm_ dim true u in
    let u_norm := lift1 (clamp_min e15) nr in
    let* lam := lambda_x_nd k x true dim in
    let* arg := lift2 (fun l nu => l / 2 * nu) lam u_norm in
    let* q := lift2 Rdiv u u_norm in
    let* second_term := lift2 Rmult (lift1 (fun v => tan_k e v k) arg) q in
    mobius_add_nd k x second_term dim.
  Definition expmap0_nd (k : R) (u : nd) (dim : Z) : option nd :=
    let* nr := norm_ dim true u in
    let u_norm := lift1 (clamp_min e15) nr in
    let* q := lift2 Rdiv u u_norm in
    lift2 Rmult (lift1 (fun v => tan_k e v k) u_norm) q.

  (** math.py:1090-1101 _geodesic_unit *)
  Definition geodesic_unit_nd (k : R) (t x u : nd) (dim : Z) : option nd :=
    let* nr := norm_ dim true u in
    let u_norm := lift1 (clamp_min e15) nr in
    let* q := lift2 Rdiv u u_norm in
    let* second_term := lift2 Rmult (lift1 (fun v => tan_k e (v / 2) k) t) q in
    mobius_add_nd k x second_term dim.

  (** math.py:1141-1146 _logmap, 1183-1186 _logmap0 *)
  Definition logmap_nd (k : R) (x y : nd) (dim : Z) : option nd :=
    let* sub := mobius_add_nd k (neg x) y dim in
    let* nr := norm_ dim true sub in
    let sub_norm := lift1 (clamp_min e15) nr in
    let* lam := lambda_x_nd k x true dim in
    let* ln := lift2 Rmult lam sub_norm in
    let* q := lift2 Rdiv sub ln in
    lift2 Rmult (lift1 (fun v => 2 * artan_k e v k) sub_norm) q.
  Definition logmap0_nd (k : R) (y : nd) (dim : Z) : option nd :=
    let* nr := norm_ dim true y in
    let y_norm := lift1 (clamp_min e15) nr in
    let* q := lift2 Rdiv y y_norm in
    lift2 Rmult q (lift1 (fun v => artan_k e v k) y_norm).

  (** math.py:1276-1287 _mobius_pointwise_mul *)
  Definition mobius_pointwise_mul_nd (k : R) (w x : nd) (dim : Z) : option nd :=
    let* nr := norm_ dim true x in
    let x_norm := lift1 (clamp_min e15) nr in
    let* wx := lift2 Rmult w x in
    let* wnr := norm_ dim true wx in
    let wx_norm := lift1 (clamp_min e15) wnr in
    let* arg := lift2 (fun nwx nx => nwx / nx * artan_k e nx k) wx_norm x_norm in
    let* q := lift2 Rdiv wx wx_norm in
    let* res_c := lift2 Rmult (lift1 (fun v => tan_k e v k) arg) q in
    let* cond := all_close dim wx in
    lift2 (fun c r => if Req_EM_T c 1 then 0 else r) cond res_c.

  (** math.py:1654-1662 _parallel_transport, 1691-1695, 1725-1729 *)
  Definition parallel_transport_nd (k : R) (x y u : nd) (dim : Z) : option nd :=
    let* g := gyration_nd k y (neg x) u dim in
    let* lx := lambda_x_nd k x true dim in
    let* gl := lift2 Rmult g lx in
    let* ly := lambda_x_nd k y true dim in
    lift2 Rdiv gl ly.
  Definition parallel_transport0_nd (k : R) (y v : nd) (dim : Z) : option nd :=
    let* s := sum_ dim true (pow2 y) in
    lift2 Rmult v (lift1 (fun y2 => clamp_min e15 (1 + k * y2)) s).
  Definition parallel_transport0back_nd (k : R) (x v : nd) (dim : Z) : option nd :=
    let* s := sum_ dim true (pow2 x) in
    lift2 Rdiv v (lift1 (fun x2 => clamp_min e15 (1 + k * x2)) s).

  (** math.py:1759-1761 _egrad2rgrad *)
  Definition egrad2rgrad_nd (k : R) (x grad : nd) (dim : Z) : option nd :=
    let* lam := lambda_x_nd k x true dim in
    lift2 Rdiv grad (lift1 (fun l => l ^ 2) lam).

  (** math.py:1785-1790 _sproj, 1814-1821 _inv_sproj *)
  Definition sproj_nd (k : R) (x : nd) (dim : Z) : option nd :=
    let inv_r := sqrt (sabs e k) in
    let* last := narrow dim (-1) 1 x in
    let factor := lift1 (fun v => 1 / (1 + inv_r * v)) last in
    let* sz := size_ dim x in
    let* init := narrow dim 0 (Z.of_nat sz - 1) x in
    lift2 Rmult factor init.
  Definition inv_sproj_nd (k : R) (x : nd) (dim : Z) : option nd :=
    let inv_r := sqrt (sabs e k) in
    let* lam_x := lambda_x_nd k x true dim in
    let* A := lift2 Rmult lam_x x in
    let B := lift1 (fun l => 1 / inv_r * (l - 1)) lam_x in
    cat2 dim A B.

  (** math.py:1855-1866 _antipode *)
  Definition antipode_nd (k : R) (x : nd) (dim : Z) : option nd :=
    if Rle_dec k 0 then Some (neg x)
    else
      let* nr := norm_ dim true x in
      let* v := lift2 Rdiv x (lift1 (clamp_min e15) nr) in
      let piR := {| rsh := []; at_ := fun _ => 3141592653589793 / 10 ^ 15 * / sqrt (sabs e k) |} in
      geodesic_unit_nd k piR x v dim.

  (** the product of [xs.size(d)] over reducedim, lines 1990-1992 *)
  Fixpoint sizes_product (dims : list Z) (t : nd) : option R :=
    match dims with
    | [] => Some 1
    | d :: dims => let* m := size_ d t in let* p := sizes_product dims t in Some (INR m * p)
    end.

  (** math.py:1971-2000, the part of _weighted_midpoint after posweight; [d] is the 1e-10
      of line 1974 *)
  Definition midpoint_nd (d k : R) (gamma weights xs : nd) (reducedim : list Z) (dim : Z)
      (keepdim lincomb : bool) : option nd :=
    let* gw := lift2 (fun g w => (g - 1) * w) gamma weights in
    let* denominator := sum_list reducedim gw in
    let* gw' := lift2 Rmult gamma weights in
    let* gwx := lift2 Rmult gw' xs in
    let* nominator := sum_list reducedim gwx in
    let* two_mean := lift2 Rdiv nominator (lift1 (clamp_abs d) denominator) in
    let* a_mean := mobius_scalar_mul_nd k (scalar_nd (1 / 2)) two_mean dim in
    let* a_mean :=
      if Rlt_dec 0 k then
        let* b_mean := antipode_nd k a_mean dim in
        let* da := dist_nd k a_mean xs true dim in
        let* a_dist := sum_list reducedim da in
        let* db := dist_nd k b_mean xs true dim in
        let* b_dist := sum_list reducedim db in
        let* better := lift2 (fun b a => if Rlt_dec b a then 1 else 0) b_dist a_dist in
        lift3 (fun c b a => if Req_EM_T c 1 then b else a) better b_mean a_mean
      else Some a_mean in
    let* a_mean :=
      if lincomb then
        let* alpha :=
          if numel (rsh weights) =? 1 then
            let* p := sizes_product reducedim xs in Some (lift1 (fun w => w * p) weights)
          else
            let* w := lift2 (fun w g => w) weights gamma in
            sum_list reducedim w in
        mobius_scalar_mul_nd k alpha a_mean dim
      else Some a_mean in
    if keepdim then Some a_mean else drop_dims_nd 0 reducedim a_mean.

  (** math.py:1948-1970 *)
  Definition weighted_midpoint_nd (d k : R) (xs : nd) (weights : option nd)
      (reducedim : option (list Z)) (dim : Z) (keepdim lincomb posweight : bool) : option nd :=
    let* reducedim := match reducedim with
                      | None => pop dim (list_range (length (rsh xs)))
                      | Some l => Some l
                      end in
    let* gamma := lambda_x_nd k xs true dim in
    let* weights := match weights with
                    | None => Some (scalar_nd 1)
                    | Some w => unsqueeze dim w
                    end in
    if posweight && any_negative weights then
      let* ap := antipode_nd k xs dim in
      let* xs := lift3 (fun w p x => if Rlt_dec w 0 then p else x) weights ap xs in
      midpoint_nd d k gamma (lift1 Rabs weights) xs reducedim dim keepdim lincomb
    else midpoint_nd d k gamma weights xs reducedim dim keepdim lincomb.

  (** manifold.py:526-551 Stereographic.weighted_midpoint; [eps] is the constant of project *)
  Definition m_weighted_midpoint_nd (eps d k : R) (xs : nd) (weights : option nd)
      (reducedim : option (list Z)) (dim : Z) (keepdim lincomb posweight proj : bool) : option nd :=
    let* mid := weighted_midpoint_nd d k xs weights reducedim dim keepdim lincomb posweight in
    if proj then project_nd eps k mid dim else Some mid.
End Stereo.
