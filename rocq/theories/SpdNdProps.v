(** C123: the matrix functions and the methods of SymmetricPositiveDefinite on tensors with any
    batch axes act on each matrix of the batch. *)
From mathcomp Require Import all_ssreflect all_algebra.
From Verif Require NdModel StereoNdSpec SpdModel.
From Verif Require Import MatNdModel MatNdSpec SpdNdModel SpdNdInst.
Import GRing.Theory Num.Theory.
Local Open Scope ring_scope.

(** One point and batches of four and of five times four tangent vectors: they broadcast. *)
Example C123_cases (F : rcfType) :
  let x : mt F := Mt [::] 2 2 (fun _ i j => if i == j then 1 + i%:R else 0) in
  let u : mt F := Mt [:: 4; 1]%N 2 2 (fun ix i j => (ix 0%N + i * j)%:R) in
  let v : mt F := Mt [:: 4; 5]%N 2 2 (fun ix i j => (ix 1%N + i + j)%:R) in
  has_shape x [::] 2 2 /\ has_shape u [:: 4; 1]%N 2 2 /\ has_shape v [:: 4; 5]%N 2 2 /\
  bshape [::] [:: 4; 1]%N = Some [:: 4; 1]%N /\ bshape [:: 4; 1]%N [:: 4; 5]%N = Some [:: 4; 5]%N /\
  NdModel.numel [:: 4; 5]%N <> 0%N /\ bshape [:: 4; 5]%N [:: 3]%N = None /\
  (forall ix, to_mx 2 2 x ix \in unitmx).
Proof.
  do 6 (split; first by []); split; first by []. move=> ix.
  rewrite unitmxE (expand_det_row _ ord0) !big_ord_recl big_ord0 /cofactor !det_mx11 !mxE /rd /=.
  rewrite ?expr0 ?mul1r ?mul0r ?addr0 ?mulr0.
  by rewrite mul1r unitfE -(natrD _ 1 1) pnatr_eq0.
Qed.

Theorem C123_sym_funcm : forall (F : rcfType) eigh (f : F -> F) n,
  each1 (sym_funcm_nd eigh f) (@SpdModel.sym_funcm F eigh f n).
Proof. exact s_funcm. Qed.
Print Assumptions C123_sym_funcm.

Theorem C123_sym_expm : forall (F : rcfType) matrix_exp n,
  each1 (sym_expm_nd matrix_exp) (@SpdModel.sym_expm F matrix_exp n).
Proof. exact s_expm. Qed.
Print Assumptions C123_sym_expm.

Theorem C123_sym_logm : forall (F : rcfType) eigh log n,
  each1 (sym_logm_nd eigh log) (@SpdModel.sym_logm F eigh log n).
Proof. exact s_funcm. Qed.
Print Assumptions C123_sym_logm.

Theorem C123_sym_sqrtm : forall (F : rcfType) eigh n, each1 (sym_sqrtm_nd eigh) (@SpdModel.sym_sqrtm F eigh n).
Proof. exact (fun F eigh => s_funcm (F:=F) eigh Num.sqrt). Qed.
Print Assumptions C123_sym_sqrtm.

Theorem C123_sym_inv_sqrtm1 : forall (F : rcfType) eigh n,
  each1 (sym_inv_sqrtm1_nd eigh) (@SpdModel.sym_inv_sqrtm1 F eigh n).
Proof. exact (fun F eigh => s_funcm (F:=F) eigh (@SpdModel.pow_mhalf F)). Qed.
Print Assumptions C123_sym_inv_sqrtm1.

Theorem C123_sym_inv_sqrtm2 : forall (F : rcfType) eigh n (x : mt F) b, has_shape x b n n ->
  exists p q, sym_inv_sqrtm2_nd eigh x = Some (p, q) /\ has_shape p b n n /\ has_shape q b n n /\
  forall ix, (to_mx n n p ix, to_mx n n q ix) = SpdModel.sym_inv_sqrtm2 eigh (to_mx n n x ix).
Proof. exact s_sqrtm2. Qed.
Print Assumptions C123_sym_inv_sqrtm2.

Theorem C123_sym_invm : forall (F : rcfType) n (x : mt F) b, has_shape x b n n ->
  (forall ix, StereoNdSpec.inside b ix -> to_mx n n x ix \in unitmx) ->
  gives (sym_invm_nd x) b (fun ix => SpdModel.sym_invm (to_mx n n x ix)).
Proof. exact s_invm. Qed.
Print Assumptions C123_sym_invm.

(** one singular matrix makes the whole batch raise *)
Theorem C123_singular : forall (F : rcfType) n (x u : mt F) v keepdim b ix, has_shape x b n n ->
  StereoNdSpec.inside b ix -> to_mx n n x ix \notin unitmx ->
  inner_nd x u v keepdim = None /\ retr_nd x u = None.
Proof. exact s_singular. Qed.
Print Assumptions C123_singular.

(** the three distances *)
Theorem C123_dist : forall (F : rcfType) eigh log m keepdim n (x y : mt F) bx by_ b,
  has_shape x bx n n -> has_shape y by_ n n -> bshape bx by_ = Some b ->
  gives_scalar (dist_nd eigh log m x y keepdim) b keepdim
    (fun ix => SpdModel.dist eigh log m (to_mx n n x ix) (to_mx n n y ix)).
Proof. exact s_dist. Qed.
Print Assumptions C123_dist.

(** a batch with at least one matrix, of size at least one *)
Theorem C123_check_point : forall (F : rcfType) eigh (atol rtol : F) n x b, has_shape x b n n ->
  (0 < n)%N -> NdModel.numel b <> 0%N ->
  gives_check (check_point_nd eigh atol rtol x) b
    (fun ix => SpdModel.check_point eigh atol rtol (to_mx n n x ix)).
Proof. exact s_check_point. Qed.
Print Assumptions C123_check_point.

(** an empty batch raises, although each of its matrices would be accepted *)
Theorem C123_check_point_empty_refuted : forall (F : rcfType) eigh (atol rtol : F) n x b, has_shape x b n n ->
  NdModel.numel (n :: b) = 0%N -> check_point_nd eigh atol rtol x = None.
Proof. exact s_check_empty. Qed.
Print Assumptions C123_check_point_empty_refuted.

Theorem C123_check_vector : forall (F : rcfType) (atol rtol : F) n x u (m : 'M[F]_n) b, has_shape u b n n ->
  gives_check (check_vector_nd atol rtol x u) b
    (fun ix => SpdModel.check_vector atol rtol m (to_mx n n u ix)).
Proof. exact s_check_vector. Qed.
Print Assumptions C123_check_vector.

Theorem C123_projx : forall (F : rcfType) eigh n, each1 (projx_nd eigh) (@SpdModel.projx F eigh n).
Proof. exact s_projx. Qed.
Print Assumptions C123_projx.

(** proju(x, u) does not look at x *)
Theorem C123_proju : forall (F : rcfType) n x (m : 'M[F]_n), each1 (proju_nd x) (SpdModel.proju m).
Proof. exact s_proju. Qed.
Print Assumptions C123_proju.

Theorem C123_egrad2rgrad : forall (F : rcfType) n, each2 (@egrad2rgrad_nd F) (@SpdModel.egrad2rgrad F n).
Proof. exact s_rgrad. Qed.
Print Assumptions C123_egrad2rgrad.

Theorem C123_inner : forall (F : rcfType) keepdim n (x u v : mt F) bx bu bv b1 b,
  has_shape x bx n n -> has_shape u bu n n -> has_shape v bv n n ->
  bshape bx bu = Some b1 -> bshape b1 bv = Some b ->
  (forall ix, StereoNdSpec.inside bx ix -> to_mx n n x ix \in unitmx) ->
  gives_scalar (inner_nd x u (Some v) keepdim) b keepdim
    (fun ix => SpdModel.inner (to_mx n n x ix) (to_mx n n u ix) (to_mx n n v ix)).
Proof. exact s_inner. Qed.
Print Assumptions C123_inner.

Theorem C123_inner_self : forall (F : rcfType) keepdim n (x u : mt F) bx bu b,
  has_shape x bx n n -> has_shape u bu n n -> bshape bx bu = Some b ->
  (forall ix, StereoNdSpec.inside bx ix -> to_mx n n x ix \in unitmx) ->
  gives_scalar (inner_nd x u None keepdim) b keepdim
    (fun ix => SpdModel.inner (to_mx n n x ix) (to_mx n n u ix) (to_mx n n u ix)).
Proof. exact s_inner1. Qed.
Print Assumptions C123_inner_self.

Theorem C123_retr : forall (F : rcfType) n (x u : mt F) bx bu b,
  has_shape x bx n n -> has_shape u bu n n -> bshape bx bu = Some b ->
  (forall ix, StereoNdSpec.inside bx ix -> to_mx n n x ix \in unitmx) ->
  gives (retr_nd x u) b (fun ix => SpdModel.retr (to_mx n n x ix) (to_mx n n u ix)).
Proof. exact s_retr. Qed.
Print Assumptions C123_retr.

Theorem C123_expmap : forall (F : rcfType) eigh matrix_exp n,
  each2 (expmap_nd eigh matrix_exp) (@SpdModel.expmap F eigh matrix_exp n).
Proof. exact s_exp. Qed.
Print Assumptions C123_expmap.

Theorem C123_logmap : forall (F : rcfType) eigh log n,
  each2 (logmap_nd eigh log) (@SpdModel.logmap F eigh log n).
Proof. exact s_log. Qed.
Print Assumptions C123_logmap.

Theorem C123_transp : forall (F : rcfType) eigh matrix_exp log n,
  each3 (transp_nd eigh matrix_exp log) (@SpdModel.transp F eigh matrix_exp log n).
Proof. exact s_transp. Qed.
Print Assumptions C123_transp.

Theorem C123_random : forall (F : rcfType) eigh exp n, each1 (random_nd eigh exp) (@SpdModel.random F eigh exp n).
Proof. exact s_random. Qed.
Print Assumptions C123_random.

(** origin(b..., n, p) holds the identity of size n for every p *)
Theorem C123_origin : forall (F : rcfType) b n p,
  gives (origin_nd F (map Num_ (rcons (rcons (rev b) n) p))) b (fun _ => SpdModel.origin F n).
Proof. exact s_origin. Qed.
Print Assumptions C123_origin.

(** so a size that is not square gives a tensor of another shape instead of an error *)
Theorem C123_origin_size_refuted : forall (F : rcfType) b n p, n <> p ->
  exists r, origin_nd F (map Num_ (rcons (rcons (rev b) n) p)) = Some r /\
    bsh r = b /\ nrow r = n /\ ncol r = n /\ ncol r <> p.
Proof. exact s_origin_wrong. Qed.
Print Assumptions C123_origin_size_refuted.

(** origin((..., n, n)), which the annotation of size allows, raises *)
Theorem C123_origin_tuple_refuted : forall (F : rcfType) s, origin_nd F [:: Tuple_ s] = None.
Proof. exact s_origin_tuple. Qed.
Print Assumptions C123_origin_tuple_refuted.

(** batches that do not broadcast raise *)
Theorem C123_raises : forall (F : rcfType) eigh matrix_exp (log : F -> F) n,
  raises2 (@egrad2rgrad_nd F) n n /\ raises2 (expmap_nd eigh matrix_exp) n n /\
  raises2 (logmap_nd eigh log) n n /\
  forall m x y bx by_ keepdim, has_shape x bx n n -> has_shape y by_ n n -> bshape bx by_ = None ->
    dist_nd eigh log m x y keepdim = None.
Proof. exact s_raises. Qed.
Print Assumptions C123_raises.
