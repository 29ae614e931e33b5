(** C124: the methods of BirkhoffPolytope on tensors with any batch axes.  Everything acts on
    each matrix of the batch, except that Sinkhorn makes the same number of passes for all. *)
From mathcomp Require Import all_ssreflect all_algebra.
From Verif Require NdModel StereoNdSpec.
From Verif Require Import BirkhoffModel BirkhoffSpec MatNdModel MatNdSpec BirkhoffNdModel BirkhoffNdSpec BirkhoffNdInst.
Import GRing.Theory Num.Theory.
Local Open Scope ring_scope.

(** One doubly stochastic matrix and batches of four and of five times four: they broadcast. *)
Example C124_cases (F : realFieldType) :
  let x : mt F := Mt [::] 2 2 (fun _ _ _ => 2%:R^-1) in
  let u : mt F := Mt [:: 4; 1]%N 2 2 (fun ix i j => (ix 0%N + i * j)%:R) in
  let v : mt F := Mt [:: 4; 5]%N 2 2 (fun ix i j => (ix 1%N + i + j)%:R) in
  has_shape x [::] 2 2 /\ has_shape u [:: 4; 1]%N 2 2 /\ has_shape v [:: 4; 5]%N 2 2 /\
  bshape [::] [:: 4; 1]%N = Some [:: 4; 1]%N /\ bshape [:: 4; 1]%N [:: 4; 5]%N = Some [:: 4; 5]%N /\
  NdModel.numel [:: 4; 5]%N <> 0%N /\ bshape [:: 4; 5]%N [:: 3]%N = None /\
  (forall ix, interior (to_mx 2 2 x ix)).
Proof.
  do 6 (split; first by []); split; first by []. move=> ix.
  have S : 2%:R^-1 + 2%:R^-1 = 1 :> F.
  { by rewrite -[LHS]mulr2n -[LHS]mulr_natl divff // pnatr_eq0. }
  split; first by move=> i j; rewrite mxE invr_gt0 ltr0n.
  by split=> i; rewrite !big_ord_recl big_ord0 !mxE addr0.
Qed.

Theorem C124_check_point : forall (F : realFieldType) (atol rtol : F) x b n, has_shape x b n n ->
  check_point_nd atol rtol x <->
  forall ix, StereoNdSpec.inside b ix -> check_point atol rtol (to_mx n n x ix).
Proof. exact b_check_point. Qed.
Print Assumptions C124_check_point.

Theorem C124_check_vector : forall (F : realFieldType) (atol rtol : F) x u b n (m : 'M[F]_n), has_shape u b n n ->
  check_vector_nd atol rtol x u <->
  forall ix, StereoNdSpec.inside b ix -> check_vector atol rtol m (to_mx n n u ix).
Proof. exact b_check_vector. Qed.
Print Assumptions C124_check_vector.

(** Sinkhorn stops for the whole batch when every matrix is settled *)
Theorem C124_projx : forall (F : realFieldType) max_iter (eps tol : F) x b n, has_shape x b n n ->
  (0 < n)%N -> NdModel.numel b <> 0%N ->
  exists k, stops max_iter (all_settled eps tol b (fun ix => to_mx n n x ix)) k /\
    gives (projx_nd max_iter eps tol x) b (fun ix => scaled eps (to_mx n n x ix) k).
Proof. exact b_projx. Qed.
Print Assumptions C124_projx.

(** the batch seen as the sequence of its matrices: the theorems C33 and C79 apply *)
Theorem C124_projx_sequence : forall (F : realFieldType) max_iter (eps tol : F) x b n, has_shape x b n n ->
  (0 < n)%N -> NdModel.numel b <> 0%N ->
  exists r, projx_nd max_iter eps tol x = Some r /\ has_shape r b n n /\
    [seq to_mx n n r ix | ix <- positions b] = projx max_iter eps tol [seq to_mx n n x ix | ix <- positions b].
Proof. exact b_projx_list. Qed.
Print Assumptions C124_projx_sequence.

(** the maximum over no entries raises *)
Theorem C124_empty_refuted : forall (F : realFieldType) max_iter (eps tol : F) x b n, has_shape x b n n ->
  NdModel.numel (n :: b) = 0%N -> projx_nd max_iter.+1 eps tol x = None.
Proof. exact b_empty. Qed.
Print Assumptions C124_empty_refuted.

Theorem C124_retr : forall (F : realFieldType) exp max_iter (eps tol : F) x u n bx bu b,
  has_shape x bx n n -> has_shape u bu n n -> bshape bx bu = Some b -> (0 < n)%N -> NdModel.numel b <> 0%N ->
  exists k, stops max_iter (all_settled eps tol b (fun ix => bumped exp (to_mx n n x ix) (to_mx n n u ix))) k /\
    gives (retr_nd exp max_iter eps tol x u) b
      (fun ix => floor (e12 F) (scaled eps (bumped exp (to_mx n n x ix) (to_mx n n u ix)) k)).
Proof. exact b_retr. Qed.
Print Assumptions C124_retr.

Theorem C124_random : forall (F : realFieldType) max_iter (eps tol : F) x b n, has_shape x b n n ->
  (0 < n)%N -> NdModel.numel b <> 0%N ->
  exists k, stops max_iter (all_settled eps tol b (fun ix => map_mx Num.norm (to_mx n n x ix))) k /\
    gives (random_nd max_iter eps tol x) b (fun ix => scaled eps (map_mx Num.norm (to_mx n n x ix)) k).
Proof. exact b_random. Qed.
Print Assumptions C124_random.

(** proju = egrad2rgrad, and transp(x, y, v) = proju(y, v), although they flatten the batch *)
Theorem C124_proju : forall (F : realFieldType) m (x u : mt F) bx bu b,
  has_shape x bx m.+1 m.+1 -> has_shape u bu m.+1 m.+1 -> bshape bx bu = Some b ->
  (forall ix, StereoNdSpec.inside b ix -> proju (to_mx m.+1 m.+1 x ix) (to_mx m.+1 m.+1 u ix) <> None) ->
  exists r, proju_nd x u = Some r /\ has_shape r b m.+1 m.+1 /\
    forall ix, StereoNdSpec.inside b ix ->
      proju (to_mx m.+1 m.+1 x ix) (to_mx m.+1 m.+1 u ix) = Some (to_mx m.+1 m.+1 r ix).
Proof. exact b_proju. Qed.
Print Assumptions C124_proju.

(** one singular system makes the whole batch raise *)
Theorem C124_proju_raises : forall (F : realFieldType) m (x u : mt F) bx bu b ix,
  has_shape x bx m.+1 m.+1 -> has_shape u bu m.+1 m.+1 -> bshape bx bu = Some b ->
  StereoNdSpec.inside b ix -> proju (to_mx m.+1 m.+1 x ix) (to_mx m.+1 m.+1 u ix) = None ->
  proju_nd x u = None.
Proof. exact b_proju_none. Qed.
Print Assumptions C124_proju_raises.

(** at interior points the projection exists and every matrix of it is tangent *)
Theorem C124_tangent : forall (F : realFieldType) m (x u : mt F) bx bu b,
  has_shape x bx m.+1 m.+1 -> has_shape u bu m.+1 m.+1 -> bshape bx bu = Some b ->
  (forall ix, StereoNdSpec.inside b ix -> interior (to_mx m.+1 m.+1 x ix)) ->
  exists r, proju_nd x u = Some r /\ has_shape r b m.+1 m.+1 /\
    forall ix, StereoNdSpec.inside b ix -> tangent (to_mx m.+1 m.+1 r ix).
Proof. exact b_tangent. Qed.
Print Assumptions C124_tangent.

Theorem C124_retr_transp : forall (F : realFieldType) exp max_iter (eps tol : F) x u v y w,
  retr_transp_nd exp max_iter eps tol x u v = Some (y, w) <->
  retr_nd exp max_iter eps tol x u = Some y /\
  transp_follow_retr_nd exp max_iter eps tol x u v = Some w /\ proju_nd y v = Some w.
Proof. exact b_follow. Qed.
Print Assumptions C124_retr_transp.

Theorem C124_inner : forall (F : realFieldType) keepdim n (x u v : mt F) bx bu bv b1 b,
  has_shape x bx n n -> has_shape u bu n n -> has_shape v bv n n ->
  bshape bx bu = Some b1 -> bshape b1 bv = Some b ->
  gives_scalar (inner_nd x u (Some v) keepdim) b keepdim
    (fun ix => inner (to_mx n n x ix) (to_mx n n u ix) (to_mx n n v ix)).
Proof. exact b_inner. Qed.
Print Assumptions C124_inner.

Theorem C124_inner_self : forall (F : realFieldType) keepdim n (x u : mt F) bx bu b,
  has_shape x bx n n -> has_shape u bu n n -> bshape bx bu = Some b ->
  gives_scalar (inner_nd x u None keepdim) b keepdim
    (fun ix => inner (to_mx n n x ix) (to_mx n n u ix) (to_mx n n u ix)).
Proof. exact b_inner1. Qed.
Print Assumptions C124_inner_self.

Theorem C124_origin : forall (F : realFieldType) b n, gives (origin_nd F b n n) b (fun _ => origin F n).
Proof. exact b_origin. Qed.
Print Assumptions C124_origin.

Theorem C124_wrong_shape : forall (F : realFieldType) max_iter (eps tol : F) x b n p, n <> p -> has_shape x b n p ->
  random_nd max_iter eps tol x = None /\ origin_nd F b n p = None.
Proof. exact b_wrong. Qed.
Print Assumptions C124_wrong_shape.

(** batches that do not broadcast, and matrices of different sizes, raise *)
Theorem C124_raises : forall (F : realFieldType) exp max_iter (eps tol : F) n,
  raises2 (retr_nd exp max_iter eps tol) n n /\ raises2 (@proju_nd F) n n.
Proof. exact b_raises. Qed.
Print Assumptions C124_raises.

Theorem C124_sizes : forall (F : realFieldType) (x u : mt F) bx bu n p n' p',
  has_shape x bx n p -> has_shape u bu n' p' -> (n, p) <> (n', p') -> proju_nd x u = None.
Proof. exact b_sizes. Qed.
Print Assumptions C124_sizes.
