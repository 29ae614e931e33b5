(** C125: the functions of csym_math.py and the methods of the Siegel manifolds on tensors with
    any batch axes act on each matrix of the batch; one matrix that raises makes the call raise. *)
From mathcomp Require Import all_ssreflect all_algebra.
From mathcomp.real_closed Require Import complex.
From Verif Require NdModel.
From Verif Require Import MatNdModel MatNdSpec SpdNdModel SiegelModel SiegelNdModel SiegelNdSpec SiegelNdInst.
Import GRing.Theory Num.Theory.
Local Open Scope ring_scope.
Local Open Scope complex_scope.
Notation cmt F := (mt (ComplexField.complex_fieldType F)).

(** One point i and batches of four and of five times four matrices: they broadcast; a batch
    of no matrix has no position. *)
Example C125_cases (F : rcfType) :
  let z : cmt F := Mt [::] 1 1 (fun _ i j => 0 +i* 1) in
  let u : cmt F := Mt [:: 4; 1]%N 1 1 (fun ix i j => (ix 0%N)%:R) in
  let v : cmt F := Mt [:: 4; 5]%N 1 1 (fun ix i j => (ix 1%N)%:R) in
  has_shape z [::] 1 1 /\ has_shape u [:: 4; 1]%N 1 1 /\ has_shape v [:: 4; 5]%N 1 1 /\
  bshape [::] [:: 4; 1]%N = Some [:: 4; 1]%N /\ bshape [:: 4; 1]%N [:: 4; 5]%N = Some [:: 4; 5]%N /\
  inside [:: 4; 5]%N (fun _ => 0%N) /\ bshape [:: 4; 5]%N [:: 3]%N = None /\
  (forall ix, inverse_cayley_transform (to_mx 1 1 z ix) = Ok 0) /\
  (forall ix, uh_inner (to_mx 1 1 z ix) 1%:M 1%:M = Ok 1) /\
  (forall ix, uh_inner (to_mx 1 1 u ix) 1%:M 1%:M = Raises LinAlgError).
Proof. exact (siegel_nd_cases F). Qed.

(** ** csym_math *)
Theorem C125_takagi_eig : forall (F : rcfType) eigh n (z : cmt F) b, has_shape z b n n ->
  exists e s, takagi_eig_nd eigh z = Some (e, s) /\ gsh e = n :: b /\ has_shape s b n n /\ forall ix,
    to_mx n n s ix = (takagi_eig eigh (to_mx n n z ix)).2 /\
    forall j : 'I_n, grd e (at_last j ix) = (takagi_eig eigh (to_mx n n z ix)).1 ord0 j.
Proof. exact q_takagi. Qed.
Print Assumptions C125_takagi_eig.

Theorem C125_takagi_eigvals : forall (F : rcfType) eigvalsh n (z : cmt F) b, has_shape z b n n ->
  exists e, takagi_eigvals_nd eigvalsh z = Some e /\ gsh e = n :: b /\
  forall ix (j : 'I_n), grd e (at_last j ix) = takagi_eigvals eigvalsh (to_mx n n z ix) ord0 j.
Proof. exact q_takagi_vals. Qed.
Print Assumptions C125_takagi_eigvals.

Theorem C125_cayley : forall (F : rcfType) n (z : cmt F) b, has_shape z b n n ->
  gives_or_raises (cayley_transform_nd z) b (fun ix => cayley_transform (to_mx n n z ix)) /\
  gives_or_raises (inverse_cayley_transform_nd z) b (fun ix => inverse_cayley_transform (to_mx n n z ix)).
Proof. exact q_cayley. Qed.
Print Assumptions C125_cayley.

(** each matrix is projected or kept by itself *)
Theorem C125_positive_conjugate_projection : forall (F : rcfType) eigh p n,
  each1 (positive_conjugate_projection_nd eigh p) (@positive_conjugate_projection F eigh p n).
Proof. exact q_pcp. Qed.
Print Assumptions C125_positive_conjugate_projection.

(** ** methods *)
Theorem C125_upper_half_projx : forall (F : rcfType) eigh p n, each1 (uh_projx_nd eigh p) (@uh_projx F eigh p n).
Proof. exact q_uh_projx. Qed.
Print Assumptions C125_upper_half_projx.

Theorem C125_bounded_projx : forall (F : rcfType) eigh p n, each1 (bd_projx_nd eigh p) (@bd_projx F eigh p n).
Proof. exact q_bd_projx. Qed.
Print Assumptions C125_bounded_projx.

(** also proju, which is the same function *)
Theorem C125_upper_half_egrad2rgrad : forall (F : rcfType) n, each2 (@uh_egrad2rgrad_nd F) (@uh_egrad2rgrad F n).
Proof. exact q_uh_rgrad. Qed.
Print Assumptions C125_upper_half_egrad2rgrad.

Theorem C125_bounded_egrad2rgrad : forall (F : rcfType) n, each2 (@bd_egrad2rgrad_nd F) (@bd_egrad2rgrad F n).
Proof. exact q_bd_rgrad. Qed.
Print Assumptions C125_bounded_egrad2rgrad.

Theorem C125_upper_half_retr : forall (F : rcfType) eigh p n, each2 (uh_retr_nd eigh p) (@uh_retr F eigh p n).
Proof. exact q_uh_retr. Qed.
Print Assumptions C125_upper_half_retr.

Theorem C125_bounded_retr : forall (F : rcfType) eigh p n, each2 (bd_retr_nd eigh p) (@bd_retr F eigh p n).
Proof. exact q_bd_retr. Qed.
Print Assumptions C125_bounded_retr.

(** the result of [inner] has the shape of the batch or, with keepdim, one more axis of size 1 *)
Theorem C125_inner : forall (F : rcfType) (keepdim : bool) n (z u v : cmt F) bz bu bv b1 b ix0,
  has_shape z bz n n -> has_shape u bu n n -> has_shape v bv n n ->
  bshape bz bu = Some b1 -> bshape b1 bv = Some b -> inside b ix0 ->
  scalars_or_raises (uh_inner_nd z u (Some v) keepdim) b (if keepdim then 1%N :: b else b) (if keepdim then drop_last else id)
    (fun ix => uh_inner (to_mx n n z ix) (to_mx n n u ix) (to_mx n n v ix)) /\
  scalars_or_raises (bd_inner_nd z u (Some v) keepdim) b (if keepdim then 1%N :: b else b) (if keepdim then drop_last else id)
    (fun ix => bd_inner (to_mx n n z ix) (to_mx n n u ix) (to_mx n n v ix)).
Proof. exact q_inner. Qed.
Print Assumptions C125_inner.

(** [keepdim] has no effect on [dist] *)
Theorem C125_upper_half_dist : forall (F : rcfType) eigvalsh eighU log p m keepdim n (z1 z2 : cmt F) b1 b2 b ix0,
  has_shape z1 b1 n n -> has_shape z2 b2 n n -> bshape b1 b2 = Some b -> inside b ix0 ->
  scalars_or_raises (uh_dist_nd eigvalsh eighU log p m z1 z2 keepdim) b (result_shape m b) (result_at m)
    (fun ix => uh_dist eigvalsh eighU log p m (to_mx n n z1 ix) (to_mx n n z2 ix)).
Proof. exact q_dist. Qed.
Print Assumptions C125_upper_half_dist.

Theorem C125_bounded_dist : forall (F : rcfType) eigvalsh eighU log p m keepdim n (z1 z2 : cmt F) b1 b2 b ix0,
  has_shape z1 b1 n n -> has_shape z2 b2 n n -> bshape b1 b2 = Some b -> inside b ix0 ->
  scalars_or_raises (bd_dist_nd eigvalsh eighU log p m z1 z2 keepdim) b (result_shape m b) (result_at m)
    (fun ix => bd_dist eigvalsh eighU log p m (to_mx n n z1 ix) (to_mx n n z2 ix)).
Proof. exact q_bd_dist. Qed.
Print Assumptions C125_bounded_dist.

(** the shape that C107 states *)
Theorem C125_dist_shape : forall (F : rcfType) t rank m keepdim b, metric_get F t rank = Ok m ->
  rev (result_shape m b) = dist_shape t keepdim (rev b).
Proof. exact q_shape. Qed.
Print Assumptions C125_dist_shape.

(** ** checks *)
Theorem C125_upper_half_check : forall (F : rcfType) eigvalsh atol rtol n (z : cmt F) b, has_shape z b n n ->
  gives_check (uh_check_point_nd eigvalsh atol rtol z) b (fun ix => uh_check_point eigvalsh atol rtol (to_mx n n z ix)).
Proof. exact q_uh_check. Qed.
Print Assumptions C125_upper_half_check.

Theorem C125_bounded_check : forall (F : rcfType) eigvalsh_c atol rtol n (z : cmt F) b, has_shape z b n n ->
  gives_check (bd_check_point_nd eigvalsh_c atol rtol z) b (fun ix => bd_check_point eigvalsh_c atol rtol (to_mx n n z ix)).
Proof. exact q_bd_check. Qed.
Print Assumptions C125_bounded_check.

Theorem C125_check_vector : forall (F : rcfType) (atol rtol : F) n (x u : cmt F) (m : 'M[F[i]]_n) b, has_shape u b n n ->
  gives_check (check_vector_nd atol rtol x u) b (fun ix => check_vector atol rtol m (to_mx n n u ix)).
Proof. exact q_check_vector. Qed.
Print Assumptions C125_check_vector.

(** ** random points and origins *)
Theorem C125_random : forall (F : rcfType) matrix_exp n, each1 (uh_random_nd matrix_exp) (@uh_random F matrix_exp n) /\
  forall (z : cmt F) b, has_shape z b n n ->
  gives_or_raises (bd_random_nd matrix_exp z) b (fun ix => bd_random matrix_exp (to_mx n n z ix)).
Proof. exact (fun F e n => Logic.conj (@q_uh_random F e n) (@q_bd_random F e n)). Qed.
Print Assumptions C125_random.

Theorem C125_origin : forall (F : rcfType) n b, gives (@bd_origin_nd F (rev b ++ [:: n; n])) b (fun _ => bd_origin F n) /\
  gives (@uh_origin_nd F [:: n; n]) [::] (fun _ => uh_origin F n).
Proof. exact (fun F n b => Logic.conj (q_bd_origin F n b) (q_uh_origin F n)). Qed.
Print Assumptions C125_origin.

(** BoundedDomain.origin does not look at the sizes: rows and columns may differ. *)
Theorem C125_bd_zeros : forall (F : rcfType) n p b, exists t, @bd_origin_nd F (rev b ++ [:: n; p]) = Some t /\
  has_shape t b n p /\ forall ix, to_mx n p t ix = 0.
Proof. exact q_bd_zeros. Qed.
Print Assumptions C125_bd_zeros.

(** ** batch axes that do not broadcast *)
Theorem C125_raises : forall (F : rcfType) eigh eigvalsh eighU log p n (z u : cmt F) bz bu,
  has_shape z bz n n -> has_shape u bu n n -> bshape bz bu = None ->
  [/\ uh_egrad2rgrad_nd z u = None, bd_egrad2rgrad_nd z u = None, uh_retr_nd eigh p z u = None & bd_retr_nd eigh p z u = None] /\
  forall m keepdim, uh_dist_nd eigvalsh eighU log p m z u keepdim = None /\ bd_dist_nd eigvalsh eighU log p m z u keepdim = None.
Proof. exact q_none. Qed.
Print Assumptions C125_raises.
