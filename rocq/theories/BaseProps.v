(** Properties C06-C12: utils numerics, ManifoldTensor, base class checks. *)
From Coq Require Import List Bool String Reals.
From Verif Require Import RVec BaseModel BaseProofs TensorModel TensorSpec TensorProofs NumProofs.
From Verif Require StereoModel.
Import ListNotations.

(** ** C06 *)
Theorem C06_sign : forall x : R, (0 <= x -> StereoModel.sign x = 1)%R /\ (x < 0 -> StereoModel.sign x = -1)%R.
Proof. exact (fun x => conj (sign_pos x) (sign_neg x)). Qed.
Print Assumptions C06_sign.

Theorem C06_sabs : forall eps x : R, (0 < eps -> eps <= StereoModel.sabs eps x /\ Rabs x <= StereoModel.sabs eps x)%R.
Proof. exact (sabs_pos). Qed.
Print Assumptions C06_sabs.

Theorem C06_clamp_abs : forall eps x : R,
  (0 <= x -> StereoModel.clamp_abs eps x = x + eps)%R /\ (x < 0 -> StereoModel.clamp_abs eps x = x - eps)%R.
Proof. exact (fun eps x => conj (clamp_abs_nonneg eps x) (clamp_abs_neg eps x)). Qed.
Print Assumptions C06_clamp_abs.

Theorem C06_clamp_abs_nonzero : forall eps x : R, (0 < eps -> eps <= Rabs (StereoModel.clamp_abs eps x))%R.
Proof. exact (clamp_abs_mag). Qed.
Print Assumptions C06_clamp_abs_nonzero.

(** ** C07: [torch_args]/[torch_build] are torch's own reduce/rebuild, of which only
    that they restore the view is assumed. *)
Theorem C07_roundtrip : forall manifold meq euclidean accepts storage torch_args torch_build t,
  torch_build (torch_args t) = Some (t_view t) ->
  accepts (t_manifold t) (v_size (t_view t)) = true ->
  rebuild manifold meq euclidean accepts storage torch_build (reduce_ex manifold storage torch_args t) = Returns t.
Proof. exact (pickle_lemma). Qed.
Print Assumptions C07_roundtrip.

Example C07_case : exists t : mtensor nat nat,
  t_class t = MParameter /\ t_grad t = false /\ t_manifold t = 5 /\
  rebuild nat Nat.eq_dec 0 (fun _ s => Nat.leb 1 (List.length s)) nat
    (fun l => match l with [ABuild _ _ v; AInt _ _ 3] => Some v | _ => None end)
    (reduce_ex nat nat (fun t => [ABuild _ _ (t_view t); AInt _ _ 3]) t) = Returns t.
Proof. exact (ex_intro _ {| t_view := {| v_storage := 9; v_offset := 1; v_size := [2; 3]; v_stride := [3; 1] |};
     t_class := MParameter; t_manifold := 5; t_grad := false |}
     (conj eq_refl (conj eq_refl (conj eq_refl eq_refl)))). Qed.

(** ** C08 *)
Theorem C08_faithful : forall value (h0 : heap value) l, well_formed h0 ->
  (forall a, In a l -> is_tensor h0 a) ->
  exists bs h mm, deepcopy_list value l (h0, []) = Some (bs, (h, mm)) /\ faithful_copy h0 h l bs.
Proof. exact (fun value h0 l W => @deepcopy_faithful value h0 W l). Qed.
Print Assumptions C08_faithful.

Example C08_case : well_formed shared_heap /\ forall a, In a [2; 3; 2] -> is_tensor shared_heap a.
Proof. exact (conj shared_wf shared_tensors). Qed.

(** Two tensor objects viewing one storage (torch's own deepcopy keeps that):
    the copies get separate storages. *)
Theorem C08_storage_sharing_refuted : exists bs h mm st1 st2 mf c1 c2 r1 r2,
  deepcopy_list nat [2; 3] (shared_heap, []) = Some (bs, (h, mm)) /\
  at_ shared_heap 2 = Some (OTensor 0 1 MTensor false) /\ at_ shared_heap 3 = Some (OTensor 0 1 MParameter true) /\
  (exists b1 b2, bs = [b1; b2] /\ at_ h b1 = Some (OTensor st1 mf c1 r1) /\ at_ h b2 = Some (OTensor st2 mf c2 r2)) /\
  st1 <> st2.
Proof. exact (storage_unshared). Qed.
Print Assumptions C08_storage_sharing_refuted.

(** ** C09 *)
Theorem C09_geodesic : forall n g x y, tensor_dist n g Geodesic x y = g x y.
Proof. exact (fun n g x y => eq_refl). Qed.
Print Assumptions C09_geodesic.

Theorem C09_default : forall n g x y, is_pnorm n 2 x y (tensor_dist n g (Number 2) x y).
Proof. exact (dist2_pnorm). Qed.
Print Assumptions C09_default.

Theorem C09_p_refuted : forall g p, 1 <= p -> p <> 2 ->
  exists x y, ~ is_pnorm 2 p x y (tensor_dist 2 g (Number p) x y).
Proof. exact (dist_p_refuted). Qed.
Print Assumptions C09_p_refuted.

(** ** C10 *)
Theorem C10_from_plain : forall manifold meq euclidean accepts storage v m rg,
  new_parameter manifold meq euclidean accepts storage (Plain v) m rg =
    let mf := match m with Some m => m | None => euclidean end in
    if accepts mf (v_size v)
    then Returns {| t_view := v; t_class := MParameter; t_manifold := mf; t_grad := rg |}
    else RaisesValueError.
Proof. exact (param_plain). Qed.
Print Assumptions C10_from_plain.

Theorem C10_from_manifold_tensor : forall manifold meq euclidean accepts storage t m rg r,
  new_parameter manifold meq euclidean accepts storage (Manif t) m rg = Returns r ->
  t_manifold r = t_manifold t /\ t_view r = t_view t /\ t_class r = MParameter /\ t_grad r = rg
  /\ (forall m', m = Some m' -> m' = t_manifold t).
Proof. exact (param_manif). Qed.
Print Assumptions C10_from_manifold_tensor.

Theorem C10_mismatch_raises : forall manifold meq euclidean accepts storage t m rg,
  t_manifold t <> m ->
  new_parameter manifold meq euclidean accepts storage (Manif t) (Some m) rg = RaisesValueError.
Proof. exact (param_manif_raises). Qed.
Print Assumptions C10_mismatch_raises.

Theorem C10_shape_enforced : forall manifold meq euclidean accepts storage d m rg r,
  (forall t, d = Manif t -> shape_ok manifold accepts storage t) ->
  new_parameter manifold meq euclidean accepts storage d m rg = Returns r ->
  shape_ok manifold accepts storage r.
Proof. exact (param_shape). Qed.
Print Assumptions C10_shape_enforced.

(** ** C11 *)
Theorem C11_point : forall tensor shape_of tol (m : hooks tensor tol) x,
  assert_check_point tensor shape_of tol m x = RaisesValueError
  <-> fst (check_point tensor shape_of tol m x) = false.
Proof. exact (point_agree). Qed.
Print Assumptions C11_point.

Theorem C11_vector : forall tensor shape_of tol (m : hooks tensor tol) u,
  assert_check_vector tensor shape_of tol m u = RaisesValueError
  <-> fst (check_vector tensor shape_of tol m u) = false.
Proof. exact (vector_agree). Qed.
Print Assumptions C11_vector.

Theorem C11_point_on_manifold : forall tensor shape_of tol (m : hooks tensor tol) t x,
  (assert_check_point_on_manifold tensor shape_of tol m t x = RaisesValueError
   <-> fst (check_point_on_manifold tensor shape_of tol m t x) = false) /\
  (fst (check_point_on_manifold tensor shape_of tol m t x) = true <->
   fst (h_shape _ _ m (shape_of x) "x"%string) = true /\ fst (h_point _ _ m x t) = true).
Proof. exact (fun T s tl m t x => conj (on_manifold_agree T s tl m t x) (on_manifold_means T s tl m t x)). Qed.
Print Assumptions C11_point_on_manifold.

Theorem C11_vector_on_tangent : forall tensor shape_of tol (m : hooks tensor tol) ok_point t x u,
  assert_check_vector_on_tangent tensor shape_of tol m ok_point t x u = RaisesValueError
  <-> fst (check_vector_on_tangent tensor shape_of tol m ok_point t x u) = false.
Proof. exact (tangent_agree). Qed.
Print Assumptions C11_vector_on_tangent.

Theorem C11_vector_on_tangent_means : forall tensor shape_of tol (m : hooks tensor tol) t x u,
  (fst (check_vector_on_tangent tensor shape_of tol m false t x u) = true <->
   fst (h_shape _ _ m (shape_of x) "x"%string) = true /\ fst (h_shape _ _ m (shape_of u) "u"%string) = true /\
   fst (h_point _ _ m x t) = true /\ fst (h_vector _ _ m x u t) = true) /\
  fst (check_vector_on_tangent tensor shape_of tol m true t x u) = fst (h_vector _ _ m x u t).
Proof. exact (fun T s tl m t x u => conj (tangent_means T s tl m t x u) (tangent_ok_point T s tl m t x u)). Qed.
Print Assumptions C11_vector_on_tangent_means.

Theorem C11_reasons : forall tensor shape_of tol (m : hooks tensor tol) ok_point t x u,
  (forall s nm, explained (h_shape _ _ m s nm)) -> (forall x t, explained (h_point _ _ m x t)) ->
  (forall x u t, explained (h_vector _ _ m x u t)) ->
  explained (check_point tensor shape_of tol m x) /\
  explained (check_point_on_manifold tensor shape_of tol m t x) /\
  explained (check_vector_on_tangent tensor shape_of tol m ok_point t x u).
Proof. exact (reasons). Qed.
Print Assumptions C11_reasons.

Theorem C11_default_shape : forall ndim s nm,
  explained (default_check_shape ndim s nm) /\
  (fst (default_check_shape ndim s nm) = true <-> ndim <= List.length s).
Proof. exact (default_shape). Qed.
Print Assumptions C11_default_shape.

(** ** C12 *)
Theorem C12_cpu_stream_restored : forall gen seeded A (f : sampler gen A) k s,
  cpu gen (snd (origin gen seeded A f (Some k) s)) = cpu gen s.
Proof. exact (origin_cpu). Qed.
Print Assumptions C12_cpu_stream_restored.

Theorem C12_deterministic : forall gen seeded A (f : sampler gen A) k s s', cpu_only gen A f ->
  fst (origin gen seeded A f (Some k) s) = fst (origin gen seeded A f (Some k) s').
Proof. exact (origin_deterministic). Qed.
Print Assumptions C12_deterministic.

Example C12_case : cpu_only nat nat (fun s => (Returns (cpu nat s * 7), {| cpu := S (cpu nat s); cuda := [] |})).
Proof. exact (fun s s' H => f_equal (fun c => Returns (c * 7)) H). Qed.

(** The CUDA generators are not restored: they are left as seeded. *)
Theorem C12_cuda_stream_refuted : forall gen seeded A (f : sampler gen A) k s, (forall s, snd (f s) = s) ->
  cuda gen (snd (origin gen seeded A f (Some k) s)) = map (fun _ => seeded k) (cuda gen s).
Proof. exact (origin_cuda). Qed.
Print Assumptions C12_cuda_stream_refuted.

