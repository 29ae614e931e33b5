(** Properties C17-C20, C74, C75: product manifolds.
    [shapes] are the component shapes of the product; a tensor is its shape and its
    entries in row-major order; component operations are arbitrary functions.
    "batch ++ [n_elements shapes]" is the shape of a batch of product points. *)
From Coq Require Import List Arith Reals.
From Verif Require Import RVec BaseModel ProductModel ProductNumModel ProductSpec ProductProofs ProductNumProofs.
From Verif Require StereoModel.
Import ListNotations.

(** ** C17: packing *)
Theorem C17_slices_partition : forall shapes,
  length (slices shapes) = length shapes /\
  concat (map (fun '(a, b) => seq a (b - a)) (slices shapes)) = seq 0 (n_elements shapes).
Proof. exact (fun shapes => conj (slices_length shapes) (slices_partition shapes)). Qed.
Print Assumptions C17_slices_partition.

Theorem C17_slice_width : forall shapes i, i < length shapes ->
  snd (nth i (slices shapes) (0, 0)) - fst (nth i (slices shapes) (0, 0)) = fold_right Nat.mul 1 (nth i shapes []).
Proof. exact (fun shapes i H => eq_trans (slice_width shapes i H) (size_eq _)). Qed.
Print Assumptions C17_slice_width.

Theorem C17_unpack_shapes : forall A batch shapes (x : tensor A),
  has_shape x (batch ++ [n_elements shapes]) -> parts_of batch shapes (unpack_tensor A shapes x).
Proof. exact (@unpack_parts). Qed.
Print Assumptions C17_unpack_shapes.

Theorem C17_unpack_pack : forall A batch shapes (parts : list (tensor A)),
  shapes <> [] -> nonempty batch -> parts_of batch shapes parts ->
  exists x, pack_point A shapes parts = Returns x /\ has_shape x (batch ++ [n_elements shapes]) /\
            unpack_tensor A shapes x = parts.
Proof. exact (@unpack_pack). Qed.
Print Assumptions C17_unpack_pack.

Theorem C17_pack_unpack : forall A batch shapes (x : tensor A),
  shapes <> [] -> nonempty batch -> has_shape x (batch ++ [n_elements shapes]) ->
  pack_point A shapes (unpack_tensor A shapes x) = Returns x.
Proof. exact (@pack_unpack). Qed.
Print Assumptions C17_pack_unpack.

Theorem C17_unpack_injective : forall A batch shapes (x y : tensor A),
  has_shape x (batch ++ [n_elements shapes]) -> has_shape y (batch ++ [n_elements shapes]) ->
  unpack_tensor A shapes x = unpack_tensor A shapes y -> x = y.
Proof. exact (@unpack_inj). Qed.
Print Assumptions C17_unpack_injective.

(** Two components of shapes (2) and (1,2), a batch of two points; a scalar component. *)
Example C17_case : has_shape (mk [2; 4] [1;2;3;4;5;6;7;8]) ([2] ++ [n_elements [[2]; [1;2]]]) /\
  unpack_tensor nat [[2]; [1;2]] (mk [2; 4] [1;2;3;4;5;6;7;8]) = [mk [2;2] [1;2;5;6]; mk [2;1;2] [3;4;7;8]] /\
  nonempty [2] /\
  unpack_tensor nat [[]; [2]] (mk [2; 3] [1;2;3;4;5;6]) = [mk [2] [1;4]; mk [2;2] [2;3;5;6]].
Proof. exact (product_case). Qed.

Theorem C17_pack_raises : forall A shapes (parts : list (tensor A)),
  (forall t, In t parts -> ~ In 0 (t_shape t)) ->
  (pack_point A shapes parts = RaisesValueError <->
   length parts <> length shapes \/
   exists i, i < length parts /\ i < length shapes /\
     ~ ends_with (t_shape (nth i parts (mk [] []))) (nth i shapes [])).
Proof. exact (@pack_raises). Qed.
Print Assumptions C17_pack_raises.

Example C17_raises_case : pack_point nat [[2]; [1;2]] [mk [2;2] [1;2;5;6]; mk [2;2] [3;4;7;8]] = RaisesValueError.
Proof. exact (eq_refl). Qed.

(** An empty batch cannot be packed back: torch cannot infer -1 (the general
    bijection claim is false there). *)
Theorem C17_empty_batch_refuted : forall A shapes (x : tensor A) batch,
  In 0 batch -> shapes <> [] -> has_shape x (batch ++ [n_elements shapes]) ->
  pack_point A shapes (unpack_tensor A shapes x) = RaisesOther.
Proof. exact (@pack_empty_batch). Qed.
Print Assumptions C17_empty_batch_refuted.

Example C17_empty_case : In 0 [0] /\ has_shape (mk [0; 4] (@nil nat)) ([0] ++ [n_elements [[2]; [1;2]]]).
Proof. exact (empty_batch_case). Qed.

(** from_point reads component shapes off parts sharing their batch dimensions. *)
Theorem C17_from_point : forall part_shapes k shapes, from_point part_shapes k = Returns shapes ->
  exists batch, shapes = map (skipn k) part_shapes /\
    Forall2 (fun t s => t = batch ++ s) part_shapes shapes.
Proof. exact (from_point_spec). Qed.
Print Assumptions C17_from_point.

Theorem C17_from_point_raises : forall part_shapes k,
  from_point part_shapes k = RaisesValueError <->
  part_shapes = [] \/ exists s t, In s part_shapes /\ In t part_shapes /\ firstn k s <> firstn k t.
Proof. exact (from_point_raises). Qed.
Print Assumptions C17_from_point_raises.

(** ** C18: component-wise operations *)
(** proju, expmap, retr, transp, logmap, transp_follow_*, egrad2rgrad: [fs] are the
    component operations, [rs] the component results. *)
Theorem C18_operation : forall A batch shapes (fs : list (list (tensor A) -> outcome (tensor A))) args rs,
  shapes <> [] -> nonempty batch -> length fs = length shapes ->
  length batch = list_max (map (fun a => length (t_shape a)) args) - 1 ->
  (forall i, i < length shapes ->
     nth i fs (fun _ => RaisesOther) (map (fun a => take A shapes a i true) args) = Returns (nth i rs (mk [] []))) ->
  parts_of batch shapes rs ->
  exists y, lift A shapes fs args = Returns y /\ has_shape y (batch ++ [n_elements shapes]) /\
            unpack_tensor A shapes y = rs.
Proof. exact (@lift_components). Qed.
Print Assumptions C18_operation.

Theorem C18_projx : forall A batch shapes (fs : list (list (tensor A) -> outcome (tensor A))) x rs,
  shapes <> [] -> nonempty batch -> length fs = length shapes ->
  has_shape x (batch ++ [n_elements shapes]) ->
  (forall i, i < length shapes ->
     nth i fs (fun _ => RaisesOther) [take A shapes x i true] = Returns (nth i rs (mk [] []))) ->
  parts_of batch shapes rs ->
  exists y, projx A shapes fs x = Returns y /\ has_shape y (batch ++ [n_elements shapes]) /\
            unpack_tensor A shapes y = rs.
Proof. exact (@projx_components). Qed.
Print Assumptions C18_projx.

(** expmap_transp, retr_transp *)
Theorem C18_pair_operation : forall A batch shapes (fs : list (list (tensor A) -> outcome (tensor A * tensor A))) args ps vs,
  shapes <> [] -> nonempty batch -> length fs = length shapes ->
  length batch = list_max (map (fun a => length (t_shape a)) args) - 1 ->
  (forall i, i < length shapes ->
     nth i fs (fun _ => RaisesOther) (map (fun a => take A shapes a i true) args)
     = Returns (nth i ps (mk [] []), nth i vs (mk [] []))) ->
  parts_of batch shapes ps -> parts_of batch shapes vs ->
  exists y w, lift_pair A shapes fs args = Returns (y, w) /\
     has_shape y (batch ++ [n_elements shapes]) /\ has_shape w (batch ++ [n_elements shapes]) /\
     unpack_tensor A shapes y = ps /\ unpack_tensor A shapes w = vs.
Proof. exact (@lift_pair_components). Qed.
Print Assumptions C18_pair_operation.

(** Two components, the first reversing the two entries of x, the second adding x and u. *)
Example C18_case : lift nat [[2]; [1]] [swap_op; add_op] [mk [3] [1;2;3]; mk [3] [10;20;30]] = Returns (mk [3] [2;1;33]).
Proof. exact (eq_refl). Qed.

(** inner and dist2: sums over components (and over each component's leftover
    trailing entries). *)
Theorem C18_sums : forall batch shapes ws fs args rs keepdim,
  shapes <> [] -> nonempty batch -> length fs = length shapes -> length ws = length shapes ->
  length batch = list_max (map (fun a => length (t_shape a)) args) - 1 ->
  (forall i, i < length shapes ->
     nth i fs (fun _ => RaisesOther) (map (fun a => take R shapes a i true) args) = Returns (nth i rs (mk [] []))) ->
  parts_of batch ws rs ->
  exists y, sum_components shapes fs args keepdim = Returns y /\
    has_shape y (if keepdim then batch ++ [1] else batch) /\
    forall b, b < fold_left Nat.mul batch 1 ->
      nth b (t_data y) 0%R = total (map (fun '(t, w) => total (entries (fold_left Nat.mul w 1) b t)) (combine rs ws)).
Proof. exact (sum_components_spec). Qed.
Print Assumptions C18_sums.

Theorem C18_check_point : forall A shapes (fs : list (tensor A -> verdict)) x,
  fst (check_point_on A shapes fs x) = true <->
  forall i, i < length fs -> fst (nth i fs (fun _ => (true, None)) (take A shapes x i true)) = true.
Proof. exact (@check_point_components). Qed.
Print Assumptions C18_check_point.

Theorem C18_check_vector : forall A shapes (fs : list (tensor A -> tensor A -> verdict)) x u,
  fst (check_vector_on A shapes fs x u) = true <->
  forall i, i < length fs ->
    fst (nth i fs (fun _ _ => (true, None)) (take A shapes x i true) (take A shapes u i true)) = true.
Proof. exact (@check_vector_components). Qed.
Print Assumptions C18_check_vector.

(** On failure the reported verdict is the first failing component's. *)
Theorem C18_check_reason : forall cs, fst (check_all cs) = false ->
  exists front rest, cs = front ++ check_all cs :: rest /\ (forall c, In c front -> fst c = true).
Proof. exact (fun cs => proj2 (check_all_spec cs)). Qed.
Print Assumptions C18_check_reason.

(** random_combined and origin: the components are the components' own samples. *)
Theorem C18_from_components : forall A batch shapes (gens : list (list nat -> tensor A)),
  shapes <> [] -> nonempty batch -> length gens = length shapes ->
  (forall g s, In g gens -> has_shape (g s) s) ->
  exists x, from_components A shapes gens (batch ++ [n_elements shapes]) = Returns x /\
    has_shape x (batch ++ [n_elements shapes]) /\
    unpack_tensor A shapes x = map (fun '(g, s) => g (batch ++ s)) (combine gens shapes).
Proof. exact (@from_components_spec). Qed.
Print Assumptions C18_from_components.

Example C18_origin_case : has_shape (mk [2;3] [0;0;0;0;0;0]) [2;3] /\
  from_components nat [[1]; [2]] [fun s => mk s (repeat 0 (fold_left Nat.mul s 1)); fun s => mk s (repeat 1 (fold_left Nat.mul s 1))] [2;3]
  = Returns (mk [2;3] [0;1;1;0;1;1]).
Proof. exact (conj (conj eq_refl eq_refl) eq_refl). Qed.

(** ** C19: distance *)
(** [metric_components batch shapes fs d]: component i's dist2 (keepdim) of two parts
    is the square of [d i b] for each batch element b. *)
Theorem C19_value : forall batch shapes fs d x y, shapes <> [] -> nonempty batch ->
  metric_components batch shapes fs d ->
  has_shape x (batch ++ [n_elements shapes]) -> has_shape y (batch ++ [n_elements shapes]) ->
  exists t, dist shapes fs x y false = Returns t /\
    forall b, b < size batch ->
      nth b (t_data t) 0%R = Rmax (sqrt (Rsum (length shapes)
         (fun i => (d i b (take R shapes x i true) (take R shapes y i true) ^ 2)%R))) (sqrt (/ 10 ^ 15)).
Proof. exact (dist_floor). Qed.
Print Assumptions C19_value.

Theorem C19_symmetric : forall batch shapes fs d x y, shapes <> [] -> nonempty batch ->
  metric_components batch shapes fs d -> (forall i b p q, d i b p q = d i b q p) ->
  has_shape x (batch ++ [n_elements shapes]) -> has_shape y (batch ++ [n_elements shapes]) ->
  exists t t', dist shapes fs x y false = Returns t /\ dist shapes fs y x false = Returns t' /\
    forall b, b < size batch -> nth b (t_data t) 0%R = nth b (t_data t') 0%R.
Proof. exact (dist_symmetric). Qed.
Print Assumptions C19_symmetric.

Theorem C19_triangle : forall batch shapes fs d x y z, shapes <> [] -> nonempty batch ->
  metric_components batch shapes fs d ->
  (forall i b p q r, 0 <= d i b p r <= d i b p q + d i b q r)%R ->
  has_shape x (batch ++ [n_elements shapes]) -> has_shape y (batch ++ [n_elements shapes]) ->
  has_shape z (batch ++ [n_elements shapes]) ->
  exists txy tyz txz, dist shapes fs x y false = Returns txy /\ dist shapes fs y z false = Returns tyz /\
    dist shapes fs x z false = Returns txz /\
    forall b, b < size batch -> (nth b (t_data txz) 0 <= nth b (t_data txy) 0 + nth b (t_data tyz) 0)%R.
Proof. exact (dist_triangle). Qed.
Print Assumptions C19_triangle.

Theorem C19_self_refuted : forall batch shapes fs d x, shapes <> [] -> nonempty batch ->
  metric_components batch shapes fs d -> (forall i b p, d i b p p = 0%R) ->
  has_shape x (batch ++ [n_elements shapes]) ->
  exists t, dist shapes fs x x false = Returns t /\
    forall b, b < size batch -> (nth b (t_data t) 0 = sqrt (/ 10 ^ 15) /\ nth b (t_data t) 0 <> 0)%R.
Proof. exact (dist_self). Qed.
Print Assumptions C19_self_refuted.

(** Lines: any number of real components with d = |p - q|. *)
Example C19_case : metric_components [2] [[1]; [1]] [line_dist2; line_dist2] line_d /\
  (forall i b p q r, 0 <= line_d i b p r <= line_d i b p q + line_d i b q r)%R /\
  (forall i b p q, line_d i b p q = line_d i b q p) /\ (forall i b p, line_d i b p p = 0%R).
Proof. exact (line_case). Qed.

(** ** C20: StereographicProductManifold *)
(** A scalar std: for every noise the sample is the (projected) mean. *)
Theorem C20_wrapped_normal_refuted : forall e n k proj mean noise std i,
  wrapped_normal_scalar e n k proj mean noise std i = proj (n i) (k i) (mean i).
Proof. exact (wrapped_normal_mean). Qed.
Print Assumptions C20_wrapped_normal_refuted.

Theorem C20_signed_refuted : forall e m n k scaled x p a, (0 <= dist2plane e m n k true scaled x p a)%R.
Proof. exact (fun e m n k => signed_dist2plane e m n k true). Qed.
Print Assumptions C20_signed_refuted.

(** a component's signed distance can be negative *)
Example C20_component_sign : (StereoModel.dist2plane 1 StereoModel.e15 0 true false (fun _ => -1) (fun _ => 1) (fun _ => 0) < 0)%R.
Proof. exact (component_sign). Qed.

(** ** C74: geodesic_unit of a StereographicProductManifold *)
(** Every component moves at unit speed, so the product speed is sqrt(m). *)
Theorem C74_speed_refuted : forall e m n k t x u,
  (forall i, i < m -> StereoModel.dist (n i) e (k i) (x i) (geodesic_unit e n k t x u i) = t) ->
  (0 <= t)%R -> (sqrt (/ 10 ^ 15) <= sqrt (INR m) * t)%R ->
  sdist e m n k x (geodesic_unit e n k t x u) = (sqrt (INR m) * t)%R.
Proof. exact (sdist_geodesic_unit). Qed.
Print Assumptions C74_speed_refuted.

Theorem C74_unit_vector_refuted : exists x u,
  norm 2 (fun _ => 1) (fun _ => 0%R) x u = 1%R /\
  sdist StereoModel.e15 2 (fun _ => 1) (fun _ => 0%R) x
    (geodesic_unit StereoModel.e15 (fun _ => 1) (fun _ => 0%R) 1 x u) <> 1%R.
Proof. exact (geodesic_unit_refuted_lemma). Qed.
Print Assumptions C74_unit_vector_refuted.

(** ** C75: Möbius operations of a StereographicProductManifold *)
Theorem C75_vector_components : forall batch shapes fs x y rs,
  shapes <> [] -> nonempty batch -> length fs = length shapes ->
  length batch = list_max (map (fun a => length (t_shape a)) [x; y]) - 1 ->
  (forall i, i < length shapes ->
     nth i fs (fun _ => RaisesOther) [take R shapes x i true; take R shapes y i true] = Returns (nth i rs (mk [] []))) ->
  parts_of batch shapes rs ->
  (forall s, In s shapes -> length s = 1) ->
  exists z, mobius_2_args shapes fs x y = Returns z /\ has_shape z (batch ++ [n_elements shapes]) /\
            unpack_tensor R shapes z = rs.
Proof. exact (mobius_rank_1). Qed.
Print Assumptions C75_vector_components.

(** With a component of shape (.., a), other leading sizes than 1: always ValueError. *)
Theorem C75_matrix_components_refuted : forall batch shapes fs x y rs s a,
  shapes <> [] -> nonempty batch -> length fs = length shapes ->
  length batch = list_max (map (fun a => length (t_shape a)) [x; y]) - 1 ->
  (forall i, i < length shapes ->
     nth i fs (fun _ => RaisesOther) [take R shapes x i true; take R shapes y i true] = Returns (nth i rs (mk [] []))) ->
  parts_of batch shapes rs ->
  (forall s, In s shapes -> ~ In 0 s) ->
  In (s ++ [a]) shapes -> fold_left Nat.mul s 1 <> 1 ->
  mobius_2_args shapes fs x y = RaisesValueError.
Proof. exact (mobius_rank_2). Qed.
Print Assumptions C75_matrix_components_refuted.

Example C75_case : parts_of [3] [[2;2]] [mk [3;2;2] (repeat 0%R 12)] /\ In ([2] ++ [2]) [[2;2]] /\ fold_left Nat.mul [2] 1 <> 1.
Proof. exact (mobius_case). Qed.

(** ** C85: distances to the origin and to planes of a StereographicProductManifold *)
(** dist0 is dist from the origin without its floor. *)
Theorem C85_dist0 : forall e m n k x,
  sdist e m n k (fun _ => vzero) x = Rmax (dist0 e m n k x) (sqrt (/ 10 ^ 15)).
Proof. exact (sdist_zero). Qed.
Print Assumptions C85_dist0.

(** Squared component distances add up, starting from 0. *)
Theorem C85_dist0_components : forall e m n k x,
  (dist0 e (S m) n k x ^ 2 = dist0 e m n k x ^ 2 + StereoModel.dist0 (n m) e (k m) (x m) ^ 2 /\
   dist0 e 0 n k x = 0)%R.
Proof. exact (dist0_pythagoras). Qed.
Print Assumptions C85_dist0_components.

Theorem C85_dist2plane_components : forall e m n k signed scaled x p a,
  (dist2plane e (S m) n k signed scaled x p a ^ 2 =
     dist2plane e m n k signed scaled x p a ^ 2 +
     StereoModel.dist2plane (n m) e (k m) signed scaled (x m) (a m) (p m) ^ 2 /\
   dist2plane e 0 n k signed scaled x p a = 0)%R.
Proof. exact (dist2plane_pythagoras). Qed.
Print Assumptions C85_dist2plane_components.

