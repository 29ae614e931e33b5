(** Properties C13-C16 and C71-C73: the Scaled wrapper. *)
From Coq Require Import Reals ZArith List String Bool Lra.
From Verif Require Import RVec ScaledModel LibraryModel ScaledClassModel ScaledSpec ScaledProofs ScaledProofs2.
Import ListNotations.
Local Open Scope string_scope.
Local Open Scope R_scope.

(** ** C13 *)
Theorem C13_library_registry : forall c, In c library -> keeps_manifold_registry c.
Proof. exact (library_keeps). Qed.
Print Assumptions C13_library_registry.

Theorem C13_dist : forall c base generic s x y d, keeps_manifold_registry c ->
  base "dist" (a_xy x y) = ok d ->
  scaled_gives c base generic s "dist" (a_xy x y) (ok (smul s d)).
Proof. exact (fun c base generic s x y d K => dist_scaled c base generic s K x y d). Qed.
Print Assumptions C13_dist.

Theorem C13_dist2 : forall c base generic s x y d, keeps_manifold_registry c ->
  base "dist2" (a_xy x y) = ok d ->
  scaled_gives c base generic s "dist2" (a_xy x y) (ok (smul (s * s) d)).
Proof. exact (fun c base generic s x y d K => dist2_scaled c base generic s K x y d). Qed.
Print Assumptions C13_dist2.

Theorem C13_logmap : forall c base generic s x y d, keeps_manifold_registry c ->
  base "logmap" (a_xy x y) = ok d ->
  scaled_gives c base generic s "logmap" (a_xy x y) (ok (smul s d)).
Proof. exact (fun c base generic s x y d K => logmap_scaled c base generic s K x y d). Qed.
Print Assumptions C13_logmap.

Theorem C13_direction : forall c base generic s name x u, keeps_manifold_registry c ->
  In name ["retr"; "expmap"] ->
  scaled_gives c base generic s name (a_xu x u) (base name (a_xu x (smul (/ s) u))).
Proof. exact (fun c base generic s name x u K H => dir_xu c base generic s K name x u (dirs name (match H with or_introl e => or_introl e | or_intror (or_introl e) => or_intror (or_introl e) | or_intror (or_intror f) => False_ind _ f end))). Qed.
Print Assumptions C13_direction.

Theorem C13_direction_transport : forall c base generic s name x u v, keeps_manifold_registry c ->
  In name ["expmap_transp"; "retr_transp"; "transp_follow_retr"; "transp_follow_expmap"] ->
  scaled_gives c base generic s name (a_xuv x u v) (base name (a_xuv x (smul (/ s) u) v)).
Proof. exact (fun c base generic s name x u v K H => dir_xuv c base generic s K name x u v (dirs name (or_intror (or_intror H)))). Qed.
Print Assumptions C13_direction_transport.

Theorem C13_unchanged : forall c base generic s name, In c library ->
  In name ["inner"; "norm"; "proju"; "projx"; "egrad2rgrad"; "transp"] ->
  scaled_call c base generic s name = Some (base name).
Proof. exact (library_delegates). Qed.
Print Assumptions C13_unchanged.

Theorem C13_incompatible : forall c base generic s name args, In c library ->
  In (c_name c) stereographic_family ->
  In name ["mobius_fn_apply"; "mobius_fn_apply_chain"] ->
  scaled_gives c base generic s name args NotImplementedErr.
Proof. exact (incompatible). Qed.
Print Assumptions C13_incompatible.

Theorem C13_dist0 : forall c base generic s x d, In c library -> In (c_name c) geodesic_classes ->
  base "dist0" (a_x x) = ok d -> scaled_gives c base generic s "dist0" (a_x x) (ok (smul s d)).
Proof. exact (extra_dist0). Qed.
Print Assumptions C13_dist0.

Theorem C13_logmap0 : forall c base generic s y d, In c library -> In (c_name c) geodesic_classes ->
  base "logmap0" [("y", y)] = ok d -> scaled_gives c base generic s "logmap0" [("y", y)] (ok (smul s d)).
Proof. exact (extra_logmap0). Qed.
Print Assumptions C13_logmap0.

Theorem C13_expmap0 : forall c base generic s u, In c library -> In (c_name c) geodesic_classes ->
  scaled_gives c base generic s "expmap0" [("u", u)] (base "expmap0" [("u", smul (/ s) u)]).
Proof. exact (extra_expmap0). Qed.
Print Assumptions C13_expmap0.

Theorem C13_dist2plane : forall c base generic s args d, In c library -> In (c_name c) stereographic_family ->
  base "dist2plane" args = ok d -> scaled_gives c base generic s "dist2plane" args (ok (smul s d)).
Proof. exact (extra_dist2plane). Qed.
Print Assumptions C13_dist2plane.

Theorem C13_geodesic_unit : forall c base generic s t x u, In c library -> In (c_name c) geodesic_classes ->
  scaled_gives c base generic s "geodesic_unit" (a_txu t x u) (base "geodesic_unit" (a_txu (smul (/ s) t) x u)).
Proof. exact (extra_geodesic). Qed.
Print Assumptions C13_geodesic_unit.

Theorem C13_learnable_scale : forall s learnable, 0 < s ->
  stored_scale learnable s = s /\ stored_log_scale learnable s = ln s.
Proof. exact (learnable_same). Qed.
Print Assumptions C13_learnable_scale.

Example C13_case : In cls_Sphere library /\
  exists d, scaled_gives cls_Sphere const3 const3 2 "dist" (a_xy vzero vzero) (ok d) /\ d 0%nat = 6.
Proof. exact (case_sphere2). Qed.

(** ** C14 *)
Theorem C14_exp_log : forall c base generic s x y, In c library -> s <> 0 ->
  (forall u, base "logmap" (a_xy x y) = ok u -> base "expmap" (a_xu x u) = ok y) ->
  forall u, scaled_gives c base generic s "logmap" (a_xy x y) (ok u) ->
            scaled_gives c base generic s "expmap" (a_xu x u) (ok y).
Proof. exact (fun c base generic s x y H Hs => exp_log_law c base generic s (library_keeps c H) x y Hs). Qed.
Print Assumptions C14_exp_log.

Theorem C14_log_exp : forall c base generic s x y, In c library -> s <> 0 ->
  (forall u, base "expmap" (a_xu x u) = ok y -> base "logmap" (a_xy x y) = ok u) ->
  forall u, scaled_gives c base generic s "expmap" (a_xu x u) (ok y) ->
            scaled_gives c base generic s "logmap" (a_xy x y) (ok u).
Proof. exact (fun c base generic s x y H Hs => log_exp_law c base generic s (library_keeps c H) x y Hs). Qed.
Print Assumptions C14_log_exp.

Theorem C14_norm_log : forall c base generic s x y, In c library -> 0 < s ->
  (forall a u r, 0 < a -> base "norm" (a_xu x u) = ok r -> base "norm" (a_xu x (smul a u)) = ok (smul a r)) ->
  (forall u d, base "logmap" (a_xy x y) = ok u -> base "dist" (a_xy x y) = ok d -> base "norm" (a_xu x u) = ok d) ->
  forall u d, scaled_gives c base generic s "logmap" (a_xy x y) (ok u) ->
              scaled_gives c base generic s "dist" (a_xy x y) (ok d) ->
              scaled_gives c base generic s "norm" (a_xu x u) (ok d).
Proof. exact (norm_law). Qed.
Print Assumptions C14_norm_log.

Theorem C14_unit_speed : forall c base generic s x u, In c library -> In (c_name c) geodesic_classes -> 0 < s ->
  (forall a b p q, base "geodesic_unit" (a_txu (scalar a) x u) = ok p ->
                   base "geodesic_unit" (a_txu (scalar b) x u) = ok q ->
                   base "dist" (a_xy p q) = ok (scalar (Rabs (a - b)))) ->
  forall a b p q, scaled_gives c base generic s "geodesic_unit" (a_txu (scalar a) x u) (ok p) ->
                  scaled_gives c base generic s "geodesic_unit" (a_txu (scalar b) x u) (ok q) ->
                  scaled_gives c base generic s "dist" (a_xy p q) (ok (scalar (Rabs (a - b)))).
Proof. exact (unit_speed). Qed.
Print Assumptions C14_unit_speed.

(** any number of nested wrappers, outermost scale first *)
Theorem C14_nesting : forall c base generic name info s rest, In c library ->
  reg_find name (c_registry c) = Some info ->
  Forall (fun a => a <> 0) (s :: rest) ->
  forall args, scaled_gives c base generic (fold_right Rmult 1 (s :: rest)) name args
                 (scaled_object c base generic (s :: rest) name args).
Proof. exact (nested_is_single). Qed.
Print Assumptions C14_nesting.

Theorem C14_nesting_unchanged : forall c base generic name scales, In c library ->
  In name ["inner"; "norm"; "proju"; "projx"; "egrad2rgrad"; "transp"] ->
  scaled_object c base generic scales name = base name.
Proof. exact (nested_delegates). Qed.
Print Assumptions C14_nesting_unchanged.

(** A base with both laws: the line, Exp = addition, Log = subtraction. *)
Example C14_case : forall x y,
  (forall u, line "logmap" (a_xy x y) = ok u -> line "expmap" (a_xu x u) = ok y) /\
  (forall u, line "expmap" (a_xu x u) = ok y -> line "logmap" (a_xy x y) = ok u) /\
  line "logmap" (a_xy x y) = ok (vsub y x).
Proof. exact (case_line). Qed.

(** ** C15 *)
(** Every override in the library is forwarded (as is or rescaled), or is in the
    explicit list [shadowed]. *)
Theorem C15_forwarding : forall c m, In c library -> In m (c_methods c) -> m_owner m <> "Manifold" ->
  In (c_name c, m_name m) shadowed \/
  forall base generic s,
    scaled_call c base generic s (m_name m) = Some (base (m_name m)) \/
    exists info, reg_find (m_name m) (c_registry c) = Some info /\
      scaled_call c base generic s (m_name m) = Some (rescale (base (m_name m)) info s).
Proof. exact (forwarding_complete). Qed.
Print Assumptions C15_forwarding.

(** What is in the list really is overridden by the base and really is ignored:
    whatever the base does, the call runs class Manifold's function. *)
Theorem C15_refuted : forall c name, In c library -> In (c_name c, name) shadowed ->
  (exists m, In m (c_methods c) /\ m_name m = name /\ m_owner m <> "Manifold") /\
  forall base generic s, scaled_call c base generic s name = Some (generic name).
Proof. exact (shadowed_generic). Qed.
Print Assumptions C15_refuted.

Theorem C15_component_inner_differs : exists u : vec, entrywise_inner u u 0%nat <> summed_inner 2 u u 0%nat.
Proof. exact (component_inner_differs). Qed.
Print Assumptions C15_component_inner_differs.

Example C15_case : In cls_Euclidean library /\ In (c_name cls_Euclidean, "component_inner") shadowed /\ In (c_name cls_Euclidean, "origin") shadowed.
Proof. exact (conj (or_introl eq_refl) (conj (or_introl eq_refl) (or_intror (or_intror (or_introl eq_refl))))). Qed.

(** ** C16 *)
Theorem C16_constructible_iff : forall c,
  (exists l, construct_scaled c = Some l) <->
  (forall name, In name (map fst (c_registry c)) -> In name (map m_name (c_methods c))).
Proof. exact (constructible_iff). Qed.
Print Assumptions C16_constructible_iff.

Theorem C16_constructible : forall c, In c library -> c_name c <> "StereographicProductManifold" ->
  exists l, construct_scaled c = Some l /\ forall name, In name (map fst (c_registry c)) <-> In name l.
Proof. exact (constructible_library). Qed.
Print Assumptions C16_constructible.

Theorem C16_refuted : construct_scaled cls_StereographicProductManifold = None /\
  In cls_StereographicProductManifold library /\
  In "random_normal" (map fst (c_registry cls_StereographicProductManifold)) /\
  ~ In "random_normal" (map m_name (c_methods cls_StereographicProductManifold)).
Proof. exact (not_constructible). Qed.
Print Assumptions C16_refuted.

Example C16_case : exists l, construct_scaled cls_PoincareBall = Some l /\ List.length l = 19%nat.
Proof. exact (case_construct). Qed.

(** ** C71: if the base's egrad2rgrad is the gradient for the base's expmap and
    inner, then through Scaled the derivative is off by the factor s. *)
Theorem C71_gradient_factor : forall c base generic s (F : vec -> R) x g (E : vec -> vec) r (I : vec -> vec),
  In c library -> s <> 0 ->
  (forall u, base "expmap" (a_xu x u) = ok (E u)) ->
  base "egrad2rgrad" (a_xu x g) = ok r ->
  (forall v, base "inner" (a_xuv x r v) = ok (I v)) ->
  (forall a v, I (smul a v) = smul a (I v)) ->
  (forall v, derivable_pt_lim (fun t => F (E (smul t v))) 0 (I v 0%nat)) ->
  exists Es : vec -> vec,
    (forall u, scaled_gives c base generic s "expmap" (a_xu x u) (ok (Es u))) /\
    scaled_gives c base generic s "egrad2rgrad" (a_xu x g) (ok r) /\
    (forall v, scaled_gives c base generic s "inner" (a_xuv x r v) (ok (I v))) /\
    (forall v, derivable_pt_lim (fun t => F (Es (smul t v))) 0 (I v 0%nat / s)).
Proof. exact (gradient_scaled). Qed.
Print Assumptions C71_gradient_factor.

Theorem C71_refuted : exists (x g v : vec) (F : vec -> R) (Es : vec -> vec),
  (forall u, scaled_gives cls_Euclidean euclid2 euclid2 2 "expmap" (a_xu x u) (ok (Es u))) /\
  scaled_gives cls_Euclidean euclid2 euclid2 2 "egrad2rgrad" (a_xu x g) (ok g) /\
  scaled_gives cls_Euclidean euclid2 euclid2 2 "inner" (a_xuv x g v) (ok (scalar 1)) /\
  (forall y, F y = dot 2 g y) /\
  ~ derivable_pt_lim (fun t => F (Es (smul t v))) 0 1 /\
  derivable_pt_lim (fun t => F (Es (smul t v))) 0 (1/2).
Proof. exact (gradient_refuted). Qed.
Print Assumptions C71_refuted.

Example C71_case : forall g x,
  (forall u, euclid2 "expmap" (a_xu x u) = ok (vadd x u)) /\
  euclid2 "egrad2rgrad" (a_xu x g) = ok g /\
  (forall v, euclid2 "inner" (a_xuv x g v) = ok (scalar (dot 2 g v))) /\
  (forall v, derivable_pt_lim (fun t => dot 2 g (vadd x (smul t v))) 0 (scalar (dot 2 g v) 0%nat)).
Proof. exact (euclid_gradient). Qed.

(** ** C72: no Scaled manifold of the library survives pickling *)
Theorem C72_refuted : forall c, In c library ->
  pickle_roundtrip c = None \/
  exists l, pickle_roundtrip c = Some l /\ In ("dist", RestoredGeneric "dist") l /\
            In ("expmap", RestoredNotImplemented) l.
Proof. exact (pickle_lost). Qed.
Print Assumptions C72_refuted.

Theorem C72_load_fails : forall c, In c library ->
  (pickle_roundtrip c = None <->
   exists e, In e (c_registry c) /\ restored_by_name (stored_name c e) = LoadFails).
Proof. exact (pickle_fails). Qed.
Print Assumptions C72_load_fails.

Theorem C72_stub_load_fails : forall c n, In (n, NotCompatible) (c_registry c) ->
  pickle_roundtrip c = None.
Proof. exact (pickle_stub). Qed.
Print Assumptions C72_stub_load_fails.

Example C72_case : pickle_roundtrip cls_PoincareBall = None /\
  exists l, pickle_roundtrip cls_Sphere = Some l /\ List.length l = 9%nat.
Proof. exact (case_pickle). Qed.

(** ** C73 *)
(** A call binds when no positional argument is left over, each keyword names a
    parameter not yet filled (or goes to **kwargs), and every parameter without a
    default is filled. *)
Theorem C73_binding : forall pos req va kwo vk npos kws,
  accepts (Sig pos req va kwo vk) npos kws = true <->
  ((npos <= List.length pos)%nat \/ va = true) /\
  (forall k, In k kws ->
     (exists i, (npos <= i)%nat /\ nth_error pos i = Some k) \/ In k kwo \/ (vk = true /\ ~ In k pos)) /\
  (forall i k, (i < req)%nat -> nth_error pos i = Some k -> (i < npos)%nat \/ In k kws).
Proof. exact (accepts_iff). Qed.
Print Assumptions C73_binding.

Theorem C73_delegating_calls : forall c call, In c library -> In call delegating_calls ->
  (call_binds c call = true <-> ~ (c_name c = "Lorentz" /\ fst (fst call) = "norm")).
Proof. exact (delegating_calls_bind). Qed.
Print Assumptions C73_delegating_calls.

Theorem C73_registered_arguments : forall c e, In c library -> In e (c_registry c) ->
  c_name c <> "StereographicProductManifold" ->
  (registered_ok c e = true <-> ~ (c_name c = "Lorentz" /\ fst e = "random")).
Proof. exact (registered_arguments_exist). Qed.
Print Assumptions C73_registered_arguments.

Theorem C73_missing_argument_raises : forall c base generic s name results kw k p args,
  reg_find name (c_registry c) = Some (Info results kw) -> In (k, p) kw -> ~ In k (map fst args) ->
  scaled_gives c base generic s name args KeyErr.
Proof. exact (missing_argument_raises). Qed.
Print Assumptions C73_missing_argument_raises.

Theorem C73_refuted : call_binds cls_Lorentz ("norm", 2%nat, ["keepdim"]) = false /\
  forall base generic s size, scaled_gives cls_Lorentz base generic s "random" [("size", size)] KeyErr.
Proof. exact (lorentz_calls). Qed.
Print Assumptions C73_refuted.

