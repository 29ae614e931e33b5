(** Tables read off the class definitions under /repo/geoopt/manifolds (files and
    class line numbers beside each entry): for every concrete manifold class, its
    public methods (name, class that defines the function found by the method
    resolution order, name the function was defined under, signature) and its
    scaling registry (ScalingStorage, base.py:34-94, as filled by the decorators
    and class-level copies).  Generated by a script from the source text;
    properties, dunder names and attributes are left out. *)
From Coq Require Import List String ZArith.
From Verif Require Import ScaledModel.
Import ListNotations.
Local Open Scope string_scope.
Local Open Scope Z_scope.

(** base.py:97 class Manifold: its own public methods. *)
Definition manifold_methods : list string :=
  ["check_point"; "assert_check_point"; "check_vector"; "assert_check_vector"; "check_point_on_manifold"; "assert_check_point_on_manifold"; "check_vector_on_tangent"; "assert_check_vector_on_tangent"; "dist"; "dist2"; "retr"; "expmap"; "logmap"; "expmap_transp"; "retr_transp"; "transp_follow_retr"; "transp_follow_expmap"; "transp"; "inner"; "component_inner"; "norm"; "proju"; "egrad2rgrad"; "projx"; "extra_repr"; "unpack_tensor"; "pack_point"; "random"; "origin"].
(** scaled.py:57-198 class Scaled: its own public names (methods, properties and the two NotImplemented stubs). *)
Definition scaled_own : list string :=
  ["scale"; "log_scale"; "reversible"; "ndim"; "name"; "retr"; "expmap"; "inner"; "norm"; "proju"; "projx"; "egrad2rgrad"; "transp"; "random"].
(** base.py: the registry of class Manifold. *)
Definition manifold_registry : registry :=
  [("dist", Info [1] []); ("dist2", Info [2] []); ("retr", Info [] [("u", (-1))]); ("expmap", Info [] [("u", (-1))]); ("logmap", Info [1] []); ("expmap_transp", Info [] [("u", (-1))]); ("retr_transp", Info [] [("u", (-1))]); ("transp_follow_retr", Info [] [("u", (-1))]); ("transp_follow_expmap", Info [] [("u", (-1))])].

(** manifolds/euclidean.py:11 class Euclidean (resolution order: Euclidean, Manifold). *)
Definition cls_Euclidean : cls := {|
  c_name := "Euclidean";
  c_registry := [("dist", Info [1] []); ("dist2", Info [2] []); ("retr", Info [] [("u", (-1))]); ("expmap", Info [] [("u", (-1))]); ("logmap", Info [1] []); ("expmap_transp", Info [] [("u", (-1))]); ("retr_transp", Info [] [("u", (-1))]); ("transp_follow_retr", Info [] [("u", (-1))]); ("transp_follow_expmap", Info [] [("u", (-1))]); ("random_normal", Info [] [("std", (-1))]); ("random", Info [] [("std", (-1))])];
  c_methods := [
    {| m_name := "check_point"; m_owner := "Manifold"; m_func := "check_point"; m_sig := Sig ["x"] 1 false ["explain"] false |};
    {| m_name := "assert_check_point"; m_owner := "Manifold"; m_func := "assert_check_point"; m_sig := Sig ["x"] 1 false [] false |};
    {| m_name := "check_vector"; m_owner := "Manifold"; m_func := "check_vector"; m_sig := Sig ["u"] 1 false ["explain"] false |};
    {| m_name := "assert_check_vector"; m_owner := "Manifold"; m_func := "assert_check_vector"; m_sig := Sig ["u"] 1 false [] false |};
    {| m_name := "check_point_on_manifold"; m_owner := "Manifold"; m_func := "check_point_on_manifold"; m_sig := Sig ["x"] 1 false ["explain"; "atol"; "rtol"] false |};
    {| m_name := "assert_check_point_on_manifold"; m_owner := "Manifold"; m_func := "assert_check_point_on_manifold"; m_sig := Sig ["x"] 1 false ["atol"; "rtol"] false |};
    {| m_name := "check_vector_on_tangent"; m_owner := "Manifold"; m_func := "check_vector_on_tangent"; m_sig := Sig ["x"; "u"] 2 false ["ok_point"; "explain"; "atol"; "rtol"] false |};
    {| m_name := "assert_check_vector_on_tangent"; m_owner := "Manifold"; m_func := "assert_check_vector_on_tangent"; m_sig := Sig ["x"; "u"] 2 false ["ok_point"; "atol"; "rtol"] false |};
    {| m_name := "dist"; m_owner := "Euclidean"; m_func := "dist"; m_sig := Sig ["x"; "y"] 2 false ["keepdim"] false |};
    {| m_name := "dist2"; m_owner := "Euclidean"; m_func := "dist2"; m_sig := Sig ["x"; "y"] 2 false ["keepdim"] false |};
    {| m_name := "retr"; m_owner := "Euclidean"; m_func := "retr"; m_sig := Sig ["x"; "u"] 2 false [] false |};
    {| m_name := "expmap"; m_owner := "Euclidean"; m_func := "expmap"; m_sig := Sig ["x"; "u"] 2 false [] false |};
    {| m_name := "logmap"; m_owner := "Euclidean"; m_func := "logmap"; m_sig := Sig ["x"; "y"] 2 false [] false |};
    {| m_name := "expmap_transp"; m_owner := "Manifold"; m_func := "expmap_transp"; m_sig := Sig ["x"; "u"; "v"] 3 false [] false |};
    {| m_name := "retr_transp"; m_owner := "Manifold"; m_func := "retr_transp"; m_sig := Sig ["x"; "u"; "v"] 3 false [] false |};
    {| m_name := "transp_follow_retr"; m_owner := "Manifold"; m_func := "transp_follow_retr"; m_sig := Sig ["x"; "u"; "v"] 3 false [] false |};
    {| m_name := "transp_follow_expmap"; m_owner := "Manifold"; m_func := "transp_follow_expmap"; m_sig := Sig ["x"; "u"; "v"] 3 false [] false |};
    {| m_name := "transp"; m_owner := "Euclidean"; m_func := "transp"; m_sig := Sig ["x"; "y"; "v"] 3 false [] false |};
    {| m_name := "inner"; m_owner := "Euclidean"; m_func := "inner"; m_sig := Sig ["x"; "u"; "v"] 2 false ["keepdim"] false |};
    {| m_name := "component_inner"; m_owner := "Euclidean"; m_func := "component_inner"; m_sig := Sig ["x"; "u"; "v"] 2 false [] false |};
    {| m_name := "norm"; m_owner := "Euclidean"; m_func := "norm"; m_sig := Sig ["x"; "u"] 2 false ["keepdim"] false |};
    {| m_name := "proju"; m_owner := "Euclidean"; m_func := "proju"; m_sig := Sig ["x"; "u"] 2 false [] false |};
    {| m_name := "egrad2rgrad"; m_owner := "Euclidean"; m_func := "egrad2rgrad"; m_sig := Sig ["x"; "u"] 2 false [] false |};
    {| m_name := "projx"; m_owner := "Euclidean"; m_func := "projx"; m_sig := Sig ["x"] 1 false [] false |};
    {| m_name := "extra_repr"; m_owner := "Euclidean"; m_func := "extra_repr"; m_sig := Sig [] 0 false [] false |};
    {| m_name := "unpack_tensor"; m_owner := "Manifold"; m_func := "unpack_tensor"; m_sig := Sig ["tensor"] 1 false [] false |};
    {| m_name := "pack_point"; m_owner := "Manifold"; m_func := "pack_point"; m_sig := Sig [] 0 true [] false |};
    {| m_name := "random"; m_owner := "Euclidean"; m_func := "random_normal"; m_sig := Sig [] 0 true ["mean"; "std"; "device"; "dtype"] false |};
    {| m_name := "origin"; m_owner := "Euclidean"; m_func := "origin"; m_sig := Sig [] 0 true ["dtype"; "device"; "seed"] false |};
    {| m_name := "random_normal"; m_owner := "Euclidean"; m_func := "random_normal"; m_sig := Sig [] 0 true ["mean"; "std"; "device"; "dtype"] false |}] |}.

(** manifolds/sphere.py:31 class Sphere (resolution order: Sphere, Manifold). *)
Definition cls_Sphere : cls := {|
  c_name := "Sphere";
  c_registry := [("dist", Info [1] []); ("dist2", Info [2] []); ("retr", Info [] [("u", (-1))]); ("expmap", Info [] [("u", (-1))]); ("logmap", Info [1] []); ("expmap_transp", Info [] [("u", (-1))]); ("retr_transp", Info [] [("u", (-1))]); ("transp_follow_retr", Info [] [("u", (-1))]); ("transp_follow_expmap", Info [] [("u", (-1))])];
  c_methods := [
    {| m_name := "check_point"; m_owner := "Manifold"; m_func := "check_point"; m_sig := Sig ["x"] 1 false ["explain"] false |};
    {| m_name := "assert_check_point"; m_owner := "Manifold"; m_func := "assert_check_point"; m_sig := Sig ["x"] 1 false [] false |};
    {| m_name := "check_vector"; m_owner := "Manifold"; m_func := "check_vector"; m_sig := Sig ["u"] 1 false ["explain"] false |};
    {| m_name := "assert_check_vector"; m_owner := "Manifold"; m_func := "assert_check_vector"; m_sig := Sig ["u"] 1 false [] false |};
    {| m_name := "check_point_on_manifold"; m_owner := "Manifold"; m_func := "check_point_on_manifold"; m_sig := Sig ["x"] 1 false ["explain"; "atol"; "rtol"] false |};
    {| m_name := "assert_check_point_on_manifold"; m_owner := "Manifold"; m_func := "assert_check_point_on_manifold"; m_sig := Sig ["x"] 1 false ["atol"; "rtol"] false |};
    {| m_name := "check_vector_on_tangent"; m_owner := "Manifold"; m_func := "check_vector_on_tangent"; m_sig := Sig ["x"; "u"] 2 false ["ok_point"; "explain"; "atol"; "rtol"] false |};
    {| m_name := "assert_check_vector_on_tangent"; m_owner := "Manifold"; m_func := "assert_check_vector_on_tangent"; m_sig := Sig ["x"; "u"] 2 false ["ok_point"; "atol"; "rtol"] false |};
    {| m_name := "dist"; m_owner := "Sphere"; m_func := "dist"; m_sig := Sig ["x"; "y"] 2 false ["keepdim"] false |};
    {| m_name := "dist2"; m_owner := "Manifold"; m_func := "dist2"; m_sig := Sig ["x"; "y"] 2 false ["keepdim"] false |};
    {| m_name := "retr"; m_owner := "Sphere"; m_func := "retr"; m_sig := Sig ["x"; "u"] 2 false [] false |};
    {| m_name := "expmap"; m_owner := "Sphere"; m_func := "expmap"; m_sig := Sig ["x"; "u"] 2 false [] false |};
    {| m_name := "logmap"; m_owner := "Sphere"; m_func := "logmap"; m_sig := Sig ["x"; "y"] 2 false [] false |};
    {| m_name := "expmap_transp"; m_owner := "Manifold"; m_func := "expmap_transp"; m_sig := Sig ["x"; "u"; "v"] 3 false [] false |};
    {| m_name := "retr_transp"; m_owner := "Manifold"; m_func := "retr_transp"; m_sig := Sig ["x"; "u"; "v"] 3 false [] false |};
    {| m_name := "transp_follow_retr"; m_owner := "Manifold"; m_func := "transp_follow_retr"; m_sig := Sig ["x"; "u"; "v"] 3 false [] false |};
    {| m_name := "transp_follow_expmap"; m_owner := "Manifold"; m_func := "transp_follow_expmap"; m_sig := Sig ["x"; "u"; "v"] 3 false [] false |};
    {| m_name := "transp"; m_owner := "Sphere"; m_func := "transp"; m_sig := Sig ["x"; "y"; "v"] 3 false [] false |};
    {| m_name := "inner"; m_owner := "Sphere"; m_func := "inner"; m_sig := Sig ["x"; "u"; "v"] 2 false ["keepdim"] false |};
    {| m_name := "component_inner"; m_owner := "Manifold"; m_func := "component_inner"; m_sig := Sig ["x"; "u"; "v"] 2 false [] false |};
    {| m_name := "norm"; m_owner := "Manifold"; m_func := "norm"; m_sig := Sig ["x"; "u"] 2 false ["keepdim"] false |};
    {| m_name := "proju"; m_owner := "Sphere"; m_func := "proju"; m_sig := Sig ["x"; "u"] 2 false [] false |};
    {| m_name := "egrad2rgrad"; m_owner := "Sphere"; m_func := "proju"; m_sig := Sig ["x"; "u"] 2 false [] false |};
    {| m_name := "projx"; m_owner := "Sphere"; m_func := "projx"; m_sig := Sig ["x"] 1 false [] false |};
    {| m_name := "extra_repr"; m_owner := "Manifold"; m_func := "extra_repr"; m_sig := Sig [] 0 false [] false |};
    {| m_name := "unpack_tensor"; m_owner := "Manifold"; m_func := "unpack_tensor"; m_sig := Sig ["tensor"] 1 false [] false |};
    {| m_name := "pack_point"; m_owner := "Manifold"; m_func := "pack_point"; m_sig := Sig [] 0 true [] false |};
    {| m_name := "random"; m_owner := "Sphere"; m_func := "random_uniform"; m_sig := Sig [] 0 true ["dtype"; "device"] false |};
    {| m_name := "origin"; m_owner := "Manifold"; m_func := "origin"; m_sig := Sig [] 0 true ["dtype"; "device"; "seed"] false |};
    {| m_name := "random_uniform"; m_owner := "Sphere"; m_func := "random_uniform"; m_sig := Sig [] 0 true ["dtype"; "device"] false |}] |}.

(** manifolds/sphere.py:226 class SphereExact (resolution order: SphereExact, Sphere, Manifold). *)
Definition cls_SphereExact : cls := {|
  c_name := "SphereExact";
  c_registry := [("dist", Info [1] []); ("dist2", Info [2] []); ("retr", Info [] [("u", (-1))]); ("expmap", Info [] [("u", (-1))]); ("logmap", Info [1] []); ("expmap_transp", Info [] [("u", (-1))]); ("retr_transp", Info [] [("u", (-1))]); ("transp_follow_retr", Info [] [("u", (-1))]); ("transp_follow_expmap", Info [] [("u", (-1))])];
  c_methods := [
    {| m_name := "check_point"; m_owner := "Manifold"; m_func := "check_point"; m_sig := Sig ["x"] 1 false ["explain"] false |};
    {| m_name := "assert_check_point"; m_owner := "Manifold"; m_func := "assert_check_point"; m_sig := Sig ["x"] 1 false [] false |};
    {| m_name := "check_vector"; m_owner := "Manifold"; m_func := "check_vector"; m_sig := Sig ["u"] 1 false ["explain"] false |};
    {| m_name := "assert_check_vector"; m_owner := "Manifold"; m_func := "assert_check_vector"; m_sig := Sig ["u"] 1 false [] false |};
    {| m_name := "check_point_on_manifold"; m_owner := "Manifold"; m_func := "check_point_on_manifold"; m_sig := Sig ["x"] 1 false ["explain"; "atol"; "rtol"] false |};
    {| m_name := "assert_check_point_on_manifold"; m_owner := "Manifold"; m_func := "assert_check_point_on_manifold"; m_sig := Sig ["x"] 1 false ["atol"; "rtol"] false |};
    {| m_name := "check_vector_on_tangent"; m_owner := "Manifold"; m_func := "check_vector_on_tangent"; m_sig := Sig ["x"; "u"] 2 false ["ok_point"; "explain"; "atol"; "rtol"] false |};
    {| m_name := "assert_check_vector_on_tangent"; m_owner := "Manifold"; m_func := "assert_check_vector_on_tangent"; m_sig := Sig ["x"; "u"] 2 false ["ok_point"; "atol"; "rtol"] false |};
    {| m_name := "dist"; m_owner := "Sphere"; m_func := "dist"; m_sig := Sig ["x"; "y"] 2 false ["keepdim"] false |};
    {| m_name := "dist2"; m_owner := "Manifold"; m_func := "dist2"; m_sig := Sig ["x"; "y"] 2 false ["keepdim"] false |};
    {| m_name := "retr"; m_owner := "Sphere"; m_func := "expmap"; m_sig := Sig ["x"; "u"] 2 false [] false |};
    {| m_name := "expmap"; m_owner := "Sphere"; m_func := "expmap"; m_sig := Sig ["x"; "u"] 2 false [] false |};
    {| m_name := "logmap"; m_owner := "Sphere"; m_func := "logmap"; m_sig := Sig ["x"; "y"] 2 false [] false |};
    {| m_name := "expmap_transp"; m_owner := "Manifold"; m_func := "expmap_transp"; m_sig := Sig ["x"; "u"; "v"] 3 false [] false |};
    {| m_name := "retr_transp"; m_owner := "Manifold"; m_func := "expmap_transp"; m_sig := Sig ["x"; "u"; "v"] 3 false [] false |};
    {| m_name := "transp_follow_retr"; m_owner := "Manifold"; m_func := "transp_follow_expmap"; m_sig := Sig ["x"; "u"; "v"] 3 false [] false |};
    {| m_name := "transp_follow_expmap"; m_owner := "Manifold"; m_func := "transp_follow_expmap"; m_sig := Sig ["x"; "u"; "v"] 3 false [] false |};
    {| m_name := "transp"; m_owner := "Sphere"; m_func := "transp"; m_sig := Sig ["x"; "y"; "v"] 3 false [] false |};
    {| m_name := "inner"; m_owner := "Sphere"; m_func := "inner"; m_sig := Sig ["x"; "u"; "v"] 2 false ["keepdim"] false |};
    {| m_name := "component_inner"; m_owner := "Manifold"; m_func := "component_inner"; m_sig := Sig ["x"; "u"; "v"] 2 false [] false |};
    {| m_name := "norm"; m_owner := "Manifold"; m_func := "norm"; m_sig := Sig ["x"; "u"] 2 false ["keepdim"] false |};
    {| m_name := "proju"; m_owner := "Sphere"; m_func := "proju"; m_sig := Sig ["x"; "u"] 2 false [] false |};
    {| m_name := "egrad2rgrad"; m_owner := "Sphere"; m_func := "proju"; m_sig := Sig ["x"; "u"] 2 false [] false |};
    {| m_name := "projx"; m_owner := "Sphere"; m_func := "projx"; m_sig := Sig ["x"] 1 false [] false |};
    {| m_name := "extra_repr"; m_owner := "SphereExact"; m_func := "extra_repr"; m_sig := Sig [] 0 false [] false |};
    {| m_name := "unpack_tensor"; m_owner := "Manifold"; m_func := "unpack_tensor"; m_sig := Sig ["tensor"] 1 false [] false |};
    {| m_name := "pack_point"; m_owner := "Manifold"; m_func := "pack_point"; m_sig := Sig [] 0 true [] false |};
    {| m_name := "random"; m_owner := "Sphere"; m_func := "random_uniform"; m_sig := Sig [] 0 true ["dtype"; "device"] false |};
    {| m_name := "origin"; m_owner := "Manifold"; m_func := "origin"; m_sig := Sig [] 0 true ["dtype"; "device"; "seed"] false |};
    {| m_name := "random_uniform"; m_owner := "Sphere"; m_func := "random_uniform"; m_sig := Sig [] 0 true ["dtype"; "device"] false |}] |}.

(** manifolds/stiefel.py:141 class CanonicalStiefel (resolution order: CanonicalStiefel, Stiefel, Manifold). *)
Definition cls_CanonicalStiefel : cls := {|
  c_name := "CanonicalStiefel";
  c_registry := [("dist", Info [1] []); ("dist2", Info [2] []); ("retr", Info [] [("u", (-1))]); ("expmap", Info [] [("u", (-1))]); ("logmap", Info [1] []); ("expmap_transp", Info [] [("u", (-1))]); ("retr_transp", Info [] [("u", (-1))]); ("transp_follow_retr", Info [] [("u", (-1))]); ("transp_follow_expmap", Info [] [("u", (-1))])];
  c_methods := [
    {| m_name := "check_point"; m_owner := "Manifold"; m_func := "check_point"; m_sig := Sig ["x"] 1 false ["explain"] false |};
    {| m_name := "assert_check_point"; m_owner := "Manifold"; m_func := "assert_check_point"; m_sig := Sig ["x"] 1 false [] false |};
    {| m_name := "check_vector"; m_owner := "Manifold"; m_func := "check_vector"; m_sig := Sig ["u"] 1 false ["explain"] false |};
    {| m_name := "assert_check_vector"; m_owner := "Manifold"; m_func := "assert_check_vector"; m_sig := Sig ["u"] 1 false [] false |};
    {| m_name := "check_point_on_manifold"; m_owner := "Manifold"; m_func := "check_point_on_manifold"; m_sig := Sig ["x"] 1 false ["explain"; "atol"; "rtol"] false |};
    {| m_name := "assert_check_point_on_manifold"; m_owner := "Manifold"; m_func := "assert_check_point_on_manifold"; m_sig := Sig ["x"] 1 false ["atol"; "rtol"] false |};
    {| m_name := "check_vector_on_tangent"; m_owner := "Manifold"; m_func := "check_vector_on_tangent"; m_sig := Sig ["x"; "u"] 2 false ["ok_point"; "explain"; "atol"; "rtol"] false |};
    {| m_name := "assert_check_vector_on_tangent"; m_owner := "Manifold"; m_func := "assert_check_vector_on_tangent"; m_sig := Sig ["x"; "u"] 2 false ["ok_point"; "atol"; "rtol"] false |};
    {| m_name := "dist"; m_owner := "Manifold"; m_func := "dist"; m_sig := Sig ["x"; "y"] 2 false ["keepdim"] false |};
    {| m_name := "dist2"; m_owner := "Manifold"; m_func := "dist2"; m_sig := Sig ["x"; "y"] 2 false ["keepdim"] false |};
    {| m_name := "retr"; m_owner := "CanonicalStiefel"; m_func := "retr"; m_sig := Sig ["x"; "u"] 2 false [] false |};
    {| m_name := "expmap"; m_owner := "CanonicalStiefel"; m_func := "retr"; m_sig := Sig ["x"; "u"] 2 false [] false |};
    {| m_name := "logmap"; m_owner := "Manifold"; m_func := "logmap"; m_sig := Sig ["x"; "y"] 2 false [] false |};
    {| m_name := "expmap_transp"; m_owner := "CanonicalStiefel"; m_func := "retr_transp"; m_sig := Sig ["x"; "u"; "v"] 3 false [] false |};
    {| m_name := "retr_transp"; m_owner := "CanonicalStiefel"; m_func := "retr_transp"; m_sig := Sig ["x"; "u"; "v"] 3 false [] false |};
    {| m_name := "transp_follow_retr"; m_owner := "CanonicalStiefel"; m_func := "transp_follow_retr"; m_sig := Sig ["x"; "u"; "v"] 3 false [] false |};
    {| m_name := "transp_follow_expmap"; m_owner := "CanonicalStiefel"; m_func := "transp_follow_retr"; m_sig := Sig ["x"; "u"; "v"] 3 false [] false |};
    {| m_name := "transp"; m_owner := "Manifold"; m_func := "transp"; m_sig := Sig ["x"; "y"; "v"] 3 false [] false |};
    {| m_name := "inner"; m_owner := "CanonicalStiefel"; m_func := "inner"; m_sig := Sig ["x"; "u"; "v"] 2 false ["keepdim"] false |};
    {| m_name := "component_inner"; m_owner := "Manifold"; m_func := "component_inner"; m_sig := Sig ["x"; "u"; "v"] 2 false [] false |};
    {| m_name := "norm"; m_owner := "Manifold"; m_func := "norm"; m_sig := Sig ["x"; "u"] 2 false ["keepdim"] false |};
    {| m_name := "proju"; m_owner := "CanonicalStiefel"; m_func := "proju"; m_sig := Sig ["x"; "u"] 2 false [] false |};
    {| m_name := "egrad2rgrad"; m_owner := "CanonicalStiefel"; m_func := "proju"; m_sig := Sig ["x"; "u"] 2 false [] false |};
    {| m_name := "projx"; m_owner := "Stiefel"; m_func := "projx"; m_sig := Sig ["x"] 1 false [] false |};
    {| m_name := "extra_repr"; m_owner := "Manifold"; m_func := "extra_repr"; m_sig := Sig [] 0 false [] false |};
    {| m_name := "unpack_tensor"; m_owner := "Manifold"; m_func := "unpack_tensor"; m_sig := Sig ["tensor"] 1 false [] false |};
    {| m_name := "pack_point"; m_owner := "Manifold"; m_func := "pack_point"; m_sig := Sig [] 0 true [] false |};
    {| m_name := "random"; m_owner := "Stiefel"; m_func := "random_naive"; m_sig := Sig [] 0 true ["dtype"; "device"] false |};
    {| m_name := "origin"; m_owner := "Stiefel"; m_func := "origin"; m_sig := Sig [] 0 true ["dtype"; "device"; "seed"] false |};
    {| m_name := "random_naive"; m_owner := "Stiefel"; m_func := "random_naive"; m_sig := Sig [] 0 true ["dtype"; "device"] false |}] |}.

(** manifolds/stiefel.py:215 class EuclideanStiefel (resolution order: EuclideanStiefel, Stiefel, Manifold). *)
Definition cls_EuclideanStiefel : cls := {|
  c_name := "EuclideanStiefel";
  c_registry := [("dist", Info [1] []); ("dist2", Info [2] []); ("retr", Info [] [("u", (-1))]); ("expmap", Info [] [("u", (-1))]); ("logmap", Info [1] []); ("expmap_transp", Info [] [("u", (-1))]); ("retr_transp", Info [] [("u", (-1))]); ("transp_follow_retr", Info [] [("u", (-1))]); ("transp_follow_expmap", Info [] [("u", (-1))])];
  c_methods := [
    {| m_name := "check_point"; m_owner := "Manifold"; m_func := "check_point"; m_sig := Sig ["x"] 1 false ["explain"] false |};
    {| m_name := "assert_check_point"; m_owner := "Manifold"; m_func := "assert_check_point"; m_sig := Sig ["x"] 1 false [] false |};
    {| m_name := "check_vector"; m_owner := "Manifold"; m_func := "check_vector"; m_sig := Sig ["u"] 1 false ["explain"] false |};
    {| m_name := "assert_check_vector"; m_owner := "Manifold"; m_func := "assert_check_vector"; m_sig := Sig ["u"] 1 false [] false |};
    {| m_name := "check_point_on_manifold"; m_owner := "Manifold"; m_func := "check_point_on_manifold"; m_sig := Sig ["x"] 1 false ["explain"; "atol"; "rtol"] false |};
    {| m_name := "assert_check_point_on_manifold"; m_owner := "Manifold"; m_func := "assert_check_point_on_manifold"; m_sig := Sig ["x"] 1 false ["atol"; "rtol"] false |};
    {| m_name := "check_vector_on_tangent"; m_owner := "Manifold"; m_func := "check_vector_on_tangent"; m_sig := Sig ["x"; "u"] 2 false ["ok_point"; "explain"; "atol"; "rtol"] false |};
    {| m_name := "assert_check_vector_on_tangent"; m_owner := "Manifold"; m_func := "assert_check_vector_on_tangent"; m_sig := Sig ["x"; "u"] 2 false ["ok_point"; "atol"; "rtol"] false |};
    {| m_name := "dist"; m_owner := "Manifold"; m_func := "dist"; m_sig := Sig ["x"; "y"] 2 false ["keepdim"] false |};
    {| m_name := "dist2"; m_owner := "Manifold"; m_func := "dist2"; m_sig := Sig ["x"; "y"] 2 false ["keepdim"] false |};
    {| m_name := "retr"; m_owner := "EuclideanStiefel"; m_func := "retr"; m_sig := Sig ["x"; "u"] 2 false [] false |};
    {| m_name := "expmap"; m_owner := "EuclideanStiefel"; m_func := "expmap"; m_sig := Sig ["x"; "u"] 2 false [] false |};
    {| m_name := "logmap"; m_owner := "Manifold"; m_func := "logmap"; m_sig := Sig ["x"; "y"] 2 false [] false |};
    {| m_name := "expmap_transp"; m_owner := "Manifold"; m_func := "expmap_transp"; m_sig := Sig ["x"; "u"; "v"] 3 false [] false |};
    {| m_name := "retr_transp"; m_owner := "Manifold"; m_func := "retr_transp"; m_sig := Sig ["x"; "u"; "v"] 3 false [] false |};
    {| m_name := "transp_follow_retr"; m_owner := "Manifold"; m_func := "transp_follow_retr"; m_sig := Sig ["x"; "u"; "v"] 3 false [] false |};
    {| m_name := "transp_follow_expmap"; m_owner := "Manifold"; m_func := "transp_follow_expmap"; m_sig := Sig ["x"; "u"; "v"] 3 false [] false |};
    {| m_name := "transp"; m_owner := "EuclideanStiefel"; m_func := "transp"; m_sig := Sig ["x"; "y"; "v"] 3 false [] false |};
    {| m_name := "inner"; m_owner := "EuclideanStiefel"; m_func := "inner"; m_sig := Sig ["x"; "u"; "v"] 2 false ["keepdim"] false |};
    {| m_name := "component_inner"; m_owner := "Manifold"; m_func := "component_inner"; m_sig := Sig ["x"; "u"; "v"] 2 false [] false |};
    {| m_name := "norm"; m_owner := "Manifold"; m_func := "norm"; m_sig := Sig ["x"; "u"] 2 false ["keepdim"] false |};
    {| m_name := "proju"; m_owner := "EuclideanStiefel"; m_func := "proju"; m_sig := Sig ["x"; "u"] 2 false [] false |};
    {| m_name := "egrad2rgrad"; m_owner := "EuclideanStiefel"; m_func := "proju"; m_sig := Sig ["x"; "u"] 2 false [] false |};
    {| m_name := "projx"; m_owner := "Stiefel"; m_func := "projx"; m_sig := Sig ["x"] 1 false [] false |};
    {| m_name := "extra_repr"; m_owner := "Manifold"; m_func := "extra_repr"; m_sig := Sig [] 0 false [] false |};
    {| m_name := "unpack_tensor"; m_owner := "Manifold"; m_func := "unpack_tensor"; m_sig := Sig ["tensor"] 1 false [] false |};
    {| m_name := "pack_point"; m_owner := "Manifold"; m_func := "pack_point"; m_sig := Sig [] 0 true [] false |};
    {| m_name := "random"; m_owner := "Stiefel"; m_func := "random_naive"; m_sig := Sig [] 0 true ["dtype"; "device"] false |};
    {| m_name := "origin"; m_owner := "Stiefel"; m_func := "origin"; m_sig := Sig [] 0 true ["dtype"; "device"; "seed"] false |};
    {| m_name := "random_naive"; m_owner := "Stiefel"; m_func := "random_naive"; m_sig := Sig [] 0 true ["dtype"; "device"] false |}] |}.

(** manifolds/stiefel.py:259 class EuclideanStiefelExact (resolution order: EuclideanStiefelExact, EuclideanStiefel, Stiefel, Manifold). *)
Definition cls_EuclideanStiefelExact : cls := {|
  c_name := "EuclideanStiefelExact";
  c_registry := [("dist", Info [1] []); ("dist2", Info [2] []); ("retr", Info [] [("u", (-1))]); ("expmap", Info [] [("u", (-1))]); ("logmap", Info [1] []); ("expmap_transp", Info [] [("u", (-1))]); ("retr_transp", Info [] [("u", (-1))]); ("transp_follow_retr", Info [] [("u", (-1))]); ("transp_follow_expmap", Info [] [("u", (-1))])];
  c_methods := [
    {| m_name := "check_point"; m_owner := "Manifold"; m_func := "check_point"; m_sig := Sig ["x"] 1 false ["explain"] false |};
    {| m_name := "assert_check_point"; m_owner := "Manifold"; m_func := "assert_check_point"; m_sig := Sig ["x"] 1 false [] false |};
    {| m_name := "check_vector"; m_owner := "Manifold"; m_func := "check_vector"; m_sig := Sig ["u"] 1 false ["explain"] false |};
    {| m_name := "assert_check_vector"; m_owner := "Manifold"; m_func := "assert_check_vector"; m_sig := Sig ["u"] 1 false [] false |};
    {| m_name := "check_point_on_manifold"; m_owner := "Manifold"; m_func := "check_point_on_manifold"; m_sig := Sig ["x"] 1 false ["explain"; "atol"; "rtol"] false |};
    {| m_name := "assert_check_point_on_manifold"; m_owner := "Manifold"; m_func := "assert_check_point_on_manifold"; m_sig := Sig ["x"] 1 false ["atol"; "rtol"] false |};
    {| m_name := "check_vector_on_tangent"; m_owner := "Manifold"; m_func := "check_vector_on_tangent"; m_sig := Sig ["x"; "u"] 2 false ["ok_point"; "explain"; "atol"; "rtol"] false |};
    {| m_name := "assert_check_vector_on_tangent"; m_owner := "Manifold"; m_func := "assert_check_vector_on_tangent"; m_sig := Sig ["x"; "u"] 2 false ["ok_point"; "atol"; "rtol"] false |};
    {| m_name := "dist"; m_owner := "Manifold"; m_func := "dist"; m_sig := Sig ["x"; "y"] 2 false ["keepdim"] false |};
    {| m_name := "dist2"; m_owner := "Manifold"; m_func := "dist2"; m_sig := Sig ["x"; "y"] 2 false ["keepdim"] false |};
    {| m_name := "retr"; m_owner := "EuclideanStiefel"; m_func := "expmap"; m_sig := Sig ["x"; "u"] 2 false [] false |};
    {| m_name := "expmap"; m_owner := "EuclideanStiefel"; m_func := "expmap"; m_sig := Sig ["x"; "u"] 2 false [] false |};
    {| m_name := "logmap"; m_owner := "Manifold"; m_func := "logmap"; m_sig := Sig ["x"; "y"] 2 false [] false |};
    {| m_name := "expmap_transp"; m_owner := "Manifold"; m_func := "expmap_transp"; m_sig := Sig ["x"; "u"; "v"] 3 false [] false |};
    {| m_name := "retr_transp"; m_owner := "Manifold"; m_func := "expmap_transp"; m_sig := Sig ["x"; "u"; "v"] 3 false [] false |};
    {| m_name := "transp_follow_retr"; m_owner := "Manifold"; m_func := "transp_follow_expmap"; m_sig := Sig ["x"; "u"; "v"] 3 false [] false |};
    {| m_name := "transp_follow_expmap"; m_owner := "Manifold"; m_func := "transp_follow_expmap"; m_sig := Sig ["x"; "u"; "v"] 3 false [] false |};
    {| m_name := "transp"; m_owner := "EuclideanStiefel"; m_func := "transp"; m_sig := Sig ["x"; "y"; "v"] 3 false [] false |};
    {| m_name := "inner"; m_owner := "EuclideanStiefel"; m_func := "inner"; m_sig := Sig ["x"; "u"; "v"] 2 false ["keepdim"] false |};
    {| m_name := "component_inner"; m_owner := "Manifold"; m_func := "component_inner"; m_sig := Sig ["x"; "u"; "v"] 2 false [] false |};
    {| m_name := "norm"; m_owner := "Manifold"; m_func := "norm"; m_sig := Sig ["x"; "u"] 2 false ["keepdim"] false |};
    {| m_name := "proju"; m_owner := "EuclideanStiefel"; m_func := "proju"; m_sig := Sig ["x"; "u"] 2 false [] false |};
    {| m_name := "egrad2rgrad"; m_owner := "EuclideanStiefel"; m_func := "proju"; m_sig := Sig ["x"; "u"] 2 false [] false |};
    {| m_name := "projx"; m_owner := "Stiefel"; m_func := "projx"; m_sig := Sig ["x"] 1 false [] false |};
    {| m_name := "extra_repr"; m_owner := "EuclideanStiefelExact"; m_func := "extra_repr"; m_sig := Sig [] 0 false [] false |};
    {| m_name := "unpack_tensor"; m_owner := "Manifold"; m_func := "unpack_tensor"; m_sig := Sig ["tensor"] 1 false [] false |};
    {| m_name := "pack_point"; m_owner := "Manifold"; m_func := "pack_point"; m_sig := Sig [] 0 true [] false |};
    {| m_name := "random"; m_owner := "Stiefel"; m_func := "random_naive"; m_sig := Sig [] 0 true ["dtype"; "device"] false |};
    {| m_name := "origin"; m_owner := "Stiefel"; m_func := "origin"; m_sig := Sig [] 0 true ["dtype"; "device"; "seed"] false |};
    {| m_name := "random_naive"; m_owner := "Stiefel"; m_func := "random_naive"; m_sig := Sig [] 0 true ["dtype"; "device"] false |}] |}.

(** manifolds/symmetric_positive_definite.py:20 class SymmetricPositiveDefinite (resolution order: SymmetricPositiveDefinite, Manifold). *)
Definition cls_SymmetricPositiveDefinite : cls := {|
  c_name := "SymmetricPositiveDefinite";
  c_registry := [("dist", Info [1] []); ("dist2", Info [2] []); ("retr", Info [] [("u", (-1))]); ("expmap", Info [] [("u", (-1))]); ("logmap", Info [1] []); ("expmap_transp", Info [] [("u", (-1))]); ("retr_transp", Info [] [("u", (-1))]); ("transp_follow_retr", Info [] [("u", (-1))]); ("transp_follow_expmap", Info [] [("u", (-1))])];
  c_methods := [
    {| m_name := "check_point"; m_owner := "Manifold"; m_func := "check_point"; m_sig := Sig ["x"] 1 false ["explain"] false |};
    {| m_name := "assert_check_point"; m_owner := "Manifold"; m_func := "assert_check_point"; m_sig := Sig ["x"] 1 false [] false |};
    {| m_name := "check_vector"; m_owner := "Manifold"; m_func := "check_vector"; m_sig := Sig ["u"] 1 false ["explain"] false |};
    {| m_name := "assert_check_vector"; m_owner := "Manifold"; m_func := "assert_check_vector"; m_sig := Sig ["u"] 1 false [] false |};
    {| m_name := "check_point_on_manifold"; m_owner := "Manifold"; m_func := "check_point_on_manifold"; m_sig := Sig ["x"] 1 false ["explain"; "atol"; "rtol"] false |};
    {| m_name := "assert_check_point_on_manifold"; m_owner := "Manifold"; m_func := "assert_check_point_on_manifold"; m_sig := Sig ["x"] 1 false ["atol"; "rtol"] false |};
    {| m_name := "check_vector_on_tangent"; m_owner := "Manifold"; m_func := "check_vector_on_tangent"; m_sig := Sig ["x"; "u"] 2 false ["ok_point"; "explain"; "atol"; "rtol"] false |};
    {| m_name := "assert_check_vector_on_tangent"; m_owner := "Manifold"; m_func := "assert_check_vector_on_tangent"; m_sig := Sig ["x"; "u"] 2 false ["ok_point"; "atol"; "rtol"] false |};
    {| m_name := "dist"; m_owner := "SymmetricPositiveDefinite"; m_func := "dist"; m_sig := Sig ["x"; "y"; "keepdim"] 2 false [] false |};
    {| m_name := "dist2"; m_owner := "Manifold"; m_func := "dist2"; m_sig := Sig ["x"; "y"] 2 false ["keepdim"] false |};
    {| m_name := "retr"; m_owner := "SymmetricPositiveDefinite"; m_func := "retr"; m_sig := Sig ["x"; "u"] 2 false [] false |};
    {| m_name := "expmap"; m_owner := "SymmetricPositiveDefinite"; m_func := "expmap"; m_sig := Sig ["x"; "u"] 2 false [] false |};
    {| m_name := "logmap"; m_owner := "SymmetricPositiveDefinite"; m_func := "logmap"; m_sig := Sig ["x"; "u"] 2 false [] false |};
    {| m_name := "expmap_transp"; m_owner := "Manifold"; m_func := "expmap_transp"; m_sig := Sig ["x"; "u"; "v"] 3 false [] false |};
    {| m_name := "retr_transp"; m_owner := "Manifold"; m_func := "retr_transp"; m_sig := Sig ["x"; "u"; "v"] 3 false [] false |};
    {| m_name := "transp_follow_retr"; m_owner := "Manifold"; m_func := "transp_follow_retr"; m_sig := Sig ["x"; "u"; "v"] 3 false [] false |};
    {| m_name := "transp_follow_expmap"; m_owner := "Manifold"; m_func := "transp_follow_expmap"; m_sig := Sig ["x"; "u"; "v"] 3 false [] false |};
    {| m_name := "transp"; m_owner := "SymmetricPositiveDefinite"; m_func := "transp"; m_sig := Sig ["x"; "y"; "v"] 3 false [] false |};
    {| m_name := "inner"; m_owner := "SymmetricPositiveDefinite"; m_func := "inner"; m_sig := Sig ["x"; "u"; "v"; "keepdim"] 2 false [] false |};
    {| m_name := "component_inner"; m_owner := "Manifold"; m_func := "component_inner"; m_sig := Sig ["x"; "u"; "v"] 2 false [] false |};
    {| m_name := "norm"; m_owner := "Manifold"; m_func := "norm"; m_sig := Sig ["x"; "u"] 2 false ["keepdim"] false |};
    {| m_name := "proju"; m_owner := "SymmetricPositiveDefinite"; m_func := "proju"; m_sig := Sig ["x"; "u"] 2 false [] false |};
    {| m_name := "egrad2rgrad"; m_owner := "SymmetricPositiveDefinite"; m_func := "egrad2rgrad"; m_sig := Sig ["x"; "u"] 2 false [] false |};
    {| m_name := "projx"; m_owner := "SymmetricPositiveDefinite"; m_func := "projx"; m_sig := Sig ["x"] 1 false [] false |};
    {| m_name := "extra_repr"; m_owner := "SymmetricPositiveDefinite"; m_func := "extra_repr"; m_sig := Sig [] 0 false [] false |};
    {| m_name := "unpack_tensor"; m_owner := "Manifold"; m_func := "unpack_tensor"; m_sig := Sig ["tensor"] 1 false [] false |};
    {| m_name := "pack_point"; m_owner := "Manifold"; m_func := "pack_point"; m_sig := Sig [] 0 true [] false |};
    {| m_name := "random"; m_owner := "SymmetricPositiveDefinite"; m_func := "random"; m_sig := Sig [] 0 true ["dtype"; "device"] true |};
    {| m_name := "origin"; m_owner := "SymmetricPositiveDefinite"; m_func := "origin"; m_sig := Sig [] 0 true ["dtype"; "device"; "seed"] false |}] |}.

(** manifolds/birkhoff_polytope.py:12 class BirkhoffPolytope (resolution order: BirkhoffPolytope, Manifold). *)
Definition cls_BirkhoffPolytope : cls := {|
  c_name := "BirkhoffPolytope";
  c_registry := [("dist", Info [1] []); ("dist2", Info [2] []); ("retr", Info [] [("u", (-1))]); ("expmap", Info [] [("u", (-1))]); ("logmap", Info [1] []); ("expmap_transp", Info [] [("u", (-1))]); ("retr_transp", Info [] [("u", (-1))]); ("transp_follow_retr", Info [] [("u", (-1))]); ("transp_follow_expmap", Info [] [("u", (-1))])];
  c_methods := [
    {| m_name := "check_point"; m_owner := "Manifold"; m_func := "check_point"; m_sig := Sig ["x"] 1 false ["explain"] false |};
    {| m_name := "assert_check_point"; m_owner := "Manifold"; m_func := "assert_check_point"; m_sig := Sig ["x"] 1 false [] false |};
    {| m_name := "check_vector"; m_owner := "Manifold"; m_func := "check_vector"; m_sig := Sig ["u"] 1 false ["explain"] false |};
    {| m_name := "assert_check_vector"; m_owner := "Manifold"; m_func := "assert_check_vector"; m_sig := Sig ["u"] 1 false [] false |};
    {| m_name := "check_point_on_manifold"; m_owner := "Manifold"; m_func := "check_point_on_manifold"; m_sig := Sig ["x"] 1 false ["explain"; "atol"; "rtol"] false |};
    {| m_name := "assert_check_point_on_manifold"; m_owner := "Manifold"; m_func := "assert_check_point_on_manifold"; m_sig := Sig ["x"] 1 false ["atol"; "rtol"] false |};
    {| m_name := "check_vector_on_tangent"; m_owner := "Manifold"; m_func := "check_vector_on_tangent"; m_sig := Sig ["x"; "u"] 2 false ["ok_point"; "explain"; "atol"; "rtol"] false |};
    {| m_name := "assert_check_vector_on_tangent"; m_owner := "Manifold"; m_func := "assert_check_vector_on_tangent"; m_sig := Sig ["x"; "u"] 2 false ["ok_point"; "atol"; "rtol"] false |};
    {| m_name := "dist"; m_owner := "Manifold"; m_func := "dist"; m_sig := Sig ["x"; "y"] 2 false ["keepdim"] false |};
    {| m_name := "dist2"; m_owner := "Manifold"; m_func := "dist2"; m_sig := Sig ["x"; "y"] 2 false ["keepdim"] false |};
    {| m_name := "retr"; m_owner := "BirkhoffPolytope"; m_func := "retr"; m_sig := Sig ["x"; "u"] 2 false [] false |};
    {| m_name := "expmap"; m_owner := "BirkhoffPolytope"; m_func := "retr"; m_sig := Sig ["x"; "u"] 2 false [] false |};
    {| m_name := "logmap"; m_owner := "Manifold"; m_func := "logmap"; m_sig := Sig ["x"; "y"] 2 false [] false |};
    {| m_name := "expmap_transp"; m_owner := "BirkhoffPolytope"; m_func := "retr_transp"; m_sig := Sig ["x"; "u"; "v"] 3 false [] false |};
    {| m_name := "retr_transp"; m_owner := "BirkhoffPolytope"; m_func := "retr_transp"; m_sig := Sig ["x"; "u"; "v"] 3 false [] false |};
    {| m_name := "transp_follow_retr"; m_owner := "BirkhoffPolytope"; m_func := "transp_follow_retr"; m_sig := Sig ["x"; "u"; "v"] 3 false [] false |};
    {| m_name := "transp_follow_expmap"; m_owner := "BirkhoffPolytope"; m_func := "transp_follow_expmap"; m_sig := Sig ["x"; "u"; "v"] 3 false [] false |};
    {| m_name := "transp"; m_owner := "BirkhoffPolytope"; m_func := "transp"; m_sig := Sig ["x"; "y"; "v"] 3 false [] false |};
    {| m_name := "inner"; m_owner := "BirkhoffPolytope"; m_func := "inner"; m_sig := Sig ["x"; "u"; "v"] 2 false ["keepdim"] false |};
    {| m_name := "component_inner"; m_owner := "Manifold"; m_func := "component_inner"; m_sig := Sig ["x"; "u"; "v"] 2 false [] false |};
    {| m_name := "norm"; m_owner := "Manifold"; m_func := "norm"; m_sig := Sig ["x"; "u"] 2 false ["keepdim"] false |};
    {| m_name := "proju"; m_owner := "BirkhoffPolytope"; m_func := "proju"; m_sig := Sig ["x"; "u"] 2 false [] false |};
    {| m_name := "egrad2rgrad"; m_owner := "BirkhoffPolytope"; m_func := "proju"; m_sig := Sig ["x"; "u"] 2 false [] false |};
    {| m_name := "projx"; m_owner := "BirkhoffPolytope"; m_func := "projx"; m_sig := Sig ["x"] 1 false [] false |};
    {| m_name := "extra_repr"; m_owner := "Manifold"; m_func := "extra_repr"; m_sig := Sig [] 0 false [] false |};
    {| m_name := "unpack_tensor"; m_owner := "Manifold"; m_func := "unpack_tensor"; m_sig := Sig ["tensor"] 1 false [] false |};
    {| m_name := "pack_point"; m_owner := "Manifold"; m_func := "pack_point"; m_sig := Sig [] 0 true [] false |};
    {| m_name := "random"; m_owner := "BirkhoffPolytope"; m_func := "random_naive"; m_sig := Sig [] 0 true ["dtype"; "device"] false |};
    {| m_name := "origin"; m_owner := "BirkhoffPolytope"; m_func := "origin"; m_sig := Sig [] 0 true ["dtype"; "device"; "seed"] false |};
    {| m_name := "random_naive"; m_owner := "BirkhoffPolytope"; m_func := "random_naive"; m_sig := Sig [] 0 true ["dtype"; "device"] false |}] |}.

(** manifolds/lorentz/__init__.py:26 class Lorentz (resolution order: Lorentz, Manifold). *)
Definition cls_Lorentz : cls := {|
  c_name := "Lorentz";
  c_registry := [("dist", Info [1] []); ("dist2", Info [2] []); ("retr", Info [] [("u", (-1))]); ("expmap", Info [] [("u", (-1))]); ("logmap", Info [1] []); ("expmap_transp", Info [] [("u", (-1))]); ("retr_transp", Info [] [("u", (-1))]); ("transp_follow_retr", Info [] [("u", (-1))]); ("transp_follow_expmap", Info [] [("u", (-1))]); ("dist0", Info [1] []); ("expmap0", Info [] [("u", (-1))]); ("logmap0", Info [1] []); ("geodesic_unit", Info [] [("t", (-1))]); ("random_normal", Info [] [("std", (-1))]); ("random", Info [] [("std", (-1))])];
  c_methods := [
    {| m_name := "check_point"; m_owner := "Manifold"; m_func := "check_point"; m_sig := Sig ["x"] 1 false ["explain"] false |};
    {| m_name := "assert_check_point"; m_owner := "Manifold"; m_func := "assert_check_point"; m_sig := Sig ["x"] 1 false [] false |};
    {| m_name := "check_vector"; m_owner := "Manifold"; m_func := "check_vector"; m_sig := Sig ["u"] 1 false ["explain"] false |};
    {| m_name := "assert_check_vector"; m_owner := "Manifold"; m_func := "assert_check_vector"; m_sig := Sig ["u"] 1 false [] false |};
    {| m_name := "check_point_on_manifold"; m_owner := "Manifold"; m_func := "check_point_on_manifold"; m_sig := Sig ["x"] 1 false ["explain"; "atol"; "rtol"] false |};
    {| m_name := "assert_check_point_on_manifold"; m_owner := "Manifold"; m_func := "assert_check_point_on_manifold"; m_sig := Sig ["x"] 1 false ["atol"; "rtol"] false |};
    {| m_name := "check_vector_on_tangent"; m_owner := "Manifold"; m_func := "check_vector_on_tangent"; m_sig := Sig ["x"; "u"] 2 false ["ok_point"; "explain"; "atol"; "rtol"] false |};
    {| m_name := "assert_check_vector_on_tangent"; m_owner := "Manifold"; m_func := "assert_check_vector_on_tangent"; m_sig := Sig ["x"; "u"] 2 false ["ok_point"; "atol"; "rtol"] false |};
    {| m_name := "dist"; m_owner := "Lorentz"; m_func := "dist"; m_sig := Sig ["x"; "y"] 2 false ["keepdim"; "dim"] false |};
    {| m_name := "dist2"; m_owner := "Manifold"; m_func := "dist2"; m_sig := Sig ["x"; "y"] 2 false ["keepdim"] false |};
    {| m_name := "retr"; m_owner := "Lorentz"; m_func := "expmap"; m_sig := Sig ["x"; "u"] 2 false ["norm_tan"; "project"; "dim"] false |};
    {| m_name := "expmap"; m_owner := "Lorentz"; m_func := "expmap"; m_sig := Sig ["x"; "u"] 2 false ["norm_tan"; "project"; "dim"] false |};
    {| m_name := "logmap"; m_owner := "Lorentz"; m_func := "logmap"; m_sig := Sig ["x"; "y"] 2 false ["dim"] false |};
    {| m_name := "expmap_transp"; m_owner := "Manifold"; m_func := "expmap_transp"; m_sig := Sig ["x"; "u"; "v"] 3 false [] false |};
    {| m_name := "retr_transp"; m_owner := "Manifold"; m_func := "retr_transp"; m_sig := Sig ["x"; "u"; "v"] 3 false [] false |};
    {| m_name := "transp_follow_retr"; m_owner := "Manifold"; m_func := "transp_follow_retr"; m_sig := Sig ["x"; "u"; "v"] 3 false [] false |};
    {| m_name := "transp_follow_expmap"; m_owner := "Lorentz"; m_func := "transp_follow_expmap"; m_sig := Sig ["x"; "u"; "v"] 3 false ["dim"; "project"] false |};
    {| m_name := "transp"; m_owner := "Lorentz"; m_func := "transp"; m_sig := Sig ["x"; "y"; "v"] 3 false ["dim"] false |};
    {| m_name := "inner"; m_owner := "Lorentz"; m_func := "inner"; m_sig := Sig ["x"; "u"; "v"] 2 false ["keepdim"; "dim"] false |};
    {| m_name := "component_inner"; m_owner := "Manifold"; m_func := "component_inner"; m_sig := Sig ["x"; "u"; "v"] 2 false [] false |};
    {| m_name := "norm"; m_owner := "Lorentz"; m_func := "norm"; m_sig := Sig ["u"] 1 false ["keepdim"; "dim"] false |};
    {| m_name := "proju"; m_owner := "Lorentz"; m_func := "proju"; m_sig := Sig ["x"; "v"] 2 false ["dim"] false |};
    {| m_name := "egrad2rgrad"; m_owner := "Lorentz"; m_func := "egrad2rgrad"; m_sig := Sig ["x"; "u"] 2 false ["dim"] false |};
    {| m_name := "projx"; m_owner := "Lorentz"; m_func := "projx"; m_sig := Sig ["x"] 1 false ["dim"] false |};
    {| m_name := "extra_repr"; m_owner := "Manifold"; m_func := "extra_repr"; m_sig := Sig [] 0 false [] false |};
    {| m_name := "unpack_tensor"; m_owner := "Manifold"; m_func := "unpack_tensor"; m_sig := Sig ["tensor"] 1 false [] false |};
    {| m_name := "pack_point"; m_owner := "Manifold"; m_func := "pack_point"; m_sig := Sig [] 0 true [] false |};
    {| m_name := "random"; m_owner := "Manifold"; m_func := "random"; m_sig := Sig [] 0 true ["dtype"; "device"] true |};
    {| m_name := "origin"; m_owner := "Lorentz"; m_func := "origin"; m_sig := Sig [] 0 true ["dtype"; "device"; "seed"] false |};
    {| m_name := "dist0"; m_owner := "Lorentz"; m_func := "dist0"; m_sig := Sig ["x"] 1 false ["dim"; "keepdim"] false |};
    {| m_name := "expmap0"; m_owner := "Lorentz"; m_func := "expmap0"; m_sig := Sig ["u"] 1 false ["project"; "dim"] false |};
    {| m_name := "logmap0"; m_owner := "Lorentz"; m_func := "logmap0"; m_sig := Sig ["y"] 1 false ["dim"] false |};
    {| m_name := "logmap0back"; m_owner := "Lorentz"; m_func := "logmap0back"; m_sig := Sig ["x"] 1 false ["dim"] false |};
    {| m_name := "inner0"; m_owner := "Lorentz"; m_func := "inner0"; m_sig := Sig ["v"] 0 false ["keepdim"; "dim"] false |};
    {| m_name := "transp0"; m_owner := "Lorentz"; m_func := "transp0"; m_sig := Sig ["y"; "u"] 2 false ["dim"] false |};
    {| m_name := "transp0back"; m_owner := "Lorentz"; m_func := "transp0back"; m_sig := Sig ["x"; "u"] 2 false ["dim"] false |};
    {| m_name := "geodesic_unit"; m_owner := "Lorentz"; m_func := "geodesic_unit"; m_sig := Sig ["t"; "x"; "u"] 3 false ["dim"; "project"] false |};
    {| m_name := "random_normal"; m_owner := "Lorentz"; m_func := "random_normal"; m_sig := Sig [] 0 true ["mean"; "std"; "dtype"; "device"] false |}] |}.

(** manifolds/stereographic/manifold.py:90 class Stereographic (resolution order: Stereographic, Manifold). *)
Definition cls_Stereographic : cls := {|
  c_name := "Stereographic";
  c_registry := [("dist", Info [1] []); ("dist2", Info [2] []); ("retr", Info [] [("u", (-1))]); ("expmap", Info [] [("u", (-1))]); ("logmap", Info [1] []); ("expmap_transp", Info [] [("u", (-1))]); ("retr_transp", Info [] [("u", (-1))]); ("transp_follow_retr", Info [] [("u", (-1))]); ("transp_follow_expmap", Info [] [("u", (-1))]); ("geodesic_unit", Info [] [("t", (-1))]); ("dist0", Info [1] []); ("expmap0", Info [] [("u", (-1))]); ("logmap0", Info [1] []); ("dist2plane", Info [1] []); ("mobius_fn_apply", NotCompatible); ("mobius_fn_apply_chain", NotCompatible); ("random_normal", Info [] [("std", (-1))]); ("random", Info [] [("std", (-1))]); ("wrapped_normal", Info [] [("std", (-1))])];
  c_methods := [
    {| m_name := "check_point"; m_owner := "Manifold"; m_func := "check_point"; m_sig := Sig ["x"] 1 false ["explain"] false |};
    {| m_name := "assert_check_point"; m_owner := "Manifold"; m_func := "assert_check_point"; m_sig := Sig ["x"] 1 false [] false |};
    {| m_name := "check_vector"; m_owner := "Manifold"; m_func := "check_vector"; m_sig := Sig ["u"] 1 false ["explain"] false |};
    {| m_name := "assert_check_vector"; m_owner := "Manifold"; m_func := "assert_check_vector"; m_sig := Sig ["u"] 1 false [] false |};
    {| m_name := "check_point_on_manifold"; m_owner := "Manifold"; m_func := "check_point_on_manifold"; m_sig := Sig ["x"] 1 false ["explain"; "atol"; "rtol"] false |};
    {| m_name := "assert_check_point_on_manifold"; m_owner := "Manifold"; m_func := "assert_check_point_on_manifold"; m_sig := Sig ["x"] 1 false ["atol"; "rtol"] false |};
    {| m_name := "check_vector_on_tangent"; m_owner := "Manifold"; m_func := "check_vector_on_tangent"; m_sig := Sig ["x"; "u"] 2 false ["ok_point"; "explain"; "atol"; "rtol"] false |};
    {| m_name := "assert_check_vector_on_tangent"; m_owner := "Manifold"; m_func := "assert_check_vector_on_tangent"; m_sig := Sig ["x"; "u"] 2 false ["ok_point"; "atol"; "rtol"] false |};
    {| m_name := "dist"; m_owner := "Stereographic"; m_func := "dist"; m_sig := Sig ["x"; "y"] 2 false ["keepdim"; "dim"] false |};
    {| m_name := "dist2"; m_owner := "Stereographic"; m_func := "dist2"; m_sig := Sig ["x"; "y"] 2 false ["keepdim"; "dim"] false |};
    {| m_name := "retr"; m_owner := "Stereographic"; m_func := "retr"; m_sig := Sig ["x"; "u"] 2 false ["dim"] false |};
    {| m_name := "expmap"; m_owner := "Stereographic"; m_func := "expmap"; m_sig := Sig ["x"; "u"] 2 false ["project"; "dim"] false |};
    {| m_name := "logmap"; m_owner := "Stereographic"; m_func := "logmap"; m_sig := Sig ["x"; "y"] 2 false ["dim"] false |};
    {| m_name := "expmap_transp"; m_owner := "Stereographic"; m_func := "expmap_transp"; m_sig := Sig ["x"; "u"; "v"] 3 false ["dim"; "project"] false |};
    {| m_name := "retr_transp"; m_owner := "Stereographic"; m_func := "retr_transp"; m_sig := Sig ["x"; "u"; "v"] 3 false ["dim"] false |};
    {| m_name := "transp_follow_retr"; m_owner := "Stereographic"; m_func := "transp_follow_retr"; m_sig := Sig ["x"; "u"; "v"] 3 false ["dim"] false |};
    {| m_name := "transp_follow_expmap"; m_owner := "Stereographic"; m_func := "transp_follow_expmap"; m_sig := Sig ["x"; "u"; "v"] 3 false ["dim"; "project"] false |};
    {| m_name := "transp"; m_owner := "Stereographic"; m_func := "transp"; m_sig := Sig ["x"; "y"; "v"] 3 false ["dim"] false |};
    {| m_name := "inner"; m_owner := "Stereographic"; m_func := "inner"; m_sig := Sig ["x"; "u"; "v"] 2 false ["keepdim"; "dim"] false |};
    {| m_name := "component_inner"; m_owner := "Manifold"; m_func := "component_inner"; m_sig := Sig ["x"; "u"; "v"] 2 false [] false |};
    {| m_name := "norm"; m_owner := "Stereographic"; m_func := "norm"; m_sig := Sig ["x"; "u"] 2 false ["keepdim"; "dim"] false |};
    {| m_name := "proju"; m_owner := "Stereographic"; m_func := "proju"; m_sig := Sig ["x"; "u"] 2 false ["dim"] false |};
    {| m_name := "egrad2rgrad"; m_owner := "Stereographic"; m_func := "egrad2rgrad"; m_sig := Sig ["x"; "u"] 2 false ["dim"] false |};
    {| m_name := "projx"; m_owner := "Stereographic"; m_func := "projx"; m_sig := Sig ["x"] 1 false ["dim"] false |};
    {| m_name := "extra_repr"; m_owner := "Manifold"; m_func := "extra_repr"; m_sig := Sig [] 0 false [] false |};
    {| m_name := "unpack_tensor"; m_owner := "Manifold"; m_func := "unpack_tensor"; m_sig := Sig ["tensor"] 1 false [] false |};
    {| m_name := "pack_point"; m_owner := "Manifold"; m_func := "pack_point"; m_sig := Sig [] 0 true [] false |};
    {| m_name := "random"; m_owner := "Stereographic"; m_func := "random_normal"; m_sig := Sig [] 0 true ["mean"; "std"; "dtype"; "device"] false |};
    {| m_name := "origin"; m_owner := "Stereographic"; m_func := "origin"; m_sig := Sig [] 0 true ["dtype"; "device"; "seed"] false |};
    {| m_name := "mobius_add"; m_owner := "Stereographic"; m_func := "mobius_add"; m_sig := Sig ["x"; "y"] 2 false ["dim"; "project"] false |};
    {| m_name := "mobius_sub"; m_owner := "Stereographic"; m_func := "mobius_sub"; m_sig := Sig ["x"; "y"] 2 false ["dim"; "project"] false |};
    {| m_name := "mobius_coadd"; m_owner := "Stereographic"; m_func := "mobius_coadd"; m_sig := Sig ["x"; "y"] 2 false ["dim"; "project"] false |};
    {| m_name := "mobius_cosub"; m_owner := "Stereographic"; m_func := "mobius_cosub"; m_sig := Sig ["x"; "y"] 2 false ["dim"; "project"] false |};
    {| m_name := "mobius_scalar_mul"; m_owner := "Stereographic"; m_func := "mobius_scalar_mul"; m_sig := Sig ["r"; "x"] 2 false ["dim"; "project"] false |};
    {| m_name := "mobius_pointwise_mul"; m_owner := "Stereographic"; m_func := "mobius_pointwise_mul"; m_sig := Sig ["w"; "x"] 2 false ["dim"; "project"] false |};
    {| m_name := "mobius_matvec"; m_owner := "Stereographic"; m_func := "mobius_matvec"; m_sig := Sig ["m"; "x"] 2 false ["dim"; "project"] false |};
    {| m_name := "geodesic"; m_owner := "Stereographic"; m_func := "geodesic"; m_sig := Sig ["t"; "x"; "y"] 3 false ["dim"] false |};
    {| m_name := "geodesic_unit"; m_owner := "Stereographic"; m_func := "geodesic_unit"; m_sig := Sig ["t"; "x"; "u"] 3 false ["dim"; "project"] false |};
    {| m_name := "lambda_x"; m_owner := "Stereographic"; m_func := "lambda_x"; m_sig := Sig ["x"] 1 false ["dim"; "keepdim"] false |};
    {| m_name := "dist0"; m_owner := "Stereographic"; m_func := "dist0"; m_sig := Sig ["x"] 1 false ["dim"; "keepdim"] false |};
    {| m_name := "expmap0"; m_owner := "Stereographic"; m_func := "expmap0"; m_sig := Sig ["u"] 1 false ["dim"; "project"] false |};
    {| m_name := "logmap0"; m_owner := "Stereographic"; m_func := "logmap0"; m_sig := Sig ["x"] 1 false ["dim"] false |};
    {| m_name := "transp0"; m_owner := "Stereographic"; m_func := "transp0"; m_sig := Sig ["y"; "u"] 2 false ["dim"] false |};
    {| m_name := "transp0back"; m_owner := "Stereographic"; m_func := "transp0back"; m_sig := Sig ["y"; "u"] 2 false ["dim"] false |};
    {| m_name := "gyration"; m_owner := "Stereographic"; m_func := "gyration"; m_sig := Sig ["x"; "y"; "z"] 3 false ["dim"] false |};
    {| m_name := "antipode"; m_owner := "Stereographic"; m_func := "antipode"; m_sig := Sig ["x"] 1 false ["dim"] false |};
    {| m_name := "dist2plane"; m_owner := "Stereographic"; m_func := "dist2plane"; m_sig := Sig ["x"; "p"; "a"] 3 false ["dim"; "keepdim"; "signed"; "scaled"] false |};
    {| m_name := "mobius_fn_apply"; m_owner := "Stereographic"; m_func := "mobius_fn_apply"; m_sig := Sig ["fn"; "x"] 2 true ["dim"; "project"] true |};
    {| m_name := "mobius_fn_apply_chain"; m_owner := "Stereographic"; m_func := "mobius_fn_apply_chain"; m_sig := Sig ["x"] 1 true ["project"; "dim"] false |};
    {| m_name := "random_normal"; m_owner := "Stereographic"; m_func := "random_normal"; m_sig := Sig [] 0 true ["mean"; "std"; "dtype"; "device"] false |};
    {| m_name := "wrapped_normal"; m_owner := "Stereographic"; m_func := "wrapped_normal"; m_sig := Sig [] 0 true ["mean"; "std"; "dtype"; "device"] false |};
    {| m_name := "weighted_midpoint"; m_owner := "Stereographic"; m_func := "weighted_midpoint"; m_sig := Sig ["xs"; "weights"] 1 false ["reducedim"; "dim"; "keepdim"; "lincomb"; "posweight"; "project"] false |};
    {| m_name := "sproj"; m_owner := "Stereographic"; m_func := "sproj"; m_sig := Sig ["x"] 1 false ["dim"] false |};
    {| m_name := "inv_sproj"; m_owner := "Stereographic"; m_func := "inv_sproj"; m_sig := Sig ["x"] 1 false ["dim"] false |}] |}.

(** manifolds/stereographic/manifold.py:560 class StereographicExact (resolution order: StereographicExact, Stereographic, Manifold). *)
Definition cls_StereographicExact : cls := {|
  c_name := "StereographicExact";
  c_registry := [("dist", Info [1] []); ("dist2", Info [2] []); ("retr", Info [] [("u", (-1))]); ("expmap", Info [] [("u", (-1))]); ("logmap", Info [1] []); ("expmap_transp", Info [] [("u", (-1))]); ("retr_transp", Info [] [("u", (-1))]); ("transp_follow_retr", Info [] [("u", (-1))]); ("transp_follow_expmap", Info [] [("u", (-1))]); ("geodesic_unit", Info [] [("t", (-1))]); ("dist0", Info [1] []); ("expmap0", Info [] [("u", (-1))]); ("logmap0", Info [1] []); ("dist2plane", Info [1] []); ("mobius_fn_apply", NotCompatible); ("mobius_fn_apply_chain", NotCompatible); ("random_normal", Info [] [("std", (-1))]); ("random", Info [] [("std", (-1))]); ("wrapped_normal", Info [] [("std", (-1))])];
  c_methods := [
    {| m_name := "check_point"; m_owner := "Manifold"; m_func := "check_point"; m_sig := Sig ["x"] 1 false ["explain"] false |};
    {| m_name := "assert_check_point"; m_owner := "Manifold"; m_func := "assert_check_point"; m_sig := Sig ["x"] 1 false [] false |};
    {| m_name := "check_vector"; m_owner := "Manifold"; m_func := "check_vector"; m_sig := Sig ["u"] 1 false ["explain"] false |};
    {| m_name := "assert_check_vector"; m_owner := "Manifold"; m_func := "assert_check_vector"; m_sig := Sig ["u"] 1 false [] false |};
    {| m_name := "check_point_on_manifold"; m_owner := "Manifold"; m_func := "check_point_on_manifold"; m_sig := Sig ["x"] 1 false ["explain"; "atol"; "rtol"] false |};
    {| m_name := "assert_check_point_on_manifold"; m_owner := "Manifold"; m_func := "assert_check_point_on_manifold"; m_sig := Sig ["x"] 1 false ["atol"; "rtol"] false |};
    {| m_name := "check_vector_on_tangent"; m_owner := "Manifold"; m_func := "check_vector_on_tangent"; m_sig := Sig ["x"; "u"] 2 false ["ok_point"; "explain"; "atol"; "rtol"] false |};
    {| m_name := "assert_check_vector_on_tangent"; m_owner := "Manifold"; m_func := "assert_check_vector_on_tangent"; m_sig := Sig ["x"; "u"] 2 false ["ok_point"; "atol"; "rtol"] false |};
    {| m_name := "dist"; m_owner := "Stereographic"; m_func := "dist"; m_sig := Sig ["x"; "y"] 2 false ["keepdim"; "dim"] false |};
    {| m_name := "dist2"; m_owner := "Stereographic"; m_func := "dist2"; m_sig := Sig ["x"; "y"] 2 false ["keepdim"; "dim"] false |};
    {| m_name := "retr"; m_owner := "Stereographic"; m_func := "expmap"; m_sig := Sig ["x"; "u"] 2 false ["project"; "dim"] false |};
    {| m_name := "expmap"; m_owner := "Stereographic"; m_func := "expmap"; m_sig := Sig ["x"; "u"] 2 false ["project"; "dim"] false |};
    {| m_name := "logmap"; m_owner := "Stereographic"; m_func := "logmap"; m_sig := Sig ["x"; "y"] 2 false ["dim"] false |};
    {| m_name := "expmap_transp"; m_owner := "Stereographic"; m_func := "expmap_transp"; m_sig := Sig ["x"; "u"; "v"] 3 false ["dim"; "project"] false |};
    {| m_name := "retr_transp"; m_owner := "Stereographic"; m_func := "expmap_transp"; m_sig := Sig ["x"; "u"; "v"] 3 false ["dim"; "project"] false |};
    {| m_name := "transp_follow_retr"; m_owner := "Stereographic"; m_func := "transp_follow_expmap"; m_sig := Sig ["x"; "u"; "v"] 3 false ["dim"; "project"] false |};
    {| m_name := "transp_follow_expmap"; m_owner := "Stereographic"; m_func := "transp_follow_expmap"; m_sig := Sig ["x"; "u"; "v"] 3 false ["dim"; "project"] false |};
    {| m_name := "transp"; m_owner := "Stereographic"; m_func := "transp"; m_sig := Sig ["x"; "y"; "v"] 3 false ["dim"] false |};
    {| m_name := "inner"; m_owner := "Stereographic"; m_func := "inner"; m_sig := Sig ["x"; "u"; "v"] 2 false ["keepdim"; "dim"] false |};
    {| m_name := "component_inner"; m_owner := "Manifold"; m_func := "component_inner"; m_sig := Sig ["x"; "u"; "v"] 2 false [] false |};
    {| m_name := "norm"; m_owner := "Stereographic"; m_func := "norm"; m_sig := Sig ["x"; "u"] 2 false ["keepdim"; "dim"] false |};
    {| m_name := "proju"; m_owner := "Stereographic"; m_func := "proju"; m_sig := Sig ["x"; "u"] 2 false ["dim"] false |};
    {| m_name := "egrad2rgrad"; m_owner := "Stereographic"; m_func := "egrad2rgrad"; m_sig := Sig ["x"; "u"] 2 false ["dim"] false |};
    {| m_name := "projx"; m_owner := "Stereographic"; m_func := "projx"; m_sig := Sig ["x"] 1 false ["dim"] false |};
    {| m_name := "extra_repr"; m_owner := "StereographicExact"; m_func := "extra_repr"; m_sig := Sig [] 0 false [] false |};
    {| m_name := "unpack_tensor"; m_owner := "Manifold"; m_func := "unpack_tensor"; m_sig := Sig ["tensor"] 1 false [] false |};
    {| m_name := "pack_point"; m_owner := "Manifold"; m_func := "pack_point"; m_sig := Sig [] 0 true [] false |};
    {| m_name := "random"; m_owner := "Stereographic"; m_func := "random_normal"; m_sig := Sig [] 0 true ["mean"; "std"; "dtype"; "device"] false |};
    {| m_name := "origin"; m_owner := "Stereographic"; m_func := "origin"; m_sig := Sig [] 0 true ["dtype"; "device"; "seed"] false |};
    {| m_name := "mobius_add"; m_owner := "Stereographic"; m_func := "mobius_add"; m_sig := Sig ["x"; "y"] 2 false ["dim"; "project"] false |};
    {| m_name := "mobius_sub"; m_owner := "Stereographic"; m_func := "mobius_sub"; m_sig := Sig ["x"; "y"] 2 false ["dim"; "project"] false |};
    {| m_name := "mobius_coadd"; m_owner := "Stereographic"; m_func := "mobius_coadd"; m_sig := Sig ["x"; "y"] 2 false ["dim"; "project"] false |};
    {| m_name := "mobius_cosub"; m_owner := "Stereographic"; m_func := "mobius_cosub"; m_sig := Sig ["x"; "y"] 2 false ["dim"; "project"] false |};
    {| m_name := "mobius_scalar_mul"; m_owner := "Stereographic"; m_func := "mobius_scalar_mul"; m_sig := Sig ["r"; "x"] 2 false ["dim"; "project"] false |};
    {| m_name := "mobius_pointwise_mul"; m_owner := "Stereographic"; m_func := "mobius_pointwise_mul"; m_sig := Sig ["w"; "x"] 2 false ["dim"; "project"] false |};
    {| m_name := "mobius_matvec"; m_owner := "Stereographic"; m_func := "mobius_matvec"; m_sig := Sig ["m"; "x"] 2 false ["dim"; "project"] false |};
    {| m_name := "geodesic"; m_owner := "Stereographic"; m_func := "geodesic"; m_sig := Sig ["t"; "x"; "y"] 3 false ["dim"] false |};
    {| m_name := "geodesic_unit"; m_owner := "Stereographic"; m_func := "geodesic_unit"; m_sig := Sig ["t"; "x"; "u"] 3 false ["dim"; "project"] false |};
    {| m_name := "lambda_x"; m_owner := "Stereographic"; m_func := "lambda_x"; m_sig := Sig ["x"] 1 false ["dim"; "keepdim"] false |};
    {| m_name := "dist0"; m_owner := "Stereographic"; m_func := "dist0"; m_sig := Sig ["x"] 1 false ["dim"; "keepdim"] false |};
    {| m_name := "expmap0"; m_owner := "Stereographic"; m_func := "expmap0"; m_sig := Sig ["u"] 1 false ["dim"; "project"] false |};
    {| m_name := "logmap0"; m_owner := "Stereographic"; m_func := "logmap0"; m_sig := Sig ["x"] 1 false ["dim"] false |};
    {| m_name := "transp0"; m_owner := "Stereographic"; m_func := "transp0"; m_sig := Sig ["y"; "u"] 2 false ["dim"] false |};
    {| m_name := "transp0back"; m_owner := "Stereographic"; m_func := "transp0back"; m_sig := Sig ["y"; "u"] 2 false ["dim"] false |};
    {| m_name := "gyration"; m_owner := "Stereographic"; m_func := "gyration"; m_sig := Sig ["x"; "y"; "z"] 3 false ["dim"] false |};
    {| m_name := "antipode"; m_owner := "Stereographic"; m_func := "antipode"; m_sig := Sig ["x"] 1 false ["dim"] false |};
    {| m_name := "dist2plane"; m_owner := "Stereographic"; m_func := "dist2plane"; m_sig := Sig ["x"; "p"; "a"] 3 false ["dim"; "keepdim"; "signed"; "scaled"] false |};
    {| m_name := "mobius_fn_apply"; m_owner := "Stereographic"; m_func := "mobius_fn_apply"; m_sig := Sig ["fn"; "x"] 2 true ["dim"; "project"] true |};
    {| m_name := "mobius_fn_apply_chain"; m_owner := "Stereographic"; m_func := "mobius_fn_apply_chain"; m_sig := Sig ["x"] 1 true ["project"; "dim"] false |};
    {| m_name := "random_normal"; m_owner := "Stereographic"; m_func := "random_normal"; m_sig := Sig [] 0 true ["mean"; "std"; "dtype"; "device"] false |};
    {| m_name := "wrapped_normal"; m_owner := "Stereographic"; m_func := "wrapped_normal"; m_sig := Sig [] 0 true ["mean"; "std"; "dtype"; "device"] false |};
    {| m_name := "weighted_midpoint"; m_owner := "Stereographic"; m_func := "weighted_midpoint"; m_sig := Sig ["xs"; "weights"] 1 false ["reducedim"; "dim"; "keepdim"; "lincomb"; "posweight"; "project"] false |};
    {| m_name := "sproj"; m_owner := "Stereographic"; m_func := "sproj"; m_sig := Sig ["x"] 1 false ["dim"] false |};
    {| m_name := "inv_sproj"; m_owner := "Stereographic"; m_func := "inv_sproj"; m_sig := Sig ["x"] 1 false ["dim"] false |}] |}.

(** manifolds/stereographic/manifold.py:585 class PoincareBall (resolution order: PoincareBall, Stereographic, Manifold). *)
Definition cls_PoincareBall : cls := {|
  c_name := "PoincareBall";
  c_registry := [("dist", Info [1] []); ("dist2", Info [2] []); ("retr", Info [] [("u", (-1))]); ("expmap", Info [] [("u", (-1))]); ("logmap", Info [1] []); ("expmap_transp", Info [] [("u", (-1))]); ("retr_transp", Info [] [("u", (-1))]); ("transp_follow_retr", Info [] [("u", (-1))]); ("transp_follow_expmap", Info [] [("u", (-1))]); ("geodesic_unit", Info [] [("t", (-1))]); ("dist0", Info [1] []); ("expmap0", Info [] [("u", (-1))]); ("logmap0", Info [1] []); ("dist2plane", Info [1] []); ("mobius_fn_apply", NotCompatible); ("mobius_fn_apply_chain", NotCompatible); ("random_normal", Info [] [("std", (-1))]); ("random", Info [] [("std", (-1))]); ("wrapped_normal", Info [] [("std", (-1))])];
  c_methods := [
    {| m_name := "check_point"; m_owner := "Manifold"; m_func := "check_point"; m_sig := Sig ["x"] 1 false ["explain"] false |};
    {| m_name := "assert_check_point"; m_owner := "Manifold"; m_func := "assert_check_point"; m_sig := Sig ["x"] 1 false [] false |};
    {| m_name := "check_vector"; m_owner := "Manifold"; m_func := "check_vector"; m_sig := Sig ["u"] 1 false ["explain"] false |};
    {| m_name := "assert_check_vector"; m_owner := "Manifold"; m_func := "assert_check_vector"; m_sig := Sig ["u"] 1 false [] false |};
    {| m_name := "check_point_on_manifold"; m_owner := "Manifold"; m_func := "check_point_on_manifold"; m_sig := Sig ["x"] 1 false ["explain"; "atol"; "rtol"] false |};
    {| m_name := "assert_check_point_on_manifold"; m_owner := "Manifold"; m_func := "assert_check_point_on_manifold"; m_sig := Sig ["x"] 1 false ["atol"; "rtol"] false |};
    {| m_name := "check_vector_on_tangent"; m_owner := "Manifold"; m_func := "check_vector_on_tangent"; m_sig := Sig ["x"; "u"] 2 false ["ok_point"; "explain"; "atol"; "rtol"] false |};
    {| m_name := "assert_check_vector_on_tangent"; m_owner := "Manifold"; m_func := "assert_check_vector_on_tangent"; m_sig := Sig ["x"; "u"] 2 false ["ok_point"; "atol"; "rtol"] false |};
    {| m_name := "dist"; m_owner := "Stereographic"; m_func := "dist"; m_sig := Sig ["x"; "y"] 2 false ["keepdim"; "dim"] false |};
    {| m_name := "dist2"; m_owner := "Stereographic"; m_func := "dist2"; m_sig := Sig ["x"; "y"] 2 false ["keepdim"; "dim"] false |};
    {| m_name := "retr"; m_owner := "Stereographic"; m_func := "retr"; m_sig := Sig ["x"; "u"] 2 false ["dim"] false |};
    {| m_name := "expmap"; m_owner := "Stereographic"; m_func := "expmap"; m_sig := Sig ["x"; "u"] 2 false ["project"; "dim"] false |};
    {| m_name := "logmap"; m_owner := "Stereographic"; m_func := "logmap"; m_sig := Sig ["x"; "y"] 2 false ["dim"] false |};
    {| m_name := "expmap_transp"; m_owner := "Stereographic"; m_func := "expmap_transp"; m_sig := Sig ["x"; "u"; "v"] 3 false ["dim"; "project"] false |};
    {| m_name := "retr_transp"; m_owner := "Stereographic"; m_func := "retr_transp"; m_sig := Sig ["x"; "u"; "v"] 3 false ["dim"] false |};
    {| m_name := "transp_follow_retr"; m_owner := "Stereographic"; m_func := "transp_follow_retr"; m_sig := Sig ["x"; "u"; "v"] 3 false ["dim"] false |};
    {| m_name := "transp_follow_expmap"; m_owner := "Stereographic"; m_func := "transp_follow_expmap"; m_sig := Sig ["x"; "u"; "v"] 3 false ["dim"; "project"] false |};
    {| m_name := "transp"; m_owner := "Stereographic"; m_func := "transp"; m_sig := Sig ["x"; "y"; "v"] 3 false ["dim"] false |};
    {| m_name := "inner"; m_owner := "Stereographic"; m_func := "inner"; m_sig := Sig ["x"; "u"; "v"] 2 false ["keepdim"; "dim"] false |};
    {| m_name := "component_inner"; m_owner := "Manifold"; m_func := "component_inner"; m_sig := Sig ["x"; "u"; "v"] 2 false [] false |};
    {| m_name := "norm"; m_owner := "Stereographic"; m_func := "norm"; m_sig := Sig ["x"; "u"] 2 false ["keepdim"; "dim"] false |};
    {| m_name := "proju"; m_owner := "Stereographic"; m_func := "proju"; m_sig := Sig ["x"; "u"] 2 false ["dim"] false |};
    {| m_name := "egrad2rgrad"; m_owner := "Stereographic"; m_func := "egrad2rgrad"; m_sig := Sig ["x"; "u"] 2 false ["dim"] false |};
    {| m_name := "projx"; m_owner := "Stereographic"; m_func := "projx"; m_sig := Sig ["x"] 1 false ["dim"] false |};
    {| m_name := "extra_repr"; m_owner := "Manifold"; m_func := "extra_repr"; m_sig := Sig [] 0 false [] false |};
    {| m_name := "unpack_tensor"; m_owner := "Manifold"; m_func := "unpack_tensor"; m_sig := Sig ["tensor"] 1 false [] false |};
    {| m_name := "pack_point"; m_owner := "Manifold"; m_func := "pack_point"; m_sig := Sig [] 0 true [] false |};
    {| m_name := "random"; m_owner := "Stereographic"; m_func := "random_normal"; m_sig := Sig [] 0 true ["mean"; "std"; "dtype"; "device"] false |};
    {| m_name := "origin"; m_owner := "Stereographic"; m_func := "origin"; m_sig := Sig [] 0 true ["dtype"; "device"; "seed"] false |};
    {| m_name := "mobius_add"; m_owner := "Stereographic"; m_func := "mobius_add"; m_sig := Sig ["x"; "y"] 2 false ["dim"; "project"] false |};
    {| m_name := "mobius_sub"; m_owner := "Stereographic"; m_func := "mobius_sub"; m_sig := Sig ["x"; "y"] 2 false ["dim"; "project"] false |};
    {| m_name := "mobius_coadd"; m_owner := "Stereographic"; m_func := "mobius_coadd"; m_sig := Sig ["x"; "y"] 2 false ["dim"; "project"] false |};
    {| m_name := "mobius_cosub"; m_owner := "Stereographic"; m_func := "mobius_cosub"; m_sig := Sig ["x"; "y"] 2 false ["dim"; "project"] false |};
    {| m_name := "mobius_scalar_mul"; m_owner := "Stereographic"; m_func := "mobius_scalar_mul"; m_sig := Sig ["r"; "x"] 2 false ["dim"; "project"] false |};
    {| m_name := "mobius_pointwise_mul"; m_owner := "Stereographic"; m_func := "mobius_pointwise_mul"; m_sig := Sig ["w"; "x"] 2 false ["dim"; "project"] false |};
    {| m_name := "mobius_matvec"; m_owner := "Stereographic"; m_func := "mobius_matvec"; m_sig := Sig ["m"; "x"] 2 false ["dim"; "project"] false |};
    {| m_name := "geodesic"; m_owner := "Stereographic"; m_func := "geodesic"; m_sig := Sig ["t"; "x"; "y"] 3 false ["dim"] false |};
    {| m_name := "geodesic_unit"; m_owner := "Stereographic"; m_func := "geodesic_unit"; m_sig := Sig ["t"; "x"; "u"] 3 false ["dim"; "project"] false |};
    {| m_name := "lambda_x"; m_owner := "Stereographic"; m_func := "lambda_x"; m_sig := Sig ["x"] 1 false ["dim"; "keepdim"] false |};
    {| m_name := "dist0"; m_owner := "Stereographic"; m_func := "dist0"; m_sig := Sig ["x"] 1 false ["dim"; "keepdim"] false |};
    {| m_name := "expmap0"; m_owner := "Stereographic"; m_func := "expmap0"; m_sig := Sig ["u"] 1 false ["dim"; "project"] false |};
    {| m_name := "logmap0"; m_owner := "Stereographic"; m_func := "logmap0"; m_sig := Sig ["x"] 1 false ["dim"] false |};
    {| m_name := "transp0"; m_owner := "Stereographic"; m_func := "transp0"; m_sig := Sig ["y"; "u"] 2 false ["dim"] false |};
    {| m_name := "transp0back"; m_owner := "Stereographic"; m_func := "transp0back"; m_sig := Sig ["y"; "u"] 2 false ["dim"] false |};
    {| m_name := "gyration"; m_owner := "Stereographic"; m_func := "gyration"; m_sig := Sig ["x"; "y"; "z"] 3 false ["dim"] false |};
    {| m_name := "antipode"; m_owner := "Stereographic"; m_func := "antipode"; m_sig := Sig ["x"] 1 false ["dim"] false |};
    {| m_name := "dist2plane"; m_owner := "Stereographic"; m_func := "dist2plane"; m_sig := Sig ["x"; "p"; "a"] 3 false ["dim"; "keepdim"; "signed"; "scaled"] false |};
    {| m_name := "mobius_fn_apply"; m_owner := "Stereographic"; m_func := "mobius_fn_apply"; m_sig := Sig ["fn"; "x"] 2 true ["dim"; "project"] true |};
    {| m_name := "mobius_fn_apply_chain"; m_owner := "Stereographic"; m_func := "mobius_fn_apply_chain"; m_sig := Sig ["x"] 1 true ["project"; "dim"] false |};
    {| m_name := "random_normal"; m_owner := "Stereographic"; m_func := "random_normal"; m_sig := Sig [] 0 true ["mean"; "std"; "dtype"; "device"] false |};
    {| m_name := "wrapped_normal"; m_owner := "Stereographic"; m_func := "wrapped_normal"; m_sig := Sig [] 0 true ["mean"; "std"; "dtype"; "device"] false |};
    {| m_name := "weighted_midpoint"; m_owner := "Stereographic"; m_func := "weighted_midpoint"; m_sig := Sig ["xs"; "weights"] 1 false ["reducedim"; "dim"; "keepdim"; "lincomb"; "posweight"; "project"] false |};
    {| m_name := "sproj"; m_owner := "Stereographic"; m_func := "sproj"; m_sig := Sig ["x"] 1 false ["dim"] false |};
    {| m_name := "inv_sproj"; m_owner := "Stereographic"; m_func := "inv_sproj"; m_sig := Sig ["x"] 1 false ["dim"] false |}] |}.

(** manifolds/stereographic/manifold.py:614 class PoincareBallExact (resolution order: PoincareBallExact, PoincareBall, StereographicExact, Stereographic, Manifold). *)
Definition cls_PoincareBallExact : cls := {|
  c_name := "PoincareBallExact";
  c_registry := [("dist", Info [1] []); ("dist2", Info [2] []); ("retr", Info [] [("u", (-1))]); ("expmap", Info [] [("u", (-1))]); ("logmap", Info [1] []); ("expmap_transp", Info [] [("u", (-1))]); ("retr_transp", Info [] [("u", (-1))]); ("transp_follow_retr", Info [] [("u", (-1))]); ("transp_follow_expmap", Info [] [("u", (-1))]); ("geodesic_unit", Info [] [("t", (-1))]); ("dist0", Info [1] []); ("expmap0", Info [] [("u", (-1))]); ("logmap0", Info [1] []); ("dist2plane", Info [1] []); ("mobius_fn_apply", NotCompatible); ("mobius_fn_apply_chain", NotCompatible); ("random_normal", Info [] [("std", (-1))]); ("random", Info [] [("std", (-1))]); ("wrapped_normal", Info [] [("std", (-1))])];
  c_methods := [
    {| m_name := "check_point"; m_owner := "Manifold"; m_func := "check_point"; m_sig := Sig ["x"] 1 false ["explain"] false |};
    {| m_name := "assert_check_point"; m_owner := "Manifold"; m_func := "assert_check_point"; m_sig := Sig ["x"] 1 false [] false |};
    {| m_name := "check_vector"; m_owner := "Manifold"; m_func := "check_vector"; m_sig := Sig ["u"] 1 false ["explain"] false |};
    {| m_name := "assert_check_vector"; m_owner := "Manifold"; m_func := "assert_check_vector"; m_sig := Sig ["u"] 1 false [] false |};
    {| m_name := "check_point_on_manifold"; m_owner := "Manifold"; m_func := "check_point_on_manifold"; m_sig := Sig ["x"] 1 false ["explain"; "atol"; "rtol"] false |};
    {| m_name := "assert_check_point_on_manifold"; m_owner := "Manifold"; m_func := "assert_check_point_on_manifold"; m_sig := Sig ["x"] 1 false ["atol"; "rtol"] false |};
    {| m_name := "check_vector_on_tangent"; m_owner := "Manifold"; m_func := "check_vector_on_tangent"; m_sig := Sig ["x"; "u"] 2 false ["ok_point"; "explain"; "atol"; "rtol"] false |};
    {| m_name := "assert_check_vector_on_tangent"; m_owner := "Manifold"; m_func := "assert_check_vector_on_tangent"; m_sig := Sig ["x"; "u"] 2 false ["ok_point"; "atol"; "rtol"] false |};
    {| m_name := "dist"; m_owner := "Stereographic"; m_func := "dist"; m_sig := Sig ["x"; "y"] 2 false ["keepdim"; "dim"] false |};
    {| m_name := "dist2"; m_owner := "Stereographic"; m_func := "dist2"; m_sig := Sig ["x"; "y"] 2 false ["keepdim"; "dim"] false |};
    {| m_name := "retr"; m_owner := "Stereographic"; m_func := "expmap"; m_sig := Sig ["x"; "u"] 2 false ["project"; "dim"] false |};
    {| m_name := "expmap"; m_owner := "Stereographic"; m_func := "expmap"; m_sig := Sig ["x"; "u"] 2 false ["project"; "dim"] false |};
    {| m_name := "logmap"; m_owner := "Stereographic"; m_func := "logmap"; m_sig := Sig ["x"; "y"] 2 false ["dim"] false |};
    {| m_name := "expmap_transp"; m_owner := "Stereographic"; m_func := "expmap_transp"; m_sig := Sig ["x"; "u"; "v"] 3 false ["dim"; "project"] false |};
    {| m_name := "retr_transp"; m_owner := "Stereographic"; m_func := "expmap_transp"; m_sig := Sig ["x"; "u"; "v"] 3 false ["dim"; "project"] false |};
    {| m_name := "transp_follow_retr"; m_owner := "Stereographic"; m_func := "transp_follow_expmap"; m_sig := Sig ["x"; "u"; "v"] 3 false ["dim"; "project"] false |};
    {| m_name := "transp_follow_expmap"; m_owner := "Stereographic"; m_func := "transp_follow_expmap"; m_sig := Sig ["x"; "u"; "v"] 3 false ["dim"; "project"] false |};
    {| m_name := "transp"; m_owner := "Stereographic"; m_func := "transp"; m_sig := Sig ["x"; "y"; "v"] 3 false ["dim"] false |};
    {| m_name := "inner"; m_owner := "Stereographic"; m_func := "inner"; m_sig := Sig ["x"; "u"; "v"] 2 false ["keepdim"; "dim"] false |};
    {| m_name := "component_inner"; m_owner := "Manifold"; m_func := "component_inner"; m_sig := Sig ["x"; "u"; "v"] 2 false [] false |};
    {| m_name := "norm"; m_owner := "Stereographic"; m_func := "norm"; m_sig := Sig ["x"; "u"] 2 false ["keepdim"; "dim"] false |};
    {| m_name := "proju"; m_owner := "Stereographic"; m_func := "proju"; m_sig := Sig ["x"; "u"] 2 false ["dim"] false |};
    {| m_name := "egrad2rgrad"; m_owner := "Stereographic"; m_func := "egrad2rgrad"; m_sig := Sig ["x"; "u"] 2 false ["dim"] false |};
    {| m_name := "projx"; m_owner := "Stereographic"; m_func := "projx"; m_sig := Sig ["x"] 1 false ["dim"] false |};
    {| m_name := "extra_repr"; m_owner := "StereographicExact"; m_func := "extra_repr"; m_sig := Sig [] 0 false [] false |};
    {| m_name := "unpack_tensor"; m_owner := "Manifold"; m_func := "unpack_tensor"; m_sig := Sig ["tensor"] 1 false [] false |};
    {| m_name := "pack_point"; m_owner := "Manifold"; m_func := "pack_point"; m_sig := Sig [] 0 true [] false |};
    {| m_name := "random"; m_owner := "Stereographic"; m_func := "random_normal"; m_sig := Sig [] 0 true ["mean"; "std"; "dtype"; "device"] false |};
    {| m_name := "origin"; m_owner := "Stereographic"; m_func := "origin"; m_sig := Sig [] 0 true ["dtype"; "device"; "seed"] false |};
    {| m_name := "mobius_add"; m_owner := "Stereographic"; m_func := "mobius_add"; m_sig := Sig ["x"; "y"] 2 false ["dim"; "project"] false |};
    {| m_name := "mobius_sub"; m_owner := "Stereographic"; m_func := "mobius_sub"; m_sig := Sig ["x"; "y"] 2 false ["dim"; "project"] false |};
    {| m_name := "mobius_coadd"; m_owner := "Stereographic"; m_func := "mobius_coadd"; m_sig := Sig ["x"; "y"] 2 false ["dim"; "project"] false |};
    {| m_name := "mobius_cosub"; m_owner := "Stereographic"; m_func := "mobius_cosub"; m_sig := Sig ["x"; "y"] 2 false ["dim"; "project"] false |};
    {| m_name := "mobius_scalar_mul"; m_owner := "Stereographic"; m_func := "mobius_scalar_mul"; m_sig := Sig ["r"; "x"] 2 false ["dim"; "project"] false |};
    {| m_name := "mobius_pointwise_mul"; m_owner := "Stereographic"; m_func := "mobius_pointwise_mul"; m_sig := Sig ["w"; "x"] 2 false ["dim"; "project"] false |};
    {| m_name := "mobius_matvec"; m_owner := "Stereographic"; m_func := "mobius_matvec"; m_sig := Sig ["m"; "x"] 2 false ["dim"; "project"] false |};
    {| m_name := "geodesic"; m_owner := "Stereographic"; m_func := "geodesic"; m_sig := Sig ["t"; "x"; "y"] 3 false ["dim"] false |};
    {| m_name := "geodesic_unit"; m_owner := "Stereographic"; m_func := "geodesic_unit"; m_sig := Sig ["t"; "x"; "u"] 3 false ["dim"; "project"] false |};
    {| m_name := "lambda_x"; m_owner := "Stereographic"; m_func := "lambda_x"; m_sig := Sig ["x"] 1 false ["dim"; "keepdim"] false |};
    {| m_name := "dist0"; m_owner := "Stereographic"; m_func := "dist0"; m_sig := Sig ["x"] 1 false ["dim"; "keepdim"] false |};
    {| m_name := "expmap0"; m_owner := "Stereographic"; m_func := "expmap0"; m_sig := Sig ["u"] 1 false ["dim"; "project"] false |};
    {| m_name := "logmap0"; m_owner := "Stereographic"; m_func := "logmap0"; m_sig := Sig ["x"] 1 false ["dim"] false |};
    {| m_name := "transp0"; m_owner := "Stereographic"; m_func := "transp0"; m_sig := Sig ["y"; "u"] 2 false ["dim"] false |};
    {| m_name := "transp0back"; m_owner := "Stereographic"; m_func := "transp0back"; m_sig := Sig ["y"; "u"] 2 false ["dim"] false |};
    {| m_name := "gyration"; m_owner := "Stereographic"; m_func := "gyration"; m_sig := Sig ["x"; "y"; "z"] 3 false ["dim"] false |};
    {| m_name := "antipode"; m_owner := "Stereographic"; m_func := "antipode"; m_sig := Sig ["x"] 1 false ["dim"] false |};
    {| m_name := "dist2plane"; m_owner := "Stereographic"; m_func := "dist2plane"; m_sig := Sig ["x"; "p"; "a"] 3 false ["dim"; "keepdim"; "signed"; "scaled"] false |};
    {| m_name := "mobius_fn_apply"; m_owner := "Stereographic"; m_func := "mobius_fn_apply"; m_sig := Sig ["fn"; "x"] 2 true ["dim"; "project"] true |};
    {| m_name := "mobius_fn_apply_chain"; m_owner := "Stereographic"; m_func := "mobius_fn_apply_chain"; m_sig := Sig ["x"] 1 true ["project"; "dim"] false |};
    {| m_name := "random_normal"; m_owner := "Stereographic"; m_func := "random_normal"; m_sig := Sig [] 0 true ["mean"; "std"; "dtype"; "device"] false |};
    {| m_name := "wrapped_normal"; m_owner := "Stereographic"; m_func := "wrapped_normal"; m_sig := Sig [] 0 true ["mean"; "std"; "dtype"; "device"] false |};
    {| m_name := "weighted_midpoint"; m_owner := "Stereographic"; m_func := "weighted_midpoint"; m_sig := Sig ["xs"; "weights"] 1 false ["reducedim"; "dim"; "keepdim"; "lincomb"; "posweight"; "project"] false |};
    {| m_name := "sproj"; m_owner := "Stereographic"; m_func := "sproj"; m_sig := Sig ["x"] 1 false ["dim"] false |};
    {| m_name := "inv_sproj"; m_owner := "Stereographic"; m_func := "inv_sproj"; m_sig := Sig ["x"] 1 false ["dim"] false |}] |}.

(** manifolds/stereographic/manifold.py:631 class SphereProjection (resolution order: SphereProjection, Stereographic, Manifold). *)
Definition cls_SphereProjection : cls := {|
  c_name := "SphereProjection";
  c_registry := [("dist", Info [1] []); ("dist2", Info [2] []); ("retr", Info [] [("u", (-1))]); ("expmap", Info [] [("u", (-1))]); ("logmap", Info [1] []); ("expmap_transp", Info [] [("u", (-1))]); ("retr_transp", Info [] [("u", (-1))]); ("transp_follow_retr", Info [] [("u", (-1))]); ("transp_follow_expmap", Info [] [("u", (-1))]); ("geodesic_unit", Info [] [("t", (-1))]); ("dist0", Info [1] []); ("expmap0", Info [] [("u", (-1))]); ("logmap0", Info [1] []); ("dist2plane", Info [1] []); ("mobius_fn_apply", NotCompatible); ("mobius_fn_apply_chain", NotCompatible); ("random_normal", Info [] [("std", (-1))]); ("random", Info [] [("std", (-1))]); ("wrapped_normal", Info [] [("std", (-1))])];
  c_methods := [
    {| m_name := "check_point"; m_owner := "Manifold"; m_func := "check_point"; m_sig := Sig ["x"] 1 false ["explain"] false |};
    {| m_name := "assert_check_point"; m_owner := "Manifold"; m_func := "assert_check_point"; m_sig := Sig ["x"] 1 false [] false |};
    {| m_name := "check_vector"; m_owner := "Manifold"; m_func := "check_vector"; m_sig := Sig ["u"] 1 false ["explain"] false |};
    {| m_name := "assert_check_vector"; m_owner := "Manifold"; m_func := "assert_check_vector"; m_sig := Sig ["u"] 1 false [] false |};
    {| m_name := "check_point_on_manifold"; m_owner := "Manifold"; m_func := "check_point_on_manifold"; m_sig := Sig ["x"] 1 false ["explain"; "atol"; "rtol"] false |};
    {| m_name := "assert_check_point_on_manifold"; m_owner := "Manifold"; m_func := "assert_check_point_on_manifold"; m_sig := Sig ["x"] 1 false ["atol"; "rtol"] false |};
    {| m_name := "check_vector_on_tangent"; m_owner := "Manifold"; m_func := "check_vector_on_tangent"; m_sig := Sig ["x"; "u"] 2 false ["ok_point"; "explain"; "atol"; "rtol"] false |};
    {| m_name := "assert_check_vector_on_tangent"; m_owner := "Manifold"; m_func := "assert_check_vector_on_tangent"; m_sig := Sig ["x"; "u"] 2 false ["ok_point"; "atol"; "rtol"] false |};
    {| m_name := "dist"; m_owner := "Stereographic"; m_func := "dist"; m_sig := Sig ["x"; "y"] 2 false ["keepdim"; "dim"] false |};
    {| m_name := "dist2"; m_owner := "Stereographic"; m_func := "dist2"; m_sig := Sig ["x"; "y"] 2 false ["keepdim"; "dim"] false |};
    {| m_name := "retr"; m_owner := "Stereographic"; m_func := "retr"; m_sig := Sig ["x"; "u"] 2 false ["dim"] false |};
    {| m_name := "expmap"; m_owner := "Stereographic"; m_func := "expmap"; m_sig := Sig ["x"; "u"] 2 false ["project"; "dim"] false |};
    {| m_name := "logmap"; m_owner := "Stereographic"; m_func := "logmap"; m_sig := Sig ["x"; "y"] 2 false ["dim"] false |};
    {| m_name := "expmap_transp"; m_owner := "Stereographic"; m_func := "expmap_transp"; m_sig := Sig ["x"; "u"; "v"] 3 false ["dim"; "project"] false |};
    {| m_name := "retr_transp"; m_owner := "Stereographic"; m_func := "retr_transp"; m_sig := Sig ["x"; "u"; "v"] 3 false ["dim"] false |};
    {| m_name := "transp_follow_retr"; m_owner := "Stereographic"; m_func := "transp_follow_retr"; m_sig := Sig ["x"; "u"; "v"] 3 false ["dim"] false |};
    {| m_name := "transp_follow_expmap"; m_owner := "Stereographic"; m_func := "transp_follow_expmap"; m_sig := Sig ["x"; "u"; "v"] 3 false ["dim"; "project"] false |};
    {| m_name := "transp"; m_owner := "Stereographic"; m_func := "transp"; m_sig := Sig ["x"; "y"; "v"] 3 false ["dim"] false |};
    {| m_name := "inner"; m_owner := "Stereographic"; m_func := "inner"; m_sig := Sig ["x"; "u"; "v"] 2 false ["keepdim"; "dim"] false |};
    {| m_name := "component_inner"; m_owner := "Manifold"; m_func := "component_inner"; m_sig := Sig ["x"; "u"; "v"] 2 false [] false |};
    {| m_name := "norm"; m_owner := "Stereographic"; m_func := "norm"; m_sig := Sig ["x"; "u"] 2 false ["keepdim"; "dim"] false |};
    {| m_name := "proju"; m_owner := "Stereographic"; m_func := "proju"; m_sig := Sig ["x"; "u"] 2 false ["dim"] false |};
    {| m_name := "egrad2rgrad"; m_owner := "Stereographic"; m_func := "egrad2rgrad"; m_sig := Sig ["x"; "u"] 2 false ["dim"] false |};
    {| m_name := "projx"; m_owner := "Stereographic"; m_func := "projx"; m_sig := Sig ["x"] 1 false ["dim"] false |};
    {| m_name := "extra_repr"; m_owner := "Manifold"; m_func := "extra_repr"; m_sig := Sig [] 0 false [] false |};
    {| m_name := "unpack_tensor"; m_owner := "Manifold"; m_func := "unpack_tensor"; m_sig := Sig ["tensor"] 1 false [] false |};
    {| m_name := "pack_point"; m_owner := "Manifold"; m_func := "pack_point"; m_sig := Sig [] 0 true [] false |};
    {| m_name := "random"; m_owner := "Stereographic"; m_func := "random_normal"; m_sig := Sig [] 0 true ["mean"; "std"; "dtype"; "device"] false |};
    {| m_name := "origin"; m_owner := "Stereographic"; m_func := "origin"; m_sig := Sig [] 0 true ["dtype"; "device"; "seed"] false |};
    {| m_name := "mobius_add"; m_owner := "Stereographic"; m_func := "mobius_add"; m_sig := Sig ["x"; "y"] 2 false ["dim"; "project"] false |};
    {| m_name := "mobius_sub"; m_owner := "Stereographic"; m_func := "mobius_sub"; m_sig := Sig ["x"; "y"] 2 false ["dim"; "project"] false |};
    {| m_name := "mobius_coadd"; m_owner := "Stereographic"; m_func := "mobius_coadd"; m_sig := Sig ["x"; "y"] 2 false ["dim"; "project"] false |};
    {| m_name := "mobius_cosub"; m_owner := "Stereographic"; m_func := "mobius_cosub"; m_sig := Sig ["x"; "y"] 2 false ["dim"; "project"] false |};
    {| m_name := "mobius_scalar_mul"; m_owner := "Stereographic"; m_func := "mobius_scalar_mul"; m_sig := Sig ["r"; "x"] 2 false ["dim"; "project"] false |};
    {| m_name := "mobius_pointwise_mul"; m_owner := "Stereographic"; m_func := "mobius_pointwise_mul"; m_sig := Sig ["w"; "x"] 2 false ["dim"; "project"] false |};
    {| m_name := "mobius_matvec"; m_owner := "Stereographic"; m_func := "mobius_matvec"; m_sig := Sig ["m"; "x"] 2 false ["dim"; "project"] false |};
    {| m_name := "geodesic"; m_owner := "Stereographic"; m_func := "geodesic"; m_sig := Sig ["t"; "x"; "y"] 3 false ["dim"] false |};
    {| m_name := "geodesic_unit"; m_owner := "Stereographic"; m_func := "geodesic_unit"; m_sig := Sig ["t"; "x"; "u"] 3 false ["dim"; "project"] false |};
    {| m_name := "lambda_x"; m_owner := "Stereographic"; m_func := "lambda_x"; m_sig := Sig ["x"] 1 false ["dim"; "keepdim"] false |};
    {| m_name := "dist0"; m_owner := "Stereographic"; m_func := "dist0"; m_sig := Sig ["x"] 1 false ["dim"; "keepdim"] false |};
    {| m_name := "expmap0"; m_owner := "Stereographic"; m_func := "expmap0"; m_sig := Sig ["u"] 1 false ["dim"; "project"] false |};
    {| m_name := "logmap0"; m_owner := "Stereographic"; m_func := "logmap0"; m_sig := Sig ["x"] 1 false ["dim"] false |};
    {| m_name := "transp0"; m_owner := "Stereographic"; m_func := "transp0"; m_sig := Sig ["y"; "u"] 2 false ["dim"] false |};
    {| m_name := "transp0back"; m_owner := "Stereographic"; m_func := "transp0back"; m_sig := Sig ["y"; "u"] 2 false ["dim"] false |};
    {| m_name := "gyration"; m_owner := "Stereographic"; m_func := "gyration"; m_sig := Sig ["x"; "y"; "z"] 3 false ["dim"] false |};
    {| m_name := "antipode"; m_owner := "Stereographic"; m_func := "antipode"; m_sig := Sig ["x"] 1 false ["dim"] false |};
    {| m_name := "dist2plane"; m_owner := "Stereographic"; m_func := "dist2plane"; m_sig := Sig ["x"; "p"; "a"] 3 false ["dim"; "keepdim"; "signed"; "scaled"] false |};
    {| m_name := "mobius_fn_apply"; m_owner := "Stereographic"; m_func := "mobius_fn_apply"; m_sig := Sig ["fn"; "x"] 2 true ["dim"; "project"] true |};
    {| m_name := "mobius_fn_apply_chain"; m_owner := "Stereographic"; m_func := "mobius_fn_apply_chain"; m_sig := Sig ["x"] 1 true ["project"; "dim"] false |};
    {| m_name := "random_normal"; m_owner := "Stereographic"; m_func := "random_normal"; m_sig := Sig [] 0 true ["mean"; "std"; "dtype"; "device"] false |};
    {| m_name := "wrapped_normal"; m_owner := "Stereographic"; m_func := "wrapped_normal"; m_sig := Sig [] 0 true ["mean"; "std"; "dtype"; "device"] false |};
    {| m_name := "weighted_midpoint"; m_owner := "Stereographic"; m_func := "weighted_midpoint"; m_sig := Sig ["xs"; "weights"] 1 false ["reducedim"; "dim"; "keepdim"; "lincomb"; "posweight"; "project"] false |};
    {| m_name := "sproj"; m_owner := "Stereographic"; m_func := "sproj"; m_sig := Sig ["x"] 1 false ["dim"] false |};
    {| m_name := "inv_sproj"; m_owner := "Stereographic"; m_func := "inv_sproj"; m_sig := Sig ["x"] 1 false ["dim"] false |}] |}.

(** manifolds/stereographic/manifold.py:657 class SphereProjectionExact (resolution order: SphereProjectionExact, SphereProjection, StereographicExact, Stereographic, Manifold). *)
Definition cls_SphereProjectionExact : cls := {|
  c_name := "SphereProjectionExact";
  c_registry := [("dist", Info [1] []); ("dist2", Info [2] []); ("retr", Info [] [("u", (-1))]); ("expmap", Info [] [("u", (-1))]); ("logmap", Info [1] []); ("expmap_transp", Info [] [("u", (-1))]); ("retr_transp", Info [] [("u", (-1))]); ("transp_follow_retr", Info [] [("u", (-1))]); ("transp_follow_expmap", Info [] [("u", (-1))]); ("geodesic_unit", Info [] [("t", (-1))]); ("dist0", Info [1] []); ("expmap0", Info [] [("u", (-1))]); ("logmap0", Info [1] []); ("dist2plane", Info [1] []); ("mobius_fn_apply", NotCompatible); ("mobius_fn_apply_chain", NotCompatible); ("random_normal", Info [] [("std", (-1))]); ("random", Info [] [("std", (-1))]); ("wrapped_normal", Info [] [("std", (-1))])];
  c_methods := [
    {| m_name := "check_point"; m_owner := "Manifold"; m_func := "check_point"; m_sig := Sig ["x"] 1 false ["explain"] false |};
    {| m_name := "assert_check_point"; m_owner := "Manifold"; m_func := "assert_check_point"; m_sig := Sig ["x"] 1 false [] false |};
    {| m_name := "check_vector"; m_owner := "Manifold"; m_func := "check_vector"; m_sig := Sig ["u"] 1 false ["explain"] false |};
    {| m_name := "assert_check_vector"; m_owner := "Manifold"; m_func := "assert_check_vector"; m_sig := Sig ["u"] 1 false [] false |};
    {| m_name := "check_point_on_manifold"; m_owner := "Manifold"; m_func := "check_point_on_manifold"; m_sig := Sig ["x"] 1 false ["explain"; "atol"; "rtol"] false |};
    {| m_name := "assert_check_point_on_manifold"; m_owner := "Manifold"; m_func := "assert_check_point_on_manifold"; m_sig := Sig ["x"] 1 false ["atol"; "rtol"] false |};
    {| m_name := "check_vector_on_tangent"; m_owner := "Manifold"; m_func := "check_vector_on_tangent"; m_sig := Sig ["x"; "u"] 2 false ["ok_point"; "explain"; "atol"; "rtol"] false |};
    {| m_name := "assert_check_vector_on_tangent"; m_owner := "Manifold"; m_func := "assert_check_vector_on_tangent"; m_sig := Sig ["x"; "u"] 2 false ["ok_point"; "atol"; "rtol"] false |};
    {| m_name := "dist"; m_owner := "Stereographic"; m_func := "dist"; m_sig := Sig ["x"; "y"] 2 false ["keepdim"; "dim"] false |};
    {| m_name := "dist2"; m_owner := "Stereographic"; m_func := "dist2"; m_sig := Sig ["x"; "y"] 2 false ["keepdim"; "dim"] false |};
    {| m_name := "retr"; m_owner := "Stereographic"; m_func := "expmap"; m_sig := Sig ["x"; "u"] 2 false ["project"; "dim"] false |};
    {| m_name := "expmap"; m_owner := "Stereographic"; m_func := "expmap"; m_sig := Sig ["x"; "u"] 2 false ["project"; "dim"] false |};
    {| m_name := "logmap"; m_owner := "Stereographic"; m_func := "logmap"; m_sig := Sig ["x"; "y"] 2 false ["dim"] false |};
    {| m_name := "expmap_transp"; m_owner := "Stereographic"; m_func := "expmap_transp"; m_sig := Sig ["x"; "u"; "v"] 3 false ["dim"; "project"] false |};
    {| m_name := "retr_transp"; m_owner := "Stereographic"; m_func := "expmap_transp"; m_sig := Sig ["x"; "u"; "v"] 3 false ["dim"; "project"] false |};
    {| m_name := "transp_follow_retr"; m_owner := "Stereographic"; m_func := "transp_follow_expmap"; m_sig := Sig ["x"; "u"; "v"] 3 false ["dim"; "project"] false |};
    {| m_name := "transp_follow_expmap"; m_owner := "Stereographic"; m_func := "transp_follow_expmap"; m_sig := Sig ["x"; "u"; "v"] 3 false ["dim"; "project"] false |};
    {| m_name := "transp"; m_owner := "Stereographic"; m_func := "transp"; m_sig := Sig ["x"; "y"; "v"] 3 false ["dim"] false |};
    {| m_name := "inner"; m_owner := "Stereographic"; m_func := "inner"; m_sig := Sig ["x"; "u"; "v"] 2 false ["keepdim"; "dim"] false |};
    {| m_name := "component_inner"; m_owner := "Manifold"; m_func := "component_inner"; m_sig := Sig ["x"; "u"; "v"] 2 false [] false |};
    {| m_name := "norm"; m_owner := "Stereographic"; m_func := "norm"; m_sig := Sig ["x"; "u"] 2 false ["keepdim"; "dim"] false |};
    {| m_name := "proju"; m_owner := "Stereographic"; m_func := "proju"; m_sig := Sig ["x"; "u"] 2 false ["dim"] false |};
    {| m_name := "egrad2rgrad"; m_owner := "Stereographic"; m_func := "egrad2rgrad"; m_sig := Sig ["x"; "u"] 2 false ["dim"] false |};
    {| m_name := "projx"; m_owner := "Stereographic"; m_func := "projx"; m_sig := Sig ["x"] 1 false ["dim"] false |};
    {| m_name := "extra_repr"; m_owner := "StereographicExact"; m_func := "extra_repr"; m_sig := Sig [] 0 false [] false |};
    {| m_name := "unpack_tensor"; m_owner := "Manifold"; m_func := "unpack_tensor"; m_sig := Sig ["tensor"] 1 false [] false |};
    {| m_name := "pack_point"; m_owner := "Manifold"; m_func := "pack_point"; m_sig := Sig [] 0 true [] false |};
    {| m_name := "random"; m_owner := "Stereographic"; m_func := "random_normal"; m_sig := Sig [] 0 true ["mean"; "std"; "dtype"; "device"] false |};
    {| m_name := "origin"; m_owner := "Stereographic"; m_func := "origin"; m_sig := Sig [] 0 true ["dtype"; "device"; "seed"] false |};
    {| m_name := "mobius_add"; m_owner := "Stereographic"; m_func := "mobius_add"; m_sig := Sig ["x"; "y"] 2 false ["dim"; "project"] false |};
    {| m_name := "mobius_sub"; m_owner := "Stereographic"; m_func := "mobius_sub"; m_sig := Sig ["x"; "y"] 2 false ["dim"; "project"] false |};
    {| m_name := "mobius_coadd"; m_owner := "Stereographic"; m_func := "mobius_coadd"; m_sig := Sig ["x"; "y"] 2 false ["dim"; "project"] false |};
    {| m_name := "mobius_cosub"; m_owner := "Stereographic"; m_func := "mobius_cosub"; m_sig := Sig ["x"; "y"] 2 false ["dim"; "project"] false |};
    {| m_name := "mobius_scalar_mul"; m_owner := "Stereographic"; m_func := "mobius_scalar_mul"; m_sig := Sig ["r"; "x"] 2 false ["dim"; "project"] false |};
    {| m_name := "mobius_pointwise_mul"; m_owner := "Stereographic"; m_func := "mobius_pointwise_mul"; m_sig := Sig ["w"; "x"] 2 false ["dim"; "project"] false |};
    {| m_name := "mobius_matvec"; m_owner := "Stereographic"; m_func := "mobius_matvec"; m_sig := Sig ["m"; "x"] 2 false ["dim"; "project"] false |};
    {| m_name := "geodesic"; m_owner := "Stereographic"; m_func := "geodesic"; m_sig := Sig ["t"; "x"; "y"] 3 false ["dim"] false |};
    {| m_name := "geodesic_unit"; m_owner := "Stereographic"; m_func := "geodesic_unit"; m_sig := Sig ["t"; "x"; "u"] 3 false ["dim"; "project"] false |};
    {| m_name := "lambda_x"; m_owner := "Stereographic"; m_func := "lambda_x"; m_sig := Sig ["x"] 1 false ["dim"; "keepdim"] false |};
    {| m_name := "dist0"; m_owner := "Stereographic"; m_func := "dist0"; m_sig := Sig ["x"] 1 false ["dim"; "keepdim"] false |};
    {| m_name := "expmap0"; m_owner := "Stereographic"; m_func := "expmap0"; m_sig := Sig ["u"] 1 false ["dim"; "project"] false |};
    {| m_name := "logmap0"; m_owner := "Stereographic"; m_func := "logmap0"; m_sig := Sig ["x"] 1 false ["dim"] false |};
    {| m_name := "transp0"; m_owner := "Stereographic"; m_func := "transp0"; m_sig := Sig ["y"; "u"] 2 false ["dim"] false |};
    {| m_name := "transp0back"; m_owner := "Stereographic"; m_func := "transp0back"; m_sig := Sig ["y"; "u"] 2 false ["dim"] false |};
    {| m_name := "gyration"; m_owner := "Stereographic"; m_func := "gyration"; m_sig := Sig ["x"; "y"; "z"] 3 false ["dim"] false |};
    {| m_name := "antipode"; m_owner := "Stereographic"; m_func := "antipode"; m_sig := Sig ["x"] 1 false ["dim"] false |};
    {| m_name := "dist2plane"; m_owner := "Stereographic"; m_func := "dist2plane"; m_sig := Sig ["x"; "p"; "a"] 3 false ["dim"; "keepdim"; "signed"; "scaled"] false |};
    {| m_name := "mobius_fn_apply"; m_owner := "Stereographic"; m_func := "mobius_fn_apply"; m_sig := Sig ["fn"; "x"] 2 true ["dim"; "project"] true |};
    {| m_name := "mobius_fn_apply_chain"; m_owner := "Stereographic"; m_func := "mobius_fn_apply_chain"; m_sig := Sig ["x"] 1 true ["project"; "dim"] false |};
    {| m_name := "random_normal"; m_owner := "Stereographic"; m_func := "random_normal"; m_sig := Sig [] 0 true ["mean"; "std"; "dtype"; "device"] false |};
    {| m_name := "wrapped_normal"; m_owner := "Stereographic"; m_func := "wrapped_normal"; m_sig := Sig [] 0 true ["mean"; "std"; "dtype"; "device"] false |};
    {| m_name := "weighted_midpoint"; m_owner := "Stereographic"; m_func := "weighted_midpoint"; m_sig := Sig ["xs"; "weights"] 1 false ["reducedim"; "dim"; "keepdim"; "lincomb"; "posweight"; "project"] false |};
    {| m_name := "sproj"; m_owner := "Stereographic"; m_func := "sproj"; m_sig := Sig ["x"] 1 false ["dim"] false |};
    {| m_name := "inv_sproj"; m_owner := "Stereographic"; m_func := "inv_sproj"; m_sig := Sig ["x"] 1 false ["dim"] false |}] |}.

(** manifolds/siegel/upper_half.py:12 class UpperHalf (resolution order: UpperHalf, SiegelManifold, Manifold). *)
Definition cls_UpperHalf : cls := {|
  c_name := "UpperHalf";
  c_registry := [("dist", Info [1] []); ("dist2", Info [2] []); ("retr", Info [] [("u", (-1))]); ("expmap", Info [] [("u", (-1))]); ("logmap", Info [1] []); ("expmap_transp", Info [] [("u", (-1))]); ("retr_transp", Info [] [("u", (-1))]); ("transp_follow_retr", Info [] [("u", (-1))]); ("transp_follow_expmap", Info [] [("u", (-1))])];
  c_methods := [
    {| m_name := "check_point"; m_owner := "Manifold"; m_func := "check_point"; m_sig := Sig ["x"] 1 false ["explain"] false |};
    {| m_name := "assert_check_point"; m_owner := "Manifold"; m_func := "assert_check_point"; m_sig := Sig ["x"] 1 false [] false |};
    {| m_name := "check_vector"; m_owner := "Manifold"; m_func := "check_vector"; m_sig := Sig ["u"] 1 false ["explain"] false |};
    {| m_name := "assert_check_vector"; m_owner := "Manifold"; m_func := "assert_check_vector"; m_sig := Sig ["u"] 1 false [] false |};
    {| m_name := "check_point_on_manifold"; m_owner := "Manifold"; m_func := "check_point_on_manifold"; m_sig := Sig ["x"] 1 false ["explain"; "atol"; "rtol"] false |};
    {| m_name := "assert_check_point_on_manifold"; m_owner := "Manifold"; m_func := "assert_check_point_on_manifold"; m_sig := Sig ["x"] 1 false ["atol"; "rtol"] false |};
    {| m_name := "check_vector_on_tangent"; m_owner := "Manifold"; m_func := "check_vector_on_tangent"; m_sig := Sig ["x"; "u"] 2 false ["ok_point"; "explain"; "atol"; "rtol"] false |};
    {| m_name := "assert_check_vector_on_tangent"; m_owner := "Manifold"; m_func := "assert_check_vector_on_tangent"; m_sig := Sig ["x"; "u"] 2 false ["ok_point"; "atol"; "rtol"] false |};
    {| m_name := "dist"; m_owner := "SiegelManifold"; m_func := "dist"; m_sig := Sig ["z1"; "z2"] 2 false ["keepdim"] false |};
    {| m_name := "dist2"; m_owner := "Manifold"; m_func := "dist2"; m_sig := Sig ["x"; "y"] 2 false ["keepdim"] false |};
    {| m_name := "retr"; m_owner := "SiegelManifold"; m_func := "retr"; m_sig := Sig ["x"; "u"] 2 false [] false |};
    {| m_name := "expmap"; m_owner := "SiegelManifold"; m_func := "expmap"; m_sig := Sig ["x"; "u"] 2 false [] false |};
    {| m_name := "logmap"; m_owner := "SiegelManifold"; m_func := "logmap"; m_sig := Sig ["x"; "y"] 2 false [] false |};
    {| m_name := "expmap_transp"; m_owner := "Manifold"; m_func := "expmap_transp"; m_sig := Sig ["x"; "u"; "v"] 3 false [] false |};
    {| m_name := "retr_transp"; m_owner := "Manifold"; m_func := "retr_transp"; m_sig := Sig ["x"; "u"; "v"] 3 false [] false |};
    {| m_name := "transp_follow_retr"; m_owner := "Manifold"; m_func := "transp_follow_retr"; m_sig := Sig ["x"; "u"; "v"] 3 false [] false |};
    {| m_name := "transp_follow_expmap"; m_owner := "Manifold"; m_func := "transp_follow_expmap"; m_sig := Sig ["x"; "u"; "v"] 3 false [] false |};
    {| m_name := "transp"; m_owner := "SiegelManifold"; m_func := "transp"; m_sig := Sig ["x"; "y"; "v"] 3 false [] false |};
    {| m_name := "inner"; m_owner := "UpperHalf"; m_func := "inner"; m_sig := Sig ["z"; "u"; "v"] 2 false ["keepdim"] false |};
    {| m_name := "component_inner"; m_owner := "Manifold"; m_func := "component_inner"; m_sig := Sig ["x"; "u"; "v"] 2 false [] false |};
    {| m_name := "norm"; m_owner := "Manifold"; m_func := "norm"; m_sig := Sig ["x"; "u"] 2 false ["keepdim"] false |};
    {| m_name := "proju"; m_owner := "SiegelManifold"; m_func := "proju"; m_sig := Sig ["x"; "u"] 2 false [] false |};
    {| m_name := "egrad2rgrad"; m_owner := "UpperHalf"; m_func := "egrad2rgrad"; m_sig := Sig ["z"; "u"] 2 false [] false |};
    {| m_name := "projx"; m_owner := "UpperHalf"; m_func := "projx"; m_sig := Sig ["z"] 1 false [] false |};
    {| m_name := "extra_repr"; m_owner := "SiegelManifold"; m_func := "extra_repr"; m_sig := Sig [] 0 false [] false |};
    {| m_name := "unpack_tensor"; m_owner := "Manifold"; m_func := "unpack_tensor"; m_sig := Sig ["tensor"] 1 false [] false |};
    {| m_name := "pack_point"; m_owner := "Manifold"; m_func := "pack_point"; m_sig := Sig [] 0 true [] false |};
    {| m_name := "random"; m_owner := "UpperHalf"; m_func := "random"; m_sig := Sig [] 0 true ["dtype"; "device"] true |};
    {| m_name := "origin"; m_owner := "UpperHalf"; m_func := "origin"; m_sig := Sig [] 0 true ["dtype"; "device"; "seed"] false |}] |}.

(** manifolds/siegel/bounded_domain.py:13 class BoundedDomain (resolution order: BoundedDomain, SiegelManifold, Manifold). *)
Definition cls_BoundedDomain : cls := {|
  c_name := "BoundedDomain";
  c_registry := [("dist", Info [1] []); ("dist2", Info [2] []); ("retr", Info [] [("u", (-1))]); ("expmap", Info [] [("u", (-1))]); ("logmap", Info [1] []); ("expmap_transp", Info [] [("u", (-1))]); ("retr_transp", Info [] [("u", (-1))]); ("transp_follow_retr", Info [] [("u", (-1))]); ("transp_follow_expmap", Info [] [("u", (-1))])];
  c_methods := [
    {| m_name := "check_point"; m_owner := "Manifold"; m_func := "check_point"; m_sig := Sig ["x"] 1 false ["explain"] false |};
    {| m_name := "assert_check_point"; m_owner := "Manifold"; m_func := "assert_check_point"; m_sig := Sig ["x"] 1 false [] false |};
    {| m_name := "check_vector"; m_owner := "Manifold"; m_func := "check_vector"; m_sig := Sig ["u"] 1 false ["explain"] false |};
    {| m_name := "assert_check_vector"; m_owner := "Manifold"; m_func := "assert_check_vector"; m_sig := Sig ["u"] 1 false [] false |};
    {| m_name := "check_point_on_manifold"; m_owner := "Manifold"; m_func := "check_point_on_manifold"; m_sig := Sig ["x"] 1 false ["explain"; "atol"; "rtol"] false |};
    {| m_name := "assert_check_point_on_manifold"; m_owner := "Manifold"; m_func := "assert_check_point_on_manifold"; m_sig := Sig ["x"] 1 false ["atol"; "rtol"] false |};
    {| m_name := "check_vector_on_tangent"; m_owner := "Manifold"; m_func := "check_vector_on_tangent"; m_sig := Sig ["x"; "u"] 2 false ["ok_point"; "explain"; "atol"; "rtol"] false |};
    {| m_name := "assert_check_vector_on_tangent"; m_owner := "Manifold"; m_func := "assert_check_vector_on_tangent"; m_sig := Sig ["x"; "u"] 2 false ["ok_point"; "atol"; "rtol"] false |};
    {| m_name := "dist"; m_owner := "BoundedDomain"; m_func := "dist"; m_sig := Sig ["z1"; "z2"] 2 false ["keepdim"] false |};
    {| m_name := "dist2"; m_owner := "Manifold"; m_func := "dist2"; m_sig := Sig ["x"; "y"] 2 false ["keepdim"] false |};
    {| m_name := "retr"; m_owner := "SiegelManifold"; m_func := "retr"; m_sig := Sig ["x"; "u"] 2 false [] false |};
    {| m_name := "expmap"; m_owner := "SiegelManifold"; m_func := "expmap"; m_sig := Sig ["x"; "u"] 2 false [] false |};
    {| m_name := "logmap"; m_owner := "SiegelManifold"; m_func := "logmap"; m_sig := Sig ["x"; "y"] 2 false [] false |};
    {| m_name := "expmap_transp"; m_owner := "Manifold"; m_func := "expmap_transp"; m_sig := Sig ["x"; "u"; "v"] 3 false [] false |};
    {| m_name := "retr_transp"; m_owner := "Manifold"; m_func := "retr_transp"; m_sig := Sig ["x"; "u"; "v"] 3 false [] false |};
    {| m_name := "transp_follow_retr"; m_owner := "Manifold"; m_func := "transp_follow_retr"; m_sig := Sig ["x"; "u"; "v"] 3 false [] false |};
    {| m_name := "transp_follow_expmap"; m_owner := "Manifold"; m_func := "transp_follow_expmap"; m_sig := Sig ["x"; "u"; "v"] 3 false [] false |};
    {| m_name := "transp"; m_owner := "SiegelManifold"; m_func := "transp"; m_sig := Sig ["x"; "y"; "v"] 3 false [] false |};
    {| m_name := "inner"; m_owner := "BoundedDomain"; m_func := "inner"; m_sig := Sig ["z"; "u"; "v"] 2 false ["keepdim"] false |};
    {| m_name := "component_inner"; m_owner := "Manifold"; m_func := "component_inner"; m_sig := Sig ["x"; "u"; "v"] 2 false [] false |};
    {| m_name := "norm"; m_owner := "Manifold"; m_func := "norm"; m_sig := Sig ["x"; "u"] 2 false ["keepdim"] false |};
    {| m_name := "proju"; m_owner := "SiegelManifold"; m_func := "proju"; m_sig := Sig ["x"; "u"] 2 false [] false |};
    {| m_name := "egrad2rgrad"; m_owner := "BoundedDomain"; m_func := "egrad2rgrad"; m_sig := Sig ["z"; "u"] 2 false [] false |};
    {| m_name := "projx"; m_owner := "BoundedDomain"; m_func := "projx"; m_sig := Sig ["z"] 1 false [] false |};
    {| m_name := "extra_repr"; m_owner := "SiegelManifold"; m_func := "extra_repr"; m_sig := Sig [] 0 false [] false |};
    {| m_name := "unpack_tensor"; m_owner := "Manifold"; m_func := "unpack_tensor"; m_sig := Sig ["tensor"] 1 false [] false |};
    {| m_name := "pack_point"; m_owner := "Manifold"; m_func := "pack_point"; m_sig := Sig [] 0 true [] false |};
    {| m_name := "random"; m_owner := "BoundedDomain"; m_func := "random"; m_sig := Sig [] 0 true ["dtype"; "device"] true |};
    {| m_name := "origin"; m_owner := "BoundedDomain"; m_func := "origin"; m_sig := Sig [] 0 true ["dtype"; "device"; "seed"] false |}] |}.

(** manifolds/product.py:22 class ProductManifold (resolution order: ProductManifold, Manifold). *)
Definition cls_ProductManifold : cls := {|
  c_name := "ProductManifold";
  c_registry := [("dist", Info [1] []); ("dist2", Info [2] []); ("retr", Info [] [("u", (-1))]); ("expmap", Info [] [("u", (-1))]); ("logmap", Info [1] []); ("expmap_transp", Info [] [("u", (-1))]); ("retr_transp", Info [] [("u", (-1))]); ("transp_follow_retr", Info [] [("u", (-1))]); ("transp_follow_expmap", Info [] [("u", (-1))])];
  c_methods := [
    {| m_name := "check_point"; m_owner := "Manifold"; m_func := "check_point"; m_sig := Sig ["x"] 1 false ["explain"] false |};
    {| m_name := "assert_check_point"; m_owner := "Manifold"; m_func := "assert_check_point"; m_sig := Sig ["x"] 1 false [] false |};
    {| m_name := "check_vector"; m_owner := "Manifold"; m_func := "check_vector"; m_sig := Sig ["u"] 1 false ["explain"] false |};
    {| m_name := "assert_check_vector"; m_owner := "Manifold"; m_func := "assert_check_vector"; m_sig := Sig ["u"] 1 false [] false |};
    {| m_name := "check_point_on_manifold"; m_owner := "Manifold"; m_func := "check_point_on_manifold"; m_sig := Sig ["x"] 1 false ["explain"; "atol"; "rtol"] false |};
    {| m_name := "assert_check_point_on_manifold"; m_owner := "Manifold"; m_func := "assert_check_point_on_manifold"; m_sig := Sig ["x"] 1 false ["atol"; "rtol"] false |};
    {| m_name := "check_vector_on_tangent"; m_owner := "Manifold"; m_func := "check_vector_on_tangent"; m_sig := Sig ["x"; "u"] 2 false ["ok_point"; "explain"; "atol"; "rtol"] false |};
    {| m_name := "assert_check_vector_on_tangent"; m_owner := "Manifold"; m_func := "assert_check_vector_on_tangent"; m_sig := Sig ["x"; "u"] 2 false ["ok_point"; "atol"; "rtol"] false |};
    {| m_name := "dist"; m_owner := "ProductManifold"; m_func := "dist"; m_sig := Sig ["x"; "y"] 2 false ["keepdim"] false |};
    {| m_name := "dist2"; m_owner := "ProductManifold"; m_func := "dist2"; m_sig := Sig ["x"; "y"] 2 false ["keepdim"] false |};
    {| m_name := "retr"; m_owner := "ProductManifold"; m_func := "retr"; m_sig := Sig ["x"; "u"] 2 false [] false |};
    {| m_name := "expmap"; m_owner := "ProductManifold"; m_func := "expmap"; m_sig := Sig ["x"; "u"] 2 false [] false |};
    {| m_name := "logmap"; m_owner := "ProductManifold"; m_func := "logmap"; m_sig := Sig ["x"; "y"] 2 false [] false |};
    {| m_name := "expmap_transp"; m_owner := "ProductManifold"; m_func := "expmap_transp"; m_sig := Sig ["x"; "u"; "v"] 3 false [] false |};
    {| m_name := "retr_transp"; m_owner := "ProductManifold"; m_func := "retr_transp"; m_sig := Sig ["x"; "u"; "v"] 3 false [] false |};
    {| m_name := "transp_follow_retr"; m_owner := "ProductManifold"; m_func := "transp_follow_retr"; m_sig := Sig ["x"; "u"; "v"] 3 false [] false |};
    {| m_name := "transp_follow_expmap"; m_owner := "ProductManifold"; m_func := "transp_follow_expmap"; m_sig := Sig ["x"; "u"; "v"] 3 false [] false |};
    {| m_name := "transp"; m_owner := "ProductManifold"; m_func := "transp"; m_sig := Sig ["x"; "y"; "v"] 3 false [] false |};
    {| m_name := "inner"; m_owner := "ProductManifold"; m_func := "inner"; m_sig := Sig ["x"; "u"; "v"] 2 false ["keepdim"] false |};
    {| m_name := "component_inner"; m_owner := "ProductManifold"; m_func := "component_inner"; m_sig := Sig ["x"; "u"; "v"] 2 false [] false |};
    {| m_name := "norm"; m_owner := "Manifold"; m_func := "norm"; m_sig := Sig ["x"; "u"] 2 false ["keepdim"] false |};
    {| m_name := "proju"; m_owner := "ProductManifold"; m_func := "proju"; m_sig := Sig ["x"; "u"] 2 false [] false |};
    {| m_name := "egrad2rgrad"; m_owner := "ProductManifold"; m_func := "egrad2rgrad"; m_sig := Sig ["x"; "u"] 2 false [] false |};
    {| m_name := "projx"; m_owner := "ProductManifold"; m_func := "projx"; m_sig := Sig ["x"] 1 false [] false |};
    {| m_name := "extra_repr"; m_owner := "Manifold"; m_func := "extra_repr"; m_sig := Sig [] 0 false [] false |};
    {| m_name := "unpack_tensor"; m_owner := "ProductManifold"; m_func := "unpack_tensor"; m_sig := Sig ["tensor"] 1 false [] false |};
    {| m_name := "pack_point"; m_owner := "ProductManifold"; m_func := "pack_point"; m_sig := Sig [] 0 true [] false |};
    {| m_name := "random"; m_owner := "ProductManifold"; m_func := "random_combined"; m_sig := Sig [] 0 true ["dtype"; "device"] false |};
    {| m_name := "origin"; m_owner := "ProductManifold"; m_func := "origin"; m_sig := Sig [] 0 true ["dtype"; "device"; "seed"] false |};
    {| m_name := "take_submanifold_value"; m_owner := "ProductManifold"; m_func := "take_submanifold_value"; m_sig := Sig ["x"; "i"; "reshape"] 2 false [] false |};
    {| m_name := "random_combined"; m_owner := "ProductManifold"; m_func := "random_combined"; m_sig := Sig [] 0 true ["dtype"; "device"] false |}] |}.

(** manifolds/product.py:443 class StereographicProductManifold (resolution order: StereographicProductManifold, ProductManifold, Manifold). *)
Definition cls_StereographicProductManifold : cls := {|
  c_name := "StereographicProductManifold";
  c_registry := [("dist", Info [1] []); ("dist2", Info [2] []); ("retr", Info [] [("u", (-1))]); ("expmap", Info [] [("u", (-1))]); ("logmap", Info [1] []); ("expmap_transp", Info [] [("u", (-1))]); ("retr_transp", Info [] [("u", (-1))]); ("transp_follow_retr", Info [] [("u", (-1))]); ("transp_follow_expmap", Info [] [("u", (-1))]); ("geodesic_unit", Info [] [("t", (-1))]); ("dist0", Info [1] []); ("expmap0", Info [] [("u", (-1))]); ("logmap0", Info [1] []); ("dist2plane", Info [1] []); ("mobius_fn_apply", NotCompatible); ("mobius_fn_apply_chain", NotCompatible); ("random_normal", Info [] [("std", (-1))]); ("random", Info [] [("std", (-1))]); ("wrapped_normal", Info [] [("std", (-1))])];
  c_methods := [
    {| m_name := "check_point"; m_owner := "Manifold"; m_func := "check_point"; m_sig := Sig ["x"] 1 false ["explain"] false |};
    {| m_name := "assert_check_point"; m_owner := "Manifold"; m_func := "assert_check_point"; m_sig := Sig ["x"] 1 false [] false |};
    {| m_name := "check_vector"; m_owner := "Manifold"; m_func := "check_vector"; m_sig := Sig ["u"] 1 false ["explain"] false |};
    {| m_name := "assert_check_vector"; m_owner := "Manifold"; m_func := "assert_check_vector"; m_sig := Sig ["u"] 1 false [] false |};
    {| m_name := "check_point_on_manifold"; m_owner := "Manifold"; m_func := "check_point_on_manifold"; m_sig := Sig ["x"] 1 false ["explain"; "atol"; "rtol"] false |};
    {| m_name := "assert_check_point_on_manifold"; m_owner := "Manifold"; m_func := "assert_check_point_on_manifold"; m_sig := Sig ["x"] 1 false ["atol"; "rtol"] false |};
    {| m_name := "check_vector_on_tangent"; m_owner := "Manifold"; m_func := "check_vector_on_tangent"; m_sig := Sig ["x"; "u"] 2 false ["ok_point"; "explain"; "atol"; "rtol"] false |};
    {| m_name := "assert_check_vector_on_tangent"; m_owner := "Manifold"; m_func := "assert_check_vector_on_tangent"; m_sig := Sig ["x"; "u"] 2 false ["ok_point"; "atol"; "rtol"] false |};
    {| m_name := "dist"; m_owner := "ProductManifold"; m_func := "dist"; m_sig := Sig ["x"; "y"] 2 false ["keepdim"] false |};
    {| m_name := "dist2"; m_owner := "ProductManifold"; m_func := "dist2"; m_sig := Sig ["x"; "y"] 2 false ["keepdim"] false |};
    {| m_name := "retr"; m_owner := "ProductManifold"; m_func := "retr"; m_sig := Sig ["x"; "u"] 2 false [] false |};
    {| m_name := "expmap"; m_owner := "ProductManifold"; m_func := "expmap"; m_sig := Sig ["x"; "u"] 2 false [] false |};
    {| m_name := "logmap"; m_owner := "ProductManifold"; m_func := "logmap"; m_sig := Sig ["x"; "y"] 2 false [] false |};
    {| m_name := "expmap_transp"; m_owner := "ProductManifold"; m_func := "expmap_transp"; m_sig := Sig ["x"; "u"; "v"] 3 false [] false |};
    {| m_name := "retr_transp"; m_owner := "ProductManifold"; m_func := "retr_transp"; m_sig := Sig ["x"; "u"; "v"] 3 false [] false |};
    {| m_name := "transp_follow_retr"; m_owner := "ProductManifold"; m_func := "transp_follow_retr"; m_sig := Sig ["x"; "u"; "v"] 3 false [] false |};
    {| m_name := "transp_follow_expmap"; m_owner := "ProductManifold"; m_func := "transp_follow_expmap"; m_sig := Sig ["x"; "u"; "v"] 3 false [] false |};
    {| m_name := "transp"; m_owner := "ProductManifold"; m_func := "transp"; m_sig := Sig ["x"; "y"; "v"] 3 false [] false |};
    {| m_name := "inner"; m_owner := "ProductManifold"; m_func := "inner"; m_sig := Sig ["x"; "u"; "v"] 2 false ["keepdim"] false |};
    {| m_name := "component_inner"; m_owner := "ProductManifold"; m_func := "component_inner"; m_sig := Sig ["x"; "u"; "v"] 2 false [] false |};
    {| m_name := "norm"; m_owner := "Manifold"; m_func := "norm"; m_sig := Sig ["x"; "u"] 2 false ["keepdim"] false |};
    {| m_name := "proju"; m_owner := "ProductManifold"; m_func := "proju"; m_sig := Sig ["x"; "u"] 2 false [] false |};
    {| m_name := "egrad2rgrad"; m_owner := "ProductManifold"; m_func := "egrad2rgrad"; m_sig := Sig ["x"; "u"] 2 false [] false |};
    {| m_name := "projx"; m_owner := "ProductManifold"; m_func := "projx"; m_sig := Sig ["x"] 1 false [] false |};
    {| m_name := "extra_repr"; m_owner := "Manifold"; m_func := "extra_repr"; m_sig := Sig [] 0 false [] false |};
    {| m_name := "unpack_tensor"; m_owner := "ProductManifold"; m_func := "unpack_tensor"; m_sig := Sig ["tensor"] 1 false [] false |};
    {| m_name := "pack_point"; m_owner := "ProductManifold"; m_func := "pack_point"; m_sig := Sig [] 0 true [] false |};
    {| m_name := "random"; m_owner := "ProductManifold"; m_func := "random_combined"; m_sig := Sig [] 0 true ["dtype"; "device"] false |};
    {| m_name := "origin"; m_owner := "ProductManifold"; m_func := "origin"; m_sig := Sig [] 0 true ["dtype"; "device"; "seed"] false |};
    {| m_name := "take_submanifold_value"; m_owner := "ProductManifold"; m_func := "take_submanifold_value"; m_sig := Sig ["x"; "i"; "reshape"] 2 false [] false |};
    {| m_name := "random_combined"; m_owner := "ProductManifold"; m_func := "random_combined"; m_sig := Sig [] 0 true ["dtype"; "device"] false |};
    {| m_name := "dist2plane"; m_owner := "StereographicProductManifold"; m_func := "dist2plane"; m_sig := Sig ["x"; "p"; "a"] 3 false ["keepdim"; "signed"; "scaled"] false |};
    {| m_name := "mobius_add"; m_owner := "StereographicProductManifold"; m_func := "mobius_add"; m_sig := Sig ["x"; "y"] 2 false ["project"] false |};
    {| m_name := "mobius_coadd"; m_owner := "StereographicProductManifold"; m_func := "mobius_coadd"; m_sig := Sig ["x"; "y"] 2 false ["project"] false |};
    {| m_name := "mobius_sub"; m_owner := "StereographicProductManifold"; m_func := "mobius_sub"; m_sig := Sig ["x"; "y"] 2 false ["project"] false |};
    {| m_name := "mobius_cosub"; m_owner := "StereographicProductManifold"; m_func := "mobius_cosub"; m_sig := Sig ["x"; "y"] 2 false ["project"] false |};
    {| m_name := "mobius_scalar_mul"; m_owner := "StereographicProductManifold"; m_func := "mobius_scalar_mul"; m_sig := Sig ["r"; "x"] 2 false ["project"] false |};
    {| m_name := "mobius_pointwise_mul"; m_owner := "StereographicProductManifold"; m_func := "mobius_pointwise_mul"; m_sig := Sig ["w"; "x"] 2 false ["project"] false |};
    {| m_name := "take_submanifold_matrix"; m_owner := "StereographicProductManifold"; m_func := "take_submanifold_matrix"; m_sig := Sig ["x"; "i"; "reshape"] 2 false [] false |};
    {| m_name := "mobius_matvec"; m_owner := "StereographicProductManifold"; m_func := "mobius_matvec"; m_sig := Sig ["m"; "x"] 2 false ["project"] false |};
    {| m_name := "wrapped_normal"; m_owner := "StereographicProductManifold"; m_func := "wrapped_normal"; m_sig := Sig [] 0 true ["mean"; "std"; "dtype"; "device"] false |};
    {| m_name := "geodesic"; m_owner := "StereographicProductManifold"; m_func := "geodesic"; m_sig := Sig ["t"; "x"; "y"] 3 false ["dim"] false |};
    {| m_name := "geodesic_unit"; m_owner := "StereographicProductManifold"; m_func := "geodesic_unit"; m_sig := Sig ["t"; "x"; "u"] 3 false ["project"] false |};
    {| m_name := "dist0"; m_owner := "StereographicProductManifold"; m_func := "dist0"; m_sig := Sig ["x"] 1 false ["keepdim"] false |};
    {| m_name := "expmap0"; m_owner := "StereographicProductManifold"; m_func := "expmap0"; m_sig := Sig ["u"] 1 false ["project"] false |};
    {| m_name := "logmap0"; m_owner := "StereographicProductManifold"; m_func := "logmap0"; m_sig := Sig ["x"] 1 false ["project"] false |};
    {| m_name := "transp0"; m_owner := "StereographicProductManifold"; m_func := "transp0"; m_sig := Sig ["y"; "u"] 2 false [] false |};
    {| m_name := "transp0back"; m_owner := "StereographicProductManifold"; m_func := "transp0back"; m_sig := Sig ["x"; "u"] 2 false [] false |};
    {| m_name := "gyration"; m_owner := "StereographicProductManifold"; m_func := "gyration"; m_sig := Sig ["x"; "y"; "z"] 3 false ["project"] false |};
    {| m_name := "antipode"; m_owner := "StereographicProductManifold"; m_func := "antipode"; m_sig := Sig ["x"] 1 false ["project"] false |};
    {| m_name := "mobius_fn_apply"; m_owner := "StereographicProductManifold"; m_func := "mobius_fn_apply"; m_sig := Sig ["fn"; "x"] 2 true ["project"] true |};
    {| m_name := "mobius_fn_apply_chain"; m_owner := "StereographicProductManifold"; m_func := "mobius_fn_apply_chain"; m_sig := Sig ["x"] 1 true ["project"] false |}] |}.

(** The concrete manifold classes exported by geoopt.manifolds. *)
Definition library : list cls :=
  [cls_Euclidean; cls_Sphere; cls_SphereExact; cls_CanonicalStiefel; cls_EuclideanStiefel; cls_EuclideanStiefelExact; cls_SymmetricPositiveDefinite; cls_BirkhoffPolytope; cls_Lorentz; cls_Stereographic; cls_StereographicExact; cls_PoincareBall; cls_PoincareBallExact; cls_SphereProjection; cls_SphereProjectionExact; cls_UpperHalf; cls_BoundedDomain; cls_ProductManifold; cls_StereographicProductManifold].
