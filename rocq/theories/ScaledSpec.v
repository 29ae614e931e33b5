(** What the properties of Scaled say, without reference to how calls are
    rescaled. *)
From Coq Require Import Reals ZArith List String.
From Verif Require Import RVec ScaledModel LibraryModel ScaledClassModel.
Import ListNotations.
Local Open Scope string_scope.

(** [Scaled(base, s).name(args)] has outcome [o]. *)
Definition scaled_gives (c : cls) (base generic : object) (s : R) (name : string)
           (args : arguments) (o : call_outcome) : Prop :=
  exists f, scaled_call c base generic s name = Some f /\ f args = o.

(** keyword spellings of the calls *)
Definition a_x (x : vec) : arguments := [("x", x)].
Definition a_xy (x y : vec) : arguments := [("x", x); ("y", y)].
Definition a_xu (x u : vec) : arguments := [("x", x); ("u", u)].
Definition a_xuv (x u v : vec) : arguments := [("x", x); ("u", u); ("v", v)].
Definition a_txu (t x u : vec) : arguments := [("t", t); ("x", x); ("u", u)].

(** a one-element tensor *)
Definition scalar (r : R) : vec := fun _ => r.
Definition ok (v : vec) : call_outcome := Returned (Single v).

(** A class that keeps the entries class Manifold registers (base.py, the nine
    decorated methods): what ScalingStorage documents subclasses must do. *)
Definition keeps_manifold_registry (c : cls) : Prop :=
  forall k i, In (k, i) manifold_registry -> reg_find k (c_registry c) = Some i.

(** Overrides of class Manifold's methods that Scaled does not reach. *)
Definition shadowed : list (string * string) :=
  [("Euclidean", "component_inner"); ("Euclidean", "extra_repr"); ("Euclidean", "origin");
   ("SphereExact", "extra_repr");
   ("CanonicalStiefel", "origin"); ("EuclideanStiefel", "origin");
   ("EuclideanStiefelExact", "extra_repr"); ("EuclideanStiefelExact", "origin");
   ("SymmetricPositiveDefinite", "extra_repr"); ("SymmetricPositiveDefinite", "origin");
   ("BirkhoffPolytope", "origin"); ("Lorentz", "origin"); ("Stereographic", "origin");
   ("StereographicExact", "extra_repr"); ("StereographicExact", "origin");
   ("PoincareBall", "origin"); ("PoincareBallExact", "extra_repr"); ("PoincareBallExact", "origin");
   ("SphereProjection", "origin"); ("SphereProjectionExact", "extra_repr");
   ("SphereProjectionExact", "origin"); ("UpperHalf", "extra_repr"); ("UpperHalf", "origin");
   ("BoundedDomain", "extra_repr"); ("BoundedDomain", "origin");
   ("ProductManifold", "component_inner"); ("ProductManifold", "unpack_tensor");
   ("ProductManifold", "pack_point"); ("ProductManifold", "origin");
   ("StereographicProductManifold", "component_inner"); ("StereographicProductManifold", "unpack_tensor");
   ("StereographicProductManifold", "pack_point"); ("StereographicProductManifold", "origin")].

(** The classes that share Stereographic's registry. *)
Definition stereographic_family : list string :=
  ["Stereographic"; "StereographicExact"; "PoincareBall"; "PoincareBallExact";
   "SphereProjection"; "SphereProjectionExact"; "StereographicProductManifold"].

(** Euclidean and generic component_inner on a two-entry tensor: entry-wise products
    (euclidean.py:60-69, ndim 0) against the sum with keepdim, broadcast back
    (base.py:661, ndim 1). *)
Definition entrywise_inner (u v : vec) : vec := fun i => (u i * v i)%R.
Definition summed_inner (n : nat) (u v : vec) : vec := fun _ => dot n u v.
