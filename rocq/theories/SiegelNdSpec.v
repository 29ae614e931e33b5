(** Vocabulary for functions that raise on some matrices: on a batch, the call raises when
    one position raises, and otherwise returns the result of every position. *)
From mathcomp Require Import all_ssreflect all_algebra.
From Verif Require StereoNdSpec.
From Verif Require Import MatNdModel MatNdSpec SiegelModel.
Set Implicit Arguments. Unset Strict Implicit. Unset Printing Implicit Defensive.

Notation inside := StereoNdSpec.inside.

Section Spec.
  Variable K : fieldType.
  (** matrices of shape (b..., n, n) *)
  Definition gives_or_raises (o : option (mt K)) (b : seq nat) n (f : index -> res 'M[K]_n) : Prop :=
    ((forall ix, inside b ix -> exists m, f ix = Ok m) ->
      exists r, o = Some r /\ has_shape r b n n /\ forall ix, inside b ix -> f ix = Ok (to_mx n n r ix)) /\
    ((exists ix e, inside b ix /\ f ix = Raises e) -> o = None).
  (** scalars of the given shape; [at_] is the position of the batch an index of the result
      belongs to *)
  Definition scalars_or_raises (o : option (gt K)) (b shape : seq nat) (at_ : index -> index) (f : index -> res K) : Prop :=
    ((forall ix, inside b ix -> exists v, f ix = Ok v) ->
      exists r, o = Some r /\ gsh r = shape /\ forall ix, inside b (at_ ix) -> f (at_ ix) = Ok (grd r ix)) /\
    ((exists ix e, inside b ix /\ f ix = Raises e) -> o = None).
End Spec.
(** The position of the batch for a result with one more axis of size 1. *)
Definition drop_last (ix : index) : index := fun a => ix a.+1.

(** The distances of the five metrics: the Riemannian one has the shape of the batch, the
    others one more axis of size 1; weights of shape (1, rank) make a second axis for a single
    pair of points. *)
Definition result_shape (F : rcfType) (m : metric F) (b : seq nat) : seq nat :=
  match m with
  | RiemannianMetric => b
  | FinslerOneMetric | FinslerInfinityMetric => 1 :: b
  | FinslerMinimumEntropyMetric _ | FinslerWeightedSumMetric _ => 1 :: (if b is [::] then [:: 1] else b)
  end.
Definition result_at (F : rcfType) (m : metric F) : index -> index :=
  match m with RiemannianMetric => id | _ => drop_last end.
