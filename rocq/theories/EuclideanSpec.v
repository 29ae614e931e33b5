(** Vocabulary for the Euclidean properties.  Axes are numbered from the right. *)
From Coq Require Import Reals List Arith.
From Verif Require Import RVec NdModel.
Import ListNotations.
Local Open Scope nat_scope.

(** No axis of size 0. *)
Definition nonempty (t : nd) : Prop := Forall (fun d => 1 <= d) (rsh t).
(** The index with coordinates js on the last axes and ix on the axes before. *)
Definition together (js : list nat) (ix : index) : index :=
  fun a => if a <? length js then nth a js 0 else ix (a - length js).
(** Sum over all coordinates of axes of these sizes. *)
Fixpoint over (sizes : list nat) (f : list nat -> R) : R :=
  match sizes with
  | [] => f []
  | d :: sizes => over sizes (fun js => Rsum d (fun j => f (j :: js)))
  end.
(** js is within these sizes *)
Definition within (sizes js : list nat) : Prop := Forall2 (fun d j => j < d) sizes js.
(** With keepdim the k manifold axes are kept with size 1. *)
Definition ones (keepdim : bool) (k : nat) : list nat := if keepdim then repeat 1 k else [].
Definition batch (keepdim : bool) (k : nat) (ix : index) : index := if keepdim then fun a => ix (a + k) else ix.
(** The entries of t in the manifold block that a result with index ix belongs to. *)
Definition block (keepdim : bool) (k : nat) (t : nd) (ix : index) (js : list nat) : R := read t (together js (batch keepdim k ix)).
(** x and y have the same manifold axes. *)
Definition same_axes (k : nat) (x y : nd) : Prop := k <= length (rsh x) /\ k <= length (rsh y) /\ firstn k (rsh x) = firstn k (rsh y).
