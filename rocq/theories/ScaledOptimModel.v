(** manifolds/scaled.py as optimizers see it. *)
From Coq Require Import Reals List.
From Verif Require Import RVec OptimModel.
Local Open Scope R_scope.

(** Scaled(M, s): egrad2rgrad, projx and proju are those of M (scaled.py:167-198), retr and
    retr_transp divide the direction by s (rescale, 15-50, with base.py:420 and 503).
    component_inner is not forwarded: class Manifold has one (base.py:631-661), which returns
    one number for the whole vector, [inner x u], whatever the component_inner of M does. *)
Definition scaled (s : R) (inner : vec -> vec -> R) (M : manifold) : manifold := {|
  egrad2rgrad := egrad2rgrad M;
  egrad_arg := egrad_arg M; egrad_same := egrad_same M;
  retr := fun x u => retr M x (smul (/ s) u);
  retr_transp := fun x u v => retr_transp M x (smul (/ s) u) v;
  component_inner := fun x u => vconst (inner x u);
  projx := projx M;
  proju := proju M |}.
(** The same parameter on the scaled manifold; [inner M] is the inner product of M. *)
Definition on_scaled {S} (s : R) (inner : manifold -> vec -> vec -> R) (p : param S) : param S :=
  {| man := match man p with Some M => Some (scaled s (inner M) M) | None => None end;
     val := val p; grad := grad p; state := state p |}.
