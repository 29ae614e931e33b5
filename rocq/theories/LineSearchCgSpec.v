(** Vocabulary for the conjugate gradient directions of RiemannianLineSearch, as
    documented in rlinesearch.py:559-567 and 591-600. *)
From Coq Require Import Reals List.
From Verif Require Import RVec LineSearchModel LineSearchSpec.
Import ListNotations.
Local Open Scope R_scope.

(** What a step did to a parameter: its manifold, the point it started from, and the
    gradient and direction it recorded there. *)
Record seen := { at_man : lmanifold; at_x : vec; at_g : vec; at_d : vec }.
Definition seen_by (dot_all : vec -> vec -> R) (before after : lparam) : seen :=
  {| at_man := man_of dot_all after; at_x := l_val before; at_g := grad_of after; at_d := dir_of after |}.
Definition observed dot_all (before after : lopt) : list seen := zip_with (seen_by dot_all) (ps before) (ps after).

(** T_{a eta}(v), the transport along the step of size a. *)
Definition along (a : R) (s : seen) (v : vec) : vec := l_transp_follow (at_man s) (at_x s) (smul a (at_d s)) v.
(** < grad f(x), grad f(x) >_x over all parameters *)
Definition norm2 (l : list seen) : R := total (map (fun s => l_inner (at_man s) (at_x s) (at_g s) (at_g s)) l).
(** < grad f(x), grad f(x) >_{x'}: the old gradients measured at the new points *)
Definition norm2_moved (prev cur : list seen) : R :=
  total (zip_with (fun s s' => l_inner (at_man s) (at_x s') (at_g s) (at_g s)) prev cur).
(** < grad f(x'), grad f(x') - T(grad f(x)) >_{x'} *)
Definition change (a : R) (prev cur : list seen) : R :=
  total (zip_with (fun s s' => l_inner (at_man s') (at_x s') (at_g s') (vsub (at_g s') (along a s (at_g s)))) prev cur).
(** - grad f(x') + beta * T(eta) for every parameter *)
Definition conjugate (beta a : R) (prev cur : list seen) : list vec :=
  zip_with (fun s s' => vadd (vopp (at_g s')) (smul beta (along a s (at_d s)))) prev cur.
Definition steepest (cur : list seen) : list vec := map (fun s => vopp (at_g s)) cur.
(** The slope of the objective in given directions. *)
Definition slope_in (cur : list seen) (dirs : list vec) : R :=
  total (zip_with (fun s d => l_inner (at_man s) (at_x s) (at_g s) d) cur dirs).
(** The directions of scale beta are the conjugate ones, or the steepest ones if those
    do not descend. *)
Definition follows (beta a : R) (prev cur : list seen) : Prop :=
  let c := conjugate beta a prev cur in
  (slope_in cur c < 0 -> map at_d cur = c) /\ (0 <= slope_in cur c -> map at_d cur = steepest cur).

(** n / d, or 0 if d is 0 *)
Definition is_ratio (beta n d : R) : Prop := (d <> 0 -> beta * d = n) /\ (d = 0 -> beta = 0).
(** A metric that is the same at every point. *)
Definition uniform (m : lmanifold) : Prop := forall x y u v, l_inner m x u v = l_inner m y u v.
