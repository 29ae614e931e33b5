(** Summaries and cases for C142. *)
From Coq Require Import Reals.
From mathcomp Require Import all_ssreflect all_algebra.
From Verif Require Import RStruct RExp StiefelModel StiefelSpec StiefelProofs Spectral SpdModel SpdSpec SpdProofs SpdProofs3 MatDescentSpec MatDescentInst MatGeoSpec MatGeoProofs.
Import Order.TTheory GRing.Theory Num.Theory.
Local Open Scope ring_scope.
Set Implicit Arguments. Unset Strict Implicit. Unset Printing Implicit Defensive.

Lemma stiefel_summary n p (x u : 'M[R]_(n, p)) :
  on_stiefel (F := R_realFieldType) x -> tangent (F := R_realFieldType) x u ->
  exists v, stiefel_geodesic x u (fun t => euclidean_expmap (F := R_realFieldType) rexpm x (t *: u)) v /\
    (forall t, tangent (F := R_realFieldType) (euclidean_expmap (F := R_realFieldType) rexpm x (t *: u)) (v t)) /\
    (forall t, pairing (F := R_realFieldType) (v t) (v t) = pairing (F := R_realFieldType) u u) /\
    (forall s t, euclidean_expmap (F := R_realFieldType) rexpm
       (euclidean_expmap (F := R_realFieldType) rexpm x (s *: u)) (t *: v s) =
       euclidean_expmap (F := R_realFieldType) rexpm x ((s + t) *: u)).
Proof.
  move=> X T. exists (stiefel_velocity x u). split; first exact: stiefel_is_geodesic.
  split; first by move=> t; rewrite expmap_curve; exact: c_tangent.
  split; first by move=> t; exact: stiefel_speed.
  move=> s t. exact: stiefel_restart.
Qed.
Lemma spd_summary eigh : eigh_ok (F := R_rcfType) eigh -> forall n (x u : 'M[R]_n),
  pos_def (F := R_rcfType) x -> symmetric (F := R_rcfType) u ->
  exists v, spd_geodesic x u (fun t => expmap (F := R_rcfType) eigh rexpm x (t *: u)) v /\
    (forall t, inner (F := R_rcfType) (expmap (F := R_rcfType) eigh rexpm x (t *: u)) (v t) (v t) = inner (F := R_rcfType) x u u) /\
    (forall s t, expmap (F := R_rcfType) eigh rexpm (expmap (F := R_rcfType) eigh rexpm x (s *: u)) (t *: v s) =
       expmap (F := R_rcfType) eigh rexpm x ((s + t) *: u)).
Proof.
  move=> E n x u X U. exists (spd_velocity eigh x u). split; first exact: spd_is_geodesic.
  split; first by move=> t; exact: spd_speed.
  move=> s t. exact: spd_restart.
Qed.
Lemma retr_summary n (x u : 'M[R]_n) : pos_def (F := R_rcfType) x -> symmetric (F := R_rcfType) u ->
  exists v a, velocity (fun t => retr (F := R_rcfType) x (t *: u)) v /\ velocity v a /\
    retr (F := R_rcfType) x (0 *: u) = x /\ v 0 = u /\ a 0 = u *m invmx x *m u.
Proof.
  move=> X U. exists (fun t => u + t *: (u *m invmx x *m u)), (fun _ => u *m invmx x *m u).
  split; first exact: retr_velocity. split; first exact: quad_acceleration.
  split; last by rewrite scale0r addr0.
  by rewrite retr_curve // scale0r addr0 mulr0 mulr0 scale0r addr0.
Qed.

Definition circle_x : 'M[R]_(2, 1) := e0 R_rcfType.
Definition circle_u : 'M[R]_(2, 1) := e1 R_rcfType.
Lemma circle_on : on_stiefel (F := R_realFieldType) circle_x.
Proof. exact: (e0_on R_rcfType). Qed.
Lemma circle_tangent : tangent (F := R_realFieldType) circle_x circle_u.
Proof.
  rewrite /tangent. have E : circle_x^T *m circle_u = 0.
    by apply/matrixP => i j; rewrite !mxE !big_ord_recl big_ord0 !mxE /= !mulr0 ?mul0r ?addr0 ?add0r.
  have -> : circle_u^T *m circle_x = (circle_x^T *m circle_u)^T by rewrite [RHS]trmx_mul trmxK.
  by rewrite E trmx0 addr0.
Qed.
Lemma circle_nonzero : circle_u <> 0.
Proof. exact: (e1_neq0 (F := R_rcfType)). Qed.
Lemma one_pos : pos_def (F := R_rcfType) (1%:M : 'M[R]_2).
Proof. exact: (fn_pos (fn_const 1 (trmx1 R_rcfType 2)) (fun=> ltr01)). Qed.
Lemma one_sym : symmetric (F := R_rcfType) (1%:M : 'M[R]_2).
Proof. exact: trmx1. Qed.
Lemma exact_case : let x := e0 R_rcfType in let g := e1 R_rcfType in
  on_stiefel x /\ differentiable (pairing g) x g /\ euclidean_proju x g <> 0.
Proof.
  have [A [B [_ [C _]]]] := stiefel_case R_rcfType. by split.
Qed.
