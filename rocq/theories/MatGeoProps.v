(** Property theorems C142: the exponential maps of EuclideanStiefel and of
    SymmetricPositiveDefinite follow geodesics, with matrix_exp the real matrix
    exponential (the sum of a^k / k!). *)
From Coq Require Import Reals.
From mathcomp Require Import all_ssreflect all_algebra.
From Verif Require Import RStruct RExp StiefelModel StiefelSpec StiefelProofs SpdModel SpdSpec SpdProofs SpdProofs3 MatDescentSpec MatDescentInst MatGeoSpec MatGeoProofs MatGeoInst MatGeoDescent.
Import GRing.Theory Num.Theory.
Local Open Scope ring_scope.

(** ** The real matrix exponential meets the contracts assumed of matrix_exp *)
Theorem C142_exponential : exponential (F := R_realFieldType) rexpm /\ matrix_exp_ok (F := R_rcfType) Rtrigo_def.exp rexpm.
Proof. exact (conj rexpm_exponential rexpm_ok). Qed.
Print Assumptions C142_exponential.
(** It is the solution of the differential equation y' = a y, y(0) = 1. *)
Theorem C142_exponential_ode : forall m (a : 'M[R]_m),
  rexpm (0 *: a) = 1%:M /\ velocity (fun t => rexpm (t *: a)) (fun t => a *m rexpm (t *: a)).
Proof. exact (fun m a => conj (exp_0 a) (vel_exp a)). Qed.
Print Assumptions C142_exponential_ode.

(** ** EuclideanStiefel.expmap *)
Theorem C142_stiefel_geodesic : forall n p (x u : 'M[R]_(n, p)),
  on_stiefel (F := R_realFieldType) x -> tangent (F := R_realFieldType) x u ->
  exists v, stiefel_geodesic x u (fun t => euclidean_expmap (F := R_realFieldType) rexpm x (t *: u)) v /\
    (forall t, tangent (F := R_realFieldType) (euclidean_expmap (F := R_realFieldType) rexpm x (t *: u)) (v t)) /\
    (forall t, pairing (F := R_realFieldType) (v t) (v t) = pairing (F := R_realFieldType) u u) /\
    (forall s t, euclidean_expmap (F := R_realFieldType) rexpm
       (euclidean_expmap (F := R_realFieldType) rexpm x (s *: u)) (t *: v s) =
       euclidean_expmap (F := R_realFieldType) rexpm x ((s + t) *: u)).
Proof. exact (stiefel_summary). Qed.
Print Assumptions C142_stiefel_geodesic.

(** ** SymmetricPositiveDefinite.expmap, for every eigh that diagonalises *)
Theorem C142_spd_geodesic : forall eigh, eigh_ok (F := R_rcfType) eigh -> forall n (x u : 'M[R]_n),
  pos_def (F := R_rcfType) x -> symmetric (F := R_rcfType) u ->
  exists v, spd_geodesic x u (fun t => expmap (F := R_rcfType) eigh rexpm x (t *: u)) v /\
    (forall t, inner (F := R_rcfType) (expmap (F := R_rcfType) eigh rexpm x (t *: u)) (v t) (v t) = inner (F := R_rcfType) x u u) /\
    (forall s t, expmap (F := R_rcfType) eigh rexpm (expmap (F := R_rcfType) eigh rexpm x (s *: u)) (t *: v s) =
       expmap (F := R_rcfType) eigh rexpm x ((s + t) *: u)).
Proof. exact (spd_summary). Qed.
Print Assumptions C142_spd_geodesic.

(** SymmetricPositiveDefinite.retr agrees with the geodesic to second order: same point,
    velocity and acceleration u x^-1 u at time 0. *)
Theorem C142_spd_retr : forall n (x u : 'M[R]_n), pos_def (F := R_rcfType) x -> symmetric (F := R_rcfType) u ->
  exists v a, velocity (fun t => retr (F := R_rcfType) x (t *: u)) v /\ velocity v a /\
    retr (F := R_rcfType) x (0 *: u) = x /\ v 0 = u /\ a 0 = u *m invmx x *m u.
Proof. exact (retr_summary). Qed.
Print Assumptions C142_spd_retr.

(** ** C132 for EuclideanStiefelExact, whose retraction is the exponential map *)
Theorem C132_exact_stiefel : forall n p f (x g : 'M[R]_(n, p)), on_stiefel (F := R_realFieldType) x ->
  differentiable (F := R_realFieldType) f x g -> euclidean_proju (F := R_realFieldType) x g <> 0 ->
  decreases (F := R_realFieldType) f x
    (fun t => euclidean_expmap (F := R_realFieldType) rexpm x (- t *: euclidean_proju (F := R_realFieldType) x g)).
Proof. exact (exact_descent). Qed.
Print Assumptions C132_exact_stiefel.
Example C132_exact_hypotheses : let x := e0 R_rcfType in let g := e1 R_rcfType in
  on_stiefel x /\ differentiable (pairing g) x g /\ euclidean_proju x g <> 0.
Proof. exact (exact_case). Qed.

(** Cases: the unit circle; the identity of order 2; the exponential of a diagonal matrix. *)
Example C142_circle : on_stiefel (F := R_realFieldType) circle_x /\ tangent (F := R_realFieldType) circle_x circle_u /\ circle_u <> 0.
Proof. exact (conj circle_on (conj circle_tangent circle_nonzero)). Qed.
Example C142_spd_case : pos_def (F := R_rcfType) (1%:M : 'M[R]_2) /\ symmetric (F := R_rcfType) (1%:M : 'M[R]_2) /\
  eigh_ok (some_eigh (F := R_rcfType)).
Proof. exact (conj one_pos (conj one_sym (@some_eigh_ok _))). Qed.
Example C142_diagonal : forall m (e : 'rV[R]_m), rexpm (diag_mx e) = diag_mx (map_mx Rtrigo_def.exp e).
Proof. exact (rexpm_diag). Qed.
