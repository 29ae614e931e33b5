(** Property theorems C143: training with RiemannianSGD and RiemannianAdam keeps matrix
    parameters on their manifold, with the moving averages tangent at the current point. *)
From Coq Require Import Reals.
From mathcomp Require Import all_ssreflect all_algebra.
From Verif Require Import RStruct RExp StiefelModel StiefelSpec StiefelProofs SpdModel SpdSpec SpdProofs SpdProofs3 MatSymModel MatSymProofs2 MatSymProofs3
  MatInvProofs MatInvInst MatDescentInst.
Import GRing.Theory Num.Theory.
Local Open Scope ring_scope.
Set Implicit Arguments. Unset Strict Implicit. Unset Printing Implicit Defensive.

(** ** RiemannianAdam, all options, any gradients *)
Theorem C143_adam_canonical : forall (F : realFieldType) n p fsqrt h gs (x : 'M[F]_(n, p)), on_stiefel x ->
  let st := adam_run (canonical_ops F n p) fsqrt h gs x in on_stiefel (t_x st) /\ tangent (t_x st) (t_avg st).
Proof. exact (adam_canonical_inv). Qed.
Print Assumptions C143_adam_canonical.
Theorem C143_adam_euclidean : forall (F : realFieldType) n p fsqrt qr, (forall m, qr_of m (qr m).1 (qr m).2) ->
  forall h gs (x : 'M[F]_(n, p)), on_stiefel x ->
  let st := adam_run (euclidean_ops qr) fsqrt h gs x in on_stiefel (t_x st) /\ tangent (t_x st) (t_avg st).
Proof. exact (adam_euclidean_inv). Qed.
Print Assumptions C143_adam_euclidean.
Theorem C143_adam_exact : forall (F : realFieldType) n p fsqrt expm, exponential expm ->
  forall h gs (x : 'M[F]_(n, p)), on_stiefel x ->
  let st := adam_run (exact_ops n p expm) fsqrt h gs x in on_stiefel (t_x st) /\ tangent (t_x st) (t_avg st).
Proof. exact (adam_exact_inv). Qed.
Print Assumptions C143_adam_exact.
Theorem C143_adam_spd : forall (F : rcfType) n eigh exp log mexp, eigh_ok eigh -> explog exp log -> matrix_exp_ok exp mexp ->
  forall fsqrt h gs (x : 'M[F]_n), pos_def x ->
  let st := adam_run (spd_ops n eigh mexp log) fsqrt h gs x in pos_def (t_x st) /\ symmetric (t_avg st).
Proof. exact (adam_spd_inv). Qed.
Print Assumptions C143_adam_spd.
(** On SPD the moving average keeps its length when it is carried to the new point. *)
Theorem C143_spd_isometry : forall (F : rcfType) n eigh exp log mexp, eigh_ok eigh -> explog exp log -> matrix_exp_ok exp mexp ->
  forall x u v w : 'M[F]_n, pos_def x -> symmetric u -> symmetric v -> symmetric w ->
  let step := o_retr_transp (spd_ops n eigh mexp log) x u in
  (step v).1 = retr x u /\ inner (retr x u) (step v).2 (step w).2 = inner x v w.
Proof. exact (spd_isometry). Qed.
Print Assumptions C143_spd_isometry.

(** ** RiemannianSGD, all options *)
Theorem C143_sgd_canonical : forall (F : realFieldType) n p h gs (x : 'M[F]_(n, p)), on_stiefel x ->
  on_stiefel (sgd_run (canonical_ops F n p) h gs x).1.
Proof. exact (sgd_canonical_inv). Qed.
Print Assumptions C143_sgd_canonical.
Theorem C143_sgd_euclidean : forall (F : realFieldType) n p qr, (forall m, qr_of m (qr m).1 (qr m).2) ->
  forall h gs (x : 'M[F]_(n, p)), on_stiefel x -> on_stiefel (sgd_run (euclidean_ops qr) h gs x).1.
Proof. exact (sgd_euclidean_inv). Qed.
Print Assumptions C143_sgd_euclidean.
(** ** RiemannianSGD without momentum *)
Theorem C143_sgd_exact : forall (F : realFieldType) n p expm, exponential expm ->
  forall h gs (x : 'M[F]_(n, p)), s_momentum h = 0 -> on_stiefel x -> on_stiefel (sgd_run (exact_ops n p expm) h gs x).1.
Proof. exact (sgd_exact_inv). Qed.
Print Assumptions C143_sgd_exact.
Theorem C143_sgd_spd : forall (F : rcfType) n eigh log mexp,
  forall h gs (x : 'M[F]_n), s_momentum h = 0 -> pos_def x -> pos_def (sgd_run (spd_ops n eigh mexp log) h gs x).1.
Proof. exact (sgd_spd_inv). Qed.
Print Assumptions C143_sgd_spd.

(** ** With momentum the first step may leave EuclideanStiefelExact (here at a critical
    point: the Riemannian gradient is 0) and SymmetricPositiveDefinite (here with a
    gradient that vanishes on all symmetric directions). *)
Theorem C143_exact_momentum_refuted : exists (h : sgd R_realFieldType) (g : 'M[R]_1), s_momentum h = 1 /\ 0 < s_lr h /\
  on_stiefel (F := R_realFieldType) (1%:M : 'M[R]_1) /\ euclidean_proju (F := R_realFieldType) 1%:M g = 0 /\
  ~ on_stiefel (F := R_realFieldType) (sgd_run (exact_ops (F := R_realFieldType) 1 1 rexpm) h [:: fun=> g] 1%:M).1.
Proof. exact (exact_leaves). Qed.
Print Assumptions C143_exact_momentum_refuted.
Theorem C143_spd_momentum_refuted : forall (F : rcfType) eigh mexp log, exists (h : sgd F) (g : 'M[F]_2), s_momentum h = 1 /\
  pos_def (1%:M : 'M[F]_2) /\ (forall y, symmetric y -> fro g y = 0) /\
  ~ pos_def (sgd_run (spd_ops 2 eigh mexp log) h [:: fun=> g] 1%:M).1.
Proof. exact (spd_leaves). Qed.
Print Assumptions C143_spd_momentum_refuted.

(** Cases: points, a QR function, the real exponential, an eigendecomposition. *)
Example C143_stiefel_case : forall F : rcfType, on_stiefel (sx F) /\ exists qr, forall m : 'M[F]_(3, 2), qr_of m (qr m).1 (qr m).2.
Proof. exact (fun F => conj (sx_on F) (qr_function F (n := 3) (p := 2) isT)). Qed.
Example C143_exponential_case : exponential (F := R_realFieldType) rexpm.
Proof. exact rexpm_exponential. Qed.
Example C143_spd_case : pos_def (1%:M : 'M[R_rcfType]_1) /\ eigh_ok (some_eigh (F := R_rcfType)) /\
  explog (F := R_rcfType) Rtrigo_def.exp Rpower.ln /\ matrix_exp_ok (F := R_rcfType) Rtrigo_def.exp rexpm.
Proof. exact (conj (c1_pos _) (conj (@some_eigh_ok _) (conj R_explog rexpm_ok))). Qed.
