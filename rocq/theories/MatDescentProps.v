(** C132: small gradient steps decrease the loss on the matrix manifolds. *)
From mathcomp Require Import all_ssreflect all_algebra.
From Verif Require Import StiefelModel StiefelSpec SpdSpec SpdProofs3 RStruct
  MatDescentSpec MatDescentProofs MatDescentProofs2 MatDescentProofs3 MatDescentInst.
From Verif Require SpdModel.
Import GRing.Theory Num.Theory.
Local Open Scope ring_scope.
Set Implicit Arguments. Unset Strict Implicit. Unset Printing Implicit Defensive.

Theorem C132_canonical_stiefel : forall (F : realFieldType) n p f (x g : 'M[F]_(n, p)),
  on_stiefel x -> differentiable f x g -> canonical_proju x g <> 0 ->
  decreases f x (fun t => canonical_retr x (- t *: canonical_proju x g)).
Proof. exact canonical_descent. Qed.
Print Assumptions C132_canonical_stiefel.

(** whatever QR factors are returned for each step *)
Theorem C132_euclidean_stiefel : forall (F : realFieldType) n p f (x g : 'M[F]_(n, p)) q s,
  on_stiefel x -> differentiable f x g -> euclidean_proju x g <> 0 ->
  (forall t, qr_of (x - t *: euclidean_proju x g) (q t) (s t)) ->
  decreases f x (fun t => euclidean_retr (q t) (s t)).
Proof. exact euclidean_descent. Qed.
Print Assumptions C132_euclidean_stiefel.

Theorem C132_spd_retr : forall (F : rcfType) n f (x g : 'M[F]_n),
  pos_def x -> differentiable f x g -> SpdModel.egrad2rgrad x g <> 0 ->
  decreases f x (fun t => SpdModel.retr x (- t *: SpdModel.egrad2rgrad x g)).
Proof. exact spd_retr_descent. Qed.
Print Assumptions C132_spd_retr.

Theorem C132_spd_expmap : forall (F : rcfType) n eigh exp log mexp f (x g : 'M[F]_n),
  eigh_ok eigh -> explog exp log -> matrix_exp_ok exp mexp -> second_order exp ->
  pos_def x -> differentiable f x g -> SpdModel.egrad2rgrad x g <> 0 ->
  decreases f x (fun t => SpdModel.expmap eigh mexp x (- t *: SpdModel.egrad2rgrad x g)).
Proof. exact spd_expmap_descent. Qed.
Print Assumptions C132_spd_expmap.

(** Cases: linear losses at (1, 0) and at the identity; the real exponential. *)
Example C132_stiefel_hypotheses : forall F : rcfType,
  on_stiefel (e0 F) /\ differentiable (pairing (e1 F)) (e0 F) (e1 F) /\
  canonical_proju (e0 F) (e1 F) <> 0 /\ euclidean_proju (e0 F) (e1 F) <> 0 /\
  exists q s, forall t, qr_of (e0 F - t *: euclidean_proju (e0 F) (e1 F)) (q t) (s t).
Proof. exact stiefel_case. Qed.
Example C132_spd_hypotheses : forall F : rcfType,
  pos_def (1%:M : 'M[F]_2) /\ differentiable (pairing (ones2 F)) 1%:M (ones2 F) /\
  SpdModel.egrad2rgrad 1%:M (ones2 F) <> 0.
Proof. exact spd_case. Qed.
Example C132_exp_hypotheses : second_order (F := R_rcfType) Rtrigo_def.exp.
Proof. exact real_second. Qed.
