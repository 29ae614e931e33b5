(** Lemmas: one step of the optimizers with a small learning rate, matrix manifolds. *)
From Coq Require Import Reals.
From mathcomp Require Import all_ssreflect all_algebra.
From Verif Require Import RStruct RExp StiefelModel StiefelSpec StiefelProofs SpdModel SpdSpec MatSymModel
  MatDescentSpec MatDescentProofs MatDescentProofs2 MatDescentProofs3 MatGeoDescent MatStepSpec.
Import Order.TTheory GRing.Theory Num.Theory.
Local Open Scope ring_scope.
Set Implicit Arguments. Unset Strict Implicit. Unset Printing Implicit Defensive.

Section Step.
  Variables (F : realFieldType) (n p : nat) (o : ops F n p).
  Notation M := 'M[F]_(n, p).
  Variables (f : M -> F) (x g : M).
  Hypothesis D : decreases f x (fun t => o_retr o x (- t *: o_egrad2rgrad o x g)).
  Lemma sgd_decreases d ne buf : decreases f x (fun t => (sgd_step o (Sgd t 0 d 0 ne) (x, buf) g).1).
  Proof.
    have [t0 H0 H] := D. exists t0 => // t A B. rewrite /sgd_step /= ltxx /= scale0r addr0. exact: H.
  Qed.
  Hypothesis RT : forall u v, (o_retr_transp o x u v).1 = o_retr o x u.
  Lemma adam_decreases fsqrt b1 b2 eps ams : (forall s, 0 <= fsqrt s) -> 0 < eps -> b1 < 1 ->
    decreases f x (fun t => t_x (adam_run o fsqrt (Adam t b1 b2 eps 0 ams) [:: fun=> g] x)).
  Proof.
    move=> FS E0 B1. have [t0 H0 H] := D. rewrite /adam_run /=.
    set sq := b2 * 0 + (1 - b2) * o_inner o x (o_egrad2rgrad o x g) (o_egrad2rgrad o x g).
    pose den := fsqrt ((if ams then (if ams then Num.max 0 sq else 0) else sq) / (1 - b2 ^+ 1)) + eps.
    have den0 : 0 < den by rewrite ltr_spaddr.
    exists (t0 * den); first exact: mulr_gt0. move=> t A B.
    have E : t_x (adam_step o fsqrt (Adam t b1 b2 eps 0 ams) (AState x 0 0 0 0) g) = o_retr o x (- (t / den) *: o_egrad2rgrad o x g).
      rewrite /adam_step /= scale0r addr0 -/sq -/den.
      have C : 1 - b1 ^+ 1 != 0 by rewrite expr1 gt_eqF // subr_gt0.
      have -> : (1 - b1 ^+ 1)^-1 *: (b1 *: 0 + (1 - b1) *: o_egrad2rgrad o x g) = o_egrad2rgrad o x g.
        by rewrite scaler0 add0r scalerA -{2}[b1]expr1 mulVf // scale1r.
      rewrite scalerA mulNr. move: (RT (- (t / den) *: o_egrad2rgrad o x g) (b1 *: 0 + (1 - b1) *: o_egrad2rgrad o x g)).
      by case: (o_retr_transp _ _ _ _).
    rewrite E. apply: H; first exact: divr_gt0. by rewrite ltr_pdivr_mulr.
  Qed.
End Step.

Section Cases.
  Lemma both_of (F : realFieldType) n p (o : ops F n p) f x g :
    decreases f x (fun t => o_retr o x (- t *: o_egrad2rgrad o x g)) ->
    (forall u v, (o_retr_transp o x u v).1 = o_retr o x u) -> small_steps_decrease o f x g.
  Proof. move=> D RT. split=> *; [exact: sgd_decreases|exact: adam_decreases]. Qed.
  Lemma both_canonical (F : realFieldType) n p f (x g : 'M[F]_(n, p)) :
    on_stiefel x -> differentiable f x g -> canonical_proju x g <> 0 -> small_steps_decrease (canonical_ops F n p) f x g.
  Proof.
    move=> X D N. apply: both_of; first exact: canonical_descent.
    move=> u v. by rewrite -[o_retr_transp _ _ _ _]/(StiefelModel.retr_transp x u v) retr_transpE.
  Qed.
  Lemma both_euclidean (F : realFieldType) n p qr f (x g : 'M[F]_(n, p)) : (forall m, qr_of m (qr m).1 (qr m).2) ->
    on_stiefel x -> differentiable f x g -> euclidean_proju x g <> 0 -> small_steps_decrease (euclidean_ops qr) f x g.
  Proof.
    move=> Q X D N. apply: both_of => //=.
    have H := @euclidean_descent F n p f x g (fun t => (qr (x - t *: euclidean_proju x g)).1) (fun t => (qr (x - t *: euclidean_proju x g)).2) X D N (fun t => Q _).
    have [t0 H0 K] := H. exists t0 => // t A B. rewrite scaleNr. exact: K.
  Qed.
  Lemma both_exact n p f (x g : 'M[R]_(n, p)) : on_stiefel (F := R_realFieldType) x ->
    differentiable (F := R_realFieldType) f x g -> euclidean_proju (F := R_realFieldType) x g <> 0 ->
    small_steps_decrease (exact_ops (F := R_realFieldType) n p rexpm) f x g.
  Proof. move=> X D N. apply: both_of => //=. exact: exact_descent. Qed.
  Lemma both_spd (F : rcfType) n eigh mexp log f (x g : 'M[F]_n) : pos_def x -> differentiable f x g ->
    egrad2rgrad x g <> 0 -> small_steps_decrease (spd_ops n eigh mexp log) f x g.
  Proof. move=> X D N. apply: both_of => //=. exact: spd_retr_descent. Qed.
End Cases.
