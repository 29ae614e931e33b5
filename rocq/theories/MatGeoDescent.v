(** Lemmas: a small step of EuclideanStiefelExact decreases the loss. *)
From Coq Require Import Reals FunctionalExtensionality.
From mathcomp Require Import all_ssreflect all_algebra.
From Verif Require Import RStruct SeriesFacts RExp StiefelModel StiefelSpec StiefelProofs MatLoopProofs
  MatDescentSpec MatDescentProofs MatDescentProofs2 MatGeoSpec MatGeoProofs.
Import Order.TTheory GRing.Theory Num.Theory.
Local Open Scope ring_scope.
Set Implicit Arguments. Unset Strict Implicit. Unset Printing Implicit Defensive.

Section Curve.
  Variables n p : nat.
  Implicit Types c v a j : R -> 'M[R]_(n, p).
  Lemma curve_expansion c v a j : velocity c v -> velocity v a -> velocity a j ->
    exists B : R, forall t : R, 0 < t -> t < 1 ->
      exists2 b : 'M[R]_(n, p), c t = c 0 + t *: v 0 + t ^+ 2 *: b & pairing (F := R_realFieldType) b b <= B.
  Proof.
    move=> C V A.
    have H : forall k : 'I_n * 'I_p, exists B : R, forall t : R, Rlt 0 t -> Rlt t 1 ->
        Rle (Rabs (Rminus (Rminus (c t k.1 k.2) (c 0 k.1 k.2)) (Rmult t (v 0 k.1 k.2)))) (Rmult B (pow t 2)).
      move=> [k l] /=. apply: (@taylor2 (fun s => c s k l) (fun s => v s k l) (fun s => a s k l)) => t; [exact: C|exact: V|].
      apply: derivable_continuous_pt. exists (j t k l). exact: A.
    have [B HB] := fin_all_exists H.
    exists (\sum_i \sum_l B (l, i) ^+ 2) => t t0 t1.
    have tn : t ^+ 2 != 0 :> R by rewrite expf_eq0 /= gt_eqF.
    exists ((t ^+ 2)^-1 *: (c t - c 0 - t *: v 0)).
      rewrite scalerA mulfV // scale1r. have -> : c t - c 0 - t *: v 0 = c t - (c 0 + t *: v 0) by rewrite opprD addrA.
      by rewrite [RHS]addrC subrK.
    rewrite /pairing /mxtrace. apply: ler_sum => i _. rewrite mxE. apply: ler_sum => l _.
    rewrite [_^T _ _]mxE -expr2.
    set b := fun_of_matrix _ l i.
    have bE : b = (t ^+ 2)^-1 * (c t l i - c 0 l i - t * v 0 l i) by rewrite /b !mxE.
    have := HB (l, i) t. move=> /(_ (proj2 (RltE 0 t) t0) (proj2 (RltE t 1) t1)) /RleE /= K.
    have L : `|b| <= B (l, i).
      rewrite bE normrM normfV ger0_norm ?sqr_ge0 // mulrC ler_pdivr_mulr ?exprn_gt0 //.
      by rewrite -powE.
    rewrite -[b ^+ 2]ger0_norm ?sqr_ge0 // normrX. rewrite ler_expn2r //; rewrite ?nnegrE //.
    exact: le_trans L.
  Qed.
End Curve.

Lemma exact_descent n p f (x g : 'M[R]_(n, p)) : on_stiefel (F := R_realFieldType) x ->
  differentiable (F := R_realFieldType) f x g -> euclidean_proju (F := R_realFieldType) x g <> 0 ->
  decreases (F := R_realFieldType) f x
    (fun t => euclidean_expmap (F := R_realFieldType) rexpm x (- t *: euclidean_proju (F := R_realFieldType) x g)).
Proof.
  move=> X D R0. have T := proju_tangent g X. have O := proju_ortho g T.
  move: (euclidean_proju x g) R0 T O => r R0 T O.
  have T' : tangent (F := R_realFieldType) x (- r).
    by rewrite /tangent trN mulmxN mulNmx -opprD T oppr0.
  have [B HB] := curve_expansion (c_vel x (- r) (col_mx 1%:M 0)) (c_vel _ _ _) (c_vel _ _ _).
  apply: (@descent _ _ _ f x g (- r) _ B 1) => //.
    rewrite pairingC pairingNl oppr_lt0 pairingC.
    move/eqP: O. rewrite pairingBl subr_eq0 => /eqP ->. exact: pairing_gt0.
  move=> t t0 t1. have [b E H] := HB t t0 t1. exists b => //.
  rewrite scaleNr -scalerN expmap_curve E. congr (_ + _ *: _ + _).
  - by rewrite c_0 XJ0.
  - by rewrite WJ0 c_0 XJ1.
Qed.
