(** Cases meeting the hypotheses of the matrix descent theorems. *)
From mathcomp Require Import all_ssreflect all_algebra.
From Coq Require Import Reals Lra.
From Verif Require Import StiefelModel StiefelSpec StiefelProofs SpdModel SpdSpec SpdProofs SpdProofs3 RStruct
  MatDescentSpec MatDescentProofs MatDescentProofs2.
Import Order.TTheory GRing.Theory Num.Theory.
Local Open Scope ring_scope.
Set Implicit Arguments. Unset Strict Implicit. Unset Printing Implicit Defensive.

Section Cases.
  Variable F : rcfType.
  Lemma linear_diff n p (g x : 'M[F]_(n, p)) : differentiable (pairing g) x g.
  Proof.
    move=> eps e0. exists 1; first exact: ltr01. move=> h _.
    rewrite pairingDr (addrC (pairing g x)) addrK subrr expr0n /=. by rewrite mulr_ge0 ?pairing_ge0 // ltW.
  Qed.
  Definition e0 : 'M[F]_(2, 1) := delta_mx ord0 ord0.
  Definition e1 : 'M[F]_(2, 1) := delta_mx ord_max ord0.
  Lemma e0_on : on_stiefel e0.
  Proof. rewrite /on_stiefel /e0 trmx_delta mul_delta_mx. by apply/matrixP => i j; rewrite !mxE !ord1. Qed.
  Lemma e0e1 : e0^T *m e1 = 0.
  Proof. by rewrite /e0 /e1 trmx_delta mul_delta_mx_0. Qed.
  Lemma e1_neq0 : e1 <> 0.
  Proof. move/matrixP/(_ ord_max ord0). rewrite !mxE !eqxx /= => /eqP. by rewrite oner_eq0. Qed.
  Lemma e1_proju : euclidean_proju e0 e1 = e1.
  Proof. by rewrite /euclidean_proju e0e1 /sym trmx0 addr0 scaler0 mulmx0 subr0. Qed.
  Lemma e1_canonical : canonical_proju e0 e1 = e1.
  Proof.
    have E : e1^T *m e0 = 0 by rewrite -[LHS]trmxK trmx_mul trmxK e0e1 trmx0.
    by rewrite /canonical_proju -mulmxA E mulmx0 subr0.
  Qed.
  (** QR of a nonzero column *)
  Lemma column_qr n (m : 'M[F]_(n, 1)) : m <> 0 ->
    qr_of m ((Num.sqrt (pairing m m))^-1 *: m) (Num.sqrt (pairing m m))%:M.
  Proof.
    move=> M. have P := pairing_gt0 M. set s := Num.sqrt _. have s0 : 0 < s by rewrite sqrtr_gt0.
    split; [|split].
    - by rewrite mul_mx_scalar scalerA mulfV ?scale1r // gt_eqF.
    - rewrite [(_ *: m)^T]linearZ /= -scalemxAl -scalemxAr scalerA.
      have -> : m^T *m m = (pairing m m)%:M.
        by apply/matrixP => i j; rewrite !ord1 /pairing /mxtrace big_ord1 [RHS]mxE eqxx mulr1n.
      have Ss : s ^+ 2 = pairing m m by rewrite sqr_sqrtr // ltW.
      by rewrite scale_scalar_mx -Ss -expr2 exprVn mulVf // expf_eq0 gt_eqF.
    - by move=> i j; rewrite !ord1.
  Qed.
  Lemma stiefel_case : on_stiefel e0 /\ differentiable (pairing e1) e0 e1 /\
    canonical_proju e0 e1 <> 0 /\ euclidean_proju e0 e1 <> 0 /\
    exists q s, forall t, qr_of (e0 - t *: euclidean_proju e0 e1) (q t) (s t).
  Proof.
    split; [exact: e0_on|split; [exact: linear_diff|]]. rewrite e1_proju e1_canonical.
    split; [exact: e1_neq0|split; [exact: e1_neq0|]].
    have N t : e0 - t *: e1 <> 0.
      move/matrixP/(_ ord0 ord0). rewrite !mxE !eqxx /= mulr0 subr0 => /eqP. by rewrite oner_eq0.
    by exists (fun t => (Num.sqrt (pairing (e0 - t *: e1) (e0 - t *: e1)))^-1 *: (e0 - t *: e1)),
      (fun t => (Num.sqrt (pairing (e0 - t *: e1) (e0 - t *: e1)))%:M) => t; apply: column_qr.
  Qed.
  Lemma spd_case : pos_def (1%:M : 'M[F]_2) /\ differentiable (pairing (ones2 F)) 1%:M (ones2 F) /\
    SpdModel.egrad2rgrad 1%:M (ones2 F) <> 0.
  Proof.
    split; [exact: one_pos|split; [exact: linear_diff|]].
    rewrite /SpdModel.egrad2rgrad /proju trmx1 mulmx1 mul1mx sym_id; last exact: ones_symmetric.
    move/matrixP/(_ ord0 ord0). rewrite !mxE => /eqP. by rewrite oner_eq0.
  Qed.
End Cases.

Lemma exp_second (y : R) : (Rabs y <= 1 -> Rabs (exp y - 1 - y) <= 2 * (y * y))%R.
Proof.
  move=> Y. have L := exp_ineq1_le y. have H := exp_ineq1_le (- (y / 2))%R.
  have B : (-1 <= y <= 1)%R by move: Y; rewrite /Rabs; case: Rcase_abs => ? ?; lra.
  rewrite Rabs_pos_eq; last lra.
  have E : (exp (y / 2) * exp (- (y / 2)) = 1)%R by rewrite -exp_plus Rplus_opp_r exp_0.
  have E2 : (exp y = exp (y / 2) * exp (y / 2))%R by rewrite -exp_plus; congr exp; lra.
  have P := exp_pos (y / 2)%R.
  set a := exp (y / 2)%R in E E2 P. set b := exp (- (y / 2))%R in E H.
  have b0 : (0 < 1 - y / 2)%R by lra.
  have A1 : (a * (1 - y / 2) <= 1)%R.
    rewrite -E. apply: Rmult_le_compat_l; lra.
  set c := (1 - y / 2)%R in A1 b0.
  have A2 : (exp y * (c * c) <= 1)%R.
    rewrite E2. have -> : (a * a * (c * c) = (a * c) * (a * c))%R by ring.
    have : (0 <= a * c)%R by apply: Rmult_le_pos; lra.
    move=> ac. rewrite -[X in (_ <= X)%R](Rmult_1_r 1). apply: Rmult_le_compat; lra.
  have A3 : (1 <= (1 + y + 2 * (y * y)) * (c * c))%R.
    have -> : ((1 + y + 2 * (y * y)) * (c * c) = 1 + (y * y) * ((1 - y) * (5 / 4 - y / 2)))%R by rewrite /c; field.
    have : (0 <= (y * y) * ((1 - y) * (5 / 4 - y / 2)))%R.
      apply: Rmult_le_pos; first by have := Rle_0_sqr y; rewrite /Rsqr.
      apply: Rmult_le_pos; lra.
    lra.
  have cc : (0 < c * c)%R by apply: Rmult_lt_0_compat.
  suff : (exp y <= 1 + y + 2 * (y * y))%R by lra.
  apply: (Rmult_le_reg_r (c * c)) => //. lra.
Qed.
Lemma real_second : second_order (F := R_rcfType) exp.
Proof.
  exists (2%R : R) => y /RleE Y. apply/RleE. have := exp_second Y. by rewrite expr2.
Qed.
