(** Witnesses: SGD with momentum leaves EuclideanStiefelExact and the SPD manifold. *)
From Coq Require Import Reals.
From mathcomp Require Import all_ssreflect all_algebra.
From Verif Require Import RStruct RExp StiefelModel StiefelSpec StiefelProofs SpdModel SpdSpec SpdProofs MatSymModel MatGeoSpec MatGeoProofs MatGeoDescent.
Import Order.TTheory GRing.Theory Num.Theory.
Local Open Scope ring_scope.
Set Implicit Arguments. Unset Strict Implicit. Unset Printing Implicit Defensive.

Lemma exact_leaves : exists (h : sgd R_realFieldType) (g : 'M[R]_1), s_momentum h = 1 /\ 0 < s_lr h /\
  on_stiefel (F := R_realFieldType) (1%:M : 'M[R]_1) /\ euclidean_proju (F := R_realFieldType) 1%:M g = 0 /\
  ~ on_stiefel (F := R_realFieldType) (sgd_run (exact_ops (F := R_realFieldType) 1 1 rexpm) h [:: fun=> g] 1%:M).1.
Proof.
  have [B HB] := curve_expansion (c_vel (1%:M : 'M[R]_1) 1%:M (col_mx 1%:M 0)) (c_vel _ _ _) (c_vel _ _ _).
  have B0 : 0 <= B.
    have h1 : (2%:R^-1 : R) < 1 by rewrite invf_lt1 ?ltr1n ?ltr0n.
    have h0 : 0 < (2%:R^-1 : R) by rewrite invr_gt0 ltr0n.
    have [b _] := HB _ h0 h1. exact: le_trans (pairing_ge0 (F := R_realFieldType) b).
  pose t : R := (B + 3%:R)^-1.
  have B3 : 0 < B + 3%:R by rewrite ltr_paddl // ltr0n.
  have t0 : 0 < t by rewrite invr_gt0.
  have t1 : t < 1 by rewrite invf_lt1 // ltr_paddl // ltr1n.
  exists (Sgd t 1 0 0 false), (- 1%:M).
  have P0 : euclidean_proju (F := R_realFieldType) 1%:M (- 1%:M : 'M[R]_1) = 0.
    rewrite /euclidean_proju trmx1 !mul1mx (sym_id (F := R_rcfType)) ?subrr //. by rewrite /symmetric trN trmx1.
  split=> //. split=> //. split; first by rewrite /on_stiefel trmx1 mulmx1. split=> //.
  rewrite /sgd_run /= /sgd_step /= ltr01 /= scale0r addr0 P0 scaler0 addr0 scale1r scalerN scaleNr opprK.
  rewrite expmap_curve. have [b -> H] := HB t t0 t1. rewrite WJ0 !c_0 XJ0 XJ1.
  rewrite /on_stiefel => /matrixP /(_ ord0 ord0). rewrite !mxE big_ord1 !mxE eqxx !mulr1n mulr1.
  move=> E. set z := b ord0 ord0 in E.
  have zB : z ^+ 2 <= B.
    move: H. rewrite /pairing /mxtrace big_ord1 mxE big_ord1 mxE -expr2. by [].
  have zl : - (B + 1) <= z.
    rewrite ler_oppl. case: (lerP 0 z) => z0; first by apply: (@le_trans _ _ 0); [rewrite oppr_le0|rewrite addr_ge0 // ler01].
    case: (lerP (- z) 1) => z1; first by rewrite ler_paddl.
    apply: (@le_trans _ _ (z ^+ 2)); last by rewrite ler_paddr // ler01.
    rewrite -sqrrN expr2 ler_pmulr ?oppr_gt0 //. exact: ltW.
  have gt1 : 1 < 1 + t + t ^+ 2 * z.
    rewrite -addrA ltr_addl expr2 -mulrA -[X in X + _]mulr1 -mulrDr pmulr_rgt0 //.
    have L : t * (- (B + 1)) <= t * z by rewrite ler_pmul2l.
    apply: lt_le_trans (_ : 1 + t * (- (B + 1)) <= _); last by rewrite ler_add2l.
    rewrite mulrN subr_gt0 /t mulrC ltr_pdivr_mulr // mul1r ltr_add2l. by rewrite ltr1n.
  have : 1 < (1 + t + t ^+ 2 * z) * (1 + t + t ^+ 2 * z).
    apply: (lt_trans gt1). rewrite ltr_pmulr //. exact: lt_trans ltr01 gt1.
  by rewrite E ltxx.
Qed.

Section Spd.
  Variable F : rcfType.
  Lemma retr_J k : retr 1%:M (k *: J F) = (1 - 2%:R^-1 * k ^+ 2) *: 1%:M.
  Proof.
    rewrite /retr /sym_invm invmx1 mulmx1.
    have -> : (2%:R^-1 *: (k *: J F)) *m (k *: J F) = - (2%:R^-1 * k ^+ 2) *: 1%:M.
      by rewrite scalerA -scalemxAl -scalemxAr J2 scalerA scalerN scaleNr -mulrA -expr2.
    rewrite addrAC -{1}[1%:M]scale1r -scalerDl. move: (1 + _) => c.
    have -> : forall a b : 'M[F]_2, a^T = a -> b^T = - b -> sym (a + b) = a.
      move=> a b A B. have -> : sym (a + b) = 2%:R^-1 *: (a^T + b^T + (a + b)) by rewrite /sym; congr (_ *: (_ + _)); apply/matrixP => i j; rewrite !mxE.
      rewrite A B addrACA addNr addr0 -mulr2n -scaler_nat scalerA mulVf ?scale1r //. by rewrite pnatr_eq0.
    - by [].
    - by rewrite linearZ /= trmx1.
    - by rewrite linearZ /= JT scalerN.
  Qed.
  Lemma spd_leaves eigh mexp log : exists (h : sgd F) (g : 'M[F]_2), s_momentum h = 1 /\
    pos_def (1%:M : 'M[F]_2) /\ (forall y, symmetric y -> fro g y = 0) /\
    ~ pos_def (sgd_run (spd_ops 2 eigh mexp log) h [:: fun=> g] 1%:M).1.
  Proof.
    exists (Sgd 2%:R 1 0 0 false), (J F). split=> //.
    split; first by apply: (fn_pos (fn_const 1 (trmx1 F 2)) (fun=> ltr01)).
    split.
      move=> y Y. rewrite /fro !big_ord_recl !big_ord0 !mxE /=.
      have -> : y (lift ord0 ord0) ord0 = y ord0 (lift ord0 ord0) by rewrite -{1}Y mxE.
      by rewrite !mul0r !addr0 !add0r mul1r mulN1r addNr.
    rewrite /sgd_run /= /sgd_step /= ltr01 /= scale0r addr0.
    have -> : egrad2rgrad 1%:M (J F) = 0.
      by rewrite /egrad2rgrad /proju /sym JT addNr scaler0 mulmx0 mul0mx.
    rewrite scaler0 addr0 scale1r.
    have -> : retr 1%:M (- 2%:R *: J F) = - 1%:M.
      rewrite retr_J sqrrN.
      have -> : 1 - 2%:R^-1 * 2%:R ^+ 2 = -1 :> F.
        rewrite expr2 mulrA mulVf ?mul1r ?pnatr_eq0 //. by rewrite mulr2n opprD addrA subrr sub0r.
      by rewrite scaleN1r.
    move=> [_ /(_ (delta_mx ord0 ord0))].
    rewrite /quad !big_ord_recl !big_ord0 !mxE /= !mulr0 !mul0r !addr0 !mulr1 mul1r => H.
    have N : delta_mx ord0 ord0 <> 0 :> 'rV[F]_2.
      move/matrixP/(_ ord0 ord0). rewrite !mxE !eqxx /= => /eqP. by rewrite oner_eq0.
    move: (H N). by rewrite oppr_gt0 ltr10.
  Qed.
End Spd.
