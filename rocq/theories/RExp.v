(** The real matrix exponential, as the sum of its power series.  It meets the contracts
    under which torch.matrix_exp appears in the Stiefel and SPD models.  Supporting
    mathematics only. *)
From Coq Require Import Reals FunctionalExtensionality.
From mathcomp Require Import all_ssreflect all_algebra.
From Verif Require Import RStruct StiefelSpec SpdSpec SeriesFacts.
Import Order.TTheory GRing.Theory Num.Theory.
Local Open Scope ring_scope.
Set Implicit Arguments. Unset Strict Implicit. Unset Printing Implicit Defensive.

Local Arguments sums f l : clear scopes.
Definition mpow m (a : 'M[R]_m) (k : nat) : 'M[R]_m := iter k (mulmx a) 1%:M.
Definition weight (k : nat) : R := Rinv (INR (fact k)).
Definition term m (a : 'M[R]_m) (i j : 'I_m) (k : nat) : R := GRing.mul (weight k) (mpow a k i j).
(** the sum of a^k / k! *)
Definition rexpm m (a : 'M[R]_m) : 'M[R]_m := \matrix_(i, j) total (term a i j).

Lemma sums_as f g l : sums f l -> (forall k, f k = g k) -> sums g l.
Proof. by move=> A B; exact (sums_ext B A). Qed.
Arguments sums_as {f g l} _ _.
Lemma sums_big (I : Type) (r : seq I) (f : I -> nat -> R) (l : I -> R) :
  (forall i, sums (f i) (l i)) -> sums (fun k => \sum_(i <- r) f i k) (\sum_(i <- r) l i).
Proof.
  move=> H. elim: r => [|i r IH].
    rewrite big_nil. apply: (sums_as sums_zero) => k. by rewrite big_nil.
  rewrite big_cons. apply: (sums_as (sums_plus (H i) IH)) => k. by rewrite big_cons.
Qed.
Lemma powE (c : R) k : pow c k = c ^+ k.
Proof. elim: k => [|k IH] //. by rewrite exprS -IH. Qed.

Section One.
  Variable m : nat.
  Implicit Types a b x : 'M[R]_m.
  Definition size_of a : R := \sum_i \sum_j `|a i j|.
  Lemma size_row a i : \sum_j `|a i j| <= size_of a.
  Proof.
    rewrite /size_of [X in _ <= X](bigD1 i) // ler_addl. apply: sumr_ge0 => k _. by apply: sumr_ge0 => l _.
  Qed.
  Lemma size_ge0 a : 0 <= size_of a.
  Proof. apply: sumr_ge0 => k _. by apply: sumr_ge0 => l _. Qed.
  Lemma mpow_bound a k i j : `|mpow a k i j| <= size_of a ^+ k.
  Proof.
    elim: k i j => [|k IH] i j.
      rewrite expr0 /= mxE. case: (i == j); by rewrite ?normr1 ?normr0 ?ler01.
    rewrite /= mxE. apply: le_trans (ler_norm_sum _ _ _) _.
    apply: le_trans (_ : \sum_l `|a i l| * size_of a ^+ k <= _).
      apply: ler_sum => l _. rewrite normrM. by apply: ler_wpmul2l.
    rewrite -mulr_suml exprS. apply: ler_wpmul2r; last exact: size_row.
    by apply: exprn_ge0; exact: size_ge0.
  Qed.
  Lemma weight_ge0 k : 0 <= weight k.
  Proof. apply/RleE. apply: Rlt_le. apply: Rinv_0_lt_compat. exact: INR_fact_lt_0. Qed.
  Lemma term_abs a i j : absolutely (term a i j).
  Proof.
    apply: (absolutely_bound (size_of a)) => k. apply/RleE.
    change (`|weight k * mpow a k i j| <= pow (size_of a) k * weight k). rewrite normrM powE mulrC (ger0_norm (weight_ge0 k)).
    apply: ler_wpmul2r; [exact: weight_ge0|exact: mpow_bound].
  Qed.
  Lemma term_sums a i j : sums (term a i j) (rexpm a i j).
  Proof. rewrite mxE. exact: total_sums (term_abs a i j). Qed.
  Lemma rexpm_eq a x : (forall i j, sums (term a i j) (x i j)) -> rexpm a = x.
  Proof. move=> H. apply/matrixP => i j. rewrite mxE. exact: sums_unique (H i j). Qed.
  Lemma sums_mulr (f : nat -> R) l (c : R) : sums f l -> sums (fun k => f k * c) (l * c).
  Proof. move=> H. rewrite mulrC. apply: (sums_as (sums_scal c H)) => k. exact: mulrC. Qed.
  Lemma sums_eq f (u v : R) : sums f u -> sums f v -> u = v.
  Proof. move=> /sums_unique <- /sums_unique <-. by []. Qed.

  Lemma mpow_intertwines a b x k : a *m x = x *m b -> mpow a k *m x = x *m mpow b k.
  Proof.
    move=> H. elim: k => [|k IH] /=; first by rewrite mul1mx mulmx1.
    by rewrite -mulmxA IH mulmxA H -mulmxA.
  Qed.
  Lemma rexpm_intertwines a b x : a *m x = x *m b -> rexpm a *m x = x *m rexpm b.
  Proof.
    move=> H. apply/matrixP => i j. rewrite mxE [RHS]mxE.
    apply: (@sums_eq (fun k => \sum_l term a i l k * x l j)).
      apply: sums_big => l. apply: sums_mulr. exact: term_sums.
    apply: (@sums_ext (fun k => \sum_l x i l * term b l j k)).
      move=> k. move/matrixP: (mpow_intertwines k H) => /(_ i j). rewrite mxE [in RHS]mxE => E.
      transitivity (weight k * \sum_l x i l * mpow b k l j).
        rewrite mulr_sumr. apply: eq_bigr => l _. by rewrite /term mulrCA.
      rewrite -E mulr_sumr. apply: eq_bigr => l _. by rewrite /term mulrA.
    apply: sums_big => l. apply: sums_scal. exact: term_sums.
  Qed.
  Lemma mpow_commutes a k : mpow a k *m a = a *m mpow a k.
  Proof. exact: mpow_intertwines. Qed.
  Lemma mpow_tr a k : mpow a^T k = (mpow a k)^T.
  Proof. elim: k => [|k IH] /=; first by rewrite trmx1. by rewrite IH -trmx_mul mpow_commutes. Qed.
  Lemma rexpm_tr a : rexpm a^T = (rexpm a)^T.
  Proof.
    apply: rexpm_eq => i j. rewrite mxE. apply: (sums_as (term_sums a j i)) => k. by rewrite /term mpow_tr mxE.
  Qed.
  Lemma mpow_scale (s : R) a k : mpow (s *: a) k = (pow s k : R) *: mpow a k.
  Proof.
    elim: k => [|k IH] /=; first by rewrite scale1r.
    by rewrite IH -scalemxAl -scalemxAr scalerA.
  Qed.
  Lemma mpow_add a k l : mpow a k *m mpow a l = mpow a (k + l).
  Proof. elim: k => [|k IH] /=; first by rewrite mul1mx. by rewrite -mulmxA IH. Qed.
  Lemma sum_exchange (f : 'I_m -> nat -> R) n : \sum_l sum_f_R0 (f l) n = sum_f_R0 (fun k => \sum_l f l k) n.
  Proof. elim: n => [|n IH] //=. by rewrite big_split /= IH. Qed.
  (** exp of multiples of one matrix multiply like exp of the factors *)
  Lemma rexpm_group (s t : R) a : rexpm (s *: a) *m rexpm (t *: a) = rexpm ((s + t) *: a).
  Proof.
    symmetry. apply: rexpm_eq => i j. rewrite mxE.
    have H : sums (fun n => \sum_l sum_f_R0 (fun k => Rmult (term (s *: a) i l k) (term (t *: a) l j (Nat.sub n k))) n)
      (\sum_l rexpm (s *: a) i l * rexpm (t *: a) l j).
      apply: sums_big => l. apply: sums_mult; [exact: term_sums|exact: term_sums|exact: term_abs|exact: term_abs].
    apply: (sums_as H) => n. rewrite sum_exchange.
    rewrite /term mpow_scale mxE. have := exp_binomial s t n. rewrite /Rdiv => B.
    transitivity (Rmult (Rmult (pow (Rplus s t) n) (weight n)) (mpow a n i j)); last first.
      change Rmult with (@GRing.mul R_ringType). by rewrite mulrCA mulrA.
    rewrite -[Rmult (pow _ n) _]B [RHS]Rmult_comm scal_sum. apply: PartSum.sum_eq => k K.
    transitivity ((weight k * pow s k) * (weight (Nat.sub n k) * pow t (Nat.sub n k)) * (mpow a k *m mpow a (Nat.sub n k)) i j).
      rewrite [(_ *m _) i j]mxE mulr_sumr. apply: eq_bigr => l _. rewrite !mpow_scale !mxE.
      change Rmult with (@GRing.mul R_ringType). by rewrite (mulrA (weight k)) (mulrA (weight (Nat.sub n k))) mulrACA.
    rewrite mpow_add. have -> : (k + Nat.sub n k)%N = n by apply: subnKC; apply/ssrnat.leP.
    change Rmult with (@GRing.mul R_ringType). congr (_ * _). by rewrite [weight k * _]mulrC [weight (Nat.sub n k) * _]mulrC.
  Qed.
  Lemma rexpm_0 : rexpm (0 : 'M[R]_m) = 1%:M.
  Proof.
    apply: rexpm_eq => i j. apply: (sums_as (sums_first ((1%:M : 'M[R]_m) i j))) => -[|k].
      rewrite /term /weight /=. by rewrite Rinv_1 mul1r.
    by rewrite /term /= mul0mx mxE mulr0.
  Qed.
  Lemma rexpm_opp a : rexpm (- a) *m rexpm a = 1%:M.
  Proof.
    have := rexpm_group (-1) 1 a. by rewrite scaleN1r scale1r addNr scale0r rexpm_0.
  Qed.
  Lemma mpow_diag (e : 'rV[R]_m) k : mpow (diag_mx e) k = diag_mx (map_mx (fun c => pow c k) e).
  Proof.
    elim: k => [|k IH] /=.
      by apply/matrixP => i j; rewrite !mxE.
    rewrite IH mul_diag_mx. apply/matrixP => i j. rewrite !mxE. by rewrite -mulrnAr.
  Qed.
  Lemma rexpm_diag (e : 'rV[R]_m) : rexpm (diag_mx e) = diag_mx (map_mx Rtrigo_def.exp e).
  Proof.
    apply: rexpm_eq => i j. rewrite !mxE. case: eqP => [->|N].
      rewrite mulr1n. apply: (sums_as (sums_exp (e ord0 j))) => k.
      rewrite /term mpow_diag !mxE eqxx mulr1n mulrC. reflexivity.
    rewrite mulr0n. apply: (sums_as sums_zero) => k. rewrite /term mpow_diag !mxE. case: eqP => // _. by rewrite mulr0n mulr0.
  Qed.
  (** d/dt exp(t a) = a exp(t a), entry by entry *)
  Lemma rexpm_derive a t i j :
    derivable_pt_lim (fun t : R => rexpm (t *: a) i j) t ((a *m rexpm (t *: a)) i j).
  Proof.
    pose c k := weight k * mpow a k i j.
    have B : forall k, Rle (Rabs (c k)) (Rdiv (pow (size_of a) k) (INR (fact k))).
      move=> k. apply/RleE. change (`|weight k * mpow a k i j| <= pow (size_of a) k * weight k).
      rewrite normrM powE mulrC (ger0_norm (weight_ge0 k)). apply: ler_wpmul2r; [exact: weight_ge0|exact: mpow_bound].
    have D := @series_derive c (size_of a) t B.
    have E : (fun t : R => rexpm (t *: a) i j) = (fun t => total (fun k => Rmult (c k) (pow t k))).
      apply: functional_extensionality => s. rewrite mxE. congr total. apply: functional_extensionality => k.
      rewrite /term mpow_scale mxE /c. change Rmult with (@GRing.mul R_ringType). by rewrite [pow s k * _]mulrC mulrA.
    rewrite E. have -> : (a *m rexpm (t *: a)) i j = total (fun k => Rmult (Rmult (INR (S k)) (c (S k))) (pow t k)); last exact: D.
    symmetry. apply: sums_unique. rewrite [(a *m _) i j]mxE.
    have H : sums (fun k => \sum_l a i l * term (t *: a) l j k) (\sum_l a i l * rexpm (t *: a) l j).
      apply: sums_big => l. apply: sums_scal. exact: term_sums.
    apply: (sums_as H) => k. rewrite /c /= mxE. change Rmult with (@GRing.mul R_ringType).
    have W : (INR k.+1 : R) * weight k.+1 = weight k.
      rewrite /weight fact_simpl mult_INR. change (Rmult (INR k.+1) (Rinv (Rmult (INR k.+1) (INR (fact k)))) = Rinv (INR (fact k))).
      field. split; [exact: INR_fact_neq_0|exact: not_0_INR].
    change (match k with | 0%N => 1%R | _.+1 => (INR k + 1)%R end) with (INR k.+1).
    rewrite (mulrA (INR k.+1 : R)) W -mulrA mulr_suml mulr_sumr. apply: eq_bigr => l _.
    rewrite /term mpow_scale mxE. change Rmult with (@GRing.mul R_ringType).
    by rewrite mulrCA; congr (_ * _); rewrite mulrCA mulrC.
  Qed.
End One.

Lemma rexpm_exponential : exponential (F := R_realFieldType) rexpm.
Proof.
  split=> m; [exact: rexpm_opp|exact: rexpm_tr|exact: rexpm_intertwines].
Qed.
Lemma rexpm_ok : matrix_exp_ok (F := R_rcfType) Rtrigo_def.exp rexpm.
Proof.
  move=> n v e H. have H' := mulmx1C H.
  have E : (v *m diag_mx e *m v^T) *m v = v *m diag_mx e by rewrite -mulmxA H mulmx1.
  have := rexpm_intertwines E. rewrite rexpm_diag => G.
  by rewrite -G -(mulmxA (rexpm _)) H' mulmx1.
Qed.
