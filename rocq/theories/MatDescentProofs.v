(** Lemmas: second order curves against the gradient decrease a loss. *)
From mathcomp Require Import all_ssreflect all_algebra.
From Verif Require Import StiefelModel StiefelSpec StiefelProofs MatDescentSpec.
Import Order.TTheory GRing.Theory Num.Theory.
Local Open Scope ring_scope.
Set Implicit Arguments. Unset Strict Implicit. Unset Printing Implicit Defensive.

Section Generic.
  Variable F : realFieldType.
  Variables n p : nat.
  Implicit Types a b g h x : 'M[F]_(n, p).

  Lemma pairingZr k a b : pairing a (k *: b) = k * pairing a b.
  Proof. by rewrite pairingC pairingZl pairingC. Qed.
  Lemma pairing_sum a b : pairing (a + b) (a + b) <= 2%:R * (pairing a a + pairing b b).
  Proof.
    rewrite -subr_ge0. have := pairing_ge0 (a - b).
    rewrite pairingBl !pairingBr pairingDl !pairingDr (pairingC b a).
    set A := pairing a a; set B := pairing b b; set C := pairing a b.
    have -> // : 2%:R * (A + B) - (A + C + (C + B)) = A - C - (C - B).
    rewrite mulr_natl mulr2n !opprD !opprK !addrA.
    rewrite [A - C - C + B]addrAC (addrAC A (- C) B). 
    have -> : A + B + A + B - A - C - C - B = A + B + A - A - C - C.
      by rewrite -!addrA; congr (_ + (_ + (_ + _))); rewrite !addrA (addrC B) -!addrA (addrC B) !addrA addrNK.
    by rewrite addrK.
  Qed.
  Lemma pairing_le a b : pairing a b <= pairing a a + pairing b b.
  Proof.
    have H := pairing_ge0 (a - b). have A := pairing_ge0 a. have B := pairing_ge0 b.
    move: H. rewrite pairingBl !pairingBr (pairingC b a). set C := pairing a b => H.
    case: (lerP C 0) => [C0|C0]; first by apply: (le_trans C0); apply: addr_ge0.
    move: H. rewrite opprB addrA -subr_ge0 => H.
    have : C + C <= pairing a a + pairing b b.
      rewrite -subr_ge0. by move: H; rewrite subr0; congr (0 <= _); rewrite opprD !addrA (addrAC _ (- C)) (addrAC _ (- C)).
    apply: le_trans. by rewrite ler_addl ltW.
  Qed.

  (** c t = x + t a + t^2 b(t) with b bounded and <g, a> < 0 *)
  Lemma descent f x g a (c : F -> 'M[F]_(n, p)) B T : differentiable f x g -> pairing g a < 0 -> 0 < T ->
    (forall t, 0 < t -> t < T -> exists2 b, c t = x + t *: a + t ^+ 2 *: b & pairing b b <= B) ->
    decreases f x c.
  Proof.
    move=> D ga T0 C.
    set s := - pairing g a. have s0 : 0 < s by rewrite /s oppr_gt0.
    have four : (0 : F) < 4%:R by rewrite ltr0n.
    have B0 : 0 <= B.
      have h0 : 0 < T / 2%:R by rewrite divr_gt0 // ltr0n.
      have h1 : T / 2%:R < T by rewrite ltr_pdivr_mulr ?ltr0n // ltr_pmulr // ltr1n.
      have [b _] := C _ h0 h1. exact: le_trans (pairing_ge0 b).
    set M := 2%:R * (pairing a a + B) + 1.
    have M0 : 0 < M by rewrite ltr_spaddr ?ltr01 // mulr_ge0 ?ler0n // addr_ge0 // pairing_ge0.
    set eps := (s / 4%:R) ^+ 2 / M.
    have e0 : 0 < eps by rewrite divr_gt0 // exprn_gt0 // divr_gt0.
    have [del d0 Hd] := D _ e0.
    set G := pairing g g + B + 1.
    have G0 : 0 < G by rewrite ltr_spaddr ?ltr01 // addr_ge0 // pairing_ge0.
    set t1 := s / 4%:R / G. have t10 : 0 < t1 by rewrite !divr_gt0.
    set t2 := del / M. have t20 : 0 < t2 by rewrite divr_gt0.
    exists (Num.min (Num.min 1 T) (Num.min t1 t2)); first by rewrite !lt_minr ltr01 T0 t10 t20.
    move=> t t0. rewrite !lt_minr => /andP[/andP[tle1 tT] /andP[tt1 tt2]].
    have [b E Hb] := C _ t0 tT.
    set h := t *: a + t ^+ 2 *: b.
    have hE : h = t *: (a + t *: b) by rewrite /h scalerDr scalerA -expr2.
    have t2le : t ^+ 2 <= 1 by rewrite expr_le1 // ltW.
    have hM : pairing h h <= t ^+ 2 * M.
      rewrite hE pairingZl pairingZr mulrA -expr2 ler_pmul2l ?exprn_gt0 //.
      apply: (le_trans (pairing_sum _ _)). apply: ler_paddr; first exact: ler01.
      rewrite ler_pmul2l ?ltr0n // ler_add2l pairingZl pairingZr mulrA -expr2.
      apply: le_trans Hb. rewrite -[X in _ <= X]mul1r. apply: ler_wpmul2r => //. exact: pairing_ge0.
    have hd : pairing h h < del.
      apply: (le_lt_trans hM). rewrite -ltr_pdivl_mulr //. apply: le_lt_trans tt2.
      rewrite expr2 -[X in _ <= X]mul1r. apply: ler_wpmul2r; exact: ltW.
    have := Hd _ hd. set e := f (x + h) - f x - pairing g h => He.
    have e4 : `|e| <= s / 4%:R * t.
      rewrite -(@ler_pexpn2r _ 2) // ?nnegrE ?normr_ge0 //; last by rewrite mulr_ge0 ?ltW // divr_gt0.
      rewrite -normrX ger0_norm ?sqr_ge0 //. apply: (le_trans He).
      apply: (le_trans (ler_wpmul2l (ltW e0) hM)).
      by rewrite /eps [(_ * t) ^+ 2]exprMn [t ^+ 2 * M]mulrC mulrA divfK // gt_eqF.
    have gh : pairing g h = - (t * s) + t ^+ 2 * pairing g b.
      by rewrite /h pairingDr !pairingZr /s mulrN opprK.
    have gb : t ^+ 2 * pairing g b <= s / 4%:R * t.
      have : pairing g b <= G.
        apply: (le_trans (pairing_le _ _)). apply: ler_paddr; first exact: ler01. by rewrite ler_add2l.
      move=> H. apply: (le_trans (ler_wpmul2l (exprn_ge0 2 (ltW t0)) H)).
      rewrite expr2 -mulrA [t * _]mulrC ler_pmul2r // -ler_pdivl_mulr //. exact: ltW.
    have -> : f (c t) = f x + (e + pairing g h).
      by rewrite E -addrA -/h /e subrK [RHS]addrC subrK.
    rewrite gtr_addl gh.
    have le_e : e <= s / 4%:R * t by apply: le_trans e4; exact: ler_norm.
    apply: (@le_lt_trans _ _ (s / 4%:R * t + (- (t * s) + s / 4%:R * t))).
      by apply: ler_add => //; rewrite ler_add2l.
    rewrite addrCA -mulrDl -mulrDr addrC subr_lt0 mulrC ltr_pmul2l // gtr_pmulr //.
    rewrite -mulr2n -mulr_natl -[4%:R]/((2 * 2)%:R) natrM invfM mulrA mulfV ?pnatr_eq0 // mul1r.
    by rewrite invf_lt1 ?ltr0n // ltr1n.
  Qed.
End Generic.
