(** Lemmas for the Siegel spaces: counterexamples. *)
From mathcomp Require Import all_ssreflect all_algebra.
From mathcomp.real_closed Require Import complex.
From Verif Require Import FieldTac SpdModel SpdSpec SpdProofs SiegelModel SiegelSpec SiegelProofs SiegelProofs2 SiegelProofs3 SiegelProofs6 SiegelProofs9 SiegelProofs11.
Import GRing.Theory Order.Theory Num.Theory.
Local Open Scope ring_scope.
Local Open Scope complex_scope.
Set Implicit Arguments. Unset Strict Implicit. Unset Printing Implicit Defensive.

Section Two.
  Variable F : rcfType.
  Notation C := F[i].
  Add Field Ff13 : (fth F).
  Definition mx2 (a b c d : C) : 'M[C]_2 :=
    \matrix_(i, j) if i == 0 then (if j == 0 then a else b) else (if j == 0 then c else d).
  Lemma mx2P (x y : 'M[C]_2) : x 0 0 = y 0 0 -> x 0 1 = y 0 1 -> x 1 0 = y 1 0 -> x 1 1 = y 1 1 -> x = y.
  Proof.
    move=> A B D E; apply/matrixP => i j.
    have I (k : 'I_2) : k = 0 \/ k = 1.
      by case: k => [[|[|]]] // H; [left|right]; apply: val_inj.
    by case: (I i) => ->; case: (I j) => ->.
  Qed.
  Lemma mul2 a b c d a' b' c' d' : mx2 a b c d *m mx2 a' b' c' d' =
    mx2 (a * a' + b * c') (a * b' + b * d') (c * a' + d * c') (c * b' + d * d').
  Proof. by apply: mx2P; rewrite !mxE !big_ord_recl big_ord0 !mxE /= addr0. Qed.
  Lemma bar2 a b c d : bar (mx2 a b c d) = mx2 (conjc a) (conjc b) (conjc c) (conjc d).
  Proof. by apply: mx2P; rewrite !mxE. Qed.
  Lemma adj2 a b c d : adj (mx2 a b c d) = mx2 (conjc a) (conjc c) (conjc b) (conjc d).
  Proof. by apply: mx2P; rewrite !mxE. Qed.
  Lemma tr2 a b c d : (mx2 a b c d)^T = mx2 a c b d.
  Proof. by apply: mx2P; rewrite !mxE. Qed.
  Lemma add2 a b c d a' b' c' d' : mx2 a b c d + mx2 a' b' c' d' = mx2 (a + a') (b + b') (c + c') (d + d').
  Proof. by apply: mx2P; rewrite !mxE. Qed.
  Lemma opp2 a b c d : - mx2 a b c d = mx2 (- a) (- b) (- c) (- d).
  Proof. by apply: mx2P; rewrite !mxE. Qed.
  Lemma scale2 k a b c d : k *: mx2 a b c d = mx2 (k * a) (k * b) (k * c) (k * d).
  Proof. by apply: mx2P; rewrite !mxE. Qed.
  Lemma one2 : 1%:M = mx2 1 0 0 1.
  Proof. by apply: mx2P; rewrite !mxE. Qed.
  Lemma trace2 a b c d : \tr (mx2 a b c d) = a + d.
  Proof. by rewrite /mxtrace !big_ord_recl big_ord0 !mxE addr0. Qed.
  Lemma mx2_congr a b c d a' b' c' d' : a = a' -> b = b' -> c = c' -> d = d' -> mx2 a b c d = mx2 a' b' c' d'.
  Proof. by move=> -> -> -> ->. Qed.
  Lemma ceq (x y : C) : complex.Re x = complex.Re y -> complex.Im x = complex.Im y -> x = y.
  Proof. by case: x y => a b [c d] /= -> ->. Qed.
  Lemma inv_of n (a b : 'M[C]_n) : a *m b = 1%:M -> a \in unitmx /\ invmx a = b.
  Proof.
    move=> H; have [U _] := mulmx1_unit H; split=> //.
    by rewrite -[b](mulKmx U) H mulmx1.
  Qed.
  Notation h2 := (2%:R^-1 : F).
  Notation r x := (Complex (x : F) 0).
  Notation im x := (Complex 0 (x : F)).
  (** entries [1/2, i/2; i/2, 0] *)
  Definition Zb : 'M[C]_2 := mx2 (r h2) (im h2) (im h2) 0.
  Notation q4 := (4%:R^-1 : F).
  Lemma nz k : (k.+1%:R : F) <> 0. Proof. by apply/eqP; rewrite pnatr_eq0. Qed.
  Lemma n4 : ((1 + 1) * (1 + 1) : F) <> 0.
  Proof. by have := @nz 3; rewrite (_ : 4%:R = (1 + 1) * (1 + 1)) // -[4%N]/(2 * 2)%N natrM. Qed.
  Lemma n8 : ((1 + 1) * ((1 + 1) * (1 + 1)) : F) <> 0.
  Proof. by have := @nz 7; rewrite (_ : 8%:R = (1 + 1) * ((1 + 1) * (1 + 1))) // -[8%N]/(2 * (2 * 2))%N !natrM. Qed.
  Lemma n5 : (1 + (1 + 1) * (1 + 1) : F) <> 0.
  Proof. by have := @nz 4; rewrite (_ : 5%:R = 1 + (1 + 1) * (1 + 1)) // -[5%N]/(1 + 2 * 2)%N natrD natrM. Qed.
  Lemma n25 : (1 + (1 + 1) * ((1 + 1) * ((1 + 1) * (1 + (1 + 1)))) : F) <> 0.
  Proof. by have := @nz 24; rewrite (_ : 25%:R = 1 + (1 + 1) * ((1 + 1) * ((1 + 1) * (1 + (1 + 1))))) // -[25%N]/(1 + 2 * (2 * (2 * 3)))%N natrD !natrM. Qed.
  Ltac nzs := repeat match goal with |- _ /\ _ => split end; first [exact (@nz 1)|exact (@nz 2)|exact n4|exact n5|exact n8|exact n25].
  Ltac cc := apply: mx2_congr; apply: ceq; rewrite /=; f_goal F; field; nzs.
  Lemma AZ : 1%:M - bar Zb *m Zb = mx2 (r h2) (im (- q4)) (im q4) (r (3%:R / 4%:R)).
  Proof.
    rewrite /Zb bar2 mul2 one2 opp2 add2. cc.
  Qed.
  Lemma AZ' : 1%:M - Zb *m bar Zb = mx2 (r h2) (im q4) (im (- q4)) (r (3%:R / 4%:R)).
  Proof. rewrite /Zb bar2 mul2 one2 opp2 add2. cc. Qed.
  Definition Ai : 'M[C]_2 := mx2 (r (12%:R / 5%:R)) (im (4%:R / 5%:R)) (im (- (4%:R / 5%:R))) (r (8%:R / 5%:R)).
  Lemma AZ_inv : 1%:M - bar Zb *m Zb \in unitmx /\ invmx (1%:M - bar Zb *m Zb) = Ai.
  Proof. apply: inv_of. rewrite AZ /Ai mul2 one2. cc. Qed.
  Definition Ai' : 'M[C]_2 := mx2 (r (12%:R / 5%:R)) (im (- (4%:R / 5%:R))) (im (4%:R / 5%:R)) (r (8%:R / 5%:R)).
  Lemma AZ'_inv : 1%:M - Zb *m bar Zb \in unitmx /\ invmx (1%:M - Zb *m bar Zb) = Ai'.
  Proof. apply: inv_of. rewrite AZ' /Ai' mul2 one2. cc. Qed.
  Lemma Zb_sym : csymmetric Zb. Proof. by rewrite /csymmetric /Zb tr2. Qed.
  Definition Lb : 'M[C]_2 := mx2 1 (im (- h2)) 0 1.
  Lemma Zb_in : in_bounded_domain Zb.
  Proof.
    split; first exact: Zb_sym.
    pose D : 'rV[F]_2 := \row_j if j == 0 then h2 else 5%:R / 8%:R.
    have -> : 1%:M - bar Zb *m Zb = adj Lb *m as_complex (diag_mx D) *m Lb.
      have -> : as_complex (diag_mx D) = mx2 (r h2) 0 0 (r (5%:R / 8%:R)) by apply: mx2P; rewrite !mxE.
      rewrite AZ /Lb adj2 !mul2. cc.
    apply: hpos_congr; last by apply: hpos_ac; apply: diag_pos => j; rewrite mxE; case: ifP => _; rewrite ?invr_gt0 ?divr_gt0 ?ltr0n.
    have [//] : Lb \in unitmx /\ invmx Lb = mx2 1 (im h2) 0 1.
    apply: inv_of; rewrite /Lb mul2 one2. cc.
  Qed.
  Definition E11 : 'M[C]_2 := mx2 1 0 0 0.
  Lemma bd_innerE n (z u v : 'M[C]_n) : 1%:M - bar z *m z \in unitmx -> 1%:M - z *m bar z \in unitmx ->
    bd_inner z u v = Ok (\tr (invmx (1%:M - bar z *m z) *m u *m invmx (1%:M - z *m bar z) *m bar v)).
  Proof. by move=> U U'; rewrite /bd_inner /inverse /identity_like -!/(bar _) U U'. Qed.
  Lemma grad_wit : bd_inner Zb (bd_egrad2rgrad Zb E11) E11 = Ok (r (7%:R / 5%:R)).
  Proof.
    have [U I] := AZ_inv; have [U' I'] := AZ'_inv.
    rewrite bd_innerE // I I' /bd_egrad2rgrad /bd_id_minus_conj_z_z /identity_like -/(bar _) AZ /csym /E11.
    rewrite !(mul2, tr2, add2, scale2, bar2) ?mul2 trace2; congr Ok.
    apply: ceq; rewrite /=; f_goal F; field; nzs.
  Qed.
  Lemma grad_pair : pairing E11 E11 = 1.
  Proof.
    rewrite /pairing !big_ord_recl !big_ord0 !mxE /=.
    by apply: ceq; rewrite /= !(mul0r, mulr0, addr0, mul1r, mulr1, subr0, oppr0).
  Qed.
  Definition E12 : 'M[C]_2 := mx2 0 (im 1) (im 1) 0.
  Lemma inner_wit : bd_inner Zb E11 E12 = Ok (r (- (96%:R / 25%:R))) /\ bd_metric Zb E11 E12 = r (96%:R / 25%:R).
  Proof.
    have [U I] := AZ_inv; have [U' I'] := AZ'_inv; split.
      rewrite bd_innerE // I I' /E11 /E12 bar2 /Ai /Ai' !mul2 trace2; congr Ok.
      apply: ceq; rewrite /=; f_goal F; field; nzs.
    rewrite /bd_metric I I' /E11 /E12 bar2 /Ai /Ai' !mul2 trace2.
    apply: ceq; rewrite /=; f_goal F; field; nzs.
  Qed.
End Two.
