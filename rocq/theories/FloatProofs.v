(** Rounding lemmas for FloatModel. *)
From Coq Require Import ZArith Reals List Bool Lra Lia Psatz.
From Flocq Require Import Core IEEE754.BinarySingleNaN Relative.
From Verif Require Import FloatModel FloatSpec.
Open Scope R_scope.

Notation fx d := (SpecFloat.fexp (prec d) (emax d)).
Notation rnd d := (round radix2 (fx d) ZnearestE).
Notation emin d := (SpecFloat.emin (prec d) (emax d)).
Notation gf d := (generic_format radix2 (fx d)).
#[global] Instance vfx d : Valid_exp (fx d) := fexp_correct (prec d) (emax d) _.
#[global] Instance mfx d : Monotone_exp (fx d) := fexp_monotone (prec d) (emax d).

Section Lemmas.
  Context {d : dtype}.
  Implicit Types x y : float d.

  Lemma gf_val x : gf d (val x).
  Proof. apply generic_format_B2R. Qed.
  Lemma gf_bpow e : (emin d <= e)%Z -> gf d (bpow radix2 e).
  Proof.
    intros H. apply generic_format_bpow. unfold SpecFloat.fexp, FLT_exp. 
    assert (0 < prec d)%Z by apply prec_pos. 
    unfold SpecFloat.emin in *. destruct d; cbn in *; lia.
  Qed.
  Lemma gf_small (m e : Z) : (Z.abs m < 2 ^ prec d)%Z -> (emin d <= e)%Z -> gf d (IZR m * bpow radix2 e).
  Proof.
    intros Hm He. apply (generic_format_FLT radix2 (emin d) (prec d)).
    exists (Float radix2 m e); auto.
  Qed.
  Lemma gf_int m : (Z.abs m < 2 ^ prec d)%Z -> gf d (IZR m).
  Proof.
    intros H. replace (IZR m) with (IZR m * bpow radix2 0) by (cbn; ring).
    apply gf_small; auto. destruct d; cbv; discriminate.
  Qed.
  Lemma rnd_id v : gf d v -> rnd d v = v.
  Proof. intros; now apply round_generic; auto with typeclass_instances. Qed.
  Lemma rnd_mono a b : a <= b -> rnd d a <= rnd d b.
  Proof. intros; now apply round_le; auto with typeclass_instances. Qed.
  Lemma rnd_le a b : gf d b -> a <= b -> rnd d a <= b.
  Proof. intros G L. rewrite <- (rnd_id b G). now apply rnd_mono. Qed.
  Lemma rnd_ge a b : gf d b -> b <= a -> b <= rnd d a.
  Proof. intros G L. rewrite <- (rnd_id b G). now apply rnd_mono. Qed.

  (** A result of magnitude at most 2^(emax-1) does not overflow. *)
  Definition big : R := bpow radix2 (emax d - 1).
  Lemma gf_big : gf d big.
  Proof. apply gf_bpow. destruct d; cbv; discriminate. Qed.
  Lemma rnd_big v : Rabs v <= big -> Rabs (rnd d v) <= big.
  Proof. apply abs_round_le_generic; auto with typeclass_instances. apply gf_big. Qed.
  Lemma big_lt : big < bpow radix2 (emax d).
  Proof. apply bpow_lt. lia. Qed.
  Lemma fits v : Rabs v <= big -> Rlt_bool (Rabs (rnd d v)) (bpow radix2 (emax d)) = true.
  Proof. intros H. apply Rlt_bool_true. apply Rle_lt_trans with (1 := rnd_big v H). apply big_lt. Qed.

  Lemma add_val x y : finite x -> finite y -> Rabs (val x + val y) <= big ->
    finite (add x y) /\ val (add x y) = rnd d (val x + val y).
  Proof.
    intros Fx Fy H. generalize (Bplus_correct _ _ _ _ mode_NE x y Fx Fy).
    change (round_mode mode_NE) with ZnearestE.
    change (B2R x) with (val x); change (B2R y) with (val y). rewrite (fits _ H).
    intros (A & B & _). split; auto.
  Qed.
  Lemma sub_val x y : finite x -> finite y -> Rabs (val x - val y) <= big ->
    finite (sub x y) /\ val (sub x y) = rnd d (val x - val y).
  Proof.
    intros Fx Fy H. generalize (Bminus_correct _ _ _ _ mode_NE x y Fx Fy).
    change (round_mode mode_NE) with ZnearestE.
    change (B2R x) with (val x); change (B2R y) with (val y). rewrite (fits _ H).
    intros (A & B & _). split; auto.
  Qed.
  Lemma mul_val x y : finite x -> finite y -> Rabs (val x * val y) <= big ->
    finite (mul x y) /\ val (mul x y) = rnd d (val x * val y).
  Proof.
    intros Fx Fy H. generalize (Bmult_correct _ _ _ _ mode_NE x y).
    change (round_mode mode_NE) with ZnearestE.
    change (B2R x) with (val x); change (B2R y) with (val y). rewrite (fits _ H).
    intros (A & B & _). split; auto. unfold finite, mul. rewrite B. now rewrite Fx, Fy.
  Qed.
  Lemma div_val x y : finite x -> val y <> 0 -> Rabs (val x / val y) <= big ->
    finite (div x y) /\ val (div x y) = rnd d (val x / val y).
  Proof.
    intros Fx Fy H. generalize (Bdiv_correct _ _ _ _ mode_NE x y Fy).
    change (round_mode mode_NE) with ZnearestE.
    change (B2R x) with (val x); change (B2R y) with (val y). rewrite (fits _ H).
    intros (A & B & _). split; auto. unfold finite, div. now rewrite B.
  Qed.
  Lemma sqrt_val x : finite x -> 0 <= val x ->
    finite (fsqrt x) /\ val (fsqrt x) = rnd d (sqrt (val x)).
  Proof.
    intros Fx Hx. destruct (Bsqrt_correct _ _ _ _ mode_NE x) as (A & B & _). split; auto.
    unfold finite, fsqrt. rewrite B. destruct x as [s|s| |s m e H]; auto; try discriminate.
    destruct s; auto. exfalso. unfold val in Hx. cbn in Hx.
    assert (F2R (Float radix2 (Z.neg m) e) < 0) by (apply F2R_lt_0; reflexivity). lra.
  Qed.
  Lemma abs_val x : val (fabs x) = Rabs (val x).
  Proof. apply B2R_Babs. Qed.
  Lemma abs_fin x : finite x -> finite (fabs x).
  Proof. unfold finite, fabs. now rewrite is_finite_Babs. Qed.
  Lemma opp_val x : val (opp x) = - val x.
  Proof. apply B2R_Bopp. Qed.
  Lemma opp_fin x : finite x -> finite (opp x).
  Proof. unfold finite, opp. now rewrite is_finite_Bopp. Qed.
  Lemma lt_val x y : finite x -> finite y -> lt x y = Rlt_bool (val x) (val y).
  Proof. intros; now apply Bltb_correct. Qed.

  (** Rounding errors. *)
  Definition u : R := / 2 * bpow radix2 (- prec d + 1).
  Definition eta : R := / 2 * bpow radix2 (emin d).
  Lemma u_pos : 0 < u.
  Proof. unfold u. generalize (bpow_gt_0 radix2 (- prec d + 1)). lra. Qed.
  Lemma eta_pos : 0 < eta.
  Proof. unfold eta. generalize (bpow_gt_0 radix2 (emin d)). lra. Qed.
  Lemma rnd_err v : exists e n, Rabs e <= u /\ Rabs n <= eta /\ rnd d v = v * (1 + e) + n.
  Proof.
    destruct (error_N_FLT radix2 (emin d) (prec d) (prec_pos d) (fun z : Z => negb (Z.even z)) v)
      as (e & n & A & B & _ & D).
    exists e, n. auto.
  Qed.
  Lemma rnd_rel v : bpow radix2 (emin d + prec d - 1) <= Rabs v -> Rabs (rnd d v - v) <= u * Rabs v.
  Proof.
    intros H. apply (relative_error_N_FLT radix2 (emin d) (prec d) (prec_pos d)). exact H.
  Qed.

  (** Constants. *)
  Lemma const_val x s m e : B2SF x = SpecFloat.S754_finite s m e ->
    finite x /\ val x = IZR (cond_Zopp s (Zpos m)) * bpow radix2 e.
  Proof.
    intros H. split.
    - unfold finite. rewrite <- is_finite_SF_B2SF. now rewrite H.
    - unfold val. rewrite <- SF2R_B2SF. now rewrite H.
  Qed.
  Lemma of_Z_val n : (Z.abs n < 2 ^ prec d)%Z -> finite (of_Z n : float d) /\ val (of_Z n : float d) = IZR n.
  Proof.
    intros H. generalize (binary_normalize_correct (prec d) (emax d) _ _ mode_NE n 0 false).
    cbv zeta. change (round_mode mode_NE) with ZnearestE.
    assert (E : F2R (Float radix2 n 0) = IZR n) by (unfold F2R; cbn; ring). rewrite E.
    rewrite rnd_id by now apply gf_int.
    rewrite Rlt_bool_true. { intros (A & B & _). split; auto. }
    rewrite <- abs_IZR. apply Rlt_le_trans with (IZR (2 ^ prec d)). { now apply IZR_lt. }
    change 2%Z with (radix_val radix2). rewrite IZR_Zpower. 2: destruct d; cbv; discriminate.
    apply bpow_le. destruct d; cbv; discriminate.
  Qed.
  Lemma one_val : finite (of_Z 1 : float d) /\ val (of_Z 1 : float d) = 1.
  Proof. apply of_Z_val. destruct d; reflexivity. Qed.

  (** clamps *)
  Lemma clamp_min_fin x lo : finite x -> finite lo -> finite (clamp_min x lo).
  Proof. unfold clamp_min; destruct lt; auto. Qed.
  Lemma clamp_min_val x lo : finite x -> finite lo -> val (clamp_min x lo) = Rmax (val x) (val lo).
  Proof.
    intros Fx Fl. unfold clamp_min. rewrite lt_val by auto.
    case Rlt_bool_spec; intros H; [rewrite Rmax_right | rewrite Rmax_left]; lra.
  Qed.
  Lemma clamp_max_val x hi : finite x -> finite hi -> val (clamp_max x hi) = Rmin (val x) (val hi).
  Proof.
    intros Fx Fl. unfold clamp_max. rewrite lt_val by auto.
    case Rlt_bool_spec; intros H; [rewrite Rmin_right | rewrite Rmin_left]; lra.
  Qed.
  (** A clamp between finite bounds is finite for everything but NaN. *)
  Lemma clamp_ok x lo hi : not_nan x -> finite lo -> finite hi -> val lo <= val hi ->
    finite (clamp x lo hi) /\ val lo <= val (clamp x lo hi) <= val hi.
  Proof.
    intros Nx Fl Fh L. destruct (is_finite x) eqn:Fx.
    - unfold clamp. split.
      + unfold clamp_max. destruct lt; auto. now apply clamp_min_fin.
      + rewrite clamp_max_val, clamp_min_val; auto using clamp_min_fin.
        unfold Rmin, Rmax. repeat destruct Rle_dec; lra.
    - assert (x = B754_infinity false \/ x = B754_infinity true) as [E|E]
        by (destruct x as [s|[]| |]; auto; discriminate).
      + subst x. unfold clamp, clamp_min, clamp_max.
        assert (lt (B754_infinity false) lo = false) as ->
          by (destruct lo as [|s| |[]]; try reflexivity; discriminate).
        assert (lt hi (B754_infinity false) = true) as ->
          by (destruct hi as [|s| |[]]; try reflexivity; discriminate).
        split; auto; lra.
      + subst x. unfold clamp, clamp_min, clamp_max.
        assert (lt (B754_infinity true) lo = true) as ->
          by (destruct lo as [|s| |[]]; try reflexivity; discriminate).
        rewrite lt_val by auto. rewrite Rlt_bool_false by auto. split; auto; lra.
  Qed.
End Lemmas.
